(** Vocabulary of the property about the value of the bound. *)
Set Warnings "-all".
From Coq Require Import String.
From mathcomp Require Import all_ssreflect all_algebra.
From Verif Require Import PyBase PyStr M_Tools.
Set Implicit Arguments. Unset Strict Implicit. Unset Printing Implicit Defensive.
Local Open Scope ring_scope.

(** two computations end in the same way: with the same exception, or with results related by [R] *)
Definition both (A B : Type) (R : A -> B -> Prop) (x : res A) (y : res B) : Prop :=
  match x, y with Ok a, Ok b => R a b | Err e, Err e' => e = e' | _, _ => False end.

Section Spec.
Variable F : realFieldType.
(** the same names of variables and shocks, the same numbers of states and controls, the same limits of the search, and
    observables that are the same function of the reported variables *)
Definition same_frame (m m' : tmodel F) : Prop :=
  [/\ vvs m' = vvs m, shk m' = shk m, (dq m', dp m') = (dq m, dp m), (lmx m', kmx m') = (lmx m, kmx m) &
      forall x, obs_row m' x = obs_row m x].
End Spec.
