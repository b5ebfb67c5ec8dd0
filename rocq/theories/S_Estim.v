(** Specification vocabulary for C63-C65, C67, C87-C89. *)
Set Warnings "-all".
From Coq Require Import String ZArith.
From mathcomp Require Import all_ssreflect all_algebra.
From Verif Require Import PyBase PyStr M_Solve M_Filter M_Params M_Estim.
Set Implicit Arguments. Unset Strict Implicit. Unset Printing Implicit Defensive.
Import GRing.Theory Num.Theory Order.TTheory.
Local Open Scope ring_scope.

(** tempered likelihood plus prior; an infinite likelihood decides *)
Definition tempered (F : realFieldType) (temp : F) (ll lp : xr F) : xr F :=
  match ll, lp with
  | NInf, _ => NInf
  | PInf, _ => PInf
  | NaN, _ | _, NaN => NaN
  | Fin a, Fin b => Fin (temp * a + b)
  | Fin _, NInf => NInf
  | Fin _, PInf => PInf
  end.

(** the last explicit value in a history of arguments, or what was remembered before *)
Fixpoint last_given {A B : Type} (f : A -> option B) (d : option B) (h : seq A) : option B :=
  match h with
  | [::] => d
  | a :: h' => last_given f (if f a is Some b then Some b else d) h'
  end.

(** the entry for walker [j] in step [i] *)
Definition entry {A : Type} (d : A) (c : seq (seq A)) (i j : nat) : A := nth d (nth [::] c i) j.
(** as many positions as log-probabilities in each step *)
Definition same_shape {A B : Type} (a : seq (seq A)) (b : seq (seq B)) : Prop := [seq size r | r <- a] = [seq size r | r <- b].
(** step [i] belongs to the last [t] of [n] steps; [t = 0] means all of them *)
Definition in_window (t n i : nat) : Prop := (i < n)%N /\ (t = 0%N \/ (n - t <= i)%N).
