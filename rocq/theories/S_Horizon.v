(** Vocabulary of the properties of longer horizons and of equilibria. *)
Set Warnings "-all".
From mathcomp Require Import all_ssreflect all_algebra.
Set Implicit Arguments. Unset Strict Implicit. Unset Printing Implicit Defensive.
Local Open Scope ring_scope.

Section Spec.
Variable F : realFieldType.
(** An equilibrium of duration (l, k): the constrained variable would be at or above the bound in every period before l, at or below
    it in each of the k periods from l on, and above it in every later period.  [nv s] is its unconstrained value in period [s]. *)
Definition equilibrium (xb : F) (nv : nat -> F) (l k : nat) : Prop :=
  [/\ forall s, (s < l)%N -> xb <= nv s, forall s, (l <= s < l + k)%N -> nv s <= xb & forall s, (l + k <= s)%N -> xb < nv s].
(** lexicographic order, as in the order of the search *)
Definition not_after (a b : nat * nat) : Prop := (a.1 < b.1)%N \/ (a.1 = b.1 /\ (a.2 <= b.2)%N).
End Spec.
