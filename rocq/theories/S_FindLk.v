(** Specification vocabulary for the equilibrium search.  [N l k s] stands for
    the notional value of the constrained variable in period [s] on the path
    that is followed if agents expect [l] unconstrained periods, then [k]
    periods at the bound [xb]. *)
Set Warnings "-all".
From mathcomp Require Import all_ssreflect all_algebra.
Set Implicit Arguments. Unset Strict Implicit. Unset Printing Implicit Defensive.
Local Open Scope ring_scope.

Section Spec.
Variable F : realFieldType.
Variable N : nat -> nat -> nat -> F.
Variable xb : F.

(** the (l,k) path passes the end-point tests: not below the bound in the first
    and the last period before the spell and in the first period after it, not
    above it in the first and the last period of the spell *)
Definition admissible (l k : nat) : Prop :=
  [/\ (0 < k)%N,
      (0 < l)%N -> xb <= N l k 0 /\ xb <= N l k l.-1,
      N l k l <= xb,
      N l k (l + k).-1 <= xb &
      xb <= N l k (l + k)].

(** (l',k') comes strictly before (l,k) in lexicographic order *)
Definition lex_lt (a b : nat * nat) : Prop :=
  (a.1 < b.1)%N \/ (a.1 = b.1 /\ (a.2 < b.2)%N).

(** (l,k) is the lexicographically first admissible pair with l < Lm, k < Km *)
Definition first_admissible (Lm Km l k : nat) : Prop :=
  [/\ (l < Lm)%N, (k < Km)%N, admissible l k &
      forall l' k', (l' < Lm)%N -> (k' < Km)%N -> lex_lt (l', k') (l, k) -> ~ admissible l' k'].

(** duration [k]: the first duration for which the end-of-spell value is above
    the bound, after the first duration for which it is below *)
Definition first_reexit (k : nat) : Prop :=
  exists k0, [/\ (1 <= k0 < k)%N,
    N 0 k0 k0 < xb /\ (forall j, (1 <= j < k0)%N -> xb <= N 0 j j),
    xb < N 0 k k &
    forall j, (k0 < j < k)%N -> N 0 j j <= xb].

(** what the search must return, as a relation *)
Inductive search_outcome (Lm Km : nat) : nat -> nat -> nat -> Prop :=
| so_slack :
    (forall s, (s < Lm)%N -> xb < N 0 0 s) ->
    search_outcome Lm Km 0 0 0
| so_found l k :
    ~ (forall s, (s < Lm)%N -> xb < N 0 0 s) ->
    first_admissible Lm Km l k ->
    search_outcome Lm Km l k 0
| so_approx k :
    ~ (forall s, (s < Lm)%N -> xb < N 0 0 s) ->
    (forall l' k', (l' < Lm)%N -> (k' < Km)%N -> ~ admissible l' k') ->
    (k < Km)%N -> first_reexit k ->
    search_outcome Lm Km 0 k 1
| so_max :
    ~ (forall s, (s < Lm)%N -> xb < N 0 0 s) ->
    (forall l' k', (l' < Lm)%N -> (k' < Km)%N -> ~ admissible l' k') ->
    (forall k, (k < Km)%N -> ~ first_reexit k) ->
    search_outcome Lm Km 0 Km.-1 2.
End Spec.
