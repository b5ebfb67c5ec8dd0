(** Vocabulary of the properties of intervals. *)
Set Warnings "-all".
From mathcomp Require Import all_ssreflect all_algebra.
Set Implicit Arguments. Unset Strict Implicit. Unset Printing Implicit Defensive.
Import GRing.Theory Num.Theory.
Local Open Scope ring_scope.
Section Spec.
Variable F : numDomainType.
(** a covariance matrix: symmetric and positive semidefinite *)
Definition covariance (n : nat) (S : 'M[F]_n) : Prop := S^T = S /\ forall v : 'rV[F]_n, 0 <= (v *m S *m v^T) 0 0.
(** variance of the observable with loadings [h] when the states have covariance S *)
Definition var_of (n : nat) (h : 'rV[F]_n) (S : 'M[F]_n) : F := (h *m S *m h^T) 0 0.
(** the 95% interval with centre m and variance v: ends at a distance of 1.96 standard deviations *)
Definition interval95 (lo mid hi v : F) : Prop :=
  [/\ lo <= mid <= hi, hi - mid = mid - lo & (hi - mid) ^+ 2 * 100%:R ^+ 2 = 196%:R ^+ 2 * v].
End Spec.
