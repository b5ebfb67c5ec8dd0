(** Model of the intervals returned by [o_func] when covariances are given (tools.py:131-158).
    Simplified: the state is a matrix with one row for each period, square roots are exact (negative variances give 0 instead
    of not-a-number). *)
Set Warnings "-all".
From mathcomp Require Import all_ssreflect all_algebra.
Set Implicit Arguments. Unset Strict Implicit. Unset Printing Implicit Defensive.
Import GRing.Theory Num.Theory.
Local Open Scope ring_scope.

Section Obs.
Variable F : rcfType.
Variables T nx no : nat.
(** [np.hstack((self.hx[0], self.hx[1]))] and [self.hx[2]] *)
Variables (H : 'M[F]_(no, nx)) (c : 'rV[F]_no).

(** tools.py:131-136 *)
Definition obs (x : 'M[F]_(T, nx)) : 'M[F]_(T, no) := \matrix_(t, o) ((x *m H^T) t o + c 0 o).

Definition k196 : F := 196%:R / 100%:R.
(** tools.py:150-151: [np.sqrt(np.diagonal(covs, axis1=1, axis2=2))] *)
Definition std (covs : 'I_T -> 'M[F]_nx) : 'M[F]_(T, nx) := \matrix_(t, i) Num.sqrt (covs t i i).
(** tools.py:154: [(np.hstack((self.hx[0], self.hx[1])) @ std.T).T] *)
Definition std_obs (covs : 'I_T -> 'M[F]_nx) : 'M[F]_(T, no) := (H *m (std covs)^T)^T.

(** lower end, centre, upper end (tools.py:152, 155) *)
Definition band (n : nat) (x s : 'M[F]_(T, n)) := (x - k196 *: s, x, x + k196 *: s).
(** tools.py:157: the intervals of the observables and of the states *)
Definition o_func_covs (x : 'M[F]_(T, nx)) (covs : 'I_T -> 'M[F]_nx) :=
  (band (obs x) (std_obs covs), band x (std covs)).
End Obs.
