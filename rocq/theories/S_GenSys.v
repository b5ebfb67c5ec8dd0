(** Specification vocabulary for the user's model:
        AA x(t+1) + BB x(t) + CC x(t-1) + DD eps(t) = 0
    together with one more equation per period: the constraint row
        fb x(t) + fc x(t-1) + fd eps(t) = 0
    when the constraint is slack, and x_c(t) = x_bar when it binds.
    Paths are indexed so that [x 0] is the initial (lagged) value, [x s.+1] the
    value in period s and [eps s] the shock in period s. *)
Set Warnings "-all".
From mathcomp Require Import all_ssreflect all_algebra.
Set Implicit Arguments. Unset Strict Implicit. Unset Printing Implicit Defensive.
Import GRing.Theory Num.Theory.
Local Open Scope ring_scope.

Section Spec.
Variable F : realFieldType.
Variables m n e : nat.

Definition model_equations (AA BB CC : 'M[F]_(m, n)) (DD : 'M[F]_(m, e))
    (x : nat -> 'cV[F]_n) (eps : nat -> 'cV[F]_e) (s : nat) : Prop :=
  AA *m x s.+2 + BB *m x s.+1 + CC *m x s + DD *m eps s = 0.

Definition slack_equation (fb fc : 'rV[F]_n) (fd : 'rV[F]_e)
    (x : nat -> 'cV[F]_n) (eps : nat -> 'cV[F]_e) (s : nat) : Prop :=
  fb *m x s.+1 + fc *m x s + fd *m eps s = 0.

Definition bound_equation (c : 'I_n) (xb : F) (x : nat -> 'cV[F]_n) (s : nat) : Prop :=
  x s.+1 c 0 = xb.

(** a path solves the model for a given pattern of binding periods *)
Definition solves (AA BB CC : 'M[F]_(m, n)) (DD : 'M[F]_(m, e)) (fb fc : 'rV[F]_n) (fd : 'rV[F]_e)
    (c : 'I_n) (xb : F) (binding : nat -> bool) (x : nat -> 'cV[F]_n) (eps : nat -> 'cV[F]_e) : Prop :=
  forall s, model_equations AA BB CC DD x eps s /\
    (if binding s then bound_equation c xb x s else slack_equation fb fc fd x eps s).

(** agents expect no shocks after the current period *)
Definition no_future_shocks (eps : nat -> 'cV[F]_e) : Prop := forall s, eps s.+1 = 0.

(** a coefficient is exactly zero or numerically nonzero *)
Definition clean (tol : F) (r c : nat) (A : 'M[F]_(r, c)) : Prop :=
  forall i j, A i j = 0 \/ tol <= `|A i j|.

(** variable [j] occurs in (a column of) [A] *)
Definition occurs (r c : nat) (A : 'M[F]_(r, c)) (j : 'I_c) : Prop := exists i, A i j != 0.

(** an RQ decomposition *)
Definition is_rq (d : nat) (rq : 'M[F]_d -> 'M[F]_d * 'M[F]_d) : Prop :=
  forall A, let: (R, Q) := rq A in
    [/\ A = R *m Q, Q *m Q^T = 1%:M & forall i j : 'I_d, (j < i)%N -> R i j = 0].
End Spec.
