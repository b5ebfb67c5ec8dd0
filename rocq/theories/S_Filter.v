(** Vocabulary for filtering. *)
Set Warnings "-all".
From Coq Require Import String.
From mathcomp Require Import all_ssreflect all_algebra.
From Verif Require Import PyBase PyStr M_FindLk M_Engine S_Engine M_Tools S_Tools M_Filter.
Set Implicit Arguments. Unset Strict Implicit. Unset Printing Implicit Defensive.
Import GRing.Theory Num.Theory Order.TTheory.
Local Open Scope ring_scope.

Section Spec.
Variable F : realFieldType.

(** the model is solved, possibly for linear use only (k_max = 0), with at least one shock and one endogenous state *)
Record lsolved (m : tmodel F) : Prop := LSolved {
  ls_sm : sysmats F (dq m) (dp m); ls_f : cnst F (dq m) (dp m); ls_omg : 'M[F]_(dp m, dq m); ls_lam : 'M[F]_(dq m);
  ls_pre : preprocess ls_sm ls_f ls_omg ls_lam (lmx m) (kmx m) = Ok (tab m, btab m);
  ls_T : ursubmx (mT ls_sm) = 0;
  ls_W : ursubmx (mW ls_sm) = 0;
  ls_lin : linear_solution (mS ls_sm) (mT ls_sm) ls_omg ls_lam;
  ls_eps : (0 < neps m)%N;
  ls_st : (neps m < dq m)%N;
  ls_l : (0 < lmx m)%N }.

(** the linear transition function of the model is x' = A x + B eps *)
Definition linear_law (m : tmodel F) (A : 'M[F]_(dx m)) (B : 'M[F]_(dx m, neps m)) : Prop :=
  forall x eps, size x = dx m -> size eps = neps m ->
  t_func m x (Some eps) KNone true = Ok (seq_of (A *m col_of _ x + B *m col_of _ eps), (0, 0), 0%N).
(** the same for the endogenous states alone *)
Definition linear_state_law (m : tmodel F) (A : 'M[F]_(ns m)) (B : 'M[F]_(ns m, neps m)) : Prop :=
  forall x eps, size x = ns m -> size eps = neps m ->
  exists p, t_func m x (Some eps) KNone true = Ok (p ++ seq_of (A *m col_of _ x + B *m col_of _ eps), (0, 0), 0%N) /\ size p = dp m.

(** X solves the discrete Lyapunov equation *)
Definition solves_lyap (n : nat) (A Q X : 'M[F]_n) : Prop := X = A *m X *m A^T + Q.
(** the only property of the solver that is used: what it returns for its arguments is a solution *)
Definition sound_lyap (lyap : forall n, 'M[F]_n -> 'M[F]_n -> res 'M[F]_n) : Prop :=
  forall n (A Q X : 'M[F]_n), lyap n A Q = Ok X -> solves_lyap A Q X.
Definition pseudo_inverse (pinv : forall a b, 'M[F]_(a, b) -> 'M[F]_(b, a)) : Prop :=
  forall a b (A : 'M[F]_(a, b)), A *m pinv a b A *m A = A.
(** different shocks lead to different states *)
Definition distinct_effects (m : tmodel F) : Prop :=
  forall x eps eps', size x = dx m -> size eps = neps m -> size eps' = neps m ->
  t_func m x (Some eps) KNone true = t_func m x (Some eps') KNone true -> eps = eps'.
End Spec.

(** the covariance held by the linear filter after [n] runs, starting with [q] (set by create_filter or set_par) *)
Definition Q_after (F : realFieldType) (lyap : forall n, 'M[F]_n -> 'M[F]_n -> res 'M[F]_n) (m : tmodel F) (init_cov : option 'M[F]_(dx m))
    (n : nat) (q : sqmat F) : res (sqmat F) :=
  foldM (fun q _ => rmap (@k_Q F m) (setup_kf lyap q init_cov)) (iota 0 n) q.
(** the attempts of extract are seeded: what the sampling smoother returns does not depend on the global state *)
Definition seeded (W A R : Type) (npas : W -> A -> res R * W) : Prop := forall w w' a, (npas w a).1 = (npas w' a).1.
