(** Specification vocabulary for tools.py. *)
Set Warnings "-all".
From Coq Require Import String.
From mathcomp Require Import all_ssreflect all_algebra.
From Verif Require Import PyBase PyStr M_FindLk M_Engine S_Engine M_Tools.
Set Implicit Arguments. Unset Strict Implicit. Unset Printing Implicit Defensive.
Import GRing.Theory Num.Theory Order.TTheory.
Local Open Scope ring_scope.

(** the last [n] entries *)
Definition last_n (A : Type) (n : nat) (s : seq A) : seq A := drop (size s - n) s.

(** number of endogenous states *)
Definition nq (F : realFieldType) (m : tmodel F) : nat := (dq m - neps m)%N.

(** the system [sm] with constraint row [f] and linear solution [omg], [lam] has been solved and its tables are those
    of the model object [m], which has at least one shock and one endogenous state *)
Record solved (F : realFieldType) (m : tmodel F) (sm : sysmats F (dq m) (dp m)) (f : cnst F (dq m) (dp m))
    (omg : 'M[F]_(dp m, dq m)) (lam : 'M[F]_(dq m)) : Prop := Solved {
  sd_pre : preprocess sm f omg lam (lmx m) (kmx m) = Ok (tab m, btab m);
  sd_T : ursubmx (mT sm) = 0;
  sd_W : ursubmx (mW sm) = 0;
  sd_lin : linear_solution (mS sm) (mT sm) omg lam;
  sd_eps : (0 < neps m)%N;
  sd_st : (neps m < dq m)%N;
  sd_vv : size (vvs m) = (dp m + nq m)%N;
  sd_l : (0 < lmx m < 999)%N;
  sd_k : (0 < kmx m)%N }.

(** next period's shocks, the last entries of the state vector, are expected to be zero in both regimes *)
Definition no_expected_shocks (F : realFieldType) (dq dp : nat) (sm : sysmats F dq dp) (ne : nat) : Prop :=
  forall q q' p p', unconstrained (mS sm) (mT sm) q q' p p' \/ constrained (mV sm) (mW sm) (mh sm) q q' p p' ->
    forall i : 'I_dq, (dq - ne <= i)%N -> q' i 0 = 0.

(** the announced path of a model *)
Definition announced_by (F : realFieldType) (dq dp : nat) (sm : sysmats F dq dp) (omg : 'M[F]_(dp, dq)) :=
  announced (mS sm) (mT sm) (mV sm) (mW sm) (mh sm) omg.

(** row of results in period [t] of a path: controls of the period, then the endogenous states at its end *)
Definition path_row (F : realFieldType) (dq dp n : nat) (q : nat -> 'cV[F]_dq) (p : nat -> 'cV[F]_dp) (t : nat) : seq F :=
  seq_of (p t) ++ take n (seq_of (q t.+1)).

(** expectations (l,k) as reported *)
Definition lkz (lk : nat * nat) : int * int := (Posz lk.1, Posz lk.2).

(** linear combination of two vectors of the same length *)
Definition lincomb (F : ringType) (a : F) (x : seq F) (b : F) (y : seq F) : seq F :=
  [seq a * u.1 + b * u.2 | u <- zip x y].

(** size of the last entry of a shock list for a name and a period, 0 if there is none *)
Definition shock_size (F : realFieldType) (sl : seq (string * F * int)) (name : string) (t : nat) : F :=
  last 0 [seq a.1.2 | a <- sl & (a.1.1 == name) && (a.2 == t%:Z)].
Definition shocks_at (F : realFieldType) (names : seq string) (sl : seq (string * F * int)) (t : nat) : seq F :=
  [seq shock_size sl n t | n <- names].
(** every shock listed for period [t] is known *)
Definition known_at (F : realFieldType) (names : seq string) (sl : seq (string * F * int)) (t : nat) : bool :=
  all (fun a => (a.2 == t%:Z) ==> (a.1.1 \in names)) sl.

(** values of [set_k] that leave the expectations to the search *)
Definition endogenous (sk : setk) : bool := match sk with KNone | KBool false => true | _ => false end.
(** values of [set_k] that fix the expectations of period 0 *)
Definition fixes (sk : setk) (l k : nat) : Prop :=
  match sk with
  | KTuple a b => a = l%:Z /\ b = k%:Z
  | KInt n => [/\ n != 0, l = 0%N & n = k%:Z]
  | KBool b => [/\ b, l = 0%N & k = 1%N]
  | KNone => False
  end.

(** the state vector of a period: the endogenous states at the end of the given vector, then the shocks *)
Definition inp_vec (F : realFieldType) (m : tmodel F) (st sh : seq F) : 'cV[F]_(dq m) :=
  col_of (dq m) (last_n (nq m) st ++ sh).

(** linear combination of two sequences of vectors *)
Fixpoint lincombs (F : ringType) (a : F) (xs : seq (seq F)) (b : F) (ys : seq (seq F)) : seq (seq F) :=
  match xs, ys with x :: xs', y :: ys' => lincomb a x b y :: lincombs a xs' b ys' | _, _ => [::] end.
