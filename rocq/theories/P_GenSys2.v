Set Warnings "-all".
From Coq Require Import String.
From mathcomp Require Import all_ssreflect all_algebra.
From Verif Require Import PyBase M_Engine S_Engine M_GenSys S_GenSys P_GenSys.
Set Implicit Arguments. Unset Strict Implicit. Unset Printing Implicit Defensive.
Import GRing.Theory Num.Theory Order.TTheory.
Local Open Scope ring_scope.

(** ** rotation (C15) *)
Section Rot.
Variable F : realFieldType.
Variable d : nat.
Variable rq : 'M[F]_d -> 'M[F]_d * 'M[F]_d.
Hypothesis rqP : is_rq rq.

Lemma rotateE P M g : exists Q : 'M[F]_d, [/\ Q \in unitmx,
  rotate rq P M g = (Q *m P, Q *m M, Q *m g) &
  forall i j : 'I_d, (i < j)%N -> (Q *m M) i j = 0].
Proof.
rewrite /rotate; have := rqP M^T; case: (rq M^T) => R Q [eM oQ up].
have uQ : Q \in unitmx by case: (mulmx1_unit oQ).
have eR : R^T = Q *m M.
  have -> : M = Q^T *m R^T by rewrite -[M]trmxK eM trmx_mul.
  by rewrite mulmxA oQ mul1mx.
exists Q; split=> //; first by rewrite eR.
by move=> i j ij; rewrite -eR mxE up.
Qed.

Lemma rotate_sol P M g v w : let: (P', M', g') := rotate rq P M g in
  (P' *m v = M' *m w + g') <-> (P *m v = M *m w + g).
Proof.
have [Q [uQ -> _]] := rotateE P M g.
rewrite -!mulmxA -mulmxDr; split=> [h|-> //].
by rewrite -[P *m v](mulKmx uQ) h mulKmx.
Qed.
End Rot.

Lemma rotate_ur (F : realFieldType) (a b : nat) (rq : 'M[F]_(a + b) -> _) P M g :
  is_rq rq -> ursubmx (rotate rq P M g).1.2 = 0.
Proof.
move=> rqP; have [Q [_ -> up]] := rotateE rqP P M g; apply/matrixP=> i j.
rewrite /= /ursubmx !mxE.
have := up (lshift b i) (rshift a j); rewrite mxE => -> //=.
exact: ltn_addr.
Qed.

Lemma cast_sol (F : realFieldType) (r c k : nat) (pf : r = c) (A B : 'M[F]_(r, k)) (g : 'cV[F]_r) v w :
  (castmx (pf, erefl) A *m v = castmx (pf, erefl) B *m w + castmx (pf, erefl) g) <-> (A *m v = B *m w + g).
Proof. by case: c / pf. Qed.

Section Sq.
Variable F : realFieldType.
Variable tol : F.
Variables m n e : nat.
Variable u : usys F m n e.
Variable rq : forall d, 'M[F]_d -> 'M[F]_d * 'M[F]_d.
Hypothesis rqP : forall d, is_rq (@rq d).

Lemma sys_ofP sm : sys_of tol u rq = Ok sm ->
  [/\ forall q q' p p', unconstrained (mS sm) (mT sm) q q' p p' <->
        PU tol u *m col_mx q' p' = MU tol u *m col_mx q p,
      forall q q' p p', constrained (mV sm) (mW sm) (mh sm) q q' p p' <->
        PR tol u *m col_mx q' p' = MR tol u *m col_mx q p + gg tol u,
      ursubmx (mT sm) = 0 & ursubmx (mW sm) = 0].
Proof.
rewrite /sys_of; case: eqP => // pf.
pose sq (A : 'M[F]_(m + na tol u + e + 1, dimq tol u + dimp tol u)) := castmx (pf, erefl (dimq tol u + dimp tol u)%N) A.
have R1 := rotate_sol (@rqP _) (sq (PU tol u)) (sq (MU tol u)) 0.
have R2 := rotate_sol (@rqP _) (sq (PR tol u)) (sq (MR tol u)) (castmx (pf, erefl) (gg tol u)).
have U1 := rotate_ur (sq (PU tol u)) (sq (MU tol u)) 0 (@rqP _).
have U2 := rotate_ur (sq (PR tol u)) (sq (MR tol u)) (castmx (pf, erefl) (gg tol u)) (@rqP _).
move: R1 R2 U1 U2.
have g0 := rotateE (@rqP _) (sq (PU tol u)) (sq (MU tol u)) 0; move: g0.
case: (rotate _ (sq (PU tol u)) _ _) => -[P1 M1] g1.
case: (rotate _ (sq (PR tol u)) _ _) => -[P2 M2] g2.
move=> [Q [_ [_ _ eg] _]] R1 R2 U1 U2 [<-] /=.
split=> // q q' p p'; rewrite /unconstrained /constrained /=.
  have := R1 (col_mx q' p') (col_mx q p); rewrite eg mulmx0 addr0 addr0 => ->.
  have := cast_sol pf (PU tol u) (MU tol u) 0 (col_mx q' p') (col_mx q p).
  by rewrite addr0 castmx_const addr0.
have -> := R2 (col_mx q' p') (col_mx q p); exact: cast_sol.
Qed.

Lemma sys_of_sq : (exists sm, sys_of tol u rq = Ok sm) <-> (m + na tol u + e + 1 = dimq tol u + dimp tol u)%N.
Proof.
rewrite /sys_of; case: eqP => pf; last by split=> // -[sm].
by case: (rotate _ _ _ _) => -[P1 M1] g1; case: (rotate _ _ _ _) => -[P2 M2] g2; split=> // _; eexists.
Qed.

Lemma sys_of_err ex : sys_of tol u rq = Err ex ->
  ex = ValueError /\ (m + na tol u + e + 1 <> dimq tol u + dimp tol u)%N.
Proof.
rewrite /sys_of; case: eqP => pf; last by case=> <-.
by case: (rotate _ _ _ _) => -[P1 M1] g1; case: (rotate _ _ _ _) => -[P2 M2] g2.
Qed.
End Sq.
