Set Warnings "-all".
From Coq Require Import String.
From mathcomp Require Import all_ssreflect all_algebra.
From Verif Require Import PyBase PyStr M_Engine S_Engine M_GenSys S_GenSys P_Engine P_GenSys P_GenSys2 P_GenSys3 P_Engine3 P_Engine4.
Set Implicit Arguments. Unset Strict Implicit. Unset Printing Implicit Defensive.
Import GRing.Theory Num.Theory Order.TTheory.
Local Open Scope ring_scope.

(** ** the encoded constraint (C13) *)
Section Enc.
Variable F : realFieldType.
Variables m n e : nat.
Variable u : usys F m n e.
Hypothesis fbc : fb0 u 0 (cv u) != 0.

Lemma encoded_none : fd0 u = None -> forall (x1 x0 : 'cV[F]_n) (eps : 'cV[F]_e),
  (fb0 u *m x1 + fc0 u *m x0 + (0 : 'rV[F]_e) *m eps = 0) <->
  (fbn u *m x1 + fcE u *m x0 + fdE u *m eps = 0).
Proof.
move=> fdn x1 x0 eps; rewrite /fcE /fdE fdn /fbn /fcn !mul0mx !addr0 -!scalemxAl -scalerDr.
split=> [->|/eqP]; first by rewrite scaler0.
by rewrite scaler_eq0 oppr_eq0 invr_eq0 (negbTE fbc) /= => /eqP.
Qed.

Lemma encoded_some fd : fd0 u = Some fd ->
  (forall (x1 x0 : 'cV[F]_n) (eps : 'cV[F]_e),
    (fb0 u *m x1 + fc0 u *m x0 + fd *m eps = 0) <->
    (fbn u *m x1 + fcE u *m x0 + fdE u *m eps = 0)) <->
  (fc0 u = 0 /\ (fd = 0 \/ fb0 u 0 (cv u) = 1)).
Proof.
move=> fds; rewrite /fcE /fdE fds /fbn /fcn; move: fbc; set b := fb0 u 0 (cv u) => nb.
split=> [H|[-> H] x1 x0 eps]; last first.
  rewrite scaler0 oppr0 !mul0mx !addr0 mulNmx -!scalemxAl scaleNr -opprD.
  case: H => [->|->]; first rewrite !mul0mx !addr0; last rewrite invr1 !scale1r.
    by split=> [->|/eqP]; rewrite ?scaler0 ?oppr0 // oppr_eq0 scaler_eq0 invr_eq0 (negbTE nb) => /eqP.
  by split=> [->|/eqP]; rewrite ?oppr0 // oppr_eq0 => /eqP.
have ev (A : 'rV[F]_n) j : A *m (delta_mx j 0 : 'cV[F]_n) = (A 0 j)%:M.
  by rewrite -colE; apply/matrixP=> i k; rewrite !ord1 !mxE eqxx mulr1n.
have ev' (A : 'rV[F]_e) j : A *m (delta_mx j 0 : 'cV[F]_e) = (A 0 j)%:M.
  by rewrite -colE; apply/matrixP=> i k; rewrite !ord1 !mxE eqxx mulr1n.
have m0 (a : F) : a%:M = 0 :> 'M[F]_1 -> a = 0.
  by move/matrixP/(_ 0 0); rewrite !mxE eqxx mulr1n.
split.
  apply/matrixP=> i j; rewrite ord1 mxE.
  have := H ((- fc0 u 0 j / b) *: delta_mx (cv u) 0) (delta_mx j 0) 0.
  rewrite !mulmx0 !addr0 -!scalemxAr !ev -/b !scale_scalar_mx -!raddfD /= mulfVK // addNr raddf0 => -[/(_ erefl) /m0 + _].
  rewrite !mxE -/b (mulNr b^-1 b) mulVf // mulrN1 !mulNr !opprK [b^-1 * _]mulrC -mulr2n => /eqP.
  by rewrite mulrn_eq0 /= mulf_eq0 invr_eq0 (negbTE nb) orbF => /eqP.
case: (eqVneq b 1) => [->|b1]; [by right | left].
apply/matrixP=> i j; rewrite ord1 mxE.
have := H ((- fd 0 j / b) *: delta_mx (cv u) 0) 0 (delta_mx j 0).
rewrite !mulmx0 !addr0 -!scalemxAr !ev !ev' -/b !scale_scalar_mx -!raddfD /= mulfVK // addNr raddf0 => -[/(_ erefl) /m0 + _].
rewrite !mxE -/b (mulNr b^-1 b) mulVf // mulrN1 mulNr opprK => /eqP.
rewrite subr_eq0 -{2}[fd 0 j]mulr1 => /eqP h; apply/eqP/negPn/negP => nz.
by move: b1; rewrite -invr_eq1 (mulfI nz h) eqxx.
Qed.
End Enc.

(** ** what preprocess and the search see (C78, C79) *)
Section Comb.
Variable F : realFieldType.
Variable tol : F.
Variables m n e : nat.
Variable u : usys F m n e.
Hypothesis tol0 : 0 < tol.
Hypothesis tol1 : tol <= 1.
Hypothesis cA : clean tol (AA0 u).
Hypothesis cB : clean tol (BB0 u).
Hypothesis cC : clean tol (CC0 u).
Hypothesis cD : clean tol (DD0 u).
Hypothesis cfc : clean tol (fcE u).
Hypothesis cfd : clean tol (fdE u).
Hypothesis occ : forall j, j = cv u \/ fbn u 0 j <> 0 -> occurs (AA0 u) j \/ occurs (BB0 u) j \/ occurs (CC0 u) j.
Variable rq : forall d, 'M[F]_d -> 'M[F]_d * 'M[F]_d.
Hypothesis rqP : forall d, is_rq (@rq d).
Variable sm : sysmats F (dimq tol u) (dimp tol u).
Hypothesis sysE : sys_of tol u rq = Ok sm.

Lemma obeys_compressed l k q p :
  obeys_schedule (mS sm) (mT sm) (mV sm) (mW sm) (mh sm) l k q p <->
  compressed (u:=u) (binds l k) q p.
Proof.
have [E1 E2 _ _] := sys_ofP rqP sysE.
by split=> H s; have := H s; case: (binds l k s); first [move/E2|move/E1].
Qed.

(** notional value in terms of the user's variables *)
Lemma notional_user q p x eps s :
  q s = q_of tol u (x s) (eps s) -> q s.+1 = q_of tol u (x s.+1) (eps s.+1) -> p s = p_of tol u (x s.+1) (eps s.+1) ->
  notional (fq1 (ff tol u)) (fp1 (ff tol u)) (fq0 (ff tol u)) q p s =
  \sum_(j | j != cv u) fbn u 0 j * x s.+1 j 0 + (fcE u *m x s) 0 0 + (fdE u *m eps s) 0 0.
Proof.
move=> e0 e1 ep; rewrite /notional /ff /= e0 e1 ep /q_of /p_of.
have s1 : selc (inq (tol:=tol) (u:=u)) (fb2' tol u) *m rowsub (@enum_val _ (inq (tol:=tol) (u:=u))) (yvec tol u (x s.+1) (eps s.+1)) +
          selc (inp (tol:=tol) (u:=u)) (fb2' tol u) *m rowsub (@enum_val _ (inp (tol:=tol) (u:=u))) (yvec tol u (x s.+1) (eps s.+1)) =
          fb2' tol u *m yvec tol u (x s.+1) (eps s.+1).
  apply: sel_two; first exact: disj.
  move=> i j nq np; rewrite mxE; case: eqP => // _.
  have := inBU_sup tol0 tol1 cA cB cC cD occ (rshift _ 0) nq np.
  by rewrite col_mxEd.
have s2 : selc (inq (tol:=tol) (u:=u)) (fc2 tol u) *m rowsub (@enum_val _ (inq (tol:=tol) (u:=u))) (yvec tol u (x s) (eps s)) =
          fc2 tol u *m yvec tol u (x s) (eps s).
  apply: sel_full => i j nq.
  have := inq_sup tol0 cC cD cfc cfd (rshift _ 0) nq.
  by rewrite col_mxEd ord1.
rewrite [X in X + _]addrC s1 s2 mxE -addrA; congr (_ + _).
  rewrite mxE big_split_ord /= [X in _ + X]big1 ?addr0; last first.
    by move=> k _; rewrite [fb2' _ _ _ _]mxE /cv2 eq_rlshift /= /fb2 row_mxEr mxE mul0r.
  rewrite big_split_ord /= [X in _ + X]big1 ?addr0; last first.
    move=> k _; rewrite [fb2' _ _ _ _]mxE /cv2 (inj_eq (@lshift_inj _ _)) eq_rlshift /fb2 row_mxEl row_mxEr mxE mul0r //.
  rewrite (bigID (fun j => j != cv u)) /= [X in _ + X]big1 ?addr0; last first.
    by move=> k /negPn /eqP ->; rewrite [fb2' _ _ _ _]mxE eqxx mul0r.
  apply: eq_bigr => k nk; rewrite [fb2' _ _ _ _]mxE /cv2 !(inj_eq (@lshift_inj _ _)) (negbTE nk).
  by rewrite /fb2 !row_mxEl /yvec !col_mxEu.
by rewrite fc2E /yvec !mul_row_col mul0mx addr0 mxE.
Qed.
End Comb.
