(** Purely backward-looking models are always solved: used to show that the
    hypotheses of the gensys theorems can be met together. *)
Set Warnings "-all".
From mathcomp Require Import all_ssreflect all_algebra.
From Verif Require Import PyBase M_Engine S_Engine M_GenSys S_GenSys P_Engine P_EngineEx P_GenSys P_GenSys2 P_GenSys3 P_GenSys4 P_RQ.
Set Implicit Arguments. Unset Strict Implicit. Unset Printing Implicit Defensive.
Import GRing.Theory Num.Theory Order.TTheory.
Local Open Scope ring_scope.

Lemma inj_unit (F : fieldType) d (A : 'M[F]_d) : (forall v : 'cV[F]_d, A *m v = 0 -> v = 0) -> A \in unitmx.
Proof.
move=> h; rewrite -unitmx_tr -row_free_unit -kermx_eq0; apply/eqP/row_matrixP=> i; rewrite row0.
have := h (row i (kermx A^T))^T; rewrite -[A *m _]trmxK trmx_mul trmxK -row_mul mulmx_ker row0 trmx0.
by move=> /(_ erefl) /(congr1 trmx); rewrite trmxK trmx0.
Qed.

Lemma unit_inj (F : fieldType) d (A : 'M[F]_d) (v : 'cV[F]_d) : A \in unitmx -> A *m v = 0 -> v = 0.
Proof. by move=> uA h; rewrite -[v](mulKmx uA) h mulmx0. Qed.

Section Abs.
Variable F : fieldType.
Variables r q p : nat.
Variables (Bq C : 'M[F]_(r, q)) (Bp : 'M[F]_(r, p)) (Q : 'M[F]_(q + p, r)).
Hypothesis Qinj : forall v : 'cV[F]_r, Q *m v = 0 -> v = 0.
Hypothesis Binj : forall (w : 'cV[F]_q) (v : 'cV[F]_p), Bq *m w + Bp *m v = 0 -> w = 0 /\ v = 0.
Let S : 'M[F]_(q + p) := Q *m - row_mx Bq (0 : 'M[F]_(r, p)).
Let T : 'M[F]_(q + p) := Q *m row_mx C Bp.
Hypothesis T12 : ursubmx T = 0.

Lemma back_blocks : [/\ ursubmx S = 0, drsubmx S = 0, drsubmx T \in unitmx & ulsubmx S \in unitmx].
Proof.
have S2 : rsubmx S = 0.
  by rewrite /S opp_row_mx oppr0 mul_mx_row mulmx0 row_mxKr.
have s12 : ursubmx S = 0 by apply/matrixP=> i j; rewrite !mxE; have /matrixP /(_ (lshift p i) j) := S2; rewrite !mxE.
have s22 : drsubmx S = 0 by apply/matrixP=> i j; rewrite !mxE; have /matrixP /(_ (rshift q i) j) := S2; rewrite !mxE.
have uT : drsubmx T \in unitmx.
  apply: inj_unit => v hv; apply: proj2 (Binj (w := 0) _); rewrite mulmx0 add0r; apply: Qinj.
  have -> : Q *m (Bp *m v) = T *m col_mx 0 v by rewrite /T -mulmxA mul_row_col mulmx0 add0r.
  by rewrite -[T]submxK mul_block_col T12 !mulmx0 mul0mx hv !addr0 col_mx0.
split=> //; apply: inj_unit => w hw.
pose v := invmx (drsubmx T) *m (dlsubmx S *m w).
have e1 : T *m col_mx 0 v = S *m col_mx w 0.
  rewrite -[T]submxK -[S]submxK !mul_block_col T12 !mulmx0 mul0mx hw !addr0 !add0r; congr col_mx.
  by rewrite /v mulKVmx.
have : Bq *m w + Bp *m v = 0.
  apply: Qinj; rewrite mulmxDr.
  have -> : Q *m (Bp *m v) = T *m col_mx 0 v by rewrite /T -mulmxA mul_row_col mulmx0 add0r.
  by rewrite e1 /S -mulmxA mulNmx mul_row_col mulmx0 addr0 mulmxN addrN.
by case/Binj.
Qed.
End Abs.

Lemma back_lsol (F : fieldType) q p (S T : 'M[F]_(q + p)) :
  ursubmx S = 0 -> drsubmx S = 0 -> drsubmx T \in unitmx -> ulsubmx S \in unitmx -> ursubmx T = 0 ->
  exists omg lam, linear_solution S T omg lam.
Proof.
move=> s12 s22 uT uS t12; pose lam := invmx (ulsubmx S) *m ulsubmx T.
exists (invmx (drsubmx T) *m (dlsubmx S *m lam - dlsubmx T)), lam => v; set omg := _ *m (_ - _).
rewrite /unconstrained -[in LHS](submxK S) -[in RHS](submxK T) !mul_block_col s12 s22 t12 !mul0mx !addr0.
congr col_mx; first by rewrite /lam !mulmxA mulmxV // mul1mx.
by rewrite /omg !mulmxA mulmxV // mul1mx mulmxBl addrC subrK.
Qed.

Lemma castQ (F : fieldType) (r d k : nat) (pf : r = d) (Q : 'M[F]_d) (A : 'M[F]_(r, k)) :
  Q *m castmx (pf, erefl) A = castmx (erefl, esym pf) Q *m A.
Proof. by case: d / pf Q => Q; rewrite !castmx_id. Qed.

Section Back.
Variable F : realFieldType.
Variable tol : F.
Variables m e : nat.
Variable u : usys F m (m + 1) e.
Hypothesis tol0 : 0 < tol.
Hypothesis tol1 : tol <= 1.
Hypothesis A0 : AA0 u = 0.
Hypothesis cB : clean tol (BB0 u).
Hypothesis cC : clean tol (CC0 u).
Hypothesis cD : clean tol (DD0 u).
Hypothesis cfc : clean tol (fcE u).
Hypothesis cfd : clean tol (fdE u).
Hypothesis occ : forall j, j = cv u \/ fbn u 0 j <> 0 -> occurs (AA0 u) j \/ occurs (BB0 u) j \/ occurs (CC0 u) j.
Hypothesis uU : col_mx (BB0 u) (fbn u) \in unitmx.
Hypothesis uR : col_mx (BB0 u) (delta_mx 0 (cv u)) \in unitmx.
Variable rq : forall d, 'M[F]_d -> 'M[F]_d * 'M[F]_d.
Hypothesis rqP : forall d, is_rq (@rq d).

Lemma cA : clean tol (AA0 u). Proof. by rewrite A0; apply: clean0. Qed.

Lemma sys_ofQ (sm : sysmats F (dimq tol u) (dimp tol u)) : sys_of tol u rq = Ok sm ->
  exists Q1 Q2 : 'M[F]_(dimq tol u + dimp tol u, m + na tol u + e + 1),
  [/\ (forall v : 'cV_(_), Q1 *m v = 0 -> v = 0), (forall v : 'cV_(_), Q2 *m v = 0 -> v = 0),
      mS sm = Q1 *m PU tol u /\ mT sm = Q1 *m MU tol u,
      mV sm = Q2 *m PR tol u /\ mW sm = Q2 *m MR tol u &
      mh sm = Q2 *m gg tol u].
Proof.
rewrite /sys_of; case: eqP => // pf.
pose sq (A : 'M[F]_(m + na tol u + e + 1, dimq tol u + dimp tol u)) := castmx (pf, erefl (dimq tol u + dimp tol u)%N) A.
have [Q1 [u1 E1 _]] := rotateE (@rqP _) (sq (PU tol u)) (sq (MU tol u)) 0.
have [Q2 [u2 E2 _]] := rotateE (@rqP _) (sq (PR tol u)) (sq (MR tol u)) (castmx (pf, erefl) (gg tol u)).
rewrite E1 E2 => -[<-] /=.
have ce k (Q : 'M[F]_(dimq tol u + dimp tol u)) (A : 'M[F]_(m + na tol u + e + 1, k)) := castQ pf Q A.
exists (castmx (erefl, esym pf) Q1), (castmx (erefl, esym pf) Q2); rewrite -!ce.
split=> //.
  by move=> v; rewrite -ce => /(unit_inj u1) h; apply/(can_inj (castmxK pf erefl)); rewrite h castmx_const.
by move=> v; rewrite -ce => /(unit_inj u2) h; apply/(can_inj (castmxK pf erefl)); rewrite h castmx_const.
Qed.

Notation inq := (inq (tol:=tol) (u:=u)).
Notation inp := (inp (tol:=tol) (u:=u)).

Lemma unseltwo (w : 'cV[F]_(dimq tol u)) (v : 'cV[F]_(dimp tol u)) :
  exists y, rowsub (@enum_val _ inq) y = w /\ rowsub (@enum_val _ inp) y = v.
Proof.
exists (unsel (P:=inq) w (unsel (P:=inp) v 0)); split; first exact: unsel_sel.
by rewrite unsel_sel' ?unsel_sel //; apply: disj.
Qed.

(** the last row of the big matrix *)
Lemma big_inj (b : 'rV[F]_(m + 1)) (y : 'cV[F]_(m + 1 + na tol u + e)) : col_mx (BB0 u) b \in unitmx ->
  col_mx (BB2 tol u) (row_mx (row_mx b 0) 0) *m y = 0 -> y = 0.
Proof.
move=> ub; rewrite -[y]vsubmxK -[usubmx y]vsubmxK; set x := usubmx (usubmx y); set xl := dsubmx _; set ep := dsubmx _.
rewrite /BB2 /BB1 mul_col_mx !mul_block_col !mul_row_col !mul0mx !mul1mx !addr0 !add0r.
case/col_mx_eq0P => /col_mx_eq0P [/col_mx_eq0P [h1 h2] ->] h3.
have x0 : x = 0 by apply: (unit_inj ub); rewrite mul_col_mx h1 h3 col_mx0.
by move: h2; rewrite x0 mulmx0 add0r => ->; rewrite !col_mx0.
Qed.

Lemma BBU_inj (w : 'cV[F]_(dimq tol u)) (v : 'cV[F]_(dimp tol u)) :
  selc inq (BBU tol u) *m w + selc inp (BBU tol u) *m v = 0 -> w = 0 /\ v = 0.
Proof.
have [y [<- <-]] := unseltwo w v.
rewrite sel_two; [|exact: disj|exact: (inBU_sup tol0 tol1 cA cB cC cD occ)].
by move/(big_inj uU) => ->; split; apply/matrixP=> i j; rewrite !mxE.
Qed.

Lemma BBR_inj (w : 'cV[F]_(dimq tol u)) (v : 'cV[F]_(dimp tol u)) :
  selc inq (BBR tol u) *m w + selc inp (BBR tol u) *m v = 0 -> w = 0 /\ v = 0.
Proof.
have [y [<- <-]] := unseltwo w v.
rewrite sel_two; [|exact: disj|exact: (inBR_sup tol0 tol1 cA cB cC cD occ)].
have ur : col_mx (BB0 u) (- delta_mx 0 (cv u)) \in unitmx.
  apply: inj_unit => z; rewrite mul_col_mx => /col_mx_eq0P [h1]; rewrite mulNmx => /eqP; rewrite oppr_eq0 => /eqP h2.
  by apply: (unit_inj uR); rewrite mul_col_mx h1 h2 col_mx0.
have -> : BBR tol u = col_mx (BB2 tol u) (row_mx (row_mx (- delta_mx 0 (cv u)) 0) 0).
  rewrite /BBR; congr col_mx; apply/matrixP=> i j; rewrite ord1 [LHS]mxE.
  case: (split_ordP j) => a ->; last by rewrite mxE /cv2 eq_rlshift andbF row_mxEr mxE oppr0.
  rewrite row_mxEl; case: (split_ordP a) => b ->; last by rewrite mxE /cv2 (inj_eq (@lshift_inj _ _)) eq_rlshift andbF row_mxEr mxE oppr0.
  by rewrite row_mxEl [RHS]mxE !mxE /cv2 !(inj_eq (@lshift_inj _ _)).
by move/(big_inj ur) => ->; split; apply/matrixP=> i j; rewrite !mxE.
Qed.

Lemma AAp0 : selc inp (AA tol u) = 0.
Proof.
have -> : AA tol u = 0 by rewrite /AA /AA2 /AA1 A0 !block_mx0 col_mx0.
by apply/matrixP=> i j; rewrite [RHS]mxE [LHS]mxE [LHS]mxE.
Qed.

Lemma none_missing : #|missing tol u| = 0%N.
Proof.
apply: eq_card0 => j; apply/negbTE/negP; rewrite -topredE /= (missingE u tol0 tol1) => /and4P [fA fB fC _].
have z : col j (col_mx (BB0 u) (fbn u)) = 0.
  apply/matrixP=> i k; rewrite [LHS]mxE [RHS]mxE; case: (split_ordP i) => i' ->; rewrite ?col_mxEu ?col_mxEd.
    exact: (colP tol0 cB fB).
  rewrite ord1; apply/eqP/negPn/negP => nz.
  case: (occ (or_intror (elimN eqP nz))) => [|[|]] [i0]; rewrite ?A0 ?mxE ?eqxx //.
    by rewrite (colP tol0 cB fB) eqxx.
  by rewrite (colP tol0 cC fC) eqxx.
have := unit_inj (v := delta_mx j 0) uU; rewrite -colE z => /(_ erefl) /matrixP /(_ j 0).
by rewrite !mxE !eqxx => /eqP; rewrite oner_eq0.
Qed.

Theorem backward_ok f l_max k_max : exists sm omg lam t b,
  [/\ sys_of tol u rq = Ok sm, linear_solution (mS sm) (mT sm) omg lam &
      preprocess sm f omg lam l_max k_max = Ok (t, b)].
Proof.
have [_ [|sm smE]] := @sys_of_sq _ tol _ _ _ u rq.
  have := dims u tol0 tol1; rewrite none_missing addn0 => ->.
  by rewrite addn1 !addSn addn0 [RHS]addSn addn0 || (rewrite -!addnA; congr (_ + _)%N; rewrite addnA addnC).
have [_ _ T12 W12] := sys_ofP rqP smE.
have [Q1 [Q2 [i1 i2 [ES ET] [EV EW] _]]] := sys_ofQ smE.
have eS : mS sm = Q1 *m - row_mx (selc inq (BBU tol u)) 0 by rewrite ES /PU AAp0.
have eV : mV sm = Q2 *m - row_mx (selc inq (BBR tol u)) 0 by rewrite EV /PR AAp0.
have [||s12 s22 uT uS] := @back_blocks _ _ _ _ (selc inq (BBU tol u)) (selc inq (CCU tol u)) (selc inp (BBU tol u)) Q1 i1.
- exact: BBU_inj.
- by move: T12; rewrite ET.
have [||v12 v22 uW uV] := @back_blocks _ _ _ _ (selc inq (BBR tol u)) (selc inq (CCR tol u)) (selc inp (BBR tol u)) Q2 i2.
- exact: BBR_inj.
- by move: W12; rewrite EW.
rewrite -eS in s12 s22 uS; rewrite -eV in v12 v22 uV.
have [|omg [lam ls]] := back_lsol s12 s22 _ uS T12; first by rewrite ET.
have [||||||t [b pre]] := @preprocess_exog _ _ _ sm f omg lam l_max k_max; rewrite ?ET ?EW //.
by exists sm, omg, lam, t, b.
Qed.
End Back.
