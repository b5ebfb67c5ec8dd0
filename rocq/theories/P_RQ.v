(** Over a real closed field every square matrix has an RQ decomposition, so the
    hypothesis [is_rq] used for scipy.linalg.rq can be met. *)
Set Warnings "-all".
From mathcomp Require Import all_ssreflect all_algebra.
From Verif Require Import S_GenSys.
Set Implicit Arguments. Unset Strict Implicit. Unset Printing Implicit Defensive.
Import GRing.Theory Num.Theory Order.TTheory.
Local Open Scope ring_scope.

Section RQ.
Variable F : rcfType.

Definition dotr (d : nat) (a b : 'rV[F]_d) : F := (a *m b^T) 0 0.
Lemma dotE d (a b : 'rV[F]_d) : a *m b^T = (dotr a b)%:M.
Proof. by rewrite [LHS]mx11_scalar. Qed.
Lemma dotrC d (a b : 'rV[F]_d) : dotr a b = dotr b a.
Proof. by rewrite /dotr -[a *m b^T]trmxK trmx_mul trmxK [LHS]mxE. Qed.
Lemma dotrDl d (a b c : 'rV[F]_d) : dotr (a + b) c = dotr a c + dotr b c.
Proof. by rewrite /dotr mulmxDl mxE. Qed.
Lemma dotrNl d (a c : 'rV[F]_d) : dotr (- a) c = - dotr a c.
Proof. by rewrite /dotr mulNmx mxE. Qed.
Lemma dotrZl d x (a c : 'rV[F]_d) : dotr (x *: a) c = x * dotr a c.
Proof. by rewrite /dotr -scalemxAl mxE. Qed.
Lemma dotrr_ge0 d (a : 'rV[F]_d) : 0 <= dotr a a.
Proof. by rewrite /dotr mxE; apply: sumr_ge0 => i _; rewrite mxE -expr2 sqr_ge0. Qed.
Lemma dotrr_eq0 d (a : 'rV[F]_d) : dotr a a = 0 -> a = 0.
Proof.
rewrite /dotr mxE => /eqP; rewrite psumr_eq0; last by move=> i _; rewrite mxE -expr2 sqr_ge0.
move/allP => h; apply/matrixP=> i j; rewrite ord1 [RHS]mxE.
by have := h j (mem_index_enum j); rewrite mxE -expr2 sqrf_eq0 => /eqP.
Qed.

(** a reflection that sends [a] to a row of the same length *)
Lemma reflect d (a b : 'rV[F]_d) : dotr a a = dotr b b ->
  exists2 H : 'M[F]_d, H *m H^T = 1%:M & a *m H = b.
Proof.
move=> E; case: (eqVneq a b) => [->|ab].
  by exists 1%:M; rewrite ?trmx1 ?mulmx1.
pose v := a - b; pose n2 := dotr v v.
have n0 : n2 != 0 by apply/eqP => /dotrr_eq0 /eqP; rewrite subr_eq0 (negbTE ab).
have va : dotr v a = dotr a a - dotr a b by rewrite dotrDl dotrNl (dotrC b).
have vb : dotr v b = dotr a b - dotr a a by rewrite dotrDl dotrNl E.
have nE : n2 = 2%:R * dotr v a.
  rewrite /n2 {1}/v dotrDl dotrNl (dotrC a) (dotrC b) va vb opprB mulr_natl mulr2n //.
pose H : 'M[F]_d := 1%:M - (2%:R / n2) *: (v^T *m v).
have Ht : H^T = H by rewrite /H linearB /= trmx1 linearZ /= trmx_mul trmxK.
exists H.
  rewrite Ht /H; set c := 2%:R / n2; set X := v^T *m v.
  have XX : X *m X = n2 *: X.
    by rewrite /X -mulmxA [v *m _]mulmxA dotE mul_scalar_mx -scalemxAr.
  rewrite mulmxBl mul1mx mulmxBr mulmx1 -scalemxAl -scalemxAr XX !scalerA.
  have -> : c * c * n2 = c + c by rewrite -mulrA {2}/c mulfVK // mulr_natr mulr2n.
  by rewrite scalerDl opprB addrK subrK.
rewrite /H mulmxBr mulmx1 -scalemxAr mulmxA dotE mul_scalar_mx scalerA.
rewrite dotrC mulrAC -nE divff // scale1r /v; by rewrite opprB addrC subrK.
Qed.

Lemma rq_one d (A : 'M[F]_d) : exists RQ : 'M[F]_d * 'M[F]_d,
  [&& A == RQ.1 *m RQ.2, RQ.2 *m RQ.2^T == 1%:M &
      [forall i : 'I_d, forall j : 'I_d, (j < i)%N ==> (RQ.1 i j == 0)]].
Proof.
elim: d A => [A|d IH]; first by exists (0, 0); apply/and3P; split; [apply/eqP/matrixP=> -[] | apply/eqP/matrixP=> -[] | apply/forallP=> -[]].
rewrite -(addn1 d) => A.
pose a : 'rV[F]_(d + 1) := dsubmx A.
pose b : 'rV[F]_(d + 1) := row_mx 0 (Num.sqrt (dotr a a))%:M.
have [|H oH aH] := @reflect _ a b.
  rewrite /b [in RHS]/dotr tr_row_mx mul_row_col mul0mx add0r tr_scalar_mx -scalar_mxM -expr2.
  by rewrite sqr_sqrtr ?dotrr_ge0 // mxE eqxx mulr1n.
have [[R Q] /and3P [/eqP /= eA /eqP oQ /forallP up]] := IH (ulsubmx (A *m H)).
pose Q' : 'M[F]_(d + 1) := block_mx Q 0 0 1%:M.
pose R' : 'M[F]_(d + 1) := block_mx R (ursubmx (A *m H)) 0 (Num.sqrt (dotr a a))%:M.
have oH' : H^T *m H = 1%:M by rewrite (mulmx1C oH).
exists (R', Q' *m H^T); apply/and3P; split=> /=.
- rewrite mulmxA /R' /Q' mulmx_block !mulmx0 !mul0mx !mulmx1 !addr0 !add0r -eA.
  suff -> : block_mx (ulsubmx (A *m H)) (ursubmx (A *m H)) 0 (Num.sqrt (dotr a a))%:M = A *m H.
    by rewrite -mulmxA oH mulmx1.
  rewrite -[RHS]submxK; have e : dsubmx (A *m H) = b by rewrite -aH /a -mul_dsub_mx.
  have -> : dlsubmx (A *m H) = lsubmx b by rewrite -e.
  have -> : drsubmx (A *m H) = rsubmx b by rewrite -e.
  by rewrite /b row_mxKl row_mxKr.
- rewrite trmx_mul trmxK mulmxA -[Q' *m H^T *m H]mulmxA oH' mulmx1 /Q' tr_block_mx mulmx_block.
  by rewrite !trmx0 !trmx1 !mulmx0 !mul0mx !mulmx1 !addr0 !add0r oQ -scalar_mx_block.
- apply/forallP=> i; apply/forallP=> j; apply/implyP; rewrite /R'.
  case: (split_ordP i) => i' ->; case: (split_ordP j) => j' -> /=.
  + by rewrite block_mxEul; have := up i' => /forallP /(_ j') /implyP.
  + by move=> h; have := ltn_trans h (ltn_ord i'); rewrite ltnNge leq_addr.
  + by rewrite block_mxEdl mxE.
  + by rewrite !ord1 ltnn.
Qed.

Definition some_rq d (A : 'M[F]_d) : 'M[F]_d * 'M[F]_d := xchoose (rq_one A).

Lemma some_rqP d : is_rq (@some_rq d).
Proof.
move=> A; have := xchooseP (rq_one A); rewrite -/(some_rq A); case: (some_rq A) => R Q /=.
move=> /and3P [/eqP -> /eqP oQ /forallP up]; split=> // i j ji.
by have := up i => /forallP /(_ j) /implyP /(_ ji) /eqP.
Qed.
End RQ.
