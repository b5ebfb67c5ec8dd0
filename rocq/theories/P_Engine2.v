Set Warnings "-all".
From mathcomp Require Import all_ssreflect all_algebra.
From Verif Require Import PyBase M_Engine M_FindLk S_Engine P_Loops P_Engine P_FindLk.
Set Implicit Arguments. Unset Strict Implicit. Unset Printing Implicit Defensive.
Import GRing.Theory.
Local Open Scope ring_scope.
Local Open Scope py_scope.

Lemma lk_locE l k s : (l_loc l k s, k_loc l k s) = remaining l k s.
Proof.
rewrite /l_loc /k_loc /remaining; case: leqP => h.
  congr pair; apply/minn_idPl; by rewrite -addnBA // leq_addr.
congr pair; first by apply/eqP; rewrite subn_eq0 ltnW.
rewrite subnBA; last exact: ltnW.
by apply/minn_idPr; rewrite leq_subLR addnC leq_add2r ltnW.
Qed.

Lemma remaining_le l k s : ((remaining l k s).1 <= l)%N /\ ((remaining l k s).2 <= k)%N.
Proof. by rewrite /remaining; case: ifP => _ /=; rewrite ?leq_subr. Qed.

Lemma remaining0 l k : remaining l k 0 = (l, k).
Proof. by rewrite /remaining leq0n subn0. Qed.

Variant rem_spec (l k s : nat) : nat * nat -> nat * nat -> Prop :=
| RemUnc l1 k1 : ~~ binds l k s -> (s < l)%N -> rem_spec l k s (l1.+1, k1) (l1, k1)
| RemCon k1 : binds l k s -> (l <= s < l + k)%N -> rem_spec l k s (0%N, k1.+1) (0%N, k1)
| RemEnd : ~~ binds l k s -> (l + k <= s)%N -> rem_spec l k s (0%N, 0%N) (0%N, 0%N).

Lemma remP l k s : rem_spec l k s (remaining l k s) (remaining l k s.+1).
Proof.
rewrite /remaining; case: (ltngtP s l) => h.
- rewrite -(subnSK h); constructor=> //.
  by rewrite /binds leqNgt h.
- rewrite /=.
  case: (leqP (l + k) s) => h2.
    have -> : (k - (s - l) = 0)%N by apply/eqP; rewrite subn_eq0 leq_subRL // ltnW.
    have -> : (k - (s.+1 - l) = 0)%N.
      by apply/eqP; rewrite subn_eq0 leq_subRL ?(leqW (ltnW h)) // (leq_trans h2).
    by constructor=> //; rewrite /binds ltnNge h2 andbF.
  rewrite subSn; last exact: ltnW.
  have h3 : (s - l < k)%N by rewrite ltn_subLR // ltnW.
  by rewrite -(subnSK h3); constructor; rewrite /binds ?(ltnW h) ?h2.
- rewrite h subnn subSnn.
  case: k => [|k] /=; last by rewrite subn1; constructor; rewrite /binds leqnn -addSnnS leq_addr.
  by constructor; rewrite ?addn0 // /binds addn0 ltnn andbF.
Qed.

Lemma mx_ext (F : fieldType) m n (A B : 'M[F]_(m, n)) :
  (forall q : 'cV[F]_n, A *m q = B *m q) -> A = B.
Proof.
move=> H; apply/matrixP=> i j; move: (H (delta_mx j 0)).
by rewrite -!colE => /matrixP /(_ i 0); rewrite !mxE.
Qed.

Section Main.
Variable F : fieldType.
Variables dimq dimp : nat.
Notation sysmats := (sysmats F dimq dimp).
Notation cell := (cell F dimq dimp).

Definition cell_of (r : rule F dimq dimp) : cell := Cell r.1.1 r.1.2 r.2.1 r.2.2.
Definition rule_of (c : cell) : rule F dimq dimp := (pm c, pt c, (qm c, qt c)).

(** ---------------- stage 1 and the paths *)
Section Paths.
Variables (sm0 sm : sysmats) (omg : 'M[F]_(dimp, dimq)) (lam : 'M[F]_dimq).
Let c0 := Cell omg 0 lam 0.
Hypothesis nrm : normalise sm0 = Ok sm.
Hypothesis T12 : ursubmx (mT sm0) = 0.
Hypothesis W12 : ursubmx (mW sm0) = 0.
Hypothesis lsol : linear_solution (mS sm0) (mT sm0) omg lam.
Variables l_max k_max : nat.
Variable C : nat -> nat -> cell.
Hypothesis CE : forall l k, (l <= l_max)%N -> (k <= k_max)%N -> ref sm c0 l k = Ok (C l k).

Let NP := normaliseP nrm.
Let B12 l : ursubmx (Bsys sm l) = 0.
Proof. by case: NP => _ _ _ []; rewrite T12 W12 => e1 e2; rewrite /Bsys; case: ifP. Qed.
Let B22 l : drsubmx (Bsys sm l) = 1%:M.
Proof. by case: NP => _ _ [] e1 e2 _; rewrite /Bsys; case: ifP. Qed.

Lemma unc_sys q q' p p' l : (0 < l)%N ->
  unconstrained (mS sm0) (mT sm0) q q' p p' <->
  Asys sm l *m col_mx q' p' = Bsys sm l *m col_mx q p + csys sm l.
Proof.
case: NP => -> _ _ _; rewrite /unconstrained /Asys /Bsys /csys.
by case: l => //= l _; rewrite addr0.
Qed.

Lemma con_sys q q' p p' :
  constrained (mV sm0) (mW sm0) (mh sm0) q q' p p' <->
  Asys sm 0 *m col_mx q' p' = Bsys sm 0 *m col_mx q p + csys sm 0.
Proof. by case: NP => _ -> _ _; rewrite /constrained /Asys /Bsys /csys. Qed.

Lemma lsol_blocks : forall l, (0 < l)%N ->
  ulsubmx (Asys sm l) *m lam + ursubmx (Asys sm l) *m (omg *m lam) = ulsubmx (Bsys sm l) /\
  dlsubmx (Asys sm l) *m lam + drsubmx (Asys sm l) *m (omg *m lam) = dlsubmx (Bsys sm l) + omg.
Proof.
move=> l l0.
have H (q : 'cV[F]_dimq) : ulsubmx (Asys sm l) *m (lam *m q) + ursubmx (Asys sm l) *m (omg *m (lam *m q)) = ulsubmx (Bsys sm l) *m q
  /\ dlsubmx (Asys sm l) *m (lam *m q) + drsubmx (Asys sm l) *m (omg *m (lam *m q))
     = dlsubmx (Bsys sm l) *m q + omg *m q.
  have := lsol q; rewrite (unc_sys _ _ _ _ l0) => /eqn_blocks.
  rewrite B12 B22 mul0mx mul1mx /csys -lt0n l0 usub0 dsub0.
  by rewrite !addr0.
split; apply: mx_ext => q.
  by have [e _] := H q; rewrite mulmxDl -!mulmxA.
by have [_ e] := H q; rewrite !mulmxDl -!mulmxA.
Qed.

Lemma linear_cells l : (l <= l_max)%N -> C l 0 = c0.
Proof.
move=> lm; suff : ref sm c0 l 0 = Ok c0 by rewrite CE // => -[].
elim: l lm => [|l IH] lm //; rewrite /= IH; last exact: ltnW.
have : ref sm c0 l.+1 0 = Ok (C l.+1 0) by rewrite CE.
rewrite /= IH; last exact: ltnW.
rewrite /next /get_lam /=.
have [e1 e2] := lsol_blocks (ltn0Sn l); rewrite /Asys /Bsys /= in e1 e2.
rewrite /nl_inv; case: ifP => //= u _.
have JL : (ulsubmx (mS sm) + ursubmx (mS sm) *m omg) *m lam = ulsubmx (mT sm).
  by rewrite mulmxDl -mulmxA.
rewrite -JL mulKmx // mulmx0 subr0 mulmx0.
rewrite /get_omg /= mulmxDl -mulmxA e2 ?mulmx0 ?addr0 ?subr0.
by rewrite !mulmx0 addrAC subrr add0r.
Qed.

Lemma cell_next l k : (l <= l_max)%N -> (k <= k_max)%N -> (k != 0%N) || (l != 0%N) ->
  next sm l (Ok (C l.-1 (if l != 0%N then k else k.-1))) = Ok (C l k).
Proof.
move=> ll kk lk; rewrite -(CE ll kk) ref_next // CE //.
  exact: leq_trans (leq_pred _) ll.
by case: ifP => // _; exact: leq_trans (leq_pred _) kk.
Qed.

Definition follows_cells l k (q : nat -> 'cV[F]_dimq) (p : nat -> 'cV[F]_dimp) :=
  forall s, let c := C (remaining l k s).1 (remaining l k s).2 in
    p s = pm c *m q s + pt c /\ q s.+1 = qm c *m q s + qt c.

Lemma follows_obeys l k q p : (l <= l_max)%N -> (k <= k_max)%N ->
  follows_cells l k q p ->
  obeys_schedule (mS sm0) (mT sm0) (mV sm0) (mW sm0) (mh sm0) l k q p.
Proof.
move=> ll kk Hf s.
have := remaining_le l k s; have := Hf s.+1; have := Hf s; cbv zeta.
case: (remP l k s) => /=.
- move=> l1 k1 /negbTE -> sl [-> ->] [-> _] [ll1 kk1].
  rewrite (@unc_sys _ _ _ _ l1.+1) //.
  apply: next_solves => //; have := @cell_next l1.+1 k1; apply => //.
  + exact: leq_trans ll.
  + exact: leq_trans kk.
  + by rewrite orbT.
- move=> k1 -> _ [-> ->] [-> _] [ll1 kk1].
  rewrite con_sys; apply: next_solves => //; have := @cell_next 0 k1.+1; apply => //.
  exact: leq_trans kk.
- move=> /negbTE -> _; rewrite linear_cells // /c0 /= => -[-> ->] [-> _] _.
  by rewrite !addr0; apply: lsol.
Qed.

Lemma obeys_follows l k q p : (0 < l_max)%N -> (l <= l_max)%N -> (k <= k_max)%N ->
  obeys_schedule (mS sm0) (mT sm0) (mV sm0) (mW sm0) (mh sm0) l k q p ->
  (forall s, (l + k <= s)%N -> p s = omg *m q s) ->
  follows_cells l k q p.
Proof.
move=> l0 ll kk Ho Hend.
have end_ s : (l + k <= s)%N ->
    let c := C (remaining l k s).1 (remaining l k s).2 in
    p s = pm c *m q s + pt c /\ q s.+1 = qm c *m q s + qt c.
  move=> hs.
  have -> : remaining l k s = (0%N, 0%N).
    case: (remP l k s) => // [l1 k1 _ h|k1 _ /andP[_ h]].
      by move: (leq_trans h (leq_addr k l)); rewrite ltnNge hs.
    by move: h; rewrite ltnNge hs.
  rewrite /= linear_cells //= addr0 Hend //; split=> //.
  have := Ho s; have -> : binds l k s = false by rewrite /binds ltnNge hs andbF.
  rewrite (@unc_sys _ _ _ _ 1) // Hend; last exact: leqW.
  have nx : next sm 1 (Ok c0) = Ok c0.
    by rewrite -{2}(linear_cells l0) -cell_next //= linear_cells.
  rewrite Hend // -[omg *m q s.+1]addr0 => H.
  by have [] := next_unique (B12 1) (B22 1) nx H.
suff G : forall n s, (l + k - s <= n)%N ->
    let c := C (remaining l k s).1 (remaining l k s).2 in
    p s = pm c *m q s + pt c /\ q s.+1 = qm c *m q s + qt c.
  by move=> s; apply: (G (l + k - s)%N).
elim=> [|n IH] s hs; first by apply: end_; rewrite -subn_eq0 -leqn0.
case: (leqP (l + k) s) => h; first exact: end_.
have {IH} [IH _] : p s.+1 = pm (C (remaining l k s.+1).1 (remaining l k s.+1).2) *m q s.+1 +
          pt (C (remaining l k s.+1).1 (remaining l k s.+1).2) /\ True.
  split=> //; apply: (IH s.+1 _).1; rewrite subnS -ltnS.
  by apply: leq_trans hs; rewrite prednK // subn_gt0.
have := Ho s; have := remaining_le l k s; rewrite IH {IH}.
case: (remP l k s) => /=.
- move=> l1 k1 /negbTE -> _ [ll1 kk1].
  rewrite (@unc_sys _ _ _ _ l1.+1) // => H.
  have nx : next sm l1.+1 (Ok (C l1 k1)) = Ok (C l1.+1 k1).
    have := @cell_next l1.+1 k1; apply => //.
    - exact: leq_trans ll.
    - exact: leq_trans kk.
    - by rewrite orbT.
  by have [-> ->] := next_unique (B12 _) (B22 _) nx H.
- move=> k1 -> _ [ll1 kk1]; rewrite con_sys => H.
  have nx : next sm 0 (Ok (C 0 k1)) = Ok (C 0 k1.+1).
    have := @cell_next 0 k1.+1; apply => //; exact: leq_trans kk.
  by have [-> ->] := next_unique (B12 _) (B22 _) nx H.
- by move=> _; rewrite leqNgt h.
Qed.
End Paths.

(** ---------------- stage 2 *)
Section Stage2.
Variable f : cnst F dimq dimp.
Variable t : table cell.
Variables Lm Km : nat.
Variable C : nat -> nat -> cell.
Hypothesis tC : forall l k, (l < Lm)%N -> (k < Km)%N -> t l k = Some (C l k).

Definition ce l k s := C (remaining l k s).1 (remaining l k s).2.

Fixpoint loc_at (l k s : nat) : local F dimq :=
  match s with
  | 0%N => local0 F dimq
  | s'.+1 => let: Local _ la xi := loc_at l k s' in let c := ce l k s' in
             Local s (qm c *m la) (qm c *m xi + qt c)
  end.

Definition val l k s : bcell F dimq :=
  let: Local _ la xi := loc_at l k s in
  (y2r f (ce l k s) *m la, crv f (ce l k s) + (y2r f (ce l k s) *m xi) 0 0).

Lemma loc_s l k s : lo_s (loc_at l k s) = s.
Proof. by case: s => //= s; case: (loc_at l k s). Qed.

Lemma read_ce l k s : (l < Lm)%N -> (k < Km)%N -> t (l_loc l k s) (k_loc l k s) = Some (ce l k s).
Proof.
move=> lL kK; have := lk_locE l k s; case E : (remaining l k s) => [a b] [-> ->].
have := remaining_le l k s; rewrite E /= => -[h1 h2].
rewrite tC; [by rewrite /ce E|exact: leq_ltn_trans lL|exact: leq_ltn_trans kK].
Qed.

Definition valid (i l k : nat) : bool :=
  [&& (i < 5)%N, (i == 1%N) ==> (0 < l)%N & (i == 3%N) ==> (0 < l + k)%N].

Lemma bupdE (b : btable F dimq) i l k v i' l' k' :
  bupd b i l k v i' l' k' = if [&& i' == i, l' == l & k' == k] then Some v else b i' l' k'.
Proof. by rewrite /bupd /tupd; case: (i' == i). Qed.

Lemma pred_eq s n : (s.+1 == n) = (0 < n)%N && (n.-1 == s).
Proof. by case: n => //= n; rewrite eqSS eq_sym. Qed.

Lemma ifbupdE (c : bool) (b : btable F dimq) i l k v i' l' k' :
  (if c then bupd b i l k v else b) i' l' k' =
  if [&& c, i' == i, l' == l & k' == k] then Some v else b i' l' k'.
Proof. by case: c => //=; rewrite bupdE. Qed.

Lemma stage2_stepP l k s b : (l < Lm)%N -> (k < Km)%N ->
  exists2 b', stage2_step f t l k (loc_at l k s, b) = Ok (loc_at l k s.+1, b') &
   forall i l' k', b' i l' k' =
     if [&& l' == l, k' == k, valid i l k & per i l k == s] then Some (val l k s) else b i l' k'.
Proof.
move=> lL kK; rewrite /val /stage2_step /=.
have := loc_s l k s; case: (loc_at l k s) => s1 la xi /= ->.
rewrite read_ce //=.
eexists; first by reflexivity.
move=> i l' k'; set v := (_, _).
rewrite !ifbupdE /valid /per; case: i => [|[|[|[|[|i]]]]] /=; rewrite ?andbF ?andbT /=;
 try by rewrite 1?[_ == s]eq_sym; case: (l' == l); case: (k' == k); rewrite ?andbF ?andbT.
- by rewrite pred_eq; case: (l' == l); case: (k' == k); rewrite ?andbF ?andbT.
- by rewrite pred_eq; case: (l' == l); case: (k' == k); rewrite ?andbF ?andbT.
Qed.

(** sequential inner loop *)
Lemma stage2_inner l k n b : (l < Lm)%N -> (k < Km)%N ->
  exists2 b', foldM (fun st _ => stage2_step f t l k st) (iota 0 n) (local0 F dimq, b) = Ok (loc_at l k n, b') &
   forall i l' k', b' i l' k' =
     if [&& l' == l, k' == k, valid i l k & (per i l k < n)%N] then Some (val l k (per i l k)) else b i l' k'.
Proof.
move=> lL kK.
pose P n (st : local F dimq * btable F dimq) :=
  st.1 = loc_at l k n /\ forall i l' k', st.2 i l' k' =
     if [&& l' == l, k' == k, valid i l k & (per i l k < n)%N] then Some (val l k (per i l k)) else b i l' k'.
have : holds (P (0 + n)%N) (fun _ => False)
     (foldM (fun st _ => stage2_step f t l k st) (iota 0 n) (local0 F dimq, b)).
  apply: (@foldM_iota _ (fun st _ => stage2_step f t l k st) P).
    by split=> // i l' k'; rewrite ltn0 !andbF.
  move=> m [lo b1] _ [e1 E]; have {e1}-> : lo = loc_at l k m := e1; rewrite /= in E.
  have [b' -> E'] := stage2_stepP m b1 lL kK; split=> // i l' k'.
  rewrite /= E' E ltnS [(per _ _ _ <= _)%N]leq_eqVlt.
  case: (l' == l) => //=; case: (k' == k) => //=; case: (valid i l k) => //=.
  by case: eqP => [->|].
rewrite add0n; case: (foldM _ _ _) => //= -[lo b'] [/= -> E]; by exists b'.
Qed.

Definition bfin (i l k : nat) : option (bcell F dimq) :=
  if [&& (l < Lm)%N, (k < Km)%N & valid i l k] then Some (val l k (per i l k)) else None.

Lemma per_lt i l k : (per i l k < l + k + 1)%N.
Proof.
rewrite addn1 ltnS /per.
case: i => [|[|[|[|[|i]]]]] //=; rewrite ?nth_nil ?leq_addr ?leq_pred //.
exact: leq_trans (leq_pred _) (leq_addr _ _).
Qed.

Lemma stage2P : exists2 b, stage2 f t Lm Km = Ok b & forall i l k, b i l k = bfin i l k.
Proof.
pose P l k (b : btable F dimq) := forall i l' k', b i l' k' =
  if [&& (k' < Km)%N, (l' < l)%N || (l' == l) && (k' < k)%N & valid i l' k']
  then Some (val l' k' (per i l' k')) else None.
have : holds (P Lm 0%N) (fun _ => False) (stage2 f t Lm Km).
  apply: foldM_lk.
  - by move=> i l' k'; rewrite !ltn0 andbF andbF.
  - move=> l k b lL kK Pb; rewrite /stage2_body.
    have [b' -> E] := stage2_inner (l + k + 1) b lL kK.
    move=> i l' k'; rewrite /= E Pb per_lt andbT.
    case: (l' =P l) => [->|ne] //=.
    rewrite ltnn /= ltnS [(k' <= _)%N]leq_eqVlt.
    case: (k' =P k) => [->|ne] //=.
    by rewrite kK /= ltnn /=; case: (valid i l k).
  - move=> l b lL Pb i l' k'; rewrite Pb ltn0 andbF orbF ltnS [(l' <= _)%N]leq_eqVlt orbC.
    case: (ltnP k' Km) => kK //=.
    by rewrite andbT.
case: (stage2 f t Lm Km) => //= b Pb; exists b => // i l k.
rewrite Pb /bfin ltn0 andbF orbF.
by case: (k < Km)%N; case: (l < Lm)%N.
Qed.

(** parallel execution *)
Lemma par_stepP l k (cnt : nat -> nat) (loc : nat -> local F dimq) (b b0 : btable F dimq) : (l < Lm)%N -> (k < Km)%N ->
  (forall k', (k' < Km)%N -> loc k' = loc_at l k' (minn (cnt k') (l + k' + 1))) ->
  (forall i l' k', b i l' k' =
     if [&& l' == l, (k' < Km)%N, valid i l k' & (per i l k' < minn (cnt k') (l + k' + 1))%N]
     then Some (val l k' (per i l k')) else b0 i l' k') ->
  exists (loc' : nat -> local F dimq) (b' : btable F dimq), par_step f t l (loc, b) k = Ok (loc', b') /\
   let cnt' := fun k' => (cnt k' + (k' == k))%N in
   (forall k', (k' < Km)%N -> loc' k' = loc_at l k' (minn (cnt' k') (l + k' + 1))) /\
   (forall i l' k', b' i l' k' =
     if [&& l' == l, (k' < Km)%N, valid i l k' & (per i l k' < minn (cnt' k') (l + k' + 1))%N]
     then Some (val l k' (per i l k')) else b0 i l' k').
Proof.
move=> lL kK Hloc Hb; rewrite /par_step Hloc // loc_s.
case: leqP => h.
  have ck : (cnt k <= l + k)%N.
    by move: h; rewrite geq_min => /orP[//|]; rewrite addn1 ltnn.
  have mk : minn (cnt k) (l + k + 1) = cnt k by apply/minn_idPl; rewrite addn1 leqW.
  have mk1 : minn (cnt k + 1) (l + k + 1) = (cnt k).+1.
    by rewrite -[in RHS]addn1; apply/minn_idPl; rewrite leq_add2r.
  rewrite mk; have [b' -> E] := stage2_stepP (cnt k) b lL kK.
  eexists; exists b'; split; first by reflexivity.
  split=> [k' kK'|i l' k']; rewrite /=.
    case: (k' =P k) => [->|_]; first by rewrite mk1.
    by rewrite addn0 Hloc.
  rewrite E Hb; case: (l' =P l) => //= _.
  case: (k' =P k) => [->|_] //=; last by rewrite addn0.
  rewrite kK mk mk1 ltnS [(per _ _ _ <= _)%N]leq_eqVlt /=.
  case: (valid i l k) => //=; by case: eqP => [->|].
have ck : (l + k + 1 <= cnt k)%N.
  by move: h; rewrite leq_min addn1 => /andP[].
exists loc, b; split=> //.
have mE k' : minn (cnt k' + (k' == k)) (l + k' + 1) = minn (cnt k') (l + k' + 1).
  case: (k' =P k) => [->|_]; last by rewrite addn0.
  by rewrite !(minn_idPr _) // (leq_trans ck) // leq_addr.
by split=> [k' kK'|i l' k']; rewrite mE ?Hloc ?Hb.
Qed.

Lemma par_foldP l (b0 : btable F dimq) (sched : seq nat) : (l < Lm)%N -> all (fun k => (k < Km)%N) sched ->
  forall (cnt : nat -> nat) (loc : nat -> local F dimq) (b : btable F dimq),
  (forall k', (k' < Km)%N -> loc k' = loc_at l k' (minn (cnt k') (l + k' + 1))) ->
  (forall i l' k', b i l' k' =
     if [&& l' == l, (k' < Km)%N, valid i l k' & (per i l k' < minn (cnt k') (l + k' + 1))%N]
     then Some (val l k' (per i l k')) else b0 i l' k') ->
  exists (loc' : nat -> local F dimq) (b' : btable F dimq), foldM (par_step f t l) sched (loc, b) = Ok (loc', b') /\
   let cnt' := fun k' => (cnt k' + count_mem k' sched)%N in
   (forall i l' k', b' i l' k' =
     if [&& l' == l, (k' < Km)%N, valid i l k' & (per i l k' < minn (cnt' k') (l + k' + 1))%N]
     then Some (val l k' (per i l k')) else b0 i l' k').
Proof.
move=> lL; elim: sched => [|k sched IH] => [_|al0] cnt loc b Hloc Hb.
  by exists loc, b; split=> //= i l' k'; rewrite Hb addn0.
have /andP[kK al] : (k < Km)%N && all (fun k => (k < Km)%N) sched := al0.
have fc st : foldM (par_step f t l) (k :: sched) st = rbind (par_step f t l st k) (foldM (par_step f t l) sched) by [].
rewrite fc {fc}.
have [loc1 [b1 [-> [H1 H2]]]] := par_stepP lL kK Hloc Hb.
have [loc2 [b2 [E H3]]] := IH al _ _ _ H1 H2; rewrite [rbind _ _]E.
exists loc2, b2; split=> //= i l' k'; rewrite H3 /=.
by rewrite -addnA [k' == k]eq_sym.
Qed.

Lemma stage2_parP sched :
  (forall l, (l < Lm)%N -> all (fun k => (k < Km)%N) (sched l)) ->
  (forall l k, (l < Lm)%N -> (k < Km)%N -> (l + k + 1 <= count_mem k (sched l))%N) ->
  exists2 b, stage2_par f t sched Lm = Ok b & forall i l k, b i l k = bfin i l k.
Proof.
move=> Hall Hcnt.
pose P l (b : btable F dimq) := forall i l' k', b i l' k' =
  if [&& (l' < l)%N, (k' < Km)%N & valid i l' k'] then Some (val l' k' (per i l' k')) else None.
have : holds (P (0 + Lm)%N) (fun _ => False) (stage2_par f t sched Lm).
  apply: (@foldM_iota _ _ P) => // l b /andP[_ lL] Pb.
  rewrite add0n in lL; rewrite /par_l.
  have [||loc' [b' [-> H]]] := @par_foldP l b (sched l) lL (Hall l lL) (fun _ => 0%N) (fun _ => local0 F dimq) b.
  - by move=> k' _; rewrite min0n.
  - by move=> i l' k'; rewrite min0n ltn0 !andbF.
  move=> i l' k'; rewrite /= H Pb ltnS [(l' <= l)%N]leq_eqVlt.
  case: (l' =P l) => [->|ne] //=.
  rewrite ltnn /=; case: (ltnP k' Km) => kK //=.
  case: (valid i l k') => //=.
  rewrite add0n (minn_idPr _) ?per_lt //; exact: Hcnt.
rewrite add0n; case: (stage2_par _ _ _ _) => //= b Pb; exists b => // i l k.
Qed.

(** trajectories *)
Lemma tstepP l k s b : (l < Lm)%N -> (k < Km)%N ->
  exists2 b', tstep f t l k (loc_at l k s, b) = Ok (loc_at l k s.+1, b') &
   forall i l' k', b' i l' k' =
     if [&& l' == l, k' == k & i == s] then Some (val l k s) else b i l' k'.
Proof.
move=> lL kK; rewrite /val /tstep /=.
have := loc_s l k s; case: (loc_at l k s) => s1 la xi /= ->.
rewrite read_ce //=.
eexists; first by reflexivity.
move=> i l' k'; rewrite bupdE.
by case: (i == s); case: (l' == l); case: (k' == k).
Qed.

Lemma tmatsP n :
  exists2 b, foldM (fun b lk => let: (l, k) := lk in
               rmap snd (foldM (fun st _ => tstep f t l k st) (iota 0 n) (local0 F dimq, b)))
              (lk_range Lm Km) (empty_btable F dimq) = Ok b &
   forall i l k, b i l k = if [&& (l < Lm)%N, (k < Km)%N & (i < n)%N] then Some (val l k i) else None.
Proof.
pose P l k (b : btable F dimq) := forall i l' k', b i l' k' =
  if [&& (k' < Km)%N, (l' < l)%N || (l' == l) && (k' < k)%N & (i < n)%N]
  then Some (val l' k' i) else None.
set r := foldM _ _ _.
have : holds (P Lm 0%N) (fun _ => False) r.
  apply: foldM_lk.
  - by move=> i l' k'; rewrite !ltn0 andbF andbF.
  - move=> l k b lL kK Pb.
    pose P' m (st : local F dimq * btable F dimq) :=
      st.1 = loc_at l k m /\ forall i l' k', st.2 i l' k' =
       if [&& l' == l, k' == k & (i < m)%N] then Some (val l k i) else b i l' k'.
    have : holds (P' (0 + n)%N) (fun _ => False)
       (foldM (fun st _ => tstep f t l k st) (iota 0 n) (local0 F dimq, b)).
      apply: (@foldM_iota _ (fun st _ => tstep f t l k st) P').
        by split=> // i l' k'; rewrite ltn0 !andbF.
      move=> m [lo b1] _ [e1 E]; have {e1}-> : lo = loc_at l k m := e1; rewrite /= in E.
      have [b' -> E'] := tstepP m b1 lL kK; split=> // i l' k'.
      rewrite /= E' E ltnS [(i <= _)%N]leq_eqVlt.
      case: (l' == l) => //=; case: (k' == k) => //=.
      by case: eqP => [->|].
    rewrite add0n; case: (foldM _ _ _) => //= -[lo b'] [/= _ E] i l' k'.
    rewrite E Pb; case: (l' =P l) => [->|ne] //=.
    rewrite ltnn /= ltnS [(k' <= _)%N]leq_eqVlt.
    case: (k' =P k) => [->|ne] //=.
    by rewrite kK /= ltnn /=; case: (i < n)%N.
  - move=> l b lL Pb i l' k'; rewrite Pb ltn0 andbF orbF ltnS [(l' <= _)%N]leq_eqVlt orbC.
    case: (ltnP k' Km) => kK //=.
    by rewrite andbT.
case: r => //= b Pb; exists b => // i l k.
rewrite Pb ltn0 andbF orbF.
by case: (k < Km)%N; case: (l < Lm)%N.
Qed.

(** values are the notional rate *)
Lemma follows_loc l k q p s : follows_cells C l k q p ->
  q s = lo_lam (loc_at l k s) *m q 0%N + lo_xi (loc_at l k s).
Proof.
move=> Hf; elim: s => [|s IH] /=; first by rewrite mul1mx addr0.
have [_ ->] := Hf s; rewrite IH -/(ce l k s); case: (loc_at l k s) => ? la xi /=.
by rewrite mulmxDr mulmxA addrA.
Qed.

Lemma val_notional l k q p s : follows_cells C l k q p ->
  ((val l k s).1 *m q 0%N) 0 0 + (val l k s).2 = notional (fq1 f) (fp1 f) (fq0 f) q p s.
Proof.
move=> Hf; rewrite /val /notional; have := follows_loc s Hf.
have [-> ->] := Hf s; rewrite -/(ce l k s); set c := ce l k s.
case: (loc_at l k s) => ? la xi /= Eq.
have -> (x y z : 'M[F]_1) : x 0 0 + (y 0 0 + z 0 0) = (x + y + z) 0 0 by rewrite !mxE addrA.
congr (fun_of_matrix _ 0 0).
rewrite addrAC -mulmxA -mulmxDr -Eq /y2r !mulmxDl !mulmxDr !mulmxA.
set X := fp1 f *m pm c *m q s; set Y := fq1 f *m qm c *m q s; set Z := fq0 f *m q s.
set U := fp1 f *m pt c; set V := fq1 f *m qt c.
by rewrite [RHS]addrC [X + Y + Z]addrC -!addrA; congr (Z + (X + _)); rewrite addrCA.
Qed.
End Stage2.
End Main.
