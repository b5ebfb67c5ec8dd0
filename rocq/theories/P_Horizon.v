(** Longer horizons: the tables only grow, and the search keeps its results or finds an earlier pair. *)
Set Warnings "-all".
From mathcomp Require Import all_ssreflect all_algebra.
From Verif Require Import PyBase P_Loops M_Engine M_FindLk S_Engine S_FindLk P_FindLk P_Engine P_Engine2 P_Engine3 P_Engine4.
Set Implicit Arguments. Unset Strict Implicit. Unset Printing Implicit Defensive.
Import GRing.Theory Num.Theory Order.TTheory.
Local Open Scope ring_scope.

Section Tables.
Variable F : fieldType.
Variables dimq dimp : nat.
Variables (sm0 : sysmats F dimq dimp) (f : cnst F dimq dimp).
Variables (omg : 'M[F]_(dimp, dimq)) (lam : 'M[F]_dimq).
Let c0 := Cell omg 0 lam 0.

Lemma stage1_ok sm Lm Km : (0 < Km)%N ->
  holds (fun t => forall l k, (l < Lm)%N -> (k < Km)%N -> exists2 c, t l k = Some c & ref sm c0 l k = Ok c)
        (fun e => exists l k, [/\ (l < Lm)%N, (k < Km)%N & ref sm c0 l k = Err e]) (stage1 sm omg lam Lm Km).
Proof.
move=> Km0.
pose P l k (t : table (cell F dimq dimp)) := forall l' k', done Km l k l' k' ->
   exists2 c, t l' k' = Some c & ref sm c0 l' k' = Ok c.
suff : holds (P Lm 0%N) (fun e => exists l k, [/\ (l < Lm)%N, (k < Km)%N & ref sm c0 l k = Err e]) (stage1 sm omg lam Lm Km).
  case: (stage1 _ _ _ _ _) => //= t Pt l k lL kK; apply: Pt.
  by rewrite /done lL kK.
apply: foldM_lk.
- move=> l' k'; rewrite /done /= andbF /= => /andP[/andP[/eqP -> /eqP ->] _].
  by exists c0.
- move=> l k t lL kK Pt /=.
  case: ifP => lk; last first.
    move=> /= l' k' D; apply: Pt; move: D; rewrite /done.
    move/negbT: lk; rewrite negb_or !negbK => /andP[/eqP -> /eqP ->].
    by rewrite !ltn0 /= andbF /= ltnS; case: k' => [|k']; case: (l' == 0%N).
  set kl := if _ then k else _.
  have [c Ec Rc] : exists2 c, t l.-1 kl = Some c & ref sm c0 l.-1 kl = Ok c.
    apply: Pt; rewrite /done /kl; case: (l) lk => [|l1] /=; last by rewrite ltnSn /= kK.
    rewrite orbF => k0; case: (k) k0 kK => // k1 _ kK' /=.
    by rewrite ltnS leqnn (ltnW kK').
  rewrite Ec /=.
  have Rn : ref sm c0 l k = next sm l (Ok c).
    by rewrite ref_next // -/kl Rc.
  rewrite /next /= in Rn.
  case G : (get_lam _ _ _ _) Rn => [lx|e] Rn /=; last by exists l, k.
  move=> /= l' k' D; rewrite /tupd.
  case: ifP => [/andP[/eqP -> /eqP ->]|ne].
    by exists (Cell (get_omg (pm c) (pt c) lx.1 lx.2 sm l).1
                  (get_omg (pm c) (pt c) lx.1 lx.2 sm l).2 lx.1 lx.2).
  apply: Pt; move: D; rewrite /done => /andP[D ->]; rewrite andbT.
  case/or3P: D => [->//| /andP[/eqP e]| ->]; last by rewrite !orbT.
  rewrite ltnS leq_eqVlt => /orP[/eqP e'|->]; last by rewrite e eqxx /= orbT.
  by rewrite e e' !eqxx in ne.
- move=> l t lL Pt l' k' D; apply: Pt; move: D; rewrite /done ltnS => /andP[D kK]; rewrite kK andbT.
  case/or3P: D => [|/andP[_] //| ->]; last by rewrite !orbT.
  by rewrite leq_eqVlt => /orP[/eqP -> |->//]; rewrite eqxx /= orbT.
Qed.

Lemma tables_agree l_max k_max l_max' k_max' t' b' : (l_max <= l_max')%N -> (k_max <= k_max')%N ->
  preprocess sm0 f omg lam l_max' k_max' = Ok (t', b') ->
  exists t b, preprocess sm0 f omg lam l_max k_max = Ok (t, b) /\
    forall l k, (l <= l_max)%N -> (k <= k_max)%N -> t l k = t' l k /\ forall i, b i l k = b' i l k.
Proof.
move=> hl hk pre'; have Hl l : (l <= l_max)%N -> (l <= l_max')%N by move=> h; exact: leq_trans h hl.
have Hk k : (k <= k_max)%N -> (k <= k_max')%N by move=> h; exact: leq_trans h hk.
 have [sm [E0 E1 E2]] := preprocess_inv pre'.
have [rules' st'] := preprocess_complete pre'.
have R' := stored_ref E1 st'.
rewrite /preprocess E0 /=; have := @stage1_ok sm l_max.+1 k_max.+1 isT.
case E: (stage1 _ _ _ _ _) => [t|e] /=; last first.
  move=> [l [k [ll kk]]]; have [_] := R' l k (Hl _ ll) (Hk _ kk).
  by rewrite /c0 => ->.
move=> H.
have tt l k : (l <= l_max)%N -> (k <= k_max)%N -> t l k = t' l k.
  move=> ll kk; have [c -> e] := H l k ll kk; have [-> e'] := R' l k (Hl _ ll) (Hk _ kk).
  by move: e; rewrite /c0 e' => -[->].
have tC l k : (l < l_max.+1)%N -> (k < k_max.+1)%N -> t l k = Some (cell_of (rules' l k)).
  by move=> ll kk; rewrite tt //; have [->] := R' l k (Hl _ ll) (Hk _ kk).
have tC' l k : (l < l_max'.+1)%N -> (k < k_max'.+1)%N -> t' l k = Some (cell_of (rules' l k)).
  by move=> ll kk; have [->] := R' l k ll kk.
have [b Eb hb] := stage2P f tC; have [b1 Eb1 hb1] := stage2P f tC'.
move: Eb1; rewrite E2 => -[eb]; rewrite Eb /=; exists t, b; split=> // l k ll kk; split; first exact: tt.
by move=> i; rewrite hb eb hb1 /bfin !ltnS ll kk (Hl _ ll) (Hk _ kk).
Qed.
End Tables.

Section Search.
Variable F : realFieldType.
Variables dimq dimp : nat.
Variables (sm : sysmats F dimq dimp) (f : cnst F dimq dimp).
Variables (omg : 'M[F]_(dimp, dimq)) (lam : 'M[F]_dimq).
Hypothesis T12 : ursubmx (mT sm) = 0.
Hypothesis W12 : ursubmx (mW sm) = 0.
Hypothesis lsol : linear_solution (mS sm) (mT sm) omg lam.
Notation ann := (announced (mS sm) (mT sm) (mV sm) (mW sm) (mh sm) omg).
Notation non := (notional_on (mS sm) (mT sm) (mV sm) (mW sm) (mh sm) omg (fq1 f) (fp1 f) (fq0 f)).

Lemma longer l_max k_max l_max' k_max' t b t' b' q0 N xb l k :
  preprocess sm f omg lam l_max k_max = Ok (t, b) -> preprocess sm f omg lam l_max' k_max' = Ok (t', b') ->
  (l_max <= l_max')%N -> (k_max <= k_max')%N -> (0 < k_max)%N -> (l_max' < 999)%N -> non l_max' k_max' q0 N ->
  find_lk (check_cnst b l_max.+1 k_max.+1 q0) xb l_max.+1 k_max.+1 = Ok (l, k, 0%N) -> (0 < k)%N ->
  exists l' k', find_lk (check_cnst b' l_max'.+1 k_max'.+1 q0) xb l_max'.+1 k_max'.+1 = Ok (l', k', 0%N) /\
     ((l', k') = (l, k) \/ (l' < l)%N /\ (k_max < k')%N).
Proof.
move=> pre pre' hl hk k0 l9 NE E kp.
have NE1 : non l_max k_max q0 N.
  by move=> l1 k1 q p ll kk; apply: NE; [exact: leq_trans ll hl|exact: leq_trans kk hk].
have l9' : (l_max < 999)%N by exact: leq_ltn_trans hl l9.
have [ll kk a fa] := c06' pre T12 W12 lsol NE1 k0 l9' E kp.
have k0' : (0 < k_max')%N by exact: leq_trans hk.
have ht : exists s, (s <= l_max')%N /\ N 0%N 0%N s <= xb.
  case: (hitP l_max N xb) => [[s [sl h]]|sl]; first by exists s; split=> //; exact: leq_trans sl hl.
  by have [e _] := c05 pre T12 W12 lsol NE1 k0 l9' E; move/e: sl => e0; rewrite e0 in kp.
have ll' : (l <= l_max')%N by exact: leq_trans hl.
have kk' : (k <= k_max')%N by exact: leq_trans hk.
have [|l' [k' [E' [lL kK a' fa']]]] := c06 pre' T12 W12 lsol NE k0' l9 ht; first by exists l, k.
exists l', k'; split=> //.
case: (ltngtP l' l) => hl'.
- case: (leqP k' k_max) => hk'; last by right.
  by case: (fa l' k') => //; [exact: ltn_trans hl' ll|left].
- by case: (fa' l k) => //; left.
- rewrite hl' in a' fa' *; case: (ltngtP k' k) => hk'.
  + by case: (fa l k') => //; [exact: ltn_trans hk' kk|right].
  + by case: (fa' l k) => //; right.
  + by left; rewrite hk'.
Qed.

Lemma longer_slack l_max k_max k_max' t b t' b' q0 N xb l flag :
  preprocess sm f omg lam l_max k_max = Ok (t, b) -> preprocess sm f omg lam l_max k_max' = Ok (t', b') ->
  (k_max <= k_max')%N -> (0 < k_max)%N -> (l_max < 999)%N -> non l_max k_max' q0 N ->
  find_lk (check_cnst b l_max.+1 k_max.+1 q0) xb l_max.+1 k_max.+1 = Ok (l, 0%N, flag) ->
  [/\ l = 0%N, flag = 0%N & find_lk (check_cnst b' l_max.+1 k_max'.+1 q0) xb l_max.+1 k_max'.+1 = Ok (0%N, 0%N, 0%N)].
Proof.
move=> pre pre' hk k0 l9 NE E.
have NE1 : non l_max k_max q0 N by move=> l1 k1 q p ll kk; apply: NE => //; exact: leq_trans kk hk.
have [e1 e2] := c05 pre T12 W12 lsol NE1 k0 l9 E.
have sl := proj1 e1 erefl; have [-> ->] := e2 sl; split=> //.
exact: (search0_slack pre' T12 W12 lsol NE).
Qed.

Lemma ann_shift l k q p s : ann l k q p -> ann (remaining l k s).1 (remaining l k s).2 (fun i => q (s + i)%N) (fun i => p (s + i)%N).
Proof.
move=> [H1 H2]; split.
  move=> i; have := H1 (s + i)%N; rewrite addnS.
  suff -> : binds l k (s + i) = binds (remaining l k s).1 (remaining l k s).2 i by [].
  rewrite /binds /remaining; case: (leqP s l) => h /=.
    by rewrite leq_subLR -{2}(subnKC h) -addnA ltn_add2l.
  rewrite add0n /= (leq_trans (ltnW h) (leq_addr _ _)) /=.
  by rewrite -{1}(subnKC (ltnW h)) -addnA ltn_add2l ltn_subRL.
move=> i hi; apply: H2; move: hi; rewrite /remaining; case: (leqP s l) => h /=.
  by rewrite -{2}(subnKC h) -addnA leq_add2l.
by rewrite add0n leq_subLR addnC => /(leq_add (leqnn l)); rewrite addnC addnA [(l + i)%N]addnC -addnA subnKC ?(ltnW h) // addnC [(s + i)%N]addnC.
Qed.
End Search.
