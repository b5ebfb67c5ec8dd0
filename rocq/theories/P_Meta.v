(** Scaling the bound, the states and the shocks. *)
Set Warnings "-all".
From Coq Require Import String.
From mathcomp Require Import all_ssreflect all_algebra.
From Verif Require Import PyBase PyStr P_Loops M_FindLk M_Engine S_Engine M_GenSys M_Tools S_Tools P_Tools S_Meta.
Set Implicit Arguments. Unset Strict Implicit. Unset Printing Implicit Defensive.
Import GRing.Theory Num.Theory Order.TTheory.
Local Open Scope ring_scope.

(** two computations related by [R]: both succeed with related results, or both raise the same exception *)
Definition rrel (A B : Type) (R : A -> B -> Prop) (x : res A) (y : res B) : Prop :=
  match x, y with Ok a, Ok b => R a b | Err e, Err e' => e = e' | _, _ => False end.

Lemma rbind_rel A B A' B' (R : A -> B -> Prop) (R' : A' -> B' -> Prop) x y f g :
  rrel R x y -> (forall a b, R a b -> rrel R' (f a) (g b)) -> rrel R' (rbind x f) (rbind y g).
Proof. by case: x => [a|e]; case: y => [b|e'] //= h H; apply: H. Qed.

Lemma foldM_rel S S' X (R : S -> S' -> Prop) f g (xs : list X) s s' :
  R s s' -> (forall a b x, R a b -> rrel R (f a x) (g b x)) -> rrel R (foldM f xs s) (foldM g xs s').
Proof.
move=> + H; elim: xs s s' => [|x xs IH] s s' //= h.
by have := H _ _ x h; case: (f s x) => [a|e]; case: (g s' x) => [b|e'] //=; apply: IH.
Qed.

Section Tables.
Variable F : fieldType.
Variables dimq dimp : nat.
Variable c : F.

Definition scell (a b : cell F dimq dimp) : Prop :=
  [/\ pm b = pm a, qm b = qm a, pt b = c *: pt a & qt b = c *: qt a].
Definition stab (A B : Type) (R : A -> B -> Prop) (t : table A) (t' : table B) : Prop :=
  forall l k, match t l k, t' l k with Some a, Some b => R a b | None, None => True | _, _ => False end.
Definition sbc (a b : bcell F dimq) : Prop := b.1 = a.1 /\ b.2 = c * a.2.
Definition sbt (b b' : btable F dimq) : Prop := forall i, stab sbc (b i) (b' i).
Definition ssm (a b : sysmats F dimq dimp) : Prop :=
  [/\ mS b = mS a, mT b = mT a, mV b = mV a, mW b = mW a & mh b = c *: mh a].

Lemma stab_of_opt A B (R : A -> B -> Prop) t t' l k : stab R t t' ->
  rrel R (of_opt UninitRead (t l k)) (of_opt UninitRead (t' l k)).
Proof. by move/(_ l k); case: (t l k) => [a|]; case: (t' l k) => [b|]. Qed.

Lemma stab_upd A B (R : A -> B -> Prop) t t' l k a b : stab R t t' -> R a b -> stab R (tupd t l k a) (tupd t' l k b).
Proof. by move=> h r l' k'; rewrite /tupd; case: ifP => // _; apply: h. Qed.

Lemma bupd_rel b b' i l k u v : sbt b b' -> sbc u v -> sbt (bupd b i l k u) (bupd b' i l k v).
Proof. by move=> h r i'; rewrite /bupd; case: ifP => _; [apply: stab_upd|apply: h]. Qed.

Lemma normalise_rel sm sm' : ssm sm sm' -> rrel ssm (normalise sm) (normalise sm').
Proof.
case=> e1 e2 e3 e4 e5; rewrite /normalise e1 e2 e3 e4 e5.
case: (nl_inv _) => //= T22i; case: (nl_inv _) => //= W22i; split=> //=.
by rewrite [usubmx _]linearZ [dsubmx _]linearZ /= -scalemxAr scale_col_mx.
Qed.

Lemma get_lam_rel a b sm sm' l : scell a b -> ssm sm sm' ->
  rrel (fun x y => y.1 = x.1 /\ y.2 = c *: x.2) (get_lam (pm a) (pt a) sm l) (get_lam (pm b) (pt b) sm' l).
Proof.
case=> e1 e2 e3 e4 [s1 s2 s3 s4 s5]; rewrite /get_lam e1 s1 s2 s3 s4 s5 e3.
case: (nl_inv _) => //= inv; split=> //.
rewrite scalemxAr scalerBr -!scalemxAr; congr (_ *m (_ - _)).
by case: ifP => _; rewrite ?scaler0 // linearZ.
Qed.

Lemma get_omg_rel a b sm sm' l lam xi xi' : scell a b -> ssm sm sm' -> xi' = c *: xi ->
  let u := get_omg (pm a) (pt a) lam xi sm l in let v := get_omg (pm b) (pt b) lam xi' sm' l in
  v.1 = u.1 /\ v.2 = c *: u.2.
Proof.
case=> e1 e2 e3 e4 [s1 s2 s3 s4 s5] ->; rewrite /get_omg /= e1 s1 s2 s3 s4 s5 e3; split=> //.
rewrite -!scalemxAr scalerBr scalerDr; congr (_ - _).
by case: ifP => _; rewrite ?scaler0 // linearZ.
Qed.

Lemma stage1_rel sm sm' omg lam Lm Km : ssm sm sm' -> rrel (stab scell) (stage1 sm omg lam Lm Km) (stage1 sm' omg lam Lm Km).
Proof.
move=> hs; apply: foldM_rel.
  by apply: stab_upd => //; split; rewrite //= scaler0.
move=> t t' [l k] ht /=; case: ifP => _ //.
apply: (rbind_rel (R := scell)); first exact: stab_of_opt.
move=> a b ab; apply: rbind_rel; first exact: (get_lam_rel l ab hs).
move=> [x1 x2] [y1 y2] /= [-> h2]; have [h3 h4] := get_omg_rel l x1 ab hs h2.
by apply: stab_upd => //; split; rewrite //= ?h3 ?h4.
Qed.

Definition slo (a b : local F dimq * btable F dimq) : Prop :=
  [/\ lo_s b.1 = lo_s a.1, lo_lam b.1 = lo_lam a.1, lo_xi b.1 = c *: lo_xi a.1 & sbt a.2 b.2].

Lemma val_rel f a b (lam : 'M[F]_dimq) (xi : 'cV[F]_dimq) : scell a b ->
  sbc (y2r f a *m lam, crv f a + (y2r f a *m xi) 0 0) (y2r f b *m lam, crv f b + (y2r f b *m (c *: xi)) 0 0).
Proof.
case=> e1 e2 e3 e4; rewrite /sbc /y2r /crv /= e1 e2 e3 e4; split=> //.
rewrite -!scalemxAr -scalerDr; set x := _ + _ : 'M_(_); set y := _ *m _ : 'M_(_).
by rewrite [in LHS]mxE [X in _ + X = _]mxE mulrDr.
Qed.

Lemma stage2_step_rel f t t' l k a b : stab scell t t' -> slo a b -> rrel slo (stage2_step f t l k a) (stage2_step f t' l k b).
Proof.
move=> ht; case: a b => [[s lam xi] ba] [[s' lam' xi'] bb] [/= -> -> -> hb].
apply: (rbind_rel (R := scell)); first exact: stab_of_opt.
move=> u v uv; have V := val_rel f lam xi uv; split=> //=; first by case: uv => _ -> _ _.
- by case: uv => _ -> _ ->; rewrite scalerDr -scalemxAr.
- have U i b1 b2 (cond : bool) : sbt b1 b2 ->
    sbt (if cond then bupd b1 i l k (y2r f u *m lam, crv f u + (y2r f u *m xi) 0 0) else b1)
        (if cond then bupd b2 i l k (y2r f v *m lam, crv f v + (y2r f v *m (c *: xi)) 0 0) else b2).
    by move=> h; case: cond => //; apply: bupd_rel.
  by do 5 apply: (U).
Qed.

Lemma stage2_rel f t t' Lm Km : stab scell t t' -> rrel sbt (stage2 f t Lm Km) (stage2 f t' Lm Km).
Proof.
move=> ht; apply: foldM_rel => // b b' [l k] hb /=.
apply: (rbind_rel (R := slo)); last by move=> x y [].
apply: foldM_rel => [|x y _]; last exact: stage2_step_rel.
by split=> //=; rewrite scaler0.
Qed.

Lemma preprocess_rel sm sm' f omg lam l_max k_max : ssm sm sm' ->
  rrel (fun x y => stab scell x.1 y.1 /\ sbt x.2 y.2) (preprocess sm f omg lam l_max k_max) (preprocess sm' f omg lam l_max k_max).
Proof.
move=> h; apply: (rbind_rel (R := ssm)); first exact: normalise_rel.
move=> s s' hs; apply: rbind_rel; first exact: (stage1_rel _ _ _ _ hs).
move=> t t' ht; apply: rbind_rel; first exact: (stage2_rel _ _ _ ht).
by move=> b b' hb.
Qed.

Lemma check_rel b b' Lm Km q s l k : sbt b b' ->
  check_cnst b' Lm Km (c *: q) s l k = rmap (fun x => c * x) (check_cnst b Lm Km q s l k).
Proof.
move=> h; rewrite /check_cnst; case: ifP => // _; have := h s l k.
case: (b s l k) => [u|]; case: (b' s l k) => [v|] //= [-> ->].
by rewrite -scalemxAr mxE mulrDr.
Qed.
End Tables.

Section Search.
Variable F : realFieldType.
Variables (c : F) (c0 : 0 < c).
Variables (chk chk' : nat -> nat -> nat -> res F).
Hypothesis hc : forall s l k, chk' s l k = rmap (fun x => c * x) (chk s l k).

Lemma sc_gt x y : (0 < c * x - c * y) = (0 < x - y).
Proof. by rewrite -mulrBr pmulr_rgt0. Qed.
Lemma sc_lt x y : (c * x - c * y < 0) = (x - y < 0).
Proof. by rewrite -mulrBr pmulr_rlt0. Qed.

Variables (xb : F) (Lm Km : nat).

Lemma scan_linear_sc fuel l : scan_linear chk' (c * xb) Lm fuel l = scan_linear chk xb Lm fuel l.
Proof.
by elim: fuel l => //= n IH l; rewrite hc; case: (chk 2 l 0) => //= x; rewrite sc_gt; case: ifP => // _; case: ifP.
Qed.

Lemma brute_body_sc l k : brute_body chk' (c * xb) l k = brute_body chk xb l k.
Proof.
rewrite /brute_body !hc; case: (l != 0%N) => /=.
  case: (chk 0 l k) => //= a0; rewrite sc_lt; case: ifP => // _.
  case: (1 < l)%N => /=; [case: (chk 1 l k) => //= a1; rewrite sc_lt; case: ifP => // _|];
  case: (chk 4 l k) => //= a4; rewrite sc_lt; case: ifP => // _;
  case: (chk 2 l k) => //= a2; rewrite sc_gt; case: ifP => // _;
  by case: (1 < k)%N => //=; case: (chk 3 l k) => //= a3; rewrite sc_gt.
  case: (1 < l)%N => /=; [case: (chk 1 l k) => //= a1; rewrite sc_lt; case: ifP => // _|];
  case: (chk 4 l k) => //= a4; rewrite sc_lt; case: ifP => // _;
  case: (chk 2 l k) => //= a2; rewrite sc_gt; case: ifP => // _;
  by case: (1 < k)%N => //=; case: (chk 3 l k) => //= a3; rewrite sc_gt.
Qed.

Lemma brute_k_sc l ks : brute_k chk' (c * xb) l ks = brute_k chk xb l ks.
Proof. by elim: ks => //= k ks IH; rewrite brute_body_sc IH. Qed.

Lemma brute_l_sc ls : brute_l chk' (c * xb) Km ls = brute_l chk xb Km ls.
Proof. by elim: ls => //= l ls IH; rewrite brute_k_sc; case: brute_k => //= -[] //; rewrite IH. Qed.

Lemma approx_sc fuel k lt : approx chk' (c * xb) Km fuel k lt = approx chk xb Km fuel k lt.
Proof.
elim: fuel k lt => //= n IH k lt; rewrite hc; case: (chk 4 0 k.+1) => //= a; rewrite sc_lt sc_gt.
by case: lt => /=; case: ifP => // _; rewrite ?IH //; case: ifP.
Qed.

Lemma find_lk_sc : find_lk chk' (c * xb) Lm Km = find_lk chk xb Lm Km.
Proof.
by rewrite /find_lk scan_linear_sc approx_sc /bruite_wrapper brute_l_sc.
Qed.
End Search.

Section TFunc.
Variable F : realFieldType.
Variables (c : F) (c0 : 0 < c).

Lemma size_scale v : size (scale c v) = size v. Proof. exact: size_map. Qed.
Lemma scale_cat u v : scale c (u ++ v) = scale c u ++ scale c v. Proof. exact: map_cat. Qed.
Lemma scale_drop n v : scale c (drop n v) = drop n (scale c v). Proof. exact: map_drop. Qed.
Lemma scale_take n v : scale c (take n v) = take n (scale c v). Proof. exact: map_take. Qed.
Lemma scale_from i v : py_from i (scale c v) = scale c (py_from i v).
Proof. by case: i => n /=; rewrite scale_drop ?size_scale. Qed.
Lemma scale_to i v : py_to i (scale c v) = scale c (py_to i v).
Proof. by case: i => n /=; rewrite scale_take ?size_scale. Qed.
Lemma scale_nseq n : scale c (nseq n 0) = nseq n 0.
Proof. by rewrite /scale map_nseq mulr0. Qed.
Lemma col_of_scale n v : col_of n (scale c v) = c *: col_of n v.
Proof.
apply/matrixP=> i j; rewrite !mxE; case: (ltnP i (size v)) => h; first by rewrite (nth_map 0).
by rewrite !nth_default ?size_scale // mulr0.
Qed.
Lemma seq_of_scale n (v : 'cV[F]_n) : seq_of (c *: v) = scale c (seq_of v).
Proof. by rewrite /seq_of /scale -map_comp; apply: eq_map => i /=; rewrite mxE. Qed.

Variables (m : tmodel F) (t' : table (cell F (dq m) (dp m))) (b' : btable F (dq m)).
Let m' := with_bound t' b' (c * xb m).
Hypothesis ht : stab (scell c) (tab m) t'.
Hypothesis hb : sbt c (btab m) b'.

Lemma t_func_sc st sh sk lin : t_func m' (scale c st) (omap (scale c) sh) sk lin = scale_out c (t_func m st sh sk lin).
Proof.
rewrite /t_func /t_func_raw; case: (decode sk lin) => l k.
have -> : odflt (nseq (neps m') 0) (omap (scale c) sh) = scale c (odflt (nseq (neps m) 0) sh).
  by case: sh => [sh|] //=; rewrite scale_nseq.
set s := odflt _ sh.
rewrite (_ : py_from _ (scale c st) = scale c (py_from (- (dq m)%:Z + (neps m)%:Z) st)); last exact: scale_from.
set x := py_from _ st; rewrite /t_func_jit -scale_cat size_scale.
case: ifP => // _; rewrite (_ : col_of (dq m') _ = c *: col_of (dq m) (x ++ s)); last exact: col_of_scale.
set v := col_of _ _.
have -> : find_lk (check_cnst (btab m') (lmx m').+1 (kmx m').+1 (c *: v)) (xb m') (lmx m').+1 (kmx m').+1 =
          find_lk (check_cnst (btab m) (lmx m).+1 (kmx m).+1 v) (xb m) (lmx m).+1 (kmx m).+1.
  by apply: find_lk_sc => // *; apply: check_rel.
case: (if k == -1 then _ else _) => [[[l1 k1] fl]|] //=.
case: (py_index _ _ l1) => [l2|] //=; case: (py_index _ _ k1) => [k2|] //=.
have := ht l2 k2; case: (tab m l2 k2) => [a|]; case: (t' l2 k2) => [b|] //= [-> -> -> ->].
rewrite /scale_out /= scale_cat -!scalemxAr -!scalerDr !seq_of_scale.
by rewrite (_ : py_to _ (scale c _) = scale c (py_to (- (neps m)%:Z) (seq_of (qm a *m v + qt a)))) //; exact: scale_to.
Qed.

Lemma sim_loop_sc lin st es :
  sim_loop m' lin (scale c st) [seq scale c e | e <- es] =
  rmap (fun r => ([seq (scale c x.1, x.2) | x <- r.1], r.2)) (sim_loop m lin st es).
Proof.
elim: es st => [|e es IH] st //=; have := t_func_sc st (Some e) KNone lin; rewrite /= => ->.
case: t_func => [[[x lk] fl]|] //=; rewrite IH; by case: sim_loop.
Qed.

Lemma np_any_sc v : np_any (scale c v) = np_any v.
Proof. by rewrite /np_any has_map; apply: eq_has => x /=; rewrite mulf_eq0 negb_or (gt_eqF c0). Qed.

Let sc3 (a : string * F * int) := (a.1.1, c * a.1.2, a.2).
Lemma norm_sc a : norm_shock (scale_shock c a) = sc3 (norm_shock a).
Proof. by case: a => [s|s x|s x t] //=; rewrite /sc3 /= mulr1. Qed.

Lemma set_nth_sc v i x : set_nth 0 (scale c v) i (c * x) = scale c (set_nth 0 v i x).
Proof.
apply: (@eq_from_nth _ 0); rewrite ?size_scale !size_set_nth ?size_scale // => j hj.
rewrite (nth_map 0) ?size_set_nth // !nth_set_nth /=; case: eqP => // _.
case: (ltnP j (size v)) => h; first by rewrite (nth_map 0).
by rewrite !nth_default ?size_scale // mulr0.
Qed.

Lemma shock_vec_sc names sl t : shock_vec names [seq sc3 a | a <- sl] t = rmap (scale c) (shock_vec names sl t).
Proof.
rewrite /shock_vec -[nseq _ 0 in LHS]scale_nseq; elim: sl (nseq _ _) => [|[[s x] per] sl IH] v //=.
case: ifP => _; last exact: IH.
by case: py_find => //= i; rewrite set_nth_sc; apply: IH.
Qed.

Definition sst (s : irf_st F) : irf_st F :=
  IS (scale c (i_st s)) (i_lk s) (i_err s) (i_mult s) [seq (scale c x.1, x.2) | x <- i_rows s].

Lemma irf_step_sc n sl lin sk fo s t :
  irf_step m' n (lmx m) (kmx m) [seq sc3 a | a <- sl] lin sk fo (sst s) t =
  rmap sst (irf_step m n (lmx m) (kmx m) sl lin sk fo s t).
Proof.
rewrite /irf_step (_ : shk m' = shk m) // shock_vec_sc; case: shock_vec => //= sv.
rewrite np_any_sc (_ : [seq a.2 | a <- [seq sc3 a | a <- sl]] = [seq a.2 | a <- sl]); last by rewrite -map_comp.
rewrite (_ : py_from _ (scale c (i_st s)) = scale c (py_from (- ((dq m)%:Z - (neps m)%:Z)) (i_st s))); last exact: scale_from.
set x := py_from _ _; set cond := [&& _, _ & _].
have E (k : setk) : t_func m' (scale c x) (Some (scale c sv)) k lin = scale_out c (t_func m x (Some sv) k lin) := t_func_sc x (Some sv) k lin.
rewrite !E.
have -> : (if cond then rbind (scale_out c (t_func m x (Some sv) KNone lin)) (fun r =>
             Ok (KTuple (elapse (i_lk s)).1 (elapse (i_lk s)).2, i_mult s || (r.1.2 != elapse (i_lk s))))
           else Ok (set_k_at sk t, i_mult s)) =
          (if cond then rbind (t_func m x (Some sv) KNone lin) (fun r =>
             Ok (KTuple (elapse (i_lk s)).1 (elapse (i_lk s)).2, i_mult s || (r.1.2 != elapse (i_lk s))))
           else Ok (set_k_at sk t, i_mult s)).
  by case: cond => //; case: t_func.
case: (if cond then _ else _) => [[eff mult]|] //=; case: ifP => // _; rewrite E.
by case: t_func => [[[y lk] fl]|] //=; rewrite size_scale; case: ifP.
Qed.

Lemma irf_run_sc n st T sl lin sk fo :
  irf_run m' n (omap (scale c) st) T (lmx m) (kmx m) [seq sc3 a | a <- sl] lin sk fo =
  rmap sst (irf_run m n st T (lmx m) (kmx m) sl lin sk fo).
Proof.
rewrite /irf_run (_ : IS _ _ _ _ _ = sst (IS (odflt (nseq n 0) st) (0, 0) 0 false [::])); last first.
  by rewrite /sst /=; case: st => //=; rewrite scale_nseq.
elim: (iota 0 T) (IS _ _ _ _ _) => [|t ts IH] s //=.
by rewrite irf_step_sc; case: irf_step.
Qed.
End TFunc.
