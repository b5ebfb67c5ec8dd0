(** Estimation: C63-C65, C67, C87-C91. *)
Set Warnings "-all".
From Coq Require Import String ZArith.
From mathcomp Require Import all_ssreflect all_algebra.
From Verif Require Import PyBase PyStr M_Solve M_Filter T_Filter M_Params M_Estim S_Estim P_Estim.
Set Implicit Arguments. Unset Strict Implicit. Unset Printing Implicit Defensive.
Import GRing.Theory Num.Theory Order.TTheory.
Local Open Scope ring_scope.

Section Estim.
Variable F : realFieldType.
Notation vec := (seq F).
(** any model: every step of the solve and of the filter may raise; any prior, any number generator *)
Variables PP X V M L S T : Type.
Variable p0 : vec.
Variable pcompile : vec -> res PP.
Variable has_constraint : bool.
Variable xbar_of : vec -> res X.
Variable positive : X -> bool.
Variable names : V.
Variable mats : PP -> res M.
Variable layout : M -> res L.
Variable order : L -> V.
Variable linsol : M -> X -> res S.
Variable tables : M -> X -> S -> Z * Z -> res T.
Variables C R : Type.
Variable seed_rng : nat -> R.
Variable sqQQ : PP -> res C.
Variable lik : fset C -> C -> PP -> X -> L -> S -> T -> R -> res (xr F) * C * R.
Variables (ncols neps : nat) (kind : fkind) (dispatch : bool).
Variable prior_arg : option (seq nat).
Variables (l_max k_max : Z) (seed : nat).
Notation est := (est F PP X V L S T C R).
Variable report : est -> res unit.
Variable bptrans : vec -> vec.
Variable lprior : vec -> res (xr F).
Notation solve := (@solve vec PP X V M L S T p0 pcompile has_constraint xbar_of positive names mats layout order linsol tables).
Notation try_ll := (@try_ll F PP X V M L S T p0 pcompile has_constraint xbar_of positive names mats layout order linsol tables C R seed_rng sqQQ lik
  ncols neps kind dispatch prior_arg l_max k_max seed).
Notation lprob := (@lprob F PP X V M L S T p0 pcompile has_constraint xbar_of positive names mats layout order linsol tables C R seed_rng sqQQ lik
  ncols neps kind dispatch prior_arg l_max k_max seed report bptrans lprior).
Notation do_act := (@do_act F PP X V M L S T p0 pcompile has_constraint xbar_of positive names mats layout order linsol tables C R seed_rng sqQQ lik
  ncols neps kind dispatch prior_arg l_max k_max seed report bptrans lprior).
Notation get_ll := (@get_ll_st F PP X V L S T C R lik ncols neps kind dispatch).

(** C63: whatever evaluations, solves, assignments to filter.Q and random draws came before, [lprob] returns the same value *)
Theorem C63_history (s : est) h par v t u :
  (v <= 1)%N \/ (forall s, report s = Ok tt) ->
  (lprob (foldl do_act s h) par v t u).2 = (lprob s par v t u).2.
Proof. by move=> H; apply: lprob_indep H _; exact: acts_sim. Qed.

(** ... and the random state is untouched, unless the user interrupts *)
Theorem C63_random_state (s : est) par v t u :
  (v <= 1)%N \/ (forall s, report s = Ok tt) ->
  (lprob s par v t u).2 <> Err KeyboardInterruptExn -> e_rng (lprob s par v t u).1 = e_rng s.
Proof. exact: lprob_rng. Qed.

(** C64: an infinite prior is returned without any evaluation *)
Theorem C64_infinite_prior (s : est) par v t u lp :
  lprior (if u then bptrans par else par) = Ok lp -> isinf lp -> lprob s par v t u = (s, Ok lp).
Proof. by rewrite /M_Estim.lprob => -> ->. Qed.
(** temperature zero: the prior, without any evaluation *)
Theorem C64_zero_temp (s : est) par v u lp :
  lprior (if u then bptrans par else par) = Ok lp -> lprob s par v 0 u = (s, Ok lp).
Proof. by rewrite /M_Estim.lprob => ->; case: ifP => // i; rewrite eqxx /=; case: lp i => //= x _; rewrite add0r. Qed.
(** otherwise: minus infinity if the evaluation raises (anything but an interrupt), else tempered likelihood plus prior *)
Theorem C64_value (s : est) par v t u lp :
  (v <= 1)%N \/ (forall s, report s = Ok tt) -> 0 < t ->
  lprior (if u then bptrans par else par) = Ok lp -> ~~ isinf lp ->
  (lprob s par v t u).2 =
    match (try_ll s (if u then bptrans par else par)).2 with
    | Ok ll => Ok (tempered t ll lp)
    | Err KeyboardInterruptExn => Err KeyboardInterruptExn
    | Err _ => Ok NInf
    end.
Proof.
move=> H t0; rewrite /M_Estim.lprob => -> /negbTE ni; rewrite ni (gt_eqF t0) /=; set q := if u then _ else _.
have N := @llike_num F PP X V M L S T p0 pcompile has_constraint xbar_of positive names mats layout order linsol tables C R seed_rng sqQQ lik
  ncols neps kind dispatch prior_arg l_max k_max seed report s q v.
move: N; rewrite /M_Estim.llike; case: M_Estim.try_ll => s' [x|e] /=.
  move=> /(_ x erefl); case: x => [a|||] //= _; rewrite ?t0 //; case: lp ni => //= b _; by rewrite mulrC.
move=> _; case: H => [h|h]; first by case: e; rewrite /= ?[(1 < v)%N]ltnNge ?h /= ?t0.
by case: e; rewrite /= ?h /=; try case: ifP => _; rewrite /= ?t0.
Qed.
(** it is a number or infinite, unless the prior is not a number *)
Theorem C64_never_nan (s : est) par v t u x :
  (lprob s par v t u).2 = Ok x -> isnan x -> lprior (if u then bptrans par else par) = Ok NaN.
Proof.
rewrite /M_Estim.lprob; set q := if u then _ else _; case: lprior => [lp|e] //; case: ifP => i.
  by move=> [<-]; case: lp i.
case: ifP => t0; last by rewrite /=; case: lp i => //= a _ [<-].
have N := @llike_num F PP X V M L S T p0 pcompile has_constraint xbar_of positive names mats layout order linsol tables C R seed_rng sqQQ lik
  ncols neps kind dispatch prior_arg l_max k_max seed report s q v.
move: N; case: M_Estim.llike => s' [y|e] //= /(_ y erefl) ny.
have {ny} : ~~ isnan (xmul y t).
  by case: y ny => //= _; case: (ltgtP 0 t) t0 => //= <-; rewrite eqxx.
case: ifP => iy ny; first by move=> [<-]; rewrite (negbTE ny).
by case: (xmul y t) iy ny => //= a _ _; case: lp i => //= b _ [<-].
Qed.

(** C90: with temperature one and the likelihood finite, [lprob] minus the prior is what [get_ll] returns right after the same parameters
    were set by hand with the same horizons, filter covariance and seed *)
Theorem C90_same_as_get_ll (s : est) par v u lp pf ms pp q :
  (v <= 1)%N \/ (forall s, report s = Ok tt) ->
  lprior (if u then bptrans par else par) = Ok lp -> ~~ isinf lp ->
  put_at prior_arg (if u then bptrans par else par) (e_pfix s) = Ok pf ->
  solve (e_ms s) (Some pf) (Some l_max) (Some k_max) false = (ms, Ok tt) -> m_ppar ms = Some pp -> sqQQ pp = Ok q ->
  forall ll, (get_ll (Est ms (e_f s) (Some q) (seed_rng seed) pf)).2 = Ok ll ->
  (lprob s par v 1 u).2 = Ok (tempered 1 ll lp).
Proof.
move=> H hl ni hp hs hm hq ll hg; rewrite (C64_value s (t := 1) H ltr01 hl ni).
by rewrite /M_Estim.try_ll hp /= hs hm hq /= hg.
Qed.

(** C91: a covariance passed once to the filter (run_filter or extract with init_cov) is used by all later likelihoods *)
Theorem C91_init_cov_persists (s : est) P h :
  f_init (e_f (foldl do_act (pass_init_cov P s) h)) = Some P.
Proof. by have [-> _] := @acts_sim F PP X V M L S T p0 pcompile has_constraint xbar_of positive names mats layout order linsol tables C R seed_rng sqQQ lik
  ncols neps kind dispatch prior_arg l_max k_max seed report bptrans lprior (pass_init_cov P s) h. Qed.
End Estim.

(** C63, the exceptions: an interrupt leaves the seeded random state behind.  A model with one parameter whose filter is interrupted *)
Definition lprob_ex (lik : fset nat -> nat -> nat -> nat -> nat -> nat -> nat -> nat -> res (xr rat) * nat * nat) :=
  @lprob [realFieldType of rat] nat nat nat nat nat nat nat [:: 0] (fun p => Ok (size p)) true (fun _ => Ok 0%N) (fun _ => false) 0%N
    (fun pp => Ok pp) (fun m => Ok m) id (fun m x => Ok m) (fun m x so lk => Ok so) nat nat (fun s => s) (fun pp => Ok pp) lik
    2 2 KalmanF false (Some [:: 0%N]) (Zpos (xI xH)) (Zpos (xO (xO (xO (xO xH))))) 7 (fun _ => Ok tt) id (fun _ => Ok (Fin 1)).
Definition est_ex (init : option nat) : est [realFieldType of rat] nat nat nat nat nat nat nat nat :=
  Est (fresh _ _ _ _ _ _ _) (Fset init None) None 42%N [:: 0].
Theorem C63_interrupt_refuted : exists lik par,
  (lprob_ex lik (est_ex None) par 0 1 false).2 = Err KeyboardInterruptExn /\
  e_rng (lprob_ex lik (est_ex None) par 0 1 false).1 <> e_rng (est_ex None).
Proof. by exists (fun f q pp x l so t r => (Err KeyboardInterruptExn, q, r)), [:: 5%:Q]. Qed.
(** C91: and it changes their value *)
Theorem C91_value_changes : exists lik par,
  (lprob_ex lik (est_ex None) par 0 1 false).2 <> (lprob_ex lik (pass_init_cov 9%N (est_ex None)) par 0 1 false).2.
Proof. by exists (fun f q pp x l so t r => (Ok (if f_init f is Some p then NInf else Fin 0), q, r)), [:: 5%:Q]. Qed.
(** the hypotheses of C64 and C90 are met *)
Example C64_met : exists lik,
  (lprob_ex lik (est_ex None) [:: 5%:Q] 0 2%:Q false).2 = Ok (Fin 7%:Q) /\
  (lprob_ex lik (est_ex None) [:: 5%:Q; 6%:Q] 0 2%:Q false).2 = Ok NInf.
Proof. by exists (fun f q pp x l so t r => (Ok (Fin 3%:Q), q, r.+1)). Qed.

(** C65: linear=True uses one period ahead and no constrained periods; a call that only remembers it uses the horizons of a nonlinear
    estimation, though the linear filter is created *)
Theorem C65_explicit d a : a_linear a = Some LinTrue ->
  let g := (resolve d a).2 in [/\ g_l g = Zpos xH, g_k g = Z0 & ftype_of (g_linear g) = "KalmanFilter"%string].
Proof. by rewrite /resolve => ->. Qed.
Theorem C65_remembered hw obs sh fargs sp d h h' a : a_linear a = Some LinTrue -> all (fun b => ~~ isSome (a_linear b)) h' ->
  let d' := preps hw obs sh fargs sp d (h ++ a :: h') in
  forall b, a_linear b = None ->
  let g := (resolve d' b).2 in [/\ g_l g = a_l b, g_k g = a_k b & ftype_of (g_linear g) = "KalmanFilter"%string].
Proof.
move=> ha hh d' b hb; have e : d_linear d' = Some LinTrue.
  rewrite /d' /preps foldl_cat /=; set c := (prep _ _ _ _ _ _ a).1; have : d_linear c = Some LinTrue by rewrite /c /prep /resolve ha.
  elim: h' hh c {d'} => //= x h' IH /andP [hx hh] c hc; apply: IH => //.
  by rewrite /prep /resolve; case: (a_linear x) hx => //= _; rewrite hc.
by rewrite /resolve hb e.
Qed.
Theorem C65_horizons_refuted :
  let ok := fun _ : settings => Ok tt in
  exists a, forall d, let g1 := (resolve d a).2 in
    let g2 := (resolve (prep false [::] [::] [::] ok d a).1 no_args).2 in
    g_linear g1 = g_linear g2 /\ (g_l g1, g_k g1) <> (g_l g2, g_k g2).
Proof. by exists (PArgs None (Some LinTrue) None None (Zpos (xI xH)) (Zpos (xO (xO (xO (xO xH)))))). Qed.

(** C87: every setting is the one given, else the last one given in an earlier call (even one that raised), else the default *)
Lemma preps_given hw obs sh fargs sp d h :
  let d' := preps hw obs sh fargs sp d h in
  [/\ h <> [::] \/ isSome (d_n d) -> d_n d' = Some (odflt 300%N (last_given a_n (d_n d) h)),
      h <> [::] \/ isSome (d_linear d) -> d_linear d' = Some (odflt LinFalse (last_given a_linear (d_linear d) h)),
      h <> [::] \/ isSome (d_seed d) -> d_seed d' = Some (odflt 0%N (last_given a_seed (d_seed d) h)) &
      h <> [::] \/ isSome (d_upt d) -> d_upt d' = Some (odflt false (last_given a_upt (d_upt d) h))].
Proof.
elim: h d => [|a h IH] d /=; first by split=> -[] //; case: d => [[?|] [?|] [?|] [?|]].
have -> : (prep hw obs sh fargs sp d a).1 = (resolve d a).1 by rewrite /prep; case: resolve.
have [h1 h2 h3 h4] := IH (resolve d a).1; have g A B C D : d_n (FD A B C D) = A by [].
have e1 : d_n (resolve d a).1 = Some (odflt 300%N (if a_n a is Some b then Some b else d_n d)).
  by rewrite /resolve; case: (match a_linear a with Some _ => _ | None => _ end) => l k /=; case: (a_n a).
have e2 : d_linear (resolve d a).1 = Some (odflt LinFalse (if a_linear a is Some b then Some b else d_linear d)).
  by rewrite /resolve; case: (match a_linear a with Some _ => _ | None => _ end) => l k /=; case: (a_linear a).
have e3 : d_seed (resolve d a).1 = Some (odflt 0%N (if a_seed a is Some b then Some b else d_seed d)).
  by rewrite /resolve; case: (match a_linear a with Some _ => _ | None => _ end) => l k /=; case: (a_seed a).
have e4 : d_upt (resolve d a).1 = Some (odflt false (if a_upt a is Some b then Some b else d_upt d)).
  by rewrite /resolve; case: (match a_linear a with Some _ => _ | None => _ end) => l k /=; case: (a_upt a).
have lg A B (f : A -> option B) x o l : odflt x (last_given f (Some (odflt x o)) l) = odflt x (last_given f o l).
  by elim: l o => [|y l IHl] [o|] //=; case: (f y) => //; exact: (IHl None).
by split=> _; [rewrite h1 ?e1 ?lg | rewrite h2 ?e2 ?lg | rewrite h3 ?e3 ?lg | rewrite h4 ?e4 ?lg] => //; right.
Qed.
Theorem C87_settings hw obs sh fargs sp h a :
  let none := FD None None None None in
  let g := (resolve (preps hw obs sh fargs sp none h) a).2 in
  [/\ g_n g = odflt 300%N (last_given a_n None (rcons h a)), g_linear g = odflt LinFalse (last_given a_linear None (rcons h a)),
      g_seed g = odflt 0%N (last_given a_seed None (rcons h a)) & g_upt g = odflt false (last_given a_upt None (rcons h a))].
Proof.
move=> none g; have [h1 h2 h3 h4] := preps_given hw obs sh fargs sp none (rcons h a).
have nn : rcons h a <> [::] by case: (h).
have E : preps hw obs sh fargs sp none (rcons h a) = (resolve (preps hw obs sh fargs sp none h) a).1.
  by rewrite /preps foldl_rcons /prep; case: resolve.
have G d : (resolve d a).1 = FD (Some (g_n (resolve d a).2)) (Some (g_linear (resolve d a).2)) (Some (g_seed (resolve d a).2)) (Some (g_upt (resolve d a).2)).
  by rewrite /resolve; case: (match a_linear a with Some _ => _ | None => _ end).
move: h1 h2 h3 h4; rewrite E G /= => h1 h2 h3 h4.
by split; [case: (h1 (or_introl nn)) | case: (h2 (or_introl nn)) | case: (h3 (or_introl nn)) | case: (h4 (or_introl nn))].
Qed.
(** in particular a failed attempt to use the inversion filter is remembered: every later call that does not set linear raises *)
Theorem C87_failed_call_remembered hw obs sh fargs sp d a h b : a_linear a = Some LinIF -> all (fun b => ~~ isSome (a_linear b)) h ->
  a_linear b = None ->
  is_ok (prep hw obs sh fargs sp d a).2 = false /\ is_ok (prep hw obs sh fargs sp (preps hw obs sh fargs sp d (a :: h)) b).2 = false.
Proof.
have IF : is_ok (create_filter hw obs sh (Some "IF"%string) fargs) = false.
  by have [/(_ "IF"%string isT) [e ->] _] := C61_unavailable hw obs sh fargs.
have bad d' x : g_linear (resolve d' x).2 = LinIF -> is_ok (prep hw obs sh fargs sp d' x).2 = false.
  rewrite /prep; case: resolve => d2 g /= ->; case: sp => //= _; by move: IF; case: create_filter.
move=> ha hh hb; split; first by apply: bad; rewrite /resolve ha.
apply: bad; suff e : d_linear (preps hw obs sh fargs sp d (a :: h)) = Some LinIF by rewrite /resolve hb e.
rewrite /=; set c := (prep _ _ _ _ _ _ a).1; have : d_linear c = Some LinIF by rewrite /c /prep /resolve ha.
elim: h hh c => //= x h IH /andP [hx hh] c hc; apply: IH => //.
by rewrite /prep /resolve; case: (a_linear x) hx => //= _; rewrite hc.
Qed.
(** the seed documented as default (0) is the one of the likelihood; the test evaluation of prep_estim itself starts from an unknown
    random state unless a seed is passed, even if one is remembered *)
Theorem C87_start_unseeded d a : a_seed a = None -> g_start (resolve d a).2 = None.
Proof. by rewrite /resolve; case: (match a_linear a with Some _ => _ | None => _ end) => l k /= ->. Qed.
Example C87_ex : 
  let h := [:: PArgs (Some 50%N) None None (Some true) (Zpos xH) Z0; PArgs None (Some LinIF) (Some 3%N) None (Zpos xH) Z0] in
  let g := (resolve (preps false [::] [::] [::] (fun _ => Err ValueError) (FD None None None None) h) no_args).2 in
  [/\ g_n g = 50%N, g_linear g = LinIF, g_seed g = 3%N & g_upt g = true].
Proof. by []. Qed.

Section Mcmc.
Variable F : realFieldType.
Notation vec := (seq F).

(** C67: without an explicit tune the call raises after sampling and no mode is stored *)
Theorem C67_default_tune (lps : seq (seq (xr F))) (chain : seq (seq vec)) : store_mode 1 None lps chain = Err TypeError.
Proof. by rewrite /store_mode eqxx. Qed.
(** the initial ensemble is one vector, the same for every number of walkers *)
Theorem C67_single_vector (H T C : Type) (M : static F) pffunc hx_of tab_of cov_of priors chain tune choices prior_draw
  (s : st F H T C) (temp : F) :
  let gp n full k := @get_par F H T C M pffunc hx_of tab_of cov_of priors chain tune choices prior_draw s (AName F n) None full k false in
  (forall nw nw', initial_ensemble gp temp nw = initial_ensemble gp temp nw') /\
  forall nw o, "prior_mean"%string \notin c_names M -> "best"%string \notin c_names M ->
    "prior_mean"%string \notin c_pfnames M -> "best"%string \notin c_pfnames M ->
    (initial_ensemble gp temp nw).2 = Ok o -> exists v, o = OVec C v.
Proof.
split=> // nw o m1 m2 m3 m4; rewrite /initial_ensemble; case: (temp < 1); rewrite /M_Params.get_par;
  case: (match s_par s with Some _ => _ | None => _ end) => s1 [_|e] //; case: base_of => [base|e] //.
  rewrite (negbTE m1) (negbTE m3) [_ == _]/= [_ == _]/= /get_named [_ \notin _]/= /named_set; case: priors => //= l [<-]; by eexists.
rewrite (negbTE m2) (negbTE m4) [_ == _]/= [_ == _]/=.
case: (get_named _ _ _ _ _ _ _ "mode"%string) => s2 [[x|v|c|r]|e]; try (by rewrite /assemble => -[<-]; eexists);
  case: (get_named _ _ _ _ _ _ _ "init"%string) => s3 [[x'|v'|c'|r']|e'] //= [<-]; by eexists.
Qed.

(** C88: the stored mode is the position with the highest log-probability among the last [tune] steps of all walkers, together with that
    log-probability (numpy's order, in which not-a-number wins) *)
Theorem C88_mode t (lps : seq (seq (xr F))) (chain : seq (seq vec)) x f : same_shape lps chain ->
  store_mode 1 (Some t) lps chain = Ok (Some (x, f)) ->
  (exists i j, [/\ in_window t (size lps) i, (j < size (nth [::] lps i))%N, x = entry [::] chain i j & f = entry NaN lps i j]) /\
  (forall i j, in_window t (size lps) i -> (j < size (nth [::] lps i))%N -> ~~ beats (entry NaN lps i j) f).
Proof.
move=> sh; rewrite /store_mode eqxx /=; set w := last_rows t lps; set w' := last_rows t chain.
pose o := if t == 0%N then 0%N else (size lps - t)%N.
have ez : size lps = size chain by have := f_equal size sh; rewrite !size_map.
have ew : w = drop o lps by rewrite /w /last_rows /o; case: ifP; rewrite ?drop0.
have ew' : w' = drop o chain by rewrite /w' /last_rows /o ez; case: ifP; rewrite ?drop0.
have shw : same_shape w w' by rewrite /same_shape ew ew' !map_drop sh.
have en A (d : A) (c : seq (seq A)) i j : entry d (drop o c) i j = entry d c (o + i) j by rewrite /entry nth_drop.
have iw i : (i < size w)%N -> in_window t (size lps) (o + i).
  rewrite ew size_drop => li; split; first by rewrite -ltn_subRL.
  by rewrite /o; case: eqP => [|_]; [left | right; exact: leq_addr].
case E: argmax => [k|e] //= [<- <-]; have [lk mx] := argmaxP E; split.
  have [i [j [h1 h2 h3 h4]]] := @flat_pos _ _ NaN [::] w w' k shw lk; exists (o + i)%N, j.
  split; [exact: iw | by move: h2; rewrite ew nth_drop | by rewrite h4 ew' en | by rewrite h3 ew en].
move=> i j [li wi] lj; have oi : (o <= i)%N by rewrite /o; case: eqP wi => // ne [|].
have li' : (i - o < size w)%N by rewrite ew size_drop ltn_sub2r //; exact: leq_ltn_trans oi li.
have lj' : (j < size (nth [::] w (i - o)))%N by rewrite ew nth_drop subnKC.
have [k' lk' e'] := @pos_flat _ NaN w _ _ li' lj'; have := mx _ lk'; by rewrite e' ew en subnKC.
Qed.
(** it is stored whenever the window is not empty *)
Theorem C88_stored t (lps : seq (seq (xr F))) (chain : seq (seq vec)) i j :
  in_window t (size lps) i -> (j < size (nth [::] lps i))%N -> exists m, store_mode 1 (Some t) lps chain = Ok (Some m).
Proof.
move=> [li wi] lj; rewrite /store_mode eqxx /=; set w := last_rows t lps.
pose o := if t == 0%N then 0%N else (size lps - t)%N.
have ew : w = drop o lps by rewrite /w /last_rows /o; case: ifP; rewrite ?drop0.
have oi : (o <= i)%N by rewrite /o; case: eqP wi => // ne [|].
have li' : (i - o < size w)%N by rewrite ew size_drop ltn_sub2r //; exact: leq_ltn_trans oi li.
have lj' : (j < size (nth [::] w (i - o)))%N by rewrite ew nth_drop subnKC.
have [k lk _] := @pos_flat _ NaN w _ _ li' lj'; case: (flatten w) lk => //= y l _; by eexists.
Qed.

(** C89: with a prior transform the stored mode is in the coordinates of the sampler: get_chain shows its image at the same place *)
Theorem C89_mode_coordinates t (lps : seq (seq (xr F))) (chain : seq (seq vec)) x f g : same_shape lps chain ->
  store_mode 1 (Some t) lps chain = Ok (Some (x, f)) ->
  exists i j, [/\ f = entry NaN lps i j, x = entry [::] chain i j & entry [::] (chain_of (Some g) chain) i j = g x].
Proof.
move=> sh e; have [[i [j [[li _] lj -> ->]]] _] := C88_mode sh e; exists i, j; split=> //.
have ez : size lps = size chain by have := f_equal size sh; rewrite !size_map.
have es : size (nth [::] lps i) = size (nth [::] chain i).
  by have := f_equal (fun c => nth 0%N c i) sh; rewrite !(nth_map [::]) // -?ez.
by rewrite /entry /= (nth_map [::]) -?ez // (nth_map [::]) -?es.
Qed.
End Mcmc.
Theorem C89_refuted : exists (chain : seq (seq (seq rat))) lps x f g,
  store_mode (F := [realFieldType of rat]) 1 (Some 1%N) lps chain = Ok (Some (x, f)) /\
  forall i j, (i < 1)%N -> (j < 2)%N -> entry [::] (chain_of (F := [realFieldType of rat]) (Some g) chain) i j <> x.
Proof.
exists [:: [:: [:: 0]; [:: 1]]], [:: [:: Fin 3%:Q; Fin 4%:Q]], [:: 1], (Fin 4%:Q), (fun v => [seq 5%:Q | _ <- v]).
by split=> // -[|i] // [|[|j]].
Qed.
Example C88_met : same_shape [:: [:: Fin 3%:Q; NInf]] [:: [:: [:: 0]; [:: 1%:Q]]] /\
  store_mode (F := [realFieldType of rat]) 1 (Some 1%N) [:: [:: NInf; Fin 3%:Q]] [:: [:: [:: 0]; [:: 1%:Q]]] = Ok (Some ([:: 1], Fin 3%:Q)).
Proof. by []. Qed.
Print Assumptions C63_history.
Print Assumptions C63_random_state.
Print Assumptions C64_infinite_prior.
Print Assumptions C64_zero_temp.
Print Assumptions C64_value.
Print Assumptions C64_never_nan.
Print Assumptions C90_same_as_get_ll.
Print Assumptions C91_init_cov_persists.
Print Assumptions C63_interrupt_refuted.
Print Assumptions C91_value_changes.
Print Assumptions C65_explicit.
Print Assumptions C65_remembered.
Print Assumptions C65_horizons_refuted.
Print Assumptions C87_settings.
Print Assumptions C87_failed_call_remembered.
Print Assumptions C87_start_unseeded.
Print Assumptions C67_default_tune.
Print Assumptions C67_single_vector.
Print Assumptions C88_mode.
Print Assumptions C88_stored.
Print Assumptions C89_mode_coordinates.
Print Assumptions C89_refuted.
