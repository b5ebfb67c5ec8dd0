(** Contents of the named parameter sets: C112; derived parameters: C45. *)
Set Warnings "-all".
From Coq Require Import String.
From mathcomp Require Import all_ssreflect all_algebra.
From Verif Require Import PyBase PyStr M_Params S_Params P_Params T_Params.
Set Implicit Arguments. Unset Strict Implicit. Unset Printing Implicit Defensive.
Import GRing.Theory Num.Theory.
Local Open Scope ring_scope.

Section Theorems.
Variable F : realFieldType.
Notation vec := (seq F).
Variables H T C : Type.
Variable M : static F.
Variable pffunc : vec -> vec.
Variable hx_of : vec -> res H.
Variable tab_of : vec -> res T.
Variable cov_of : vec -> C.
Variable sq : C -> C.
Variable priors : option (seq (prior F)).
Variable chain : res (seq (seq vec)).
Variable tune : nat.
Variable choices : nat -> nat -> seq nat.
Variable prior_draw : st F H T C -> nat -> st F H T C * res (seq vec).
Notation st := (st F H T C).
Notation get_par := (get_par M pffunc hx_of tab_of cov_of priors chain tune choices prior_draw).
Notation set_par := (set_par M pffunc hx_of tab_of cov_of sq priors chain tune choices prior_draw).

(** the name is not the name of a parameter *)
Definition is_free (n : string) : Prop := n \notin c_names M /\ n \notin c_pfnames M.
(** the result of asking for the set [n] in state [s]: the estimated parameters (positions [l]) are [m], with [full] together
    with the calibrated values of the others *)
Definition gives (l : seq nat) (s : st) (n : string) (m : vec) : Prop :=
  forall k hx, (exists r s', get_par s (AName F n) None true k hx = (s', Ok (OVec C r)) /\ overlays l m (c_fix M) r) /\
     (exists s', get_par s (AName F n) None false k hx = (s', Ok (OVec C m))).

Lemma get_setP (s : st) v l n m : wf_model M -> has_priors M l -> holds M s v -> is_free n -> n \in set_names -> size m = size l ->
  (forall k, exists s1, named_set M priors chain tune choices prior_draw (set_parv s (PV (c_fix M))) n k = (s1, Ok (inl m))) ->
  gives l s n m.
Proof.
move=> wm [ep [un [al _]]] [hp sv] [f1 f2] ni sm E k hx; have [s2 {}E] := E k.
have nb : (n == "cov_mat"%string) = false /\ (n == "best"%string) = false by split; apply/eqP=> e; move: ni; rewrite e.
rewrite /M_Params.get_par hp /base_of /cur hp /= (negbTE f1) (negbTE f2) nb.1 nb.2 /get_named ni /= E /assemble /= ep.
split; last by exists s2.
have al' : all (fun i => (i < size (c_fix M))%N) l by rewrite wm.2.
by have [r -> ov] := put_atP un al' sm; exists r, s2.
Qed.

Section Sets.
Variables (s : st) (v : vec) (l : seq nat).
Hypotheses (wm : wf_model M) (hp : has_priors M l) (hs : holds M s v).

Let calE : take_at (c_prior_arg M) (c_fix M) = Ok [seq nth 0 (c_fix M) i | i <- l].
Proof. by have [-> [_ [al _]]] := hp; apply: take_atP; rewrite wm.2. Qed.

(** C112 *)
Theorem C112_calibration : is_free "calib" -> gives l s "calib" [seq nth 0 (c_fix M) i | i <- l].
Proof. by move=> fr; apply: (get_setP wm hp hs fr) => //= [|k]; [rewrite size_map | exists (set_parv s (PV (c_fix M))); rewrite /named_set /= calE]. Qed.

(** the midpoint of a uniform prior, the first of the last two numbers of the other priors *)
Theorem C112_prior_mean ps : is_free "prior_mean" -> priors = Some ps -> size ps = size l ->
  gives l s "prior_mean" [seq if pr_uniform p then (pr_a p + pr_b p) / 2%:R else pr_a p | p <- ps].
Proof.
move=> fr ep es; apply: (get_setP wm hp hs fr) => //= [|k]; first by rewrite size_map.
exists (set_parv s (PV (c_fix M))); rewrite /named_set /= ep; congr (_, Ok (inl _)); apply: eq_map => p; rewrite /prior_mean1.
by case: ifP => // _; rewrite -mulrDr mulrC.
Qed.

(** the same, but ten times that number for the inverse gamma distribution in the parametrization of Dynare *)
Theorem C112_adj_prior_mean ps : is_free "adj_prior_mean" -> priors = Some ps -> size ps = size l ->
  gives l s "adj_prior_mean" [seq if pr_dist p == "inv_gamma_dynare"%string then pr_a p *+ 10
                                  else if pr_uniform p then (pr_a p + pr_b p) / 2%:R else pr_a p | p <- ps].
Proof.
move=> fr ep es; apply: (get_setP wm hp hs fr) => //= [|k]; first by rewrite size_map.
exists (set_parv s (PV (c_fix M))); rewrite /named_set /= ep; congr (_, Ok (inl _)); apply: eq_map => p; rewrite /adj_prior_mean1 /prior_mean1.
case: ifP => _; first by rewrite mulr_natr.
by case: ifP => // _; rewrite -mulrDr mulrC.
Qed.

(** the stored mode, under any of its names *)
Theorem C112_mode n m : n \in [:: "mode"; "mcmc_mode"; "mode_mcmc"; "posterior_mode"; "post_mode"]%string -> is_free n ->
  s_mode s = Some m -> size m = size l -> gives l s n m.
Proof.
move=> ni fr em sm; apply: (get_setP wm hp hs fr) => //.
  by move: ni; rewrite !inE => /or4P [|||/orP []] /eqP ->.
move=> k; exists (set_parv s (PV (c_fix M))).
by move: ni; rewrite /named_set !inE => /or4P [|||/orP []] /eqP ->; rewrite /= em.
Qed.

(** the averages over all walkers and the last steps of the chain *)
Lemma fold_vadd n (r : vec) rs : size r = n -> (forall x, x \in rs -> size x = n) ->
  size (foldl (@vadd F) r rs) = n /\ forall j, (j < n)%N -> nth 0 (foldl (@vadd F) r rs) j = nth 0 r j + \sum_(x <- rs) nth 0 x j.
Proof.
elim: rs r => [|x rs IH] r sr al /=; first by split=> // j _; rewrite big_nil addr0.
have sx : size x = n by apply: al; rewrite mem_head.
have sv : size (vadd r x) = n by rewrite /vadd size_map size_zip sr sx minnn.
have [h1 h2] := IH (vadd r x) sv (fun y yi => al y (@mem_behead _ (x :: rs) y yi)); split=> // j lt.
rewrite h2 // big_cons addrA; congr (_ + _).
by rewrite /vadd (nth_map (0, 0)) ?size_zip ?sr ?sx ?minnn // nth_zip ?sr ?sx.
Qed.
Theorem C112_posterior_mean n ch : n \in [:: "posterior_mean"; "post_mean"]%string -> is_free n ->
  chain = Ok ch -> (0 < tune)%N ->
  let pop := flatten (drop (size ch - tune) ch) in
  pop != [::] -> (forall x, x \in pop -> size x = size l) ->
  exists m, gives l s n m /\ size m = size l /\ forall j, (j < size l)%N -> nth 0 m j = (\sum_(x <- pop) nth 0 x j) / (size pop)%:R.
Proof.
move=> ni fr ec t0 pop ne al.
have lr : last_rows tune ch = drop (size ch - tune) ch by rewrite /last_rows; case: eqP t0 => [->|].
pose m := if post_mean chain tune is Ok m then m else [::].
have [em [sm nm]] : post_mean chain tune = Ok m /\ size m = size l /\ forall j, (j < size l)%N -> nth 0 m j = (\sum_(x <- pop) nth 0 x j) / (size pop)%:R.
  rewrite /m /post_mean ec /= lr -/pop; case: pop ne al => [//|r rs] _ al.
  have sr : size r = size l by apply: al; rewrite mem_head.
  have [h1 h2] := fold_vadd sr (fun x xi => al x (@mem_behead _ (r :: rs) x xi)).
  split=> //; split; first by rewrite size_map.
  by move=> j lt; rewrite (nth_map 0) ?h1 // h2 // big_cons.
exists m; split=> //; apply: (get_setP wm hp hs fr) => //.
  by move: ni; rewrite !inE => /orP [] /eqP ->.
move=> k; exists (set_parv s (PV (c_fix M))).
by move: ni; rewrite /named_set !inE => /orP [] /eqP ->; rewrite /= em.
Qed.

(** the initial values; where the prior section has none, the calibrated value, which is from then on stored as initial value *)
Theorem C112_init il : is_free "init" -> s_init s = Some il -> size il = size l ->
  let m := [seq odflt (nth 0 (c_fix M) x.2) x.1 | x <- zip il l] in
  gives l s "init" m /\
  forall k hx full, s_init (get_par s (AName F "init") None full k hx).1 = Some [seq Some x | x <- m].
Proof.
move=> fr ei es m.
have zE : [seq Some (odflt x.2 x.1) | x <- zip il [seq nth 0 (c_fix M) i | i <- l]] = [seq Some x | x <- m].
  rewrite /m; elim: (il) (l) es => [|o il' IH] [|i l'] //= [es]; congr (_ :: _); exact: IH.
have mE : [seq odflt 0 o | o <- [seq Some x | x <- m]] = m by elim: (m) => //= x m' ->.
have E k : named_set M priors chain tune choices prior_draw (set_parv s (PV (c_fix M))) "init" k =
    (M_Params.St (Some (PV (c_fix M))) (s_hx s) (s_tab s) (s_filter s) (s_mode s) (Some [seq Some x | x <- m]), Ok (inl m)).
  by rewrite /named_set /= ei calE zE mE.
have sm : size m = size l by rewrite /m size_map size_zip es minnn.
split; first by apply: (get_setP wm hp hs fr) => // k; rewrite E; eexists.
move=> k hx full; rewrite /M_Params.get_par hs.1 /base_of /cur hs.1 /= (negbTE fr.1) (negbTE fr.2) /get_named.
have -> : ("init"%string \notin set_names) = false by [].
by rewrite E.
Qed.
End Sets.

(** C45: a derived parameter is evaluated at the current parameters, or at those given, and follows every assignment *)
Theorem C45_derived : forall (s : st) v w n full k hx, holds M s v -> n \notin c_names M -> n \in c_pfnames M ->
  get_par s (AName F n) None full k hx = (s, Ok (ONum C (nth 0 (pffunc v) (index n (c_pfnames M))))) /\
  (size w = size (c_fix M) ->
   get_par s (AName F n) (Some w) full k hx = (s, Ok (ONum C (nth 0 (pffunc w) (index n (c_pfnames M)))))).
Proof.
move=> s v w n full k hx [ep sv] n1 n2; rewrite /M_Params.get_par ep /base_of /cur ep /= (negbTE n1) n2; split=> // sw.
by rewrite sw eqxx /=.
Qed.
Theorem C45_derived_follows : forall (s s' : st) v n x r d hx full k,
  wf_model M -> priors_ok M -> holds M s v -> n \in c_names M -> d \notin c_names M -> d \in c_pfnames M ->
  set_par s (AName F n) (Some x) None hx = (s', Ok r) ->
  get_par s' (AName F d) None full k hx =
    (s', Ok (ONum C (nth 0 (pffunc (set_nth 0 v (index n (c_names M)) x)) (index d (c_pfnames M))))).
Proof.
move=> s s' v n x r d hx full k wm po hs ni d1 d2 E.
have sv' : size (set_nth 0 v (index n (c_names M)) x) = size (c_names M) by rewrite size_set_nth_in hs.2 ?index_mem.
move: E; rewrite /M_Params.set_par /cur hs.1 ni.
have := finishP pffunc hx_of tab_of cov_of sq priors chain tune choices prior_draw wm po s hx sv'.
by case: finish => s1 [r1|e] // [_ [h' _]] [<- _]; have [] := C45_derived [::] full k hx h' d1 d2.
Qed.
End Theorems.

(** a model with three parameters, two of them estimated (the third and the first), priors, stored initial values (one of them
    missing), a mode and a chain *)
Module SetsEx.
Definition ps : seq (prior [realFieldType of rat]) :=
  [:: @Prior [realFieldType of rat] "uniform" true 1 4%:R; @Prior [realFieldType of rat] "inv_gamma_dynare" false 2%:R 5%:R].
Definition s1 : st [realFieldType of rat] (seq rat) rat rat :=
  St (Some (PV ([:: 1; 1; 1] : seq [realFieldType of rat]))) None None None (Some [:: 30%:R; 10%:R]) (Some [:: Some 8%:R; None]).
Notation get n := (get_par Ex.M Ex.pf Ex.hx Ex.tab Ex.cov (Some ps) Ex.chain 1 Ex.ch Ex.pd s1 (AName _ n) None true 1 false).
Example holds1 : holds Ex.M s1 [:: 1; 1; 1]. Proof. by []. Qed.
Example free : is_free Ex.M "calib" /\ is_free Ex.M "prior_mean" /\ is_free Ex.M "init" /\ is_free Ex.M "post_mean". Proof. by []. Qed.
Example sets : [/\ Ex.vec_is (get "calib"%string).2 [:: 1; 2%:R; 3%:R],
  Ex.vec_is (get "prior_mean"%string).2 [:: 2%:R; 2%:R; 5%:R / 2%:R],
  Ex.vec_is (get "adj_prior_mean"%string).2 [:: 20%:R; 2%:R; 5%:R / 2%:R],
  Ex.vec_is (get "post_mean"%string).2 [:: 11%:R; 2%:R; 10%:R] &
  Ex.vec_is (get "init"%string).2 [:: 1; 2%:R; 8%:R]].
Proof. by split; vm_compute. Qed.
Example derived : "kappa"%string \in c_pfnames Ex.M. Proof. by []. Qed.
End SetsEx.

Print Assumptions C112_calibration.
Print Assumptions C112_prior_mean.
Print Assumptions C112_adj_prior_mean.
Print Assumptions C112_mode.
Print Assumptions C112_posterior_mean.
Print Assumptions C112_init.
Print Assumptions C45_derived.
Print Assumptions C45_derived_follows.
