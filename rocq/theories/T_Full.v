(** Property theorems C116, C117: from the model file to simulated periods, impulse responses and observables. *)
Set Warnings "-all".
From Coq Require Import String.
From mathcomp Require Import all_ssreflect all_algebra all_real_closed.
From Verif Require Import PyBase PyStr M_FindLk M_Parser S_Parser P_Parser5 M_Engine S_Engine M_GenSys S_GenSys S_GenSys2 P_Engine P_Engine3 P_Engine4
  P_GenSys P_GenSys2 P_GenSys3 P_GenSys4 P_GenSys5 P_GenSys6 P_RQ M_Pipe S_Pipe P_Pipe P_Pipe2 P_PipeEx P_Pipe3 M_Tools S_Tools P_Tools P_Tools2 P_Tools3
  P_Tools4 P_ToolsEx M_Full S_Full P_Full P_Full2 P_Full3 P_Full4 T_Engine T_GenSys T_Tools T_Pipe.
Set Implicit Arguments. Unset Strict Implicit. Unset Printing Implicit Defensive.
Import GRing.Theory Num.Theory Order.TTheory.
Local Open Scope ring_scope.

Section Lems.
Variables (F : realFieldType) (tol : F) (rq : forall d, 'M[F]_d -> 'M[F]_d * 'M[F]_d).
Variable klein : forall a b, 'M[F]_(a + b) -> 'M[F]_(a + b) -> res ('M[F]_(b, a) * 'M[F]_a).
Hypothesis rqP : rq_ok rq.
Hypothesis klP : klein_ok klein.
Variables (m : rawmodel F) (p : parsed F) (eqs : seq (eqn F)) (ceq : eqn F) (par : string -> F) (g : matrices F) (c : 'I_(size (p_vars p))).
Variables (xb : F) (lm km : nat).
Hypothesis R : regular_file tol m eqs ceq par g c xb.
Variable mdl : tmodel F.
Hypothesis G : solve_file tol rq klein m par xb lm km = Ok mdl.
Hypothesis hl : (0 < lm < 999)%N.
Hypothesis hk : (0 < km)%N.
Hypothesis st0 : (size (shk mdl) < dq mdl)%N.

Lemma file_shk : shk mdl = r_shks m.
Proof.
case: R => Hp He Hce uv us Hc aff nl2 up2 affc cdat c0 cc0 obs0 Hg ws cc nl en ld un.
have t0 := tol0 ws; have [_ _ [_ _ Es _]] := pE Hp He.
by have [svv [cvv [sm [omg [lam [t [b [_ _ _ _ ->]]]]]]]] := gen_sysE un t0 ld (solve_fileE Hp uv Hg Hc G).
Qed.

Lemma file_solved' : exists sm f omg lam, @solved F mdl sm f omg lam /\ no_expected_shocks sm (neps mdl).
Proof.
have hsk := file_shk.
case: R => Hp He Hce uv us Hc aff nl2 up2 affc cdat c0 cc0 obs0 Hg ws cc nl en ld un.
have [_ _ [_ _ Es _]] := pE Hp He.
have st1 : (size (p_shks p) < dq mdl)%N by rewrite Es -hsk.
exact: (gen_sys_solved rqP klP un ld (erefl _) hl hk (solve_fileE Hp uv Hg Hc G) st1 ws cc).
Qed.

Lemma file_period st sh sk lin x (l k : nat) fl :
  (nq mdl <= size st)%N -> size sh = size (r_shks m) -> t_func mdl st (Some sh) sk lin = Ok (x, (l%:Z, k%:Z), fl) ->
  exists X E, period_solves m p eqs ceq par xb mdl st sh x l k X E.
Proof.
case: R => Hp He Hce uv us Hc aff nl2 up2 affc cdat c0 cc0 obs0 Hg ws cc nl en ld un ge sz E.
have [_ _ [_ Ec _ _]] := pE Hp He.
have ece : ceq = p_ceq p by move: Hce; rewrite Ec => -[].
subst ceq.
have obs1 o : List.In o (p_obs p) -> [/\ affine o.2, no_shocks o.2 & dates_in (-1) 0 0 0 o.2].
  case/obs0 => h1 h2 h3; split=> // a /h3; case: (knd a) => // /andP [a1 a2]; apply/andP; split=> //.
  by apply: le_trans a1.
have t01 : 0 < tol <= 1 by case: ws.
have [X [E' [h1 h2 h3 h4]]] := period rqP klP Hp He uv us Hg Hc un G aff nl2 up2 affc cdat obs1 c0 cc0 ws cc nl en ld hl hk st0 ge sz E.
exists X, E'; split=> // t; exact: (report_obs Hp He uv us Hg Hc un G aff nl2 affc cdat obs0 t01 ld X E' t).
Qed.
End Lems.

(** C116.  The model built from a file is a solved model in the sense of the properties about simulation (C19-C32, C101-C111), and it
    expects no shocks. *)
Theorem C116_model_is_solved (F : realFieldType) (tol : F) (rq : forall d, 'M[F]_d -> 'M[F]_d * 'M[F]_d)
    (klein : forall a b, 'M[F]_(a + b) -> 'M[F]_(a + b) -> res ('M[F]_(b, a) * 'M[F]_a))
    (m : rawmodel F) (p : parsed F) eqs ceq par g (c : 'I_(size (p_vars p))) xb (lm km : nat) (mdl : tmodel F) :
  rq_ok rq -> klein_ok klein -> regular_file tol m eqs ceq par g c xb -> (0 < lm < 999)%N -> (0 < km)%N ->
  solve_file tol rq klein m par xb lm km = Ok mdl -> (size (shk mdl) < dq mdl)%N ->
  shk mdl = r_shks m /\
  exists sm f omg lam, @solved F mdl sm f omg lam /\ no_expected_shocks sm (neps mdl).
Proof. move=> rqP klP R hl hk G st0; split; [exact: (file_shk R G) | exact: (file_solved' rqP klP R G hl hk st0)]. Qed.
Print Assumptions C116_model_is_solved.

(** One period.  Whatever the state, the shocks and the way expectations are set, the reported period solves the file. *)
Theorem C116_period (F : realFieldType) (tol : F) (rq : forall d, 'M[F]_d -> 'M[F]_d * 'M[F]_d)
    (klein : forall a b, 'M[F]_(a + b) -> 'M[F]_(a + b) -> res ('M[F]_(b, a) * 'M[F]_a))
    (m : rawmodel F) (p : parsed F) eqs ceq par g (c : 'I_(size (p_vars p))) xb (lm km : nat) (mdl : tmodel F) :
  rq_ok rq -> klein_ok klein -> regular_file tol m eqs ceq par g c xb -> (0 < lm < 999)%N -> (0 < km)%N ->
  solve_file tol rq klein m par xb lm km = Ok mdl -> (size (shk mdl) < dq mdl)%N ->
  forall st sh set_k linear x (l k : nat) flag,
    (nq mdl <= size st)%N -> size sh = size (r_shks m) ->
    t_func mdl st (Some sh) set_k linear = Ok (x, (l%:Z, k%:Z), flag) ->
    exists X E, period_solves m p eqs ceq par xb mdl st sh x l k X E.
Proof. move=> rqP klP R hl hk G st0 st sh sk lin x l k fl; exact: (file_period rqP klP R G hl hk st0). Qed.
Print Assumptions C116_period.

(** Simulations: set_par re-solves the file for the parameters [par]; every simulated period solves the file, starting from the
    states simulated for the period before. *)
Theorem C116_simulate (F : realFieldType) (tol : F) (rq : forall d, 'M[F]_d -> 'M[F]_d * 'M[F]_d)
    (klein : forall a b, 'M[F]_(a + b) -> 'M[F]_(a + b) -> res ('M[F]_(b, a) * 'M[F]_a))
    (m : rawmodel F) (p : parsed F) eqs ceq par g (c : 'I_(size (p_vars p))) xb (lm km : nat) (mdl : tmodel F) :
  rq_ok rq -> klein_ok klein -> regular_file tol m eqs ceq par g c xb -> (0 < lm < 999)%N -> (0 < km)%N ->
  solve_file tol rq klein m par xb lm km = Ok mdl -> (size (shk mdl) < dq mdl)%N ->
  forall op linear es st xs lks flag,
    (nq mdl <= size st)%N -> all (fun e => size e == size (r_shks m)) es ->
    sim_run (fun q => solve_file tol rq klein m q xb lm km) op None linear par es st = Ok (xs, lks, flag) ->
    forall t, (t < size es)%N -> exists l k X E, nth (0, 0) lks t = lkz (l, k) /\
      period_solves m p eqs ceq par xb mdl (nth [::] xs t) (nth [::] es t) (nth [::] xs t.+1) l k X E.
Proof.
move=> rqP klP R hl hk G st0 op lin es st xs lks fl ge al S.
have [sm [f [omg [lam [sd _]]]]] := file_solved' rqP klP R G hl hk st0.
have [fls [h1 h2 h3 _ [_ H]]] := C26_simulate (setpar := fun q => solve_file tol rq klein m q xb lm km) G S.
have ge' t : (t <= size es)%N -> (nq mdl <= size (nth [::] xs t))%N.
  case: t => [_|t lt]; first by rewrite h3.
  by rewrite (t_func_size (dims sd) (sd_vv sd) (H t lt)) (sd_vv sd) leq_addl.
move=> t lt; have E := H t lt; have [l [k e]] := t_func_nat (sk := KNone) isT E; rewrite e in E.
have sz : size (nth [::] es t) = size (r_shks m) by have /allP /(_ _ (mem_nth [::] lt)) /eqP := al.
by have [X [E' P]] := file_period rqP klP R G hl hk st0 (ge' t (ltnW lt)) sz E; exists l, k, X, E'.
Qed.
Print Assumptions C116_simulate.

(** Impulse responses, with any list of shocks, any [set_k] and any [force_init_equil]: every reported period with durations (l,k) solves
    the file, starting from the states reported for the period before. *)
Theorem C116_irfs (F : realFieldType) (tol : F) (rq : forall d, 'M[F]_d -> 'M[F]_d * 'M[F]_d)
    (klein : forall a b, 'M[F]_(a + b) -> 'M[F]_(a + b) -> res ('M[F]_(b, a) * 'M[F]_a))
    (m : rawmodel F) (p : parsed F) eqs ceq par g (c : 'I_(size (p_vars p))) xb (lm km : nat) (mdl : tmodel F) :
  rq_ok rq -> klein_ok klein -> regular_file tol m eqs ceq par g c xb -> (0 < lm < 999)%N -> (0 < km)%N ->
  solve_file tol rq klein m par xb lm km = Ok mdl -> (size (shk mdl) < dq mdl)%N ->
  forall P (setpar : P -> res (tmodel F)) anyp shocklist st T linear set_k force rows flag mult,
    (nq mdl <= size st)%N ->
    irfs mdl setpar anyp shocklist None (Some st) T linear set_k force = Ok (IRows rows flag mult) ->
    size rows = T /\
    let sl := [seq norm_shock a | a <- shocklist] in
    forall t l k, (t < T)%N -> (nth ([::], (0, 0)) rows t).2 = lkz (l, k) ->
      exists X E, period_solves m p eqs ceq par xb mdl (nth [::] (st :: [seq x.1 | x <- rows]) t)
                    (shocks_at (r_shks m) sl t) (nth ([::], (0, 0)) rows t).1 l k X E.
Proof.
move=> rqP klP R hl hk G st0 P setpar anyp shl st T lin sk fo rows fl mult ge; rewrite /irfs /irf_run.
have es := file_shk R G; have us : uniq (shk mdl) by rewrite es; case: R.
have [sm [f [omg [lam [sd _]]]]] := file_solved' rqP klP R G hl hk st0.
case S: foldM => [r|] //= [eR _ _].
have [rs [h1 h2 h3]] := fold_inv (dims sd) us S; rewrite cats0 in h1.
have er : rows = rs by rewrite -eR h1 revK.
subst rs; split=> // t l k lt el.
have nge : (nq mdl <= size (nth [::] (st :: [seq x.1 | x <- rows]) t))%N.
  apply: (enters_size (dims sd) (sd_vv sd) ge _ h2 (ltnW lt)) => j jn.
  by have [s1 [s2 s3]] := h3 j jn; exists s1, s2; eexists; exact: s3.
have [sk' [fl' E]] := h3 t lt.
rewrite add0n es in E; case: (nth ([::], (0, 0)) rows t) el E => x lk /= -> E.
by apply: (file_period rqP klP R G hl hk st0 nge _ E); rewrite size_map.
Qed.
Print Assumptions C116_irfs.

(** The file of C95: variables x, r, shock e; x + r = x(-2) + e(-1); constraint r = 1.5 x; bound -1; observable x.  It is regular and is
    solved with a [klein] that returns the linear solution of this one system and raises for all others. *)
Section Ex.
Variable F : rcfType.
Variables (a0 b0 : nat) (S0 T0 : 'M[F]_(a0 + b0)) (omg0 : 'M[F]_(b0, a0)) (lam0 : 'M[F]_a0).
Definition one_klein a b (S T : 'M[F]_(a + b)) : res ('M[F]_(b, a) * 'M[F]_a) :=
  if [&& a == a0, b == b0, conform_mx 0 S == S0 & conform_mx 0 T == T0]
  then Ok (conform_mx 0 omg0, conform_mx 0 lam0) else Err LinAlgErr.
Lemma one_klein_ok : linear_solution S0 T0 omg0 lam0 -> klein_ok one_klein.
Proof.
move=> ls a b S T omg lam; rewrite /one_klein; case: eqP => //= ea; case: eqP => //= eb; subst a b.
by rewrite !conform_mx_id; case: eqP => //= ->; case: eqP => //= -> [<- <-].
Qed.
Lemma one_kleinE : one_klein S0 T0 = Ok (omg0, lam0).
Proof. by rewrite /one_klein !conform_mx_id !eqxx. Qed.
End Ex.

Lemma pf_solve0 (F : rcfType) (par : string -> F) : let tol := P_GenSysEx.tol F in
  exists g, let u := usys_of_file g (pf_c F) (-1) in exists sm omg lam, [/\ rq_ok (@some_rq F), linear_solution (mS sm) (mT sm) omg lam,
    regular_file tol (pf F) (pf_eqs F) (p_ceq (pf_p F)) par g (pf_c F) (-1), sys_of tol u (@some_rq F) = Ok sm &
    forall klein : (forall a b, 'M[F]_(a + b) -> 'M[F]_(a + b) -> res ('M[F]_(b, a) * 'M[F]_a)), klein (dimq tol u) (dimp tol u) (mS sm) (mT sm) = Ok (omg, lam) ->
      exists2 mdl, solve_file tol (@some_rq F) klein (pf F) par (-1) 4 17 = Ok mdl & (size (shk mdl) < dq mdl)%N].
Proof.
move=> tol.
have [g [sm [svv [cvv [vv [[Hp He Hce [uv us]] [a1 a2 a4 a5 ob] [Hg t01] [so nv un xi]]]]]]] := @pf_obs F par.
have [_ _ [_ _ a3] _ [a7 a8]] := @pf_ok F par.
have [g' [sm' [omg [lam [t [b [_ _ _ [Hg' Hc] [ws [cc nl] en rqP [so' ls pre]]]]]]]]] := @pf_all F par.
have [g2 [Hg2 [hA hB hC hP] hl hr hp]] := @pf_mat F par.
have eg : g' = g by move: Hg'; rewrite Hg => -[].
have eg2 : g2 = g by move: Hg2; rewrite Hg => -[].
subst g' g2; have esm : sm' = sm by move: so'; rewrite so => -[].
subst sm'; pose u := usys_of_file g (pf_c F) (-1).
have /andP [t0 t1] := t01.
have ld : shocks_loaded tol u.
  move=> k; left; exists (@Ordinal 3 1 isT); rewrite (_ : DD0 u = - mx_of 3 1 (g_PSI g)) // hP (ord1 k) !mxE /= normrN normr1.
  exact: t1.
exists g; rewrite /= -/u; exists sm, omg, lam; split; [exact: rqP|exact: ls|by split|exact: so|] => kl klE.
have E : gen_sys tol (@some_rq F) kl u (in_tuple (p_vars (pf_p F))) (p_shks (pf_p F))
  (mx_of (size (p_obs (pf_p F))) (size (p_vars (pf_p F))) (g_ZZ0 g)) (\col_i nth 0 (g_ZZ1 g) i) 4 17 =
  Ok (@TM F (dimq tol u) (dimp tol u) t b 4 17 (-1) [:: "e"%string] 1 #|dropeps (inq (tol:=tol) (u:=u))|
     (conform_mx 0 (zp tol u (mx_of 1 4 (g_ZZ0 g)))) (zq tol u (mx_of 1 4 (g_ZZ0 g))) (\col_i nth 0 (g_ZZ1 g) i) vv).
  by rewrite /gen_sys nv /= so /= klE /= pre.
have sf mdl : gen_sys tol (@some_rq F) kl u (in_tuple (p_vars (pf_p F))) (p_shks (pf_p F))
  (mx_of (size (p_obs (pf_p F))) (size (p_vars (pf_p F))) (g_ZZ0 g)) (\col_i nth 0 (g_ZZ1 g) i) 4 17 = Ok mdl ->
  solve_file tol (@some_rq F) kl (pf F) par (-1) 4 17 = Ok mdl.
  rewrite /solve_file Hp [rbind (Ok _) _]/=; case: ifP => [_|/negP []]; last by rewrite oppr_le0 ler01.
  rewrite Hg [rbind (Ok _) _]/=.
  by case: insubP => [c' _ ec|] //; have -> : c' = pf_c F by apply: val_inj.
eexists; first by apply: sf; exact: E.
rewrite /=.
have : uniq [:: lshift 1 (lshift (na tol u) (@Ordinal 4 3 isT)); rshift (4 + na tol u) (@Ordinal 1 0 isT)] by rewrite cons_uniq mem_seq1 eq_lrshift.
move/card_uniqP => /= e2; suff h : (#|[:: lshift 1 (lshift (na tol u) (@Ordinal 4 3 isT)); rshift (4 + na tol u) (@Ordinal 1 0 isT)]| <= dimq tol u)%N.
  exact: (leq_trans (eq_leq (esym e2)) h).
apply: subset_leq_card; apply/subsetP => j; rewrite in_cons mem_seq1 => /orP [] /eqP -> {j}.
  rewrite unfold_in; apply: (etrans (inq_var u t0 (@Ordinal 4 3 isT))); apply/orP; left.
  rewrite (_ : AA0 u = mx_of 3 4 (g_AA g)) // hA (_ : CC0 u = mx_of 3 4 (g_CC g)) // hC.
  apply/andP; split; last by apply/forallP => i; rewrite mxE normr0.
  by apply/negP => /forallP /(_ (@Ordinal 3 0 isT)); rewrite mxE /= normrN normr1 ltNge t1.
by rewrite -topredE /=; exact: (shk_q t0 ld).
Qed.
Lemma pf_solve (F : rcfType) (par : string -> F) : let tol := P_GenSysEx.tol F in
  exists g a b (S T : 'M[F]_(a + b)) omg lam, [/\ rq_ok (@some_rq F), linear_solution S T omg lam,
    regular_file tol (pf F) (pf_eqs F) (p_ceq (pf_p F)) par g (pf_c F) (-1) &
    forall klein, klein a b S T = Ok (omg, lam) ->
      exists2 mdl, solve_file tol (@some_rq F) klein (pf F) par (-1) 4 17 = Ok mdl & (size (shk mdl) < dq mdl)%N].
Proof.
move=> tol; have [g [sm [omg [lam [h1 h2 h3 _ H]]]]] := @pf_solve0 F par.
by exists g, _, _, (mS sm), (mT sm), omg, lam.
Qed.

Lemma pf_full (F : rcfType) (par : string -> F) : let tol := P_GenSysEx.tol F in
  exists g klein mdl, [/\ rq_ok (@some_rq F), klein_ok klein, regular_file tol (pf F) (pf_eqs F) (p_ceq (pf_p F)) par g (pf_c F) (-1),
    solve_file tol (@some_rq F) klein (pf F) par (-1) 4 17 = Ok mdl & (size (shk mdl) < dq mdl)%N].
Proof.
move=> tol; have [g [a [b [S [T [omg [lam [h1 h2 h3 H]]]]]]]] := @pf_solve F par.
have [mdl h4 h5] := H _ (one_kleinE S T omg lam).
by exists g, (one_klein S T omg lam), mdl; split=> //; apply: one_klein_ok.
Qed.

Example C116_example (par : string -> realalg) : let F := [rcfType of realalg] in let tol := P_GenSysEx.tol F in
  exists g klein mdl, [/\ rq_ok (@some_rq F), klein_ok klein, regular_file tol (pf F) (pf_eqs F) (p_ceq (pf_p F)) par g (pf_c F) (-1),
    solve_file tol (@some_rq F) klein (pf F) par (-1) 4 17 = Ok mdl &
    (size (shk mdl) < dq mdl)%N /\
    forall op linear es st, (nq mdl <= size st)%N -> all (fun e => size e == 1%N) es ->
      exists r, sim_run (fun q => solve_file tol (@some_rq F) klein (pf F) q (-1) 4 17) op None linear par es st = Ok r].
Proof.
move=> F tol; have [g [kl [mdl [h1 h2 h3 h4 h5]]]] := @pf_full F par; exists g, kl, mdl; split=> //; split=> // op lin es st ge al.
have [es' [sm [f [omg [lam [sd _]]]]]] := C116_model_is_solved h1 h2 h3 (isT : (0 < 4 < 999)%N) (isT : (0 < 17)%N) h4 h5.
by apply: (C26_total (setpar := fun q => solve_file tol (@some_rq F) kl (pf F) q (-1) 4 17) _ _ sd h4 ge); rewrite /neps es'.
Qed.
Print Assumptions C116_example.

(** C117.  An impulse response is a simulation: with expectations left to the search, and unless a shock arrives after period 0 and
    [force_init_equil] holds the first equilibrium, irfs gives the rows, the durations, the error flag and the errors that simulate gives for the
    vectors of the shocks of each period; it never reports multiplicity. *)
Theorem C117_irfs_is_simulate (F : realFieldType) (m : tmodel F) P (setpar : P -> res (tmodel F)) anyp op par shocklist st0 T linear set_k force :
  (0 < neps m < dq m)%N -> size (vvs m) = (dp m + nq m)%N -> uniq (shk m) -> setpar par = Ok m ->
  endogenous set_k ->
  let sl := [seq norm_shock a | a <- shocklist] in
  ~~ (odflt (default_force set_k) force && has (fun a => a.2 != 0) sl) ->
  (forall t, (t < T)%N -> known_at (shk m) sl t) ->
  irfs m setpar anyp shocklist None (Some st0) T linear set_k force =
  match sim_run setpar op None linear par [seq shocks_at (shk m) sl t | t <- iota 0 T] st0 with
  | Ok (xs, lks, flag) => Ok (IRows (zip (behead xs) lks) flag false)
  | Err e => Err e
  end.
Proof.
move=> dm vv un sp en sl nf kn; rewrite /irfs /irf_run /sim_run /= sp /= eqxx.
rewrite (fold_sim dm vv un linear en nf); last by move=> s /andP [_ h]; apply: kn.
case: sim_loop => [[r fl]|] //=; rewrite cats0 revK; congr (Ok (IRows _ _ _)); last exact: PeanoNat.Nat.lor_0_l.
by elim: r => //= -[x lk] r IH; rewrite -IH.
Qed.
Print Assumptions C117_irfs_is_simulate.

(** two shocks, in periods 0 and 2, with force_init_equil=False *)
Example C117_example : exists t b, let m := ex3_m t b in
  [/\ (0 < neps m < dq m)%N, size (vvs m) = (dp m + nq m)%N, uniq (shk m),
      endogenous KNone & let sl := [seq norm_shock a | a <- [:: SPair "e"%string (- 3%:Q); STriple "e"%string (1%:Q) 2]] in
      ~~ (odflt (default_force KNone) (Some false) && has (fun a => a.2 != 0) sl) /\ forall t, (t < 4)%N -> known_at (shk m) sl t].
Proof. by have [t [b sd]] := ex3_solved ex3_f; exists t, b; split=> //; split=> // -[|[|[|[|]]]]. Qed.
