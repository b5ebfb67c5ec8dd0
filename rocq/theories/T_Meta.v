(** Property theorems C107-C111: relations between two runs of a model. *)
Set Warnings "-all".
From Coq Require Import String.
From mathcomp Require Import all_ssreflect all_algebra.
From Verif Require Import PyBase PyStr P_Loops M_FindLk M_Engine S_Engine S_FindLk S_Horizon M_GenSys M_Tools S_Tools P_Tools P_Tools2 P_Tools3 P_Tools4 S_Meta P_Meta P_Meta2 P_Meta3 P_MetaEx P_MetaEx2 P_Engine4 P_ToolsEx T_Engine T_Horizon.
Set Implicit Arguments. Unset Strict Implicit. Unset Printing Implicit Defensive.
Import GRing.Theory Num.Theory Order.TTheory.
Local Open Scope ring_scope.

Lemma castmx_scale (F : ringType) (a a' b b' : nat) (e : (a = a') * (b = b')) (c : F) (A : 'M[F]_(a, b)) :
  castmx e (c *: A) = c *: castmx e A.
Proof. by case: e => e1 e2; case: _ / e1; case: _ / e2; rewrite !castmx_id. Qed.

(** C107: the bound is the only place where the units of the variables matter.  The equations with the bound multiplied by [c] ... *)
Theorem C107_only_the_constant_changes (F : realFieldType) (tol : F) (m n e : nat) (u : usys F m n e) rq (c : F) :
  sys_of tol (scale_bound c u) rq = rmap (fun sm => scale_h c sm) (sys_of tol u rq) /\
  ff tol (scale_bound c u) = ff tol u /\ x_bar (scale_bound c u) = c * x_bar u.
Proof.
split; last by [].
rewrite /sys_of; case: eqP => // pf.
change (sysmats F (dimq tol (scale_bound c u)) (dimp tol (scale_bound c u))) with (sysmats F (dimq tol u) (dimp tol u)).
have G : gg tol (scale_bound c u) = c *: gg tol u.
  by rewrite /gg /= (scale_col_mx c 0 (x_bar u)%:M) scaler0 scale_scalar_mx.
rewrite G /rotate {G}.
case: (rq _ _) => R1 Q1; case: (rq _ _) => R2 Q2 /=; congr Ok.
by rewrite castmx_scale -scalemxAr.
Qed.
Print Assumptions C107_only_the_constant_changes.

(** ... have a solution if the original ones have one, and every result from multiplied states and shocks is the multiplied
    result, with the same durations and flags *)
Theorem C107_units (F : realFieldType) (m : tmodel F) sm f omg lam (c : F) : 0 < c ->
  preprocess sm f omg lam (lmx m) (kmx m) = Ok (tab m, btab m) ->
  exists t' b', preprocess (scale_h c sm) f omg lam (lmx m) (kmx m) = Ok (t', b') /\
    let m' := with_bound t' b' (c * xb m) in
    (forall st sh sk linear, t_func m' (scale c st) (omap (scale c) sh) sk linear = scale_out c (t_func m st sh sk linear)) /\
    (forall P (setpar : P -> res (tmodel F)) anyp shocklist st T linear sk fo,
       irfs m' setpar anyp [seq scale_shock c a | a <- shocklist] None (omap (scale c) st) T linear sk fo =
       scale_irfs c (irfs m setpar anyp shocklist None st T linear sk fo)) /\
    (forall P (setpar setpar' : P -> res (tmodel F)) mask linear par eps st, setpar par = Ok m -> setpar' par = Ok m' ->
       sim_run setpar' *%R mask linear par [seq scale c e | e <- eps] (scale c st) =
       scale_sim c (sim_run setpar *%R mask linear par eps st)).
Proof.
move=> c0 pre; have ss : ssm c sm (scale_h c sm) by [].
have := preprocess_rel f omg lam (lmx m) (kmx m) ss; rewrite pre.
case E: (preprocess (scale_h c sm) _ _ _ _ _) => [[t' b']|] // -[ht hb]; exists t', b'; split; first by [].
move=> m'.
split; first by move=> st sh sk lin; apply: t_func_sc.
split.
  move=> P setpar anyp sl st T lin sk fo; rewrite /irfs.
  have -> : [seq norm_shock a | a <- [seq scale_shock c a | a <- sl]] =
            [seq (a.1.1, c * a.1.2, a.2) | a <- [seq norm_shock a | a <- sl]].
    by rewrite -!map_comp; apply: eq_map => a /=; apply: norm_sc.
  rewrite (irf_run_sc c0 ht hb); case: irf_run => //= r.
  by rewrite map_rev.
move=> P setpar setpar' mask lin par eps st E1 E2; rewrite /sim_run.
have -> : (if mask is Some mk then mask_eps *%R mk [seq scale c e | e <- eps] else Ok [seq scale c e | e <- eps]) =
          rmap (map (scale c)) (if mask is Some mk then mask_eps *%R mk eps else Ok eps).
  case: mask => // mk; elim: eps mk => [|e eps IH] [|r mk] //=.
  rewrite IH /mask_row size_scale; case: ifP => //= /eqP sz.
  case: mask_eps => //= xs; congr (Ok (_ :: _)).
  elim: r e sz => [|x r IHr] [|y e] //= [sz]; rewrite /scale /= -/(scale c e) IHr //; congr (_ :: _).
  by case: x => // a; rewrite mulrCA.
case: (if mask is Some _ then _ else _) => //= eps'; rewrite E1 E2 /= !eqxx (sim_loop_sc c0 ht hb).
case: sim_loop => //= r; congr (Ok (_, _, _)); rewrite -!map_comp //=.
Qed.
Print Assumptions C107_units.

Example C107_example : exists t b t' b', let m := ex3_m t b in
  [/\ preprocess ex3 ex3_f ex3_omg ex3_A (lmx m) (kmx m) = Ok (tab m, btab m),
      preprocess (scale_h 5%:Q ex3) ex3_f ex3_omg ex3_A (lmx m) (kmx m) = Ok (t', b') & xb (@with_bound _ m t' b' (5%:Q * xb m)) = - 5%:Q].
Proof.
have [t [b sd]] := ex3_solved ex3_f; have c0 : 0 < 5%:Q by [].
have [t' [b' [E _]]] := C107_units c0 (sd_pre sd).
by exists t, b, t', b'; split=> //; apply: (sd_pre sd).
Qed.

(** C108: clear of the bound, the model is its linear version *)
Theorem C108_one_period (F : realFieldType) (m : tmodel F) sm f omg lam st sh :
  @solved F m sm f omg lam -> (nq m <= size st)%N -> size sh = neps m ->
  (clear_of_bound sm f omg (inp_vec m st sh) ->
     t_func m st (Some sh) KNone false = t_func m st (Some sh) KNone true) /\
  (forall x l flag, t_func m st (Some sh) KNone false = Ok (x, (l, 0), flag) ->
     clear_of_bound sm f omg (inp_vec m st sh)).
Proof.
move=> sd sz es; split; first exact: (clear_t_func sd sz es).
move=> x l flag E; have [l' [k' [fl [c [ll kk Ec]]]]] := t_func_total sd sz es; rewrite E => -[_ el ek _].
have [r [Er [e1 e2]]] : exists r, msearch (inp_vec m st sh) = Ok r /\ (l, 0) = (Posz r.1.1, Posz r.1.2) /\ flag = r.2.
  have := t_func_inv E; rewrite /= => -[? [? [? [[r [Er [e1 e2]]] _ _ _ _]]]].
  by exists r; split; [rewrite -Er /inp_vec -(sliceE st (sd_st sd))|split].
case: r Er e1 e2 => [[a k] fl'] Er [_ ek'] _ /=.
by apply: (search_k0 sd (l := a) (fl := fl')); rewrite Er -ek'.
Qed.
Print Assumptions C108_one_period.

Theorem C108_irfs (F : realFieldType) (m : tmodel F) sm f omg lam
    P (setpar : P -> res (tmodel F)) anyp shocklist st0 T sk fo rows err mult :
  @solved F m sm f omg lam -> uniq (shk m) -> endogenous sk -> (nq m <= size st0)%N ->
  irfs m setpar anyp shocklist None (Some st0) T true sk fo = Ok (IRows rows err mult) ->
  (forall t, (t < T)%N -> clear_of_bound sm f omg
     (inp_vec m (nth [::] (st0 :: [seq x.1 | x <- rows]) t) (shocks_at (shk m) [seq norm_shock a | a <- shocklist] t))) ->
  irfs m setpar anyp shocklist None (Some st0) T false sk fo = Ok (IRows rows err mult).
Proof.
move=> sd un en sz; rewrite /irfs; case E: irf_run => [r|] //= [<- <- <-] cl.
by rewrite (run_clear sd un sz en E cl).
Qed.
Print Assumptions C108_irfs.

Theorem C108_simulate (F : realFieldType) (m : tmodel F) sm f omg lam P (setpar : P -> res (tmodel F)) op par es st xs lks flag :
  @solved F m sm f omg lam -> setpar par = Ok m -> (nq m <= size st)%N -> all (fun e => size e == neps m) es ->
  sim_run setpar op None true par es st = Ok (xs, lks, flag) ->
  (forall t, (t < size es)%N -> clear_of_bound sm f omg (inp_vec m (nth [::] xs t) (nth [::] es t))) ->
  sim_run setpar op None false par es st = Ok (xs, lks, flag).
Proof.
move=> sd Ep sz al; rewrite /sim_run /= Ep /= eqxx; case E: sim_loop => [r|] //= [<- <- <-] cl.
by rewrite (sim_clear sd sz al E).
Qed.
Print Assumptions C108_simulate.


Example C108_example : exists t b, let m := ex3_m t b in
  [/\ @solved _ m ex3 ex3_f ex3_omg ex3_A, @clear_of_bound _ m ex3 ex3_f ex3_omg (inp_vec m [:: 1%:Q; 1%:Q] [:: 1%:Q]) &
      ~ @clear_of_bound _ m ex3 ex3_f ex3_omg (inp_vec m [:: 0; 0] [:: - 3%:Q])].
Proof.
have [t [b sd]] := ex3_solved ex3_f; exists t, b; split=> //.
  move=> q p an q0 s _; rewrite (ex3_z s an) q0; have [-> ->] := ex3_inp t b 1%:Q 1%:Q 1%:Q.
  by apply: lt_le_trans (_ : 0 <= _) => //; apply: mulr_ge0 => //; apply: exprn_ge0.
have [q [p [q0 an]]] := @ex3_path 0 0 (inp_vec (ex3_m t b) [:: 0; 0] [:: - 3%:Q]) isT isT.
move=> /(_ q p an q0 0%N isT); rewrite (ex3_z 0 an) q0; have [-> ->] := ex3_inp t b 0 0 (- 3%:Q).
by [].
Qed.

(** C109: with given durations the model is affine: mixtures of inputs give mixtures of results *)
Theorem C109_given_durations (F : realFieldType) (m : tmodel F) sm f omg lam (a b : F) st st' sh sh' l k :
  @solved F m sm f omg lam -> a + b = 1 -> (l <= lmx m)%N -> (k <= kmx m)%N ->
  size st = size st' -> (nq m <= size st)%N -> size sh = neps m -> size sh' = neps m ->
  exists x x', [/\ t_func m st (Some sh) (KTuple l k) false = Ok (x, (l%:Z, k%:Z), 0%N),
    t_func m st' (Some sh') (KTuple l k) false = Ok (x', (l%:Z, k%:Z), 0%N), size x = size x' &
    t_func m (lincomb a st b st') (Some (lincomb a sh b sh')) (KTuple l k) false = Ok (lincomb a x b x', (l%:Z, k%:Z), 0%N)].
Proof.
move=> sd ab ll kk es sz e1 e2; have [c Ec] := cells_ok sd ll kk.
have sz' : (nq m <= size st')%N by rewrite -es.
have e3 : size sh = size sh' by rewrite e2.
have sz3 : (nq m <= size (lincomb a st b st'))%N by rewrite size_lincomb.
have e4 : size (lincomb a sh b sh') = neps m by rewrite size_lincomb.
exists (cell_row c (inp_vec m st sh)), (cell_row c (inp_vec m st' sh')).
rewrite (t_func_forced (dims sd) sz e1 ll kk Ec) (t_func_forced (dims sd) sz' e2 ll kk Ec) (t_func_forced (dims sd) sz3 e4 ll kk Ec).
split=> //; first by rewrite !size_cell_row ?(sd_eps sd).
congr (Ok (_, _, _)); rewrite inp_vec_lincomb //; set u := inp_vec _ _ _; set v := inp_vec _ _ _.
rewrite /cell_row lincomb_cat ?size_seq_of // lincomb_take; congr (_ ++ take _ _); rewrite -seq_of_lincomb; congr seq_of.
  rewrite mulmxDr -!scalemxAr !scalerDr addrACA -[in RHS]scalerDl ab scale1r //.
by rewrite mulmxDr -!scalemxAr !scalerDr addrACA -[in RHS]scalerDl ab scale1r.
Qed.
Print Assumptions C109_given_durations.

(** if the same durations (l, k) are an equilibrium from two states, they are one from every state between them, and there the search
    finds a pair that does not come after (l, k) *)
Theorem C109_between_two_equilibria (F : realFieldType) (dimq dimp : nat)
    (sm : sysmats F dimq dimp) (f : cnst F dimq dimp)
    (omg : 'M[F]_(dimp, dimq)) (lam : 'M[F]_dimq) (l_max k_max : nat) t tb q p q' p' xb l k (a b : F) :
  preprocess sm f omg lam l_max k_max = Ok (t, tb) -> ursubmx (mT sm) = 0 -> ursubmx (mW sm) = 0 ->
  linear_solution (mS sm) (mT sm) omg lam ->
  (0 < k_max)%N -> (0 < l_max < 999)%N -> (l <= l_max)%N -> (k <= k_max)%N -> (k = 0%N -> l = 0%N) ->
  announced (mS sm) (mT sm) (mV sm) (mW sm) (mh sm) omg l k q p ->
  announced (mS sm) (mT sm) (mV sm) (mW sm) (mh sm) omg l k q' p' ->
  equilibrium xb (notional (fq1 f) (fp1 f) (fq0 f) q p) l k ->
  equilibrium xb (notional (fq1 f) (fp1 f) (fq0 f) q' p') l k ->
  0 <= a -> 0 <= b -> a + b = 1 ->
  let q2 s := a *: q s + b *: q' s in let p2 s := a *: p s + b *: p' s in
  [/\ announced (mS sm) (mT sm) (mV sm) (mW sm) (mh sm) omg l k q2 p2,
      equilibrium xb (notional (fq1 f) (fp1 f) (fq0 f) q2 p2) l k &
      exists l' k', find_lk (check_cnst tb l_max.+1 k_max.+1 (q2 0%N)) xb l_max.+1 k_max.+1 = Ok (l', k', 0%N) /\
                    not_after (l', k') (l, k)].
Proof.
move=> pre h1 h2 ls k0 l0 ll kk kl [o1 s1] [o2 s2] [e1 e2 e3] [d1 d2 d3] a0 b0 ab q2 p2.
have mixE (G : 'M[F]_(dimq + dimp)) s : G *m col_mx (q2 s) (p2 s) = a *: (G *m col_mx (q s) (p s)) + b *: (G *m col_mx (q' s) (p' s)).
  by rewrite /q2 /p2 -add_col_mx -!scale_col_mx mulmxDr -!scalemxAr.
have an : announced (mS sm) (mT sm) (mV sm) (mW sm) (mh sm) omg l k q2 p2.
  split=> [s|s hs]; last by rewrite /p2 /q2 s1 // s2 // mulmxDr -!scalemxAr.
  have := o1 s; have := o2 s; case: binds; rewrite /unconstrained /constrained !mixE => -> ->.
    by rewrite !scalerDr addrACA -[a *: mh sm + _]scalerDl ab scale1r.
  by [].
have nE s : notional (fq1 f) (fp1 f) (fq0 f) q2 p2 s =
    a * notional (fq1 f) (fp1 f) (fq0 f) q p s + b * notional (fq1 f) (fp1 f) (fq0 f) q' p' s.
  rewrite /notional /q2 /p2 !mulmxDr -!scalemxAr.
  set x1 := fp1 f *m p s; set x2 := fq1 f *m q s.+1; set x3 := fq0 f *m q s.
  set y1 := fp1 f *m p' s; set y2 := fq1 f *m q' s.+1; set y3 := fq0 f *m q' s.
  rewrite (_ : _ + _ + _ = a *: (x1 + x2 + x3) + b *: (y1 + y2 + y3)); last by rewrite !scalerDr !addrA [LHS](ACl (1*3*5*2*4*6)).
  by rewrite [LHS]mxE [X in X + _]mxE [X in _ + X]mxE.
have xE : xb = a * xb + b * xb by rewrite -mulrDl ab mul1r.
have eq : equilibrium xb (notional (fq1 f) (fp1 f) (fq0 f) q2 p2) l k.
  split=> s hs; rewrite nE {1}xE.
  - by apply: ler_add; apply: ler_wpmul2l => //; [apply: e1|apply: d1].
  - by apply: ler_add; apply: ler_wpmul2l => //; [apply: e2|apply: d2].
  - move: a0; rewrite le_eqVlt => /orP [/eqP az|ap].
      have b1 : b = 1 by rewrite -ab -az add0r.
      by rewrite -az b1 !mul0r !add0r !mul1r; apply: d3.
    by apply: ltr_le_add; [rewrite ltr_pmul2l // e3|apply: ler_wpmul2l => //; apply: ltW; apply: d3].
split=> //; exact: (C102_equilibrium_is_found pre h1 h2 ls k0 l0 ll kk kl an eq).
Qed.
Print Assumptions C109_between_two_equilibria.

Example C109_example : exists q p q' p',
  [/\ announced_by ex3 ex3_omg 0 1 q p, announced_by ex3 ex3_omg 0 1 q' p', q 0%N <> q' 0%N,
      equilibrium (-1) (notional (fq1 ex3_f) (fp1 ex3_f) (fq0 ex3_f) q p) 0 1 &
      equilibrium (-1) (notional (fq1 ex3_f) (fp1 ex3_f) (fq0 ex3_f) q' p') 0 1].
Proof.
pose V (x : rat) : 'cV[rat]_2 := \col_i (if i == 0 then 0 else - x).
have [q [p [q0 an]]] := @ex3_path 0 1 (V 1%:Q) isT isT; have [q' [p' [q0' an']]] := @ex3_path 0 1 (V (3%:Q / 2%:Q)) isT isT.
exists q, p, q', p'; split=> //.
- rewrite q0 q0' => /matrixP /(_ 1 0); rewrite [LHS]mxE [RHS]mxE => /oppr_inj h.
  by have : (1%:Q != 3%:Q / 2%:Q) by []; rewrite h eqxx.
- have z s : notional (fq1 ex3_f) (fp1 ex3_f) (fq0 ex3_f) q p s = - ((1 / 2%:Q) ^+ s * 1%:Q).
    by rewrite (ex3_z s an) q0 !mxE /= mul0r add0r mulrN.
  split=> s // hs; rewrite z.
    by move: hs; case: s => // -[].
  case: s hs => // s _; rewrite ltr_oppr opprK exprSr -mulrA.
  by apply: le_lt_trans (ex3_half s _) _.
- have z s : notional (fq1 ex3_f) (fp1 ex3_f) (fq0 ex3_f) q' p' s = - ((1 / 2%:Q) ^+ s * (3%:Q / 2%:Q)).
    by rewrite (ex3_z s an') q0' !mxE /= mul0r add0r mulrN.
  split=> s // hs; rewrite z.
    by move: hs; case: s => // -[].
  case: s hs => // s _; rewrite ltr_oppr opprK exprSr -mulrA.
  by apply: le_lt_trans (ex3_half s _) _.
Qed.

(** C110: what happens until a period does not depend on later shocks, if the equilibrium is recalculated each period, or if both lists
    contain, or both do not contain, a shock after period 0 *)
Theorem C110_later_shocks (F : realFieldType) (m : tmodel F) P (setpar : P -> res (tmodel F)) anyp shocklist shocklist' par st T linear sk fo :
  let sl := [seq norm_shock a | a <- shocklist] in let sl' := [seq norm_shock a | a <- shocklist'] in
  agree_before T sl sl' ->
  (odflt (default_force sk) fo -> has (fun a => a.2 != 0) sl = has (fun a => a.2 != 0) sl') ->
  irfs m setpar anyp shocklist par st T linear sk fo = irfs m setpar anyp shocklist' par st T linear sk fo.
Proof.
move=> sl sl' ag fe; rewrite /irfs -/sl -/sl'.
have E m' := run_causal m' (size (vvs m)) (lmx m) (kmx m) st linear sk ag fe.
case: par => [p|]; last by rewrite E.
by case: (anyp p); [case: (setpar p) => [m'|[]] //|]; rewrite E.
Qed.
Print Assumptions C110_later_shocks.

(** nor on the number of periods asked for *)
Theorem C110_horizon (F : realFieldType) (m : tmodel F) P (setpar : P -> res (tmodel F)) anyp shocklist par st T d linear sk fo rows err mult :
  irfs m setpar anyp shocklist par st (T + d) linear sk fo = Ok (IRows rows err mult) ->
  exists err' mult', irfs m setpar anyp shocklist par st T linear sk fo = Ok (IRows (take T rows) err' mult').
Proof.
have E m' : rbind (irf_run m' (size (vvs m)) st (T + d) (lmx m) (kmx m) [seq norm_shock a | a <- shocklist] linear sk (odflt (default_force sk) fo))
     (fun r => Ok (IRows (rev (i_rows r)) (i_err r) (i_mult r))) = Ok (IRows rows err mult) ->
  exists err' mult', rbind (irf_run m' (size (vvs m)) st T (lmx m) (kmx m) [seq norm_shock a | a <- shocklist] linear sk (odflt (default_force sk) fo))
     (fun r => Ok (IRows (rev (i_rows r)) (i_err r) (i_mult r))) = Ok (IRows (take T rows) err' mult').
  case E: irf_run => [r|] //= [<- _ _]; have [r0 -> /= ->] := run_longer E; by do 2 eexists.
rewrite /irfs; case: par => [p|]; last exact: E.
by case: (anyp p); [case: (setpar p) => [m'|[]] // |]; apply: E.
Qed.
Print Assumptions C110_horizon.

(** With the default settings a shock that is added in a later period changes the responses before it: in the concrete model, after a
    shock of -100 in period 0 no equilibrium is within the horizons; the durations reported for period 1 are (0, 3), but (0, 2) if some
    shock is listed for period 9. *)
Theorem C110_later_shocks_refuted : exists (m : tmodel [realFieldType of rat]) sm f omg lam shocklist shocklist' x x' y err mult err' mult',
  let run sl := irfs m (fun _ : unit => Err ValueError) (fun _ => false) sl None None 2 false (KBool false) None in
  [/\ @solved _ m sm f omg lam, agree_before 2 [seq norm_shock a | a <- shocklist] [seq norm_shock a | a <- shocklist'],
      run shocklist = Ok (IRows [:: (x, (0, 3%:Z)); (y, (0, 3%:Z))] err mult) &
      run shocklist' = Ok (IRows [:: (x, (0, 3%:Z)); (x', (0, 2%:Z))] err' mult')].
Proof.
have [t [b sd]] := ex3_solved ex3_f; have [c1 E1] := cells_ok sd (leq0n 2) (leqnn 3); have [c2 E2] := cells_ok sd (leq0n 2) (leqnSn 2).
have [x [x' [y [err [mult [err' [mult' [R R']]]]]]]] := late_irfs sd E1 E2.
exists (ex3_m t b), ex3, ex3_f, ex3_omg, ex3_A, late_L, late_L', x, x', y, err, mult, err', mult'; split; [exact: sd | exact: late_agree | exact: R | exact: R'].
Qed.
Print Assumptions C110_later_shocks_refuted.

Example C110_example : let sl := [seq norm_shock a | a <- [:: SPair "e"%string (- 100%:Q); STriple "e"%string 1 2%:Z]] in
  let sl' := [seq norm_shock a | a <- [:: SPair "e"%string (- 100%:Q); STriple "e"%string 2%:Q 2%:Z; STriple "e"%string 1 9%:Z]] in
  [/\ agree_before 2 sl sl', sl <> sl', has (fun a => a.2 != 0) sl & has (fun a => a.2 != 0) sl'].
Proof.
move=> sl sl'; split; [case=> [|[|u]] h; [reflexivity|reflexivity|by []] | by move/(congr1 size) | reflexivity | reflexivity].
Qed.

(** C111: a model at rest stays at rest, and responses to shocks from rest can be moved in time *)
Theorem C111_rest (F : realFieldType) (m : tmodel F) sm f omg lam n linear :
  @solved F m sm f omg lam -> xb m < 0 -> (nq m <= n)%N ->
  t_func m (nseq n 0) None KNone linear = Ok (nseq (size (vvs m)) 0, (0, 0), 0%N).
Proof. by move=> sd xn hn; have [E _] := t_func_rest sd xn linear hn. Qed.
Print Assumptions C111_rest.

Theorem C111_later (F : realFieldType) (m : tmodel F) sm f omg lam P (setpar : P -> res (tmodel F)) anyp shocklist T d linear sk fo :
  @solved F m sm f omg lam -> xb m < 0 -> endogenous sk ->
  let sl := [seq norm_shock a | a <- shocklist] in
  all (fun a => 0 <= a.2) sl -> odflt (default_force sk) fo = false \/ has (fun a => a.2 != 0) sl ->
  irfs m setpar anyp [seq later d a | a <- shocklist] None None (d + T) linear sk fo =
  rmap (fun r => match r with
                 | IRows rows err mult => IRows (nseq d (nseq (size (vvs m)) 0, (0, 0)) ++ rows) err mult
                 | INan => INan _ end) (irfs m setpar anyp shocklist None None T linear sk fo).
Proof.
move=> sd xn en sl al hf; rewrite /irfs -/sl.
have -> : [seq norm_shock a | a <- [seq later d a | a <- shocklist]] = map (mv d) sl.
  by rewrite -!map_comp; apply: eq_map => a /=; apply: norm_later.
rewrite (@run_later _ _ _ _ _ _ sd xn sl linear sk _ d T en al hf) //; case: irf_run => //= r.
by rewrite rev_cat rev_nseq.
Qed.
Print Assumptions C111_later.

(** gen_sys accepts a bound of zero: then the model at rest is reported to be at the bound for one period *)
Theorem C111_zero_bound_refuted (F : realFieldType) (m : tmodel F) sm f omg lam n :
  @solved F m sm f omg lam -> xb m = 0 -> mh sm = 0 -> (nq m <= n)%N ->
  exists x, t_func m (nseq n 0) None KNone false = Ok (x, (0, 1), 0%N).
Proof.
move=> sd x0 h0 hn.
have [N NE] := notional_ex (f := f) (sd_pre sd) (sd_T sd) (sd_W sd) (sd_lin sd) 0 (lmx0 sd).
have N0 l k s : (l <= lmx m)%N -> (k <= kmx m)%N -> N l k s = 0.
  move=> ll kk; have [q [p [q0 an]]] := path_ex sd 0 ll kk.
  rewrite (NE _ _ _ _ ll kk an q0); have H := rest_path sd (or_introl h0) ll kk an q0.
  by rewrite /notional (H s).1 (H s).2 (H s.+1).1 !mulmx0 !addr0 mxE.
have /andP [_ l9] := sd_l sd; have k0 := sd_k sd.
have a01 : admissible N (xb m) 0 1 by split=> //; rewrite N0 // x0.
have E : msearch (0 : 'cV_(dq m)) = Ok (0%N, 1%N, 0%N).
  have [l [k [fl [Es so]]]] := searchP (sd_pre sd) (sd_T sd) (sd_W sd) (sd_lin sd) (xb m) NE k0 l9.
  rewrite /msearch Es; case: so => {Es l k fl}.
  - by move/(_ 0%N isT); rewrite N0 // x0 ltxx.
  - move=> l k _ [lL kK [kp a1 a2 a3 a4] fa].
    case: (posnP l) => [l0|lp]; last by case: (fa 0%N 1%N) => //; left.
    case: (ltngtP 1 k) => [k1|k1|<-]; last by rewrite l0.
      by case: (fa 0%N 1%N) => //; right.
    by move: k1 kp; case: (k).
  - by move=> k _ /(_ 0%N 1%N isT k0 a01).
  - by move=> _ /(_ 0%N 1%N isT k0 a01).
have sn : (nq m <= size (nseq n (0%R : F)))%N by rewrite size_nseq.
have se : size (nseq (neps m) (0 : F)) = neps m by rewrite size_nseq.
have [c Ec] := cells_ok sd (leq0n _) k0.
have I := inp_zero m n (neps m); rewrite -I in E.
exists (cell_row c 0).
by have := t_func_endo (dims sd) sn se E (leq0n _) k0 Ec; rewrite I.
Qed.
Print Assumptions C111_zero_bound_refuted.

Example C111_example : (exists t b, @solved _ (ex3_m t b) ex3 ex3_f ex3_omg ex3_A /\ xb (ex3_m t b) < 0) /\
  (let sl := [seq norm_shock a | a <- [:: SPair "e"%string 1%:Q; STriple "e"%string 1%:Q 2%:Z]] in
   all (fun a => 0 <= a.2) sl /\ has (fun a => a.2 != 0) sl) /\
  (exists (m : tmodel [realFieldType of rat]) sm f omg lam, [/\ @solved _ m sm f omg lam, xb m = 0 & mh sm = 0]).
Proof.
split; last by split; [split; reflexivity | exact: zero_bound_ex].
by have [t [b sd]] := ex3_solved ex3_f; exists t, b; split; [exact: sd | reflexivity].
Qed.
