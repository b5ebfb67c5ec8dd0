(** Property theorems C119, C120: what is reported is determined by the model file, and only by what the file says. *)
Set Warnings "-all".
From Coq Require Import String.
From mathcomp Require Import all_ssreflect all_algebra all_real_closed.
From Verif Require Import PyBase PyStr M_FindLk S_FindLk M_Parser S_Parser P_Parser P_Parser5 M_Engine S_Engine M_GenSys S_GenSys S_GenSys2 P_Engine P_Engine3 P_Engine4
  P_GenSys P_GenSys2 P_GenSys3 P_GenSys4 P_GenSys5 P_GenSys6 P_RQ M_Pipe S_Pipe P_Pipe P_Pipe2 P_PipeEx P_Pipe3 M_Tools S_Tools P_Tools P_Tools2 P_Tools3
  P_Tools4 M_Full S_Full P_Full P_Full2 P_Full3 P_Full4 S_Mean P_Mean P_Mean2 P_Mean3 P_Mean4 P_Mean5 P_MeanEx P_MeanEx2 T_Tools T_Full.
Set Implicit Arguments. Unset Strict Implicit. Unset Printing Implicit Defensive.
Import GRing.Theory Num.Theory Order.TTheory.
Local Open Scope ring_scope.

Section Unique.
Variables (F : realFieldType) (tol : F) (rq : forall d, 'M[F]_d -> 'M[F]_d * 'M[F]_d).
Variable klein : forall a b, 'M[F]_(a + b) -> 'M[F]_(a + b) -> res ('M[F]_(b, a) * 'M[F]_a).
Variables (m : rawmodel F) (p : parsed F) (eqs : seq (eqn F)) (ceq : eqn F) (par : string -> F) (g : matrices F) (c : 'I_(size (p_vars p))).
Variables (xb : F) (lm km : nat) (mdl : tmodel F).
Hypothesis rqP : rq_ok rq.
Hypothesis klP : klein_stable klein.
Hypothesis R : regular_file tol m eqs ceq par g c xb.
Hypothesis Hv : r_cvar m \in r_vars m.
Hypothesis hl : (0 < lm < 999)%N.
Hypothesis hk : (0 < km)%N.
Hypothesis G : solve_file tol rq klein m par xb lm km = Ok mdl.
Hypothesis st0 : (size (shk mdl) < dq mdl)%N.

(** C119.  For all durations within the limits, and for every past that has the given states, the file has a solution that does not
    explode, in which the constraint binds in exactly these periods, and the states and shocks determine the values of all variables of
    the file in it. *)
Theorem C119_unique_solution st sh l k P E : (nq mdl <= size st)%N -> (l <= lm)%N -> (k <= km)%N -> starts_from m p mdl st sh P E ->
  exists X, [/\ forall v t, t < 0 -> X v t = P v t, file_path m p eqs ceq par xb mdl st sh l k X E &
    forall X' E', file_path m p eqs ceq par xb mdl st sh l k X' E' -> forall v (s : nat), v \in r_vars m -> X' v s%:Z = X v s%:Z].
Proof.
move=> ge ll kk sP; have [X [XP fp]] := file_exists rqP klP R Hv G hl hk st0 ge ll kk sP.
exists X; split=> // X' E' fp' v s vi; exact: (file_uniq rqP klP R Hv G hl hk st0 ge ll kk fp' fp).
Qed.

(** The values reported for a period, whatever way expectations are set, are those of this solution for the reported durations. *)
Theorem C119_reported st sh set_k linear x (l k : nat) flag X E : (nq mdl <= size st)%N ->
  t_func mdl st (Some sh) set_k linear = Ok (x, (l%:Z, k%:Z), flag) -> file_path m p eqs ceq par xb mdl st sh l k X E ->
  [/\ (l <= lm)%N, (k <= km)%N & forall v, v \in r_vars m -> nth 0 x (index v (vvs mdl)) = X v 0].
Proof. by move=> ge Ht fp; have [h1 h2 h3 _] := file_reported rqP klP R Hv G hl hk st0 ge Ht fp. Qed.

(** Without [set_k], the reported durations and flag are those that the documented search (the relation [search_outcome] of S_FindLk, whose parts are C05-C07)
    gives for the values which the constraint equation of the file would give to the constrained variable in these solutions.  These
    values exist and are unique. *)
Theorem C119_durations st sh P E : (nq mdl <= size st)%N -> starts_from m p mdl st sh P E ->
  exists N, notional_values m p eqs ceq par xb mdl lm km st sh N /\
  exists x l k flag, t_func mdl st (Some sh) KNone false = Ok (x, (l%:Z, k%:Z), flag) /\
  forall N', notional_values m p eqs ceq par xb mdl lm km st sh N' ->
    (forall l k s, (l <= lm)%N -> (k <= km)%N -> N' l k s = N l k s) /\
    forall l' k' flag', search_outcome N' xb lm.+1 km.+1 l' k' flag' <-> (l', k', flag') = (l, k, flag).
Proof.
move=> ge sP; have [x [l [k [fl [Ht [N HN so]]]]]] := file_search rqP klP R Hv G hl hk st0 ge sP.
exists N; split=> //; exists x, l, k, fl; split=> // N' HN'.
have NE l' k' s : (l' <= lm)%N -> (k' <= km)%N -> N' l' k' s = N l' k' s.
  move=> ll kk; have [X [_ fp]] := file_exists rqP klP R Hv G hl hk st0 ge ll kk sP.
  exact: (file_notional_uniq R (HN' _ _ _ _ ll kk fp s) (HN _ _ _ _ ll kk fp s)).
split=> // l' k' fl'; split=> [so'|[-> -> ->]].
  by apply: search_det so' so => // a b s h1 h2; apply: NE.
by apply: search_ext so => // a b s h1 h2; rewrite NE.
Qed.
End Unique.
Print Assumptions C119_unique_solution.
Print Assumptions C119_reported.
Print Assumptions C119_durations.

(** the states are zero: a model at rest *)
Lemma rest_starts (F : realFieldType) (m : rawmodel F) (p : parsed F) (mdl : tmodel F) (e : string -> F) : size (vvs mdl) = (dp mdl + nq mdl)%N ->
  starts_from m p mdl (nseq (size (vvs mdl)) 0) [seq e s | s <- r_shks m] (fun _ _ => 0) (fun s t => if t == 0 then e s else 0).
Proof.
move=> sv; split=> //.
- rewrite /last_n /report size_nseq [X in (X - _)%N]sv addnK; congr drop.
  by elim: (vvs mdl) => //= a l ->.
- by move=> s [n|n].
Qed.

Section Same.
Variables (F : realFieldType) (tol : F) (rq : forall d, 'M[F]_d -> 'M[F]_d * 'M[F]_d).
Variable klein : forall a b, 'M[F]_(a + b) -> 'M[F]_(a + b) -> res ('M[F]_(b, a) * 'M[F]_a).
Variables (m1 m2 : rawmodel F) (p1 p2 : parsed F) (eqs1 eqs2 : seq (eqn F)) (ceq1 ceq2 : eqn F) (par1 par2 : string -> F).
Variables (g1 g2 : matrices F) (c1 : 'I_(size (p_vars p1))) (c2 : 'I_(size (p_vars p2))).
Variables (xb : F) (lm km : nat) (mdl1 mdl2 : tmodel F).
Hypothesis rqP : rq_ok rq.
Hypothesis klP : klein_stable klein.
Hypothesis R1 : regular_file tol m1 eqs1 ceq1 par1 g1 c1 xb.
Hypothesis R2 : regular_file tol m2 eqs2 ceq2 par2 g2 c2 xb.
Hypothesis SM : same_meaning m1 m2 eqs1 eqs2 ceq1 ceq2 par1 par2.
Hypothesis Hv : r_cvar m1 \in r_vars m1.
Hypothesis hl : (0 < lm < 999)%N.
Hypothesis hk : (0 < km)%N.
Hypothesis G1 : solve_file tol rq klein m1 par1 xb lm km = Ok mdl1.
Hypothesis G2 : solve_file tol rq klein m2 par2 xb lm km = Ok mdl2.
Hypothesis s1 : (size (shk mdl1) < dq mdl1)%N.
Hypothesis s2 : (size (shk mdl2) < dq mdl2)%N.

Lemma file_obs (m : rawmodel F) (p : parsed F) eqs ceq par g (c : 'I_(size (p_vars p))) mdl (X Y E : path F) : regular_file tol m eqs ceq par g c xb ->
  solve_file tol rq klein m par xb lm km = Ok mdl -> agree (r_vars m) Y X ->
  obs_row mdl (report (p_vars p) (vvs mdl) Y 0) = Ok [seq eval (value par X E 0) o.2 | o <- p_obs p].
Proof.
case=> Hp He Hce uv us Hc aff nl2 up2 affc cdat c0 cc0 obs0 Hg ws cc nl en ld un G ag.
have [_ _ [_ Ec _ Eo]] := pE Hp He.
have ece : ceq = p_ceq p by move: Hce; rewrite Ec => -[].
subst ceq; have t01 : 0 < tol <= 1 by case: ws.
rewrite (report_obs Hp He uv us Hg Hc un G aff nl2 affc cdat obs0 t01 ld Y E 0); congr Ok.
elim: (r_obs m) (p_obs p) Eo => [|[n r] l IH] o /=; first by case=> <-.
rewrite {1}/resolve_obs /=; case er: resolve => [ex|] //=; case el: mapM => [o'|] //= [<-] /=; rewrite (IH _ el); congr (_ :: _).
apply: eval_atoms => a ai; have := resolveP er ai; rewrite /value; case: (knd a) => // vi; exact: ag.
Qed.

(** C120.  Two files that mean the same, solved with the same bound, and one past: in a period with the same shocks, given by name, and
    the same [set_k], both models report the same durations, the same flag and the same value of every variable of the files; if the
    observables are declared with the same meaning, they have the same values; and the reported rows are again states of one past. *)
Theorem C120_period st1 st2 (e : string -> F) set_k linear x1 (l k : nat) flag :
  (nq mdl1 <= size st1)%N -> (nq mdl2 <= size st2)%N -> same_past m1 m2 p1 p2 mdl1 mdl2 st1 st2 ->
  t_func mdl1 st1 (Some [seq e s | s <- r_shks m1]) set_k linear = Ok (x1, (l%:Z, k%:Z), flag) ->
  exists x2, [/\ t_func mdl2 st2 (Some [seq e s | s <- r_shks m2]) set_k linear = Ok (x2, (l%:Z, k%:Z), flag),
    same_values (r_vars m1) (vvs mdl1) (vvs mdl2) x1 x2,
    same_observables p1 p2 par1 par2 -> exists2 o, obs_row mdl1 x1 = Ok o & obs_row mdl2 x2 = Ok o &
    same_past m1 m2 p1 p2 mdl1 mdl2 x1 x2].
Proof.
move=> ge1 ge2 SP Ht; have [P [E [a1 a2]]] := SP e.
have [x2 [Ht2 [sv [X [Y1 [Y2 [b1 b2 [b3 b4] _ _]]]]]]] := two_period rqP klP R1 R2 SM Hv G1 G2 hl hk s1 s2 ge1 ge2 a1 a2 Ht.
exists x2; split=> //; last exact: (two_past rqP klP R1 R2 SM Hv G1 G2 hl hk s1 s2 ge1 ge2 a1 a2 Ht Ht2).
move=> so; eexists; first by rewrite b3; exact: (file_obs E R1 G1 b1).
by rewrite b4 (file_obs E R2 G2 b2) so.
Qed.

(** Whole simulations, from states of one past: both succeed, with the same durations in all periods, the same flag, and the same values
    of all variables. *)
Theorem C120_simulate op linear (es : seq (string -> F)) st1 st2 :
  (nq mdl1 <= size st1)%N -> (nq mdl2 <= size st2)%N -> same_past m1 m2 p1 p2 mdl1 mdl2 st1 st2 ->
  exists xs1 xs2 lks flag, [/\
    sim_run (fun q => solve_file tol rq klein m1 q xb lm km) op None linear par1 [seq [seq e s | s <- r_shks m1] | e <- es] st1 = Ok (xs1, lks, flag),
    sim_run (fun q => solve_file tol rq klein m2 q xb lm km) op None linear par2 [seq [seq e s | s <- r_shks m2] | e <- es] st2 = Ok (xs2, lks, flag) &
    forall t, (t < size es)%N -> same_values (r_vars m1) (vvs mdl1) (vvs mdl2) (nth [::] xs1 t.+1) (nth [::] xs2 t.+1)].
Proof.
move=> ge1 ge2 SP; have [sm [f [omg [lam [[sd _] _ _ _ _]]]]] := file_core rqP klP R1 Hv G1 hl hk s1.
have al : all (fun e => size e == neps mdl1) [seq [seq e s | s <- r_shks m1] | e <- es].
  by elim: es => //= e es ->; rewrite size_map /neps (file_shk R1 G1) eqxx.
have [r Er] := sim_total sd linear ge1 al.
have [r2 [Er2 [h1 h2 h3]]] := two_sim rqP klP R1 R2 SM Hv G1 G2 hl hk s1 s2 ge1 ge2 SP Er.
rewrite /sim_run /= G1 G2 /= !eqxx Er Er2 /= h1 h2.
do 4 eexists; split; [reflexivity | reflexivity | exact: h3].
Qed.

(** Simulations that start from the steady state start from one past. *)
Theorem C120_from_rest : same_past m1 m2 p1 p2 mdl1 mdl2 (nseq (size (vvs mdl1)) 0) (nseq (size (vvs mdl2)) 0).
Proof.
have [sm [f [omg [lam [[sd1 _] _ _ _ _]]]]] := file_core rqP klP R1 Hv G1 hl hk s1.
have [sm' [f' [omg' [lam' [[sd2 _] _ _ _ _]]]]] := file_core rqP klP R2 (Hv2 SM Hv) G2 hl hk s2.
move=> e; exists (fun _ _ => 0), (fun s t => if t == 0 then e s else 0).
by split; apply: rest_starts; [exact: (sd_vv sd1) | exact: (sd_vv sd2)].
Qed.

(** Impulse responses from the steady state (or from states of one past), with expectations left to the search. *)
Theorem C120_irfs (anyp1 anyp2 : (string -> F) -> bool) shocklist st1 st2 T linear set_k force :
  (nq mdl1 <= size st1)%N -> (nq mdl2 <= size st2)%N -> same_past m1 m2 p1 p2 mdl1 mdl2 st1 st2 -> endogenous set_k ->
  let sl := [seq norm_shock a | a <- shocklist] in
  ~~ (odflt (default_force set_k) force && has (fun a => a.2 != 0) sl) -> (forall t, (t < T)%N -> known_at (r_shks m1) sl t) ->
  (0 < size (r_shks m1))%N ->
  exists rows1 rows2 flag mult, [/\
    irfs mdl1 (fun q => solve_file tol rq klein m1 q xb lm km) anyp1 shocklist None (Some st1) T linear set_k force = Ok (IRows rows1 flag mult),
    irfs mdl2 (fun q => solve_file tol rq klein m2 q xb lm km) anyp2 shocklist None (Some st2) T linear set_k force = Ok (IRows rows2 flag mult),
    [seq x.2 | x <- rows1] = [seq x.2 | x <- rows2] &
    forall t, (t < T)%N -> same_values (r_vars m1) (vvs mdl1) (vvs mdl2) (nth [::] [seq x.1 | x <- rows1] t) (nth [::] [seq x.1 | x <- rows2] t)].
Proof.
move=> ge1 ge2 SP en sl nf kn n0.
have [sm [f [omg [lam [[sd1 _] _ _ _ _]]]]] := file_core rqP klP R1 Hv G1 hl hk s1.
have [sm' [f' [omg' [lam' [[sd2 _] _ _ _ _]]]]] := file_core rqP klP R2 (Hv2 SM Hv) G2 hl hk s2.
have e1 := file_shk R1 G1; have e2 := file_shk R2 G2.
have u1 : uniq (shk mdl1) by rewrite e1; case: R1.
have u2 : uniq (shk mdl2) by rewrite e2; case: R2.
have d1 : (0 < neps mdl1 < dq mdl1)%N by rewrite s1 andbT /neps e1.
have n2 : (0 < size (r_shks m2))%N.
  rewrite lt0n size_eq0; apply/eqP => e0; have := sm_shks SM; rewrite e0 => h.
  by case: (r_shks m1) n0 h => // a q _ /(_ a); rewrite in_nil mem_head.
have d2 : (0 < neps mdl2 < dq mdl2)%N by rewrite s2 andbT /neps e2.
have kn1 t : (t < T)%N -> known_at (shk mdl1) sl t by rewrite e1; exact: kn.
have kn2 t : (t < T)%N -> known_at (shk mdl2) sl t.
  by move=> lt; rewrite e2; apply/allP => a ai; rewrite -(sm_shks SM); have /allP := kn t lt; apply.
rewrite (C117_irfs_is_simulate (setpar := fun q => solve_file tol rq klein m1 q xb lm km) _ (fun a _ => a) st1 linear d1 (sd_vv sd1) u1 G1 en nf kn1).
rewrite (C117_irfs_is_simulate (setpar := fun q => solve_file tol rq klein m2 q xb lm km) _ (fun a _ => a) st2 linear d2 (sd_vv sd2) u2 G2 en nf kn2).
have [xs1 [xs2 [lks [fl [q1 q2 H]]]]] := C120_simulate (fun a _ => a) linear [seq shock_size sl ^~ t | t <- iota 0 T] ge1 ge2 SP.
have ee (m : rawmodel F) (mdl : tmodel F) : shk mdl = r_shks m ->
  [seq [seq e s | s <- r_shks m] | e <- [seq shock_size sl ^~ t | t <- iota 0 T]] = [seq shocks_at (shk mdl) sl t | t <- iota 0 T].
  by move=> e; rewrite -map_comp e.
rewrite (ee _ _ e1) in q1; rewrite (ee _ _ e2) in q2; rewrite q1 q2.
have [z1 z2] : size (behead xs1) = T /\ size lks = T.
  have [fls [a1 a2 a3 _ _]] := C26_simulate (setpar := fun q => solve_file tol rq klein m1 q xb lm km) G1 q1.
  by move: a1 a2; rewrite size_map size_iota size_behead => -> ->.
have z3 : size (behead xs2) = T.
  have [fls [a1 a2 a3 _ _]] := C26_simulate (setpar := fun q => solve_file tol rq klein m2 q xb lm km) G2 q2.
  by move: a1; rewrite size_map size_iota size_behead => ->.
do 4 eexists; split; [reflexivity | reflexivity | |].
  by rewrite -!/(unzip2 _) !unzip2_zip ?z1 ?z2 ?z3.
move=> t lt; rewrite -!/(unzip1 _) !unzip1_zip ?z1 ?z2 ?z3 // !nth_behead.
by apply: H; rewrite size_map size_iota.
Qed.
End Same.
Print Assumptions C120_period.
Print Assumptions C120_simulate.
Print Assumptions C120_from_rest.
Print Assumptions C120_irfs.

Lemma two_ex (F : rcfType) (par : string -> F) : let tol := P_GenSysEx.tol F in
  exists g1 g2 klein mdl1 mdl2, [/\ rq_ok (@some_rq F), klein_stable klein,
    [/\ regular_file tol (pf F) (pf_eqs F) (p_ceq (pf_p F)) par g1 (pf_c F) (-1), regular_file tol (pg F) (pg_eqs F) (p_ceq (pg_p F)) par g2 (pg_c F) (-1),
        same_meaning (pf F) (pg F) (pf_eqs F) (pg_eqs F) (p_ceq (pf_p F)) (p_ceq (pg_p F)) par par, r_cvar (pf F) \in r_vars (pf F) &
        same_observables (pf_p F) (pg_p F) par par],
    [/\ solve_file tol (@some_rq F) klein (pf F) par (-1) 4 17 = Ok mdl1, solve_file tol (@some_rq F) klein (pg F) par (-1) 4 17 = Ok mdl2,
        (size (shk mdl1) < dq mdl1)%N & (size (shk mdl2) < dq mdl2)%N] &
    forall z : F, let es := [:: (fun _ => z); (fun _ => 0); (fun _ => -z); (fun _ => 0)] in
    exists xs1 xs2 lks flag, [/\
      sim_run (fun q => solve_file tol (@some_rq F) klein (pf F) q (-1) 4 17) (fun a _ => a) None false par
        [seq [seq e s | s <- r_shks (pf F)] | e <- es] (nseq (size (vvs mdl1)) 0) = Ok (xs1, lks, flag),
      sim_run (fun q => solve_file tol (@some_rq F) klein (pg F) q (-1) 4 17) (fun a _ => a) None false par
        [seq [seq e s | s <- r_shks (pg F)] | e <- es] (nseq (size (vvs mdl2)) 0) = Ok (xs2, lks, flag) &
      forall t, (t < 4)%N -> same_values (r_vars (pf F)) (vvs mdl1) (vvs mdl2) (nth [::] xs1 t.+1) (nth [::] xs2 t.+1)]].
Proof.
move=> tol; have [g1 [g2 [kl [mdl1 [mdl2 [h1 h2 [R1 R2] [G1 G2] [n1 n2]]]]]]] := @two_files F par.
have SM := @two_meaning F par; have Hv : r_cvar (pf F) \in r_vars (pf F) by exact: isT.
exists g1, g2, kl, mdl1, mdl2; split; [exact: h1|exact: h2| | |].
- by split; [exact: R1|exact: R2|exact: SM|exact: Hv|].
- by split; [exact: G1|exact: G2|exact: n1|exact: n2].
move=> z es.
have sp := C120_from_rest h1 h2 R1 R2 SM Hv (isT : (0 < 4 < 999)%N) (isT : (0 < 17)%N) G1 G2 n1 n2.
have [sm [f [omg [lam [[sd1 _] _ _ _ _]]]]] := file_core h1 h2 R1 Hv G1 (isT : (0 < 4 < 999)%N) (isT : (0 < 17)%N) n1.
have [sm' [f' [omg' [lam' [[sd2 _] _ _ _ _]]]]] := file_core h1 h2 R2 (Hv2 SM Hv) G2 (isT : (0 < 4 < 999)%N) (isT : (0 < 17)%N) n2.
have ge1 : (nq mdl1 <= size (nseq (size (vvs mdl1)) (0%R : F)))%N by rewrite size_nseq (sd_vv sd1) leq_addl.
have ge2 : (nq mdl2 <= size (nseq (size (vvs mdl2)) (0%R : F)))%N by rewrite size_nseq (sd_vv sd2) leq_addl.
exact: (C120_simulate h1 h2 R1 R2 SM Hv (isT : (0 < 4 < 999)%N) (isT : (0 < 17)%N) G1 G2 n1 n2 (fun a _ => a) false es ge1 ge2 sp).
Qed.

Lemma one_ex (F : rcfType) (par : string -> F) : let tol := P_GenSysEx.tol F in
  exists g klein mdl, [/\ rq_ok (@some_rq F), klein_stable klein, regular_file tol (pf F) (pf_eqs F) (p_ceq (pf_p F)) par g (pf_c F) (-1),
    solve_file tol (@some_rq F) klein (pf F) par (-1) 4 17 = Ok mdl &
    [/\ r_cvar (pf F) \in r_vars (pf F), (size (shk mdl) < dq mdl)%N, (nq mdl <= size (nseq (size (vvs mdl)) (0%R : F)))%N &
      forall z : F, exists P E, starts_from (pf F) (pf_p F) mdl (nseq (size (vvs mdl)) 0) [:: z] P E]].
Proof.
move=> tol; have [g1 [g2 [kl [mdl1 [mdl2 [h1 h2 [R1 R2] [G1 G2] [n1 n2]]]]]]] := @two_files F par.
have Hv : r_cvar (pf F) \in r_vars (pf F) by exact: isT.
have [sm [f [omg [lam [[sd1 _] _ _ _ _]]]]] := file_core h1 h2 R1 Hv G1 (isT : (0 < 4 < 999)%N) (isT : (0 < 17)%N) n1.
exists g1, kl, mdl1; split; [exact: h1|exact: h2|exact: R1|exact: G1|].
split; [exact: Hv|exact: n1|by rewrite size_nseq (sd_vv sd1) leq_addl|] => z.
by do 2 eexists; exact: (rest_starts (pf F) (pf_p F) (fun _ => z) (sd_vv sd1)).
Qed.

(** The file x + r = x(-2) + e(-1) with constraint r = 1.5 x and bound -1, and the file that declares r before x and says
    r + x - e(-1) = x(-2) and r = 3 x - r.  The [klein] of the example is stable, and all assumptions of C119 and C120 hold.  From rest, and for every size
    [z] of the shock, both are simulated for four periods, with a second shock in period 2. *)
Example C120_example (par : string -> realalg) : let F := [rcfType of realalg] in let tol := P_GenSysEx.tol F in
  exists g1 g2 klein mdl1 mdl2, [/\ rq_ok (@some_rq F), klein_stable klein,
    [/\ regular_file tol (pf F) (pf_eqs F) (p_ceq (pf_p F)) par g1 (pf_c F) (-1), regular_file tol (pg F) (pg_eqs F) (p_ceq (pg_p F)) par g2 (pg_c F) (-1),
        same_meaning (pf F) (pg F) (pf_eqs F) (pg_eqs F) (p_ceq (pf_p F)) (p_ceq (pg_p F)) par par, r_cvar (pf F) \in r_vars (pf F) &
        same_observables (pf_p F) (pg_p F) par par],
    [/\ solve_file tol (@some_rq F) klein (pf F) par (-1) 4 17 = Ok mdl1, solve_file tol (@some_rq F) klein (pg F) par (-1) 4 17 = Ok mdl2,
        (size (shk mdl1) < dq mdl1)%N & (size (shk mdl2) < dq mdl2)%N] &
    forall z : F, let es := [:: (fun _ => z); (fun _ => 0); (fun _ => -z); (fun _ => 0)] in
    exists xs1 xs2 lks flag, [/\
      sim_run (fun q => solve_file tol (@some_rq F) klein (pf F) q (-1) 4 17) (fun a _ => a) None false par
        [seq [seq e s | s <- r_shks (pf F)] | e <- es] (nseq (size (vvs mdl1)) 0) = Ok (xs1, lks, flag),
      sim_run (fun q => solve_file tol (@some_rq F) klein (pg F) q (-1) 4 17) (fun a _ => a) None false par
        [seq [seq e s | s <- r_shks (pg F)] | e <- es] (nseq (size (vvs mdl2)) 0) = Ok (xs2, lks, flag) &
      forall t, (t < 4)%N -> same_values (r_vars (pf F)) (vvs mdl1) (vvs mdl2) (nth [::] xs1 t.+1) (nth [::] xs2 t.+1)]].
Proof. exact: (@two_ex [rcfType of realalg] par). Qed.
Print Assumptions C120_example.

(** C119 for the first of these files, from rest *)
Example C119_example (par : string -> realalg) : let F := [rcfType of realalg] in let tol := P_GenSysEx.tol F in
  exists g klein mdl, [/\ rq_ok (@some_rq F), klein_stable klein, regular_file tol (pf F) (pf_eqs F) (p_ceq (pf_p F)) par g (pf_c F) (-1),
    solve_file tol (@some_rq F) klein (pf F) par (-1) 4 17 = Ok mdl &
    [/\ r_cvar (pf F) \in r_vars (pf F), (size (shk mdl) < dq mdl)%N, (nq mdl <= size (nseq (size (vvs mdl)) (0%R : F)))%N &
      forall z : F, exists P E, starts_from (pf F) (pf_p F) mdl (nseq (size (vvs mdl)) 0) [:: z] P E]].
Proof. exact: (@one_ex [rcfType of realalg] par). Qed.
Print Assumptions C119_example.
