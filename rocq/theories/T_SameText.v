(** Property theorem C132: two texts that say the same model are simulated alike. *)
Set Warnings "-all".
From Coq Require Import String Ascii ZArith.
From mathcomp Require Import all_ssreflect all_algebra all_real_closed.
From Verif Require Import PyBase PyStr M_ParaFunc S_ParaFunc P_ParaFunc T_ParaFunc M_Parser S_Parser P_Parser5 M_Text S_Text P_Text2 M_Solve
  M_Engine S_Engine M_GenSys S_GenSys S_GenSys2 P_GenSys P_GenSys6 P_RQ M_Pipe S_Pipe P_PipeEx M_Tools S_Tools P_Tools P_Tools2 P_Tools3 P_Tools4 M_Full S_Full P_Full P_Full2 P_Full3 P_Full4 S_Mean P_Mean P_Mean2 P_Mean3 P_Mean4 P_Mean5 P_MeanEx P_MeanEx2 T_Tools T_Full T_Mean
  M_Whole S_Whole P_Whole T_Whole S_SameText.
Set Implicit Arguments. Unset Strict Implicit. Unset Printing Implicit Defensive.
Import GRing.Theory Num.Theory Order.TTheory.
Local Open Scope ring_scope.
Local Open Scope py_scope.

Section Two.
Variables (F : realFieldType) (tol : F) (rq : forall d, 'M[F]_d -> 'M[F]_d * 'M[F]_d).
Variable klein : forall a b, 'M[F]_(a + b) -> 'M[F]_(a + b) -> res ('M[F]_(b, a) * 'M[F]_a).
Variable ptree : text -> option (rawexpr F).
Variable yaml : text -> res (rawfile F).
Variable refs : rawfile F -> string -> seq string.
Variable dfun : rawfile F -> string -> seq F -> F.
Hypothesis zero : ptree (chars "0") = Some (Cst 0).
Local Notation solve := (solve_text tol rq klein ptree yaml refs dfun).
Local Notation values f par := (odflt [seq p.2 | p <- f_pars f] par).

(** what the core of T_Whole gives for one text *)
Lemma text_core t f par lks lm km lk mdl : yaml (normalize t) = Ok f -> distinct_names f ->
  regular_text ptree refs dfun tol f (values f par) -> solve t par lks lm km = Ok mdl -> horizons lks lm km = Ok lk ->
  exists m p q eqs g (c : 'I_(size (p_vars p))), [/\ declares ptree f m, calibrated refs dfun f (values f par) q,
    regular_file tol m eqs (p_ceq p) q g c (bound f q), solve_file tol rq klein m q (bound f q) (Z.to_nat lk.1) (Z.to_nat lk.2) = Ok mdl &
    parse m = Ok p /\ declared_eqs m = Ok eqs].
Proof. by move=> Y un reg S H; exact: (core zero Y un reg S H). Qed.

(** the equations of the declared model are the lines of the text *)
Lemma lines_eqs f m p eqs q X E : distinct_names f -> declares ptree f m -> parse m = Ok p -> declared_eqs m = Ok eqs ->
  (forall s : nat, each (holds q X E s%:Z) eqs) <-> true_lines ptree f q X E.
Proof.
move=> un D Hp He; have L := lines D He; split=> H i.
- move=> s' /(pairwise_in L) [q' qi [r Rr Rs]]; apply/(line_true un _ _ _ _ Rr Rs); exact: H.
- move=> q' /(pairwise_in2 L) [s' si [r Rr Rs]]; apply/(line_true un _ _ _ _ Rr Rs); exact: H.
Qed.
Lemma line_ceq f m p eqs q X E t s : distinct_names f -> declares ptree f m -> parse m = Ok p -> declared_eqs m = Ok eqs ->
  constraint_lines f = Some [:: s] -> holds q X E t (p_ceq p) <-> true_line ptree f q X E t s.
Proof.
move=> un D Hp He es; have [_ _ [_ Ec _ _]] := pE Hp He; rewrite (ctxD D) in Ec.
have [s' [es' cs]] := d_cons D; have [rs ls] := constrains_reads cs.
move: es'; rewrite es => -[e]; subst s'.
by rewrite (line_true un _ _ _ _ rs Ec).
Qed.
Lemma cvar_left f m s v : declares ptree f m -> constraint_lines f = Some [:: s] -> left_name s v -> r_cvar m = v.
Proof.
move=> D es lv; have [s' [es' cs]] := d_cons D; have [rs ls] := constrains_reads cs.
by move: es'; rewrite es => -[e]; subst s'; exact: left_name_fun ls lv.
Qed.

Variables (t1 t2 : text) (f1 f2 : rawfile F).
Hypothesis Y1 : yaml (normalize t1) = Ok f1.
Hypothesis Y2 : yaml (normalize t2) = Ok f2.
Hypothesis un1 : distinct_names f1.
Hypothesis un2 : distinct_names f2.
Variables (par1 par2 : option (seq F)) (lks : option (Z * Z)) (lm km : option Z) (lk : Z * Z) (mdl1 mdl2 : tmodel F).
Hypothesis rqP : rq_ok rq.
Hypothesis klP : klein_stable klein.
Hypothesis reg1 : regular_text ptree refs dfun tol f1 (values f1 par1).
Hypothesis reg2 : regular_text ptree refs dfun tol f2 (values f2 par2).
Hypothesis S1 : solve t1 par1 lks lm km = Ok mdl1.
Hypothesis S2 : solve t2 par2 lks lm km = Ok mdl2.
Hypothesis H : horizons lks lm km = Ok lk.
Hypothesis hl : (0 < Z.to_nat lk.1 < 999)%N.
Hypothesis hk : (0 < Z.to_nat lk.2)%N.
Hypothesis s1 : (size (shk mdl1) < dq mdl1)%N.
Hypothesis s2 : (size (shk mdl2) < dq mdl2)%N.
(** the texts, each at its own parameters, say the same *)
Hypothesis same : forall q1 q2, calibrated refs dfun f1 (values f1 par1) q1 -> calibrated refs dfun f2 (values f2 par2) q2 ->
  same_text ptree f1 f2 q1 q2.

Lemma two_core : exists m1 m2 p1 p2 q1 q2 eqs1 eqs2 g1 g2 (c1 : 'I_(size (p_vars p1))) (c2 : 'I_(size (p_vars p2))) xb,
  [/\ [/\ declares ptree f1 m1, declares ptree f2 m2, parse m1 = Ok p1 /\ parse m2 = Ok p2, declared_eqs m1 = Ok eqs1 & declared_eqs m2 = Ok eqs2],
      calibrated refs dfun f1 (values f1 par1) q1 /\ calibrated refs dfun f2 (values f2 par2) q2,
      regular_file tol m1 eqs1 (p_ceq p1) q1 g1 c1 xb /\ regular_file tol m2 eqs2 (p_ceq p2) q2 g2 c2 xb,
      solve_file tol rq klein m1 q1 xb (Z.to_nat lk.1) (Z.to_nat lk.2) = Ok mdl1 /\
      solve_file tol rq klein m2 q2 xb (Z.to_nat lk.1) (Z.to_nat lk.2) = Ok mdl2 &
      same_meaning m1 m2 eqs1 eqs2 (p_ceq p1) (p_ceq p2) q1 q2 /\ r_cvar m1 \in r_vars m1].
Proof.
have [m1 [p1 [q1 [eqs1 [g1 [c1 [D1 cal1 R1 G1 [Hp1 He1]]]]]]]] := text_core Y1 un1 reg1 S1 H.
have [m2 [p2 [q2 [eqs2 [g2 [c2 [D2 cal2 R2 G2 [Hp2 He2]]]]]]]] := text_core Y2 un2 reg2 S2 H.
have [sv ss sl [a1 [a2 [v [ea1 ea2 [l1 l2] vi sc]]]] sb] := same cal1 cal2.
rewrite -sb in R2 G2.
exists m1, m2, p1, p2, q1, q2, eqs1, eqs2, g1, g2, c1, c2, (bound f1 q1); split=> //.
split; last by rewrite (cvar_left D1 ea1 l1) (d_vars D1).
split.
- by move=> n; rewrite (d_vars D1) (d_vars D2); exact: sv.
- by move=> n; rewrite (d_shks D1) (d_shks D2); exact: ss.
- by rewrite (cvar_left D1 ea1 l1) (cvar_left D2 ea2 l2).
- by move=> X E; rewrite (lines_eqs q1 X E un1 D1 Hp1 He1) (lines_eqs q2 X E un2 D2 Hp2 He2).
- by move=> X E t; rewrite (line_ceq q1 X E t un1 D1 Hp1 He1 ea1) (line_ceq q2 X E t un2 D2 Hp2 He2 ea2).
Qed.

(** From the steady state, for all shocks given by name and period, both simulations succeed; they have the same durations in all
    periods, the same flag and the same values of all variables of the texts. *)
Theorem C132_simulate op linear (es : seq (string -> F)) :
  exists xs1 xs2 lks' flag, [/\
    sim_run (fun q => solve t1 q lks lm km) op None linear par1 [seq [seq e s | s <- f_shks f1] | e <- es] (nseq (size (vvs mdl1)) 0) = Ok (xs1, lks', flag),
    sim_run (fun q => solve t2 q lks lm km) op None linear par2 [seq [seq e s | s <- f_shks f2] | e <- es] (nseq (size (vvs mdl2)) 0) = Ok (xs2, lks', flag) &
    forall t v, (t < size es)%N -> v \in variable_names f1 ->
      nth 0 (nth [::] xs1 t.+1) (index v (vvs mdl1)) = nth 0 (nth [::] xs2 t.+1) (index v (vvs mdl2))].
Proof.
have [m1 [m2 [p1 [p2 [q1 [q2 [eqs1 [eqs2 [g1 [g2 [c1 [c2 [xb [[D1 D2 _ _ _] _ [R1 R2] [G1 G2] [SM Hv]]]]]]]]]]]]]]] := two_core.
have sp := C120_from_rest rqP klP R1 R2 SM Hv hl hk G1 G2 s1 s2.
have [sm [f [omg [lam [[sd1 _] _ _ _ _]]]]] := file_core rqP klP R1 Hv G1 hl hk s1.
have [sm' [f' [omg' [lam' [[sd2 _] _ _ _ _]]]]] := file_core rqP klP R2 (Hv2 SM Hv) G2 hl hk s2.
have ge1 : (nq mdl1 <= size (nseq (size (vvs mdl1)) (0%R : F)))%N by rewrite size_nseq (sd_vv sd1) leq_addl.
have ge2 : (nq mdl2 <= size (nseq (size (vvs mdl2)) (0%R : F)))%N by rewrite size_nseq (sd_vv sd2) leq_addl.
have [xs1 [xs2 [lks' [flag [h1 h2 h3]]]]] := C120_simulate rqP klP R1 R2 SM Hv hl hk G1 G2 s1 s2 op linear es ge1 ge2 sp.
move: h1 h2; rewrite /sim_run [rbind (Ok _) _]/= [rbind (Ok _) _]/= G1 G2 S1 S2 (d_shks D1) (d_shks D2) => h1 h2.
by exists xs1, xs2, lks', flag; split=> // t v lt vi; apply: h3 => //; rewrite (d_vars D1).
Qed.
(** If the observables have the same meaning as well, all simulated observations are the same. *)
Theorem C132_observations op linear (es : seq (string -> F)) xs1 xs2 lks1 lks2 flag1 flag2 :
  (forall q1 q2, calibrated refs dfun f1 (values f1 par1) q1 -> calibrated refs dfun f2 (values f2 par2) q2 -> same_observed ptree f1 f2 q1 q2) ->
  sim_run (fun q => solve t1 q lks lm km) op None linear par1 [seq [seq e s | s <- f_shks f1] | e <- es] (nseq (size (vvs mdl1)) 0) = Ok (xs1, lks1, flag1) ->
  sim_run (fun q => solve t2 q lks lm km) op None linear par2 [seq [seq e s | s <- f_shks f2] | e <- es] (nseq (size (vvs mdl2)) 0) = Ok (xs2, lks2, flag2) ->
  forall t, (t < size es)%N -> exists2 o, obs_row mdl1 (nth [::] xs1 t.+1) = Ok o & obs_row mdl2 (nth [::] xs2 t.+1) = Ok o.
Proof.
move=> so e1 e2.
have [m1 [m2 [p1 [p2 [q1 [q2 [eqs1 [eqs2 [g1 [g2 [c1 [c2 [xb [[D1 D2 [Hp1 Hp2] He1 He2] [cal1 cal2] [R1 R2] [G1 G2] [SM Hv]]]]]]]]]]]]]]] := two_core.
have SO : same_observables p1 p2 q1 q2.
  move=> X E t; exact: (so _ _ cal1 cal2 X E t _ _ (text_obs un1 q1 D1 Hp1 He1 X E t) (text_obs un2 q2 D2 Hp2 He2 X E t)).
have sp := C120_from_rest rqP klP R1 R2 SM Hv hl hk G1 G2 s1 s2.
have [sm [f [omg [lam [[sd1 _] _ _ _ _]]]]] := file_core rqP klP R1 Hv G1 hl hk s1.
have [sm' [f' [omg' [lam' [[sd2 _] _ _ _ _]]]]] := file_core rqP klP R2 (Hv2 SM Hv) G2 hl hk s2.
have [fls1 [z1 _ b1 _ [_ T1]]] := C26_simulate (setpar := fun q => solve t1 q lks lm km) S1 e1.
have [fls2 [z2 _ b2 _ [_ T2]]] := C26_simulate (setpar := fun q => solve t2 q lks lm km) S2 e2.
rewrite size_map in T1; rewrite size_map in T2; rewrite -(d_shks D1) in T1; rewrite -(d_shks D2) in T2.
have sx1 t : (t <= size es)%N -> (nq mdl1 <= size (nth [::] xs1 t))%N.
  case: t => [_|t lt]; first by rewrite b1 size_nseq (sd_vv sd1) leq_addl.
  by rewrite (t_func_size (dims sd1) (sd_vv sd1) (T1 t lt)) (sd_vv sd1) leq_addl.
have sx2 t : (t <= size es)%N -> (nq mdl2 <= size (nth [::] xs2 t))%N.
  case: t => [_|t lt]; first by rewrite b2 size_nseq (sd_vv sd2) leq_addl.
  by rewrite (t_func_size (dims sd2) (sd_vv sd2) (T2 t lt)) (sd_vv sd2) leq_addl.
have step t : (t < size es)%N -> same_past m1 m2 p1 p2 mdl1 mdl2 (nth [::] xs1 t) (nth [::] xs2 t) ->
  same_past m1 m2 p1 p2 mdl1 mdl2 (nth [::] xs1 t.+1) (nth [::] xs2 t.+1) /\
  exists2 o, obs_row mdl1 (nth [::] xs1 t.+1) = Ok o & obs_row mdl2 (nth [::] xs2 t.+1) = Ok o.
  move=> lt sp'; have := T1 t lt; have := T2 t lt; rewrite !(nth_map (fun _ => 0)) // => h2 h1.
  have [l [k e]] := t_func_nat (sk := KNone) isT h1; rewrite e in h1.
  have [x2 [h2' _ ho hp]] := C120_period rqP klP R1 R2 SM Hv hl hk G1 G2 s1 s2 (sx1 t (ltnW lt)) (sx2 t (ltnW lt)) sp' h1.
  move: h2; rewrite h2' => -[ex _ _]; rewrite -ex; split=> //; exact: ho SO.
have all_past t : (t <= size es)%N -> same_past m1 m2 p1 p2 mdl1 mdl2 (nth [::] xs1 t) (nth [::] xs2 t).
  by elim: t => [_|t IH lt]; [rewrite b1 b2 | have [] := step t lt (IH (ltnW lt))].
by move=> t lt; have [_ h] := step t lt (all_past t (ltnW lt)).
Qed.

(** Impulse responses from the steady state, with expectations left to the search. *)
Theorem C132_irfs (P1 P2 : Type) (setpar1 : P1 -> res (tmodel F)) (setpar2 : P2 -> res (tmodel F)) anyp1 anyp2 shocklist T linear set_k force :
  endogenous set_k ->
  let sl := [seq norm_shock a | a <- shocklist] in
  ~~ (odflt (default_force set_k) force && has (fun a => a.2 != 0) sl) -> (forall t, (t < T)%N -> known_at (f_shks f1) sl t) ->
  (0 < size (f_shks f1))%N ->
  exists rows1 rows2 flag mult, [/\
    irfs mdl1 setpar1 anyp1 shocklist None None T linear set_k force = Ok (IRows rows1 flag mult),
    irfs mdl2 setpar2 anyp2 shocklist None None T linear set_k force = Ok (IRows rows2 flag mult),
    [seq x.2 | x <- rows1] = [seq x.2 | x <- rows2] &
    forall t v, (t < T)%N -> v \in variable_names f1 ->
      nth 0 (nth [::] [seq x.1 | x <- rows1] t) (index v (vvs mdl1)) = nth 0 (nth [::] [seq x.1 | x <- rows2] t) (index v (vvs mdl2))].
Proof.
move=> en sl nf kn n0.
have [m1 [m2 [p1 [p2 [q1 [q2 [eqs1 [eqs2 [g1 [g2 [c1 [c2 [xb [[D1 D2 _ _ _] _ [R1 R2] [G1 G2] [SM Hv]]]]]]]]]]]]]]] := two_core.
have sp := C120_from_rest rqP klP R1 R2 SM Hv hl hk G1 G2 s1 s2.
have [sm [f [omg [lam [[sd1 _] _ _ _ _]]]]] := file_core rqP klP R1 Hv G1 hl hk s1.
have [sm' [f' [omg' [lam' [[sd2 _] _ _ _ _]]]]] := file_core rqP klP R2 (Hv2 SM Hv) G2 hl hk s2.
have ge1 : (nq mdl1 <= size (nseq (size (vvs mdl1)) (0%R : F)))%N by rewrite size_nseq (sd_vv sd1) leq_addl.
have ge2 : (nq mdl2 <= size (nseq (size (vvs mdl2)) (0%R : F)))%N by rewrite size_nseq (sd_vv sd2) leq_addl.
rewrite -(d_shks D1) in kn n0.
have [r1 [r2 [fl [mu [h1 h2 h3 h4]]]]] := C120_irfs rqP klP R1 R2 SM Hv hl hk G1 G2 s1 s2 (fun _ => true) (fun _ => true) linear ge1 ge2 sp en nf kn n0.
exists r1, r2, fl, mu; split; [exact: h1|exact: h2|exact: h3|].
by move=> t v lt vi; apply: h4 => //; rewrite (d_vars D1).
Qed.
End Two.
Print Assumptions C132_simulate.
Print Assumptions C132_observations.
Print Assumptions C132_irfs.

(** The file of T_Whole, with the parameter b = 0.5 and the derived parameter x_bar = -2*b, and a file without parameters that lists the
    variables in another order and writes model equation and constraint in another way. *)
Module SameEx.
Import WholeEx.
Definition src2 : text :=
  line "declarations:" (line "  variables: [r, x]" (line "  shocks: [e]"
  (line "equations:" (line "  model:" (line "   ~ r + x - e(-1) = x(-2)" (line "  constraint:" (line "   ~ r = 3*x - r"
  (line "  observables:" (line "    o: x" (line "calibration:" (line "  covariances: {e: 1}" [::]))))))))))).
Section Ex.
Variable F : rcfType.
Let nm (s : string) : rawexpr F := At (s, None).
Let lg (s : string) (d : int) : rawexpr F := At (s, Some d).
Definition grammar2 : seq (text * rawexpr F) := grammar F ++
  [:: (chars "r + x - e(-1) ", Sub (Add (nm "r") (nm "x")) (lg "e" (-1))); (chars " x(-2)", lg "x" (-2));
      (chars " 3*x - r", Sub (Mul (Cst 3%:R) (nm "x")) (nm "r"))].
Definition ptree2 (t : text) : option (rawexpr F) := ohead [seq g.2 | g <- grammar2 & g.1 == t].
Definition f2 : rawfile F := RawFile [:: chars "r"; chars "x"] [::] [:: "e"%string] [::]
  (Entries (Some [:: chars "r + x - e(-1) = x(-2)"]) (Some [:: chars "r = 3*x - r"]) [:: ("o"%string, chars "x")] [::]) None.
Definition seen2 : text :=
  line "declarations:" (line "  variables: [r, x]" (line "  shocks: [e]"
  (line "equations:" (line "  model:" (line "   - r + x - e(-1) = x(-2)" (line "  constraint:" (line "   - r = 3*x - r"
  (line "  observables:" (line "    o: x" (line "calibration:" (line "  covariances: {e: 1}" [::]))))))))))).
Definition yaml2 (t : text) : res (rawfile F) := if t == seen then Ok (f F) else if t == seen2 then Ok f2 else Err ValueError.

Lemma zero2 : ptree2 (chars "0") = Some (Cst 0). Proof. reflexivity. Qed.
Lemma Y1 : yaml2 (normalize src) = Ok (f F). Proof. reflexivity. Qed.
Lemma Y2 : yaml2 (normalize src2) = Ok f2. Proof. reflexivity. Qed.
Lemma un2 : distinct_names f2. Proof. reflexivity. Qed.
Lemma decl1 : declares ptree2 (f F) (pf F).
Proof.
split; try reflexivity.
- by move=> v; rewrite !inE => /orP [] /eqP ->.
- split; last exact: I.
  by left; exists (chars "x + r "), (chars " x(-2) +   e(-1)"); split; reflexivity.
- exists (chars "r = 1.5*x"); split; first reflexivity.
  exists (chars "r "), (chars " 1.5*x"), (chars "r"); split; [reflexivity..| |by split; reflexivity].
  by exists [::], (chars " "); split=> // c w [[<- _]|] //; case: w => [[<-]|a []].
- by split; [split; reflexivity|exact: I].
Qed.
Lemma decl2 : declares ptree2 f2 (pg F).
Proof.
split; try reflexivity.
- by move=> v; rewrite !inE => /orP [] /eqP ->.
- split; last exact: I.
  by left; exists (chars "r + x - e(-1) "), (chars " x(-2)"); split; reflexivity.
- exists (chars "r = 3*x - r"); split; first reflexivity.
  exists (chars "r "), (chars " 3*x - r"), (chars "r"); split; [reflexivity..| |by split; reflexivity].
  by exists [::], (chars " "); split=> // c w [[<- _]|] //; case: w => [[<-]|a []].
- by split; [split; reflexivity|exact: I].
Qed.
Lemma one_g2 (q : string -> F) : exists g, regular_file (P_GenSysEx.tol F) (pg F) (pg_eqs F) (p_ceq (pg_p F)) q g (pg_c F) (-1).
Proof. by have [g1 [g [kl [mdl1 [mdl2 [_ _ [_ R] _ _]]]]]] := two_files2 q q; exists g. Qed.
Lemma rega : regular_text ptree2 (@refs F) (@dfun F) (P_GenSysEx.tol F) (f F) [:: 2%:R^-1].
Proof.
move=> m p q D Hp cal; have em := declares_fun D decl1; subst m.
have ep : p = pf_p F by move: Hp; rewrite pf_parse => -[].
subst p; rewrite (bnd cal); have [g R] := one_g q.
by exists (pf_eqs F), (p_ceq (pf_p F)), g, (pf_c F).
Qed.
Lemma regb : regular_text ptree2 (@refs F) (@dfun F) (P_GenSysEx.tol F) f2 [::].
Proof.
move=> m p q D Hp cal; have em := declares_fun D decl2; subst m.
have ep : p = pg_p F by move: Hp; rewrite pg_parse => -[].
subst p; have [g R] := one_g2 q; rewrite (_ : bound f2 q = -1) //.
by exists (pg_eqs F), (p_ceq (pg_p F)), g, (pg_c F).
Qed.
Lemma same12 q1 q2 : calibrated (@refs F) (@dfun F) (f F) [:: 2%:R^-1] q1 -> same_text ptree2 (f F) f2 q1 q2.
Proof.
move=> cal; have [sv ss sc sl sq] := @two_meaning F q1; split; [exact: sv|exact: ss| | |].
- move=> X E; rewrite -(lines_eqs q1 X E (@un F) decl1 (@pf_parse F) (@pf_decl F)) -(lines_eqs q2 X E un2 decl2 (@pg_parse F) (@pg_decl F)).
  by rewrite (sl X E); split=> H s q [<-|[]]; exact: (H s _ (or_introl erefl)).
- exists (chars "r = 1.5*x"), (chars "r = 3*x - r"), "r"%string; split; [reflexivity|reflexivity| |reflexivity|].
    by split; [exists (chars "r "), (chars " 1.5*x"), (chars "r") | exists (chars "r "), (chars " 3*x - r"), (chars "r")]; split=> //;
      exists [::], (chars " "); split=> // c w [[<- _]|] //; case: w => [[<-]|a []].
  move=> X E t; rewrite -(line_ceq q1 X E t (@un F) decl1 (@pf_parse F) (@pf_decl F)) // -(line_ceq q2 X E t un2 decl2 (@pg_parse F) (@pg_decl F)) //.
  exact: (sq X E t).
- by rewrite (bnd cal).
Qed.
Lemma obs12 q1 q2 : same_observed ptree2 (f F) f2 q1 q2.
Proof.
move=> X E t [|y1 [|? ?]] [|y2 [|? ?]] //= []; try (by move=> _ []); move=> [e1 [h1 <-]] _ []; try (by move=> _ []).
by move=> [e2 [h2 <-]] _; case: h1 => <-; case: h2 => <-.
Qed.
Lemma both : let tol := P_GenSysEx.tol F in let l3 := Some (Zpos 3) in let k17 := Some (Zpos 17) in
  exists klein mdl1 mdl2, [/\ rq_ok (@some_rq F), klein_stable klein,
  solve_text tol (@some_rq F) klein ptree2 yaml2 (@refs F) (@dfun F) src None None l3 k17 = Ok mdl1,
  solve_text tol (@some_rq F) klein ptree2 yaml2 (@refs F) (@dfun F) src2 None None l3 k17 = Ok mdl2 &
  (size (shk mdl1) < dq mdl1)%N /\ (size (shk mdl2) < dq mdl2)%N].
Proof.
move=> tol l3 k17; have [_ /(_ (@gr F)) [ps E]] := (psi_grounded (@refs F) (@dfun F) (@un F)).1.
have gr2 : forall n, n \in f_oths f2 -> grounded (@refs F) f2 n by [].
have [_ /(_ gr2) [ps2 E2]] := (psi_grounded (@refs F) (@dfun F) un2).1.
pose q := par_at (f F) ps [:: 2%:R^-1]; pose q2 := par_at f2 ps2 [::].
have cal : calibrated (@refs F) (@dfun F) (f F) [:: 2%:R^-1] q by apply: (par_at_calibrated (un_par (@un F)) E).
have [g1 [g2 [klein [mdl1 [mdl2 [h1 h2 _ [h3 h4] h5]]]]]] := two_files2 q q2.
exists klein, mdl1, mdl2; split; [exact: h1|exact: h2| | |exact: h5].
  rewrite (@solve_text_eq F tol (@some_rq F) klein ptree2 zero2 yaml2 (@refs F) (@dfun F) src (f F) Y1 (@un F) None None _ _ (pf F) (pf_p F) ps (Zpos 4, Zpos 17) decl1 (pf_parse F) E (erefl _) hz isT).
  by rewrite [odflt _ _]/= (bnd cal); exact: h3.
rewrite (@solve_text_eq F tol (@some_rq F) klein ptree2 zero2 yaml2 (@refs F) (@dfun F) src2 f2 Y2 un2 None None _ _ (pg F) (pg_p F) ps2 (Zpos 4, Zpos 17) decl2 (pg_parse F) E2 (erefl _) hz isT).
exact: h4.
Qed.
End Ex.
(** all hypotheses of C132 are met by these two texts *)
Example C132_example : let F := [rcfType of realalg] in let tol := P_GenSysEx.tol F in
  let l3 := Some (Zpos 3) in let k17 := Some (Zpos 17) in
  [/\ @ptree2 F (chars "0") = Some (Cst 0), @yaml2 F (normalize src) = Ok (f F), @yaml2 F (normalize src2) = Ok (f2 F),
      distinct_names (f F) /\ distinct_names (f2 F) & horizons None l3 k17 = Ok (Zpos 4, Zpos 17)] /\
  [/\ regular_text (@ptree2 F) (@refs F) (@dfun F) tol (f F) [seq p.2 | p <- f_pars (f F)],
      regular_text (@ptree2 F) (@refs F) (@dfun F) tol (f2 F) [seq p.2 | p <- f_pars (f2 F)],
      forall q1 q2, calibrated (@refs F) (@dfun F) (f F) [seq p.2 | p <- f_pars (f F)] q1 -> same_text (@ptree2 F) (f F) (f2 F) q1 q2,
      forall q1 q2, same_observed (@ptree2 F) (f F) (f2 F) q1 q2 &
      exists klein mdl1 mdl2, [/\ rq_ok (@some_rq F), klein_stable klein,
        solve_text tol (@some_rq F) klein (@ptree2 F) (@yaml2 F) (@refs F) (@dfun F) src None None l3 k17 = Ok mdl1,
        solve_text tol (@some_rq F) klein (@ptree2 F) (@yaml2 F) (@refs F) (@dfun F) src2 None None l3 k17 = Ok mdl2 &
        (size (shk mdl1) < dq mdl1)%N /\ (size (shk mdl2) < dq mdl2)%N]].
Proof.
move=> F tol l3 k17; split.
  by split; [exact: (@zero2 F)|exact: (@Y1 F)|exact: (@Y2 F)|split; [exact: (@un F)|exact: (@un2 F)]|exact: hz].
split; [exact: (@rega F)|exact: (@regb F)|exact: (@same12 F)|exact: (@obs12 F)|exact: (@both F)].
Qed.
End SameEx.
Print Assumptions SameEx.C132_example.
