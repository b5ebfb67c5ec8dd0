(** Property theorem C121: from the text of a model file, its calibration and its derived parameters to what is reported. *)
Set Warnings "-all".
From Coq Require Import String Ascii ZArith.
From mathcomp Require Import all_ssreflect all_algebra all_real_closed.
From Verif Require Import PyBase PyStr M_ParaFunc S_ParaFunc P_ParaFunc T_ParaFunc M_Parser S_Parser P_Parser5 M_Text S_Text P_Text2 M_Solve
  M_Engine S_Engine M_GenSys S_GenSys S_GenSys2 P_GenSys P_GenSys6 P_RQ M_Pipe S_Pipe P_PipeEx M_Tools S_Tools P_Tools P_Tools2 P_Tools3 P_Tools4 M_Full S_Full P_Full P_Full2 P_Full3 P_Full4 S_Mean P_Mean P_MeanEx P_MeanEx2 T_Tools T_Full T_Mean
  M_Whole S_Whole P_Whole.
Set Implicit Arguments. Unset Strict Implicit. Unset Printing Implicit Defensive.
Import GRing.Theory Num.Theory Order.TTheory.
Local Open Scope ring_scope.
Local Open Scope py_scope.

Section Whole.
Variables (F : realFieldType) (tol : F) (rq : forall d, 'M[F]_d -> 'M[F]_d * 'M[F]_d).
Variable klein : forall a b, 'M[F]_(a + b) -> 'M[F]_(a + b) -> res ('M[F]_(b, a) * 'M[F]_a).
Variable ptree : text -> option (rawexpr F).
Variable yaml : text -> res (rawfile F).
Variable refs : rawfile F -> string -> seq string.
Variable dfun : rawfile F -> string -> seq F -> F.
Hypothesis zero : ptree (chars "0") = Some (Cst 0).
Variables (t : text) (f : rawfile F).
Hypothesis Y : yaml (normalize t) = Ok f.
Hypothesis un : distinct_names f.
Local Notation read := (read_text ptree yaml refs dfun).
Local Notation solve := (solve_text tol rq klein ptree yaml refs dfun).
(** the parameters: those of the file unless given *)
Local Notation values par := (odflt [seq p.2 | p <- f_pars f] par).

(** The derived parameters.  A file whose equations can be parsed is read unless some derived parameter is defined in a circle or by an
    unknown name; then NameError is raised.  In a file that is read, every list of numbers, one for each parameter, gives every
    parameter its number and every derived parameter the value of its text, and these values are the only ones that do so. *)
Theorem C121_derived o : parse_file ptree f = Ok o ->
  ((exists r, read t = Ok r) <-> (forall n, n \in f_oths f -> grounded refs f n)) /\
  (read t = Err NameError <-> ~ (forall n, n \in f_oths f -> grounded refs f n)) /\
  ((forall n, n \in f_oths f -> grounded refs f n) -> forall v, size v = size (f_pars f) ->
     exists par, calibrated refs dfun f v par /\
     forall par', calibrated refs dfun f v par' -> forall n, (n \in [seq p.1 | p <- f_pars f]) || (n \in f_oths f) -> par' n = par n).
Proof.
move=> Ho; have [h1 h2] := psi_grounded refs dfun un.
have e : read t = let* ps := psi_of refs dfun f in Ok (f, o, ps) by rewrite /read_text Y /= Ho.
split; [|split].
- rewrite -h1 e; case: psi_of => [ps|x] /=; split=> [[y]|[y]] //; by eexists.
- rewrite -h2 e; case: psi_of => [ps|x] /=; by split=> // -[->].
- move=> /h1 [ps E] v sz; exists (par_at f ps v); split; first exact: (par_at_calibrated (un_par un) E sz).
  move=> par' cal n ni; exact: (calibrated_one (un_par un) E cal ni).
Qed.

(** What is rejected when the model is solved: a list of the wrong length, a file without constraint, a bound above zero. *)
Theorem C121_rejected o par lks lm km : parse_file ptree f = Ok o -> (forall n, n \in f_oths f -> grounded refs f n) ->
  (size (values par) <> size (f_pars f) -> solve t par lks lm km = Err ValueError) /\
  (size (values par) = size (f_pars f) ->
     (constraint_lines f = None -> solve t par lks lm km = Err NotImplementedErr) /\
     (forall q, calibrated refs dfun f (values par) q -> 0 < bound f q -> solve t par lks lm km = Err NotImplementedErr)).
Proof.
move=> Ho gr; have [_ /(_ gr) [ps E]] := (psi_grounded refs dfun un).1; rewrite /solve_text /read_text Y /= Ho /= E /=; split.
  by move/eqP/negbTE => ->.
move=> sz; rewrite sz eqxx; split=> [|q cal b0].
  by rewrite clE => nc; have := Ho; rewrite /parse_file nc; case: ifP => //= _; case: ifP => // _; case: mapM => [eqs|] //=; case: mapM => [es|] //=; case: expand => [ev|] //=; case: mapM => [ob|] //= [<-].
case: o Ho => // p Ho; rewrite (xbar_bound un E sz).
have -> : bound f (par_at f ps (values par)) = bound f q.
  by rewrite /bound; case: ifP => // i; rewrite (calibrated_one (un_par un) E cal i).
by rewrite b0.
Qed.

(** A solved model is the model that the text declares, solved for these values, this bound and the horizons of C17. *)
Theorem C121_solved par lks lm km mdl : solve t par lks lm km = Ok mdl ->
  exists m q lk, [/\ declares ptree f m, calibrated refs dfun f (values par) q, horizons lks lm km = Ok lk, bound f q <= 0 &
    solve_file tol rq klein m q (bound f q) (Z.to_nat lk.1) (Z.to_nat lk.2) = Ok mdl].
Proof.
move=> S; have [m [p [ps [lk [D Hp [E sz] Hh G]]]]] := solve_textE zero Y un S.
exists m, (par_at f ps (values par)), lk; split=> //; first exact: (par_at_calibrated (un_par un) E sz).
by move: G; rewrite /solve_file Hp [rbind _ _]/=; case: ifP.
Qed.

(** For horizons that are not negative, solving the text is solving the declared model, with the same result or the same exception. *)
Theorem C121_same par lks lm km lk m p : declares ptree f m -> parse m = Ok p -> (forall n, n \in f_oths f -> grounded refs f n) ->
  size (values par) = size (f_pars f) -> horizons lks lm km = Ok lk -> Z.le Z0 lk.1 /\ Z.le Z0 lk.2 ->
  exists q, calibrated refs dfun f (values par) q /\
    solve t par lks lm km = solve_file tol rq klein m q (bound f q) (Z.to_nat lk.1) (Z.to_nat lk.2).
Proof.
move=> D Hp gr sz Hh [n1 n2]; have [_ /(_ gr) [ps E]] := (psi_grounded refs dfun un).1.
exists (par_at f ps (values par)); split; first exact: (par_at_calibrated (un_par un) E sz).
by apply: (solve_text_eq _ _ _ zero Y un D Hp E sz Hh); apply/andP; split; apply/Z.leb_le.
Qed.

Hypothesis rqP : rq_ok rq.
Variables (par : option (seq F)) (lks : option (Z * Z)) (lm km : option Z) (lk : Z * Z) (mdl : tmodel F).
Hypothesis reg : regular_text ptree refs dfun tol f (values par).
Hypothesis S : solve t par lks lm km = Ok mdl.
Hypothesis H : horizons lks lm km = Ok lk.
Hypothesis hl : (0 < Z.to_nat lk.1 < 999)%N.
Hypothesis hk : (0 < Z.to_nat lk.2)%N.
Hypothesis st0 : (size (shk mdl) < dq mdl)%N.

Lemma core : exists m p q eqs g (c : 'I_(size (p_vars p))), [/\ declares ptree f m, calibrated refs dfun f (values par) q,
  regular_file tol m eqs (p_ceq p) q g c (bound f q), solve_file tol rq klein m q (bound f q) (Z.to_nat lk.1) (Z.to_nat lk.2) = Ok mdl &
  parse m = Ok p /\ declared_eqs m = Ok eqs].
Proof.
have [m [p [ps [lk' [D Hp [E sz] Hh G]]]]] := solve_textE zero Y un S.
move: Hh; rewrite H => -[e]; subst lk'.
have cal := par_at_calibrated (un_par un) E sz.
have [eqs [ceq [g [c R]]]] := reg D Hp cal; exists m, p, (par_at f ps (values par)), eqs, g, c.
have ec : ceq = p_ceq p by have [_ _ [_ Ec _ _]] := pE Hp (rf_eqs R); have := rf_ceq R; rewrite Ec => -[].
by subst ceq; split=> //; split=> //; exact: (rf_eqs R).
Qed.

(** One period: whatever the state, the shocks and the way expectations are set, there are paths of the variables and shocks that start
    from this state and these shocks and make every line of the text true in this and all later periods, the constraint binding in periods
    l, ..., l+k-1; the reported numbers are the values of this period, the observables are the values of their texts. *)
Theorem C121_period st sh set_k linear x (l k : nat) flag : klein_ok klein -> (nq mdl <= size st)%N -> size sh = size (f_shks f) ->
  t_func mdl st (Some sh) set_k linear = Ok (x, (l%:Z, k%:Z), flag) ->
  exists m p q X E, [/\ declares ptree f m /\ parse m = Ok p, calibrated refs dfun f (values par) q, starts_from m p mdl st sh X E,
    solves_text ptree f q (binds l k) X E &
    [/\ report (p_vars p) (vvs mdl) X 0 = x,
        forall v, v \in [seq str w | w <- f_vars f] -> v \in vvs mdl -> nth 0 x (index v (vvs mdl)) = X v 0 &
        exists ys, obs_row mdl x = Ok ys /\ pairwise (fun (o : string * text) y => has_value ptree f q X E 0 o.2 y) (observable_lines f) ys]].
Proof.
move=> klP ge sz Ht; have [m [p [q [eqs [g [c [D cal R G [Hp He]]]]]]]] := core.
have [X [E [h1 h2 h3 h4 h5]]] := C116_period rqP klP R hl hk G st0 ge (etrans sz (congr1 size (esym (d_shks D)))) Ht.
exists m, p, q, X, E; split=> //; first by apply/(text_file un q D Hp He).
split=> // [v vi vv|].
  have vp : v \in p_vars p by apply: (vars_sub Hp He); rewrite (d_vars D).
  by rewrite -h3 /report (nth_map EmptyString) ?index_mem // nth_index // /original vp.
exists [seq eval (value q X E 0) o.2 | o <- p_obs p]; split; first by rewrite -h3 h5.
exact: (text_obs un q D Hp He).
Qed.

(** Every simulated period solves the text, starting from the states simulated for the period before. *)
Theorem C121_simulate op linear es st xs lks' flag : klein_ok klein -> (nq mdl <= size st)%N -> all (fun e => size e == size (f_shks f)) es ->
  sim_run (fun q => solve t q lks lm km) op None linear par es st = Ok (xs, lks', flag) ->
  forall i, (i < size es)%N -> exists l k m p q X E, [/\ nth (0, 0) lks' i = lkz (l, k), declares ptree f m /\ parse m = Ok p,
    calibrated refs dfun f (values par) q, starts_from m p mdl (nth [::] xs i) (nth [::] es i) X E &
    solves_text ptree f q (binds l k) X E /\ report (p_vars p) (vvs mdl) X 0 = nth [::] xs i.+1].
Proof.
move=> klP ge al Hs.
have [m0 [p0 [q0 [eqs0 [g0 [c0 [D0 _ R0 G0 _]]]]]]] := core.
have [_ [sm [ff0 [omg [lam [sd _]]]]]] := C116_model_is_solved rqP klP R0 hl hk G0 st0.
have [fls [h1 h2 h3 _ [_ HH]]] := C26_simulate (setpar := fun q => solve t q lks lm km) S Hs.
have ge' i : (i <= size es)%N -> (nq mdl <= size (nth [::] xs i))%N.
  case: i => [_|i lt]; first by rewrite h3.
  by rewrite (t_func_size (dims sd) (sd_vv sd) (HH i lt)) (sd_vv sd) leq_addl.
move=> i lt; have E := HH i lt; have [l [k e]] := t_func_nat (sk := KNone) isT E; rewrite e in E.
have sz : size (nth [::] es i) = size (f_shks f) by have /allP /(_ _ (mem_nth [::] lt)) /eqP := al.
by have [m [p [q [X [E' [a1 a2 a3 a4 [a5 _ _]]]]]]] := C121_period klP (ge' i (ltnW lt)) sz E; exists l, k, m, p, q, X, E'.
Qed.

(** Every period of an impulse response solves the text, starting from the states reported for the period before. *)
Theorem C121_irfs P (setpar : P -> res (tmodel F)) anyp shocklist st T linear set_k force rows flag mult : klein_ok klein -> (nq mdl <= size st)%N ->
  irfs mdl setpar anyp shocklist None (Some st) T linear set_k force = Ok (IRows rows flag mult) ->
  size rows = T /\
  forall i l k, (i < T)%N -> (nth ([::], (0, 0)) rows i).2 = lkz (l, k) -> exists m p q X E, [/\ declares ptree f m /\ parse m = Ok p,
    calibrated refs dfun f (values par) q,
    starts_from m p mdl (nth [::] (st :: [seq x.1 | x <- rows]) i) (shocks_at (f_shks f) [seq norm_shock a | a <- shocklist] i) X E,
    solves_text ptree f q (binds l k) X E & report (p_vars p) (vvs mdl) X 0 = (nth ([::], (0, 0)) rows i).1].
Proof.
move=> klP ge Hi; have [m [p [q [eqs [g [c [D cal R G [Hp He]]]]]]]] := core.
have [h1 h2] := C116_irfs rqP klP R hl hk G st0 ge Hi; split=> // i l k lt el.
have [X [E [a1 a2 a3 _ _]]] := h2 i l k lt el; exists m, p, q, X, E.
by split=> //; [move: a1; rewrite (d_shks D) | apply/(text_file un q D Hp He)].
Qed.

(** Conversely, the text determines what is reported: if paths that start from the state and the shocks solve the text with the reported
    durations and do not explode, the reported values of the variables of the file are theirs. *)
Theorem C121_determined st sh set_k linear x (l k : nat) flag m p q X E : klein_stable klein -> (nq mdl <= size st)%N ->
  t_func mdl st (Some sh) set_k linear = Ok (x, (l%:Z, k%:Z), flag) ->
  declares ptree f m -> parse m = Ok p -> r_cvar m \in r_vars m -> calibrated refs dfun f (values par) q ->
  starts_from m p mdl st sh X E -> solves_text ptree f q (binds l k) X E -> bounded_path [seq str w | w <- f_vars f] X ->
  forall v, v \in [seq str w | w <- f_vars f] -> nth 0 x (index v (vvs mdl)) = X v 0.
Proof.
move=> klP ge Ht D Hp Hv cal sf sol bnd v vi.
have [m' [p' [ps [lk' [D' Hp' [E' sz] Hh G]]]]] := solve_textE zero Y un S.
move: Hh; rewrite H => -[e]; subst lk'.
have em := declares_fun D D'; subst m'; have ep : p' = p by move: Hp'; rewrite Hp => -[].
subst p'; have cal' := par_at_calibrated (un_par un) E' sz; pose q' := par_at f ps (values par).
have [eqs [ceq [g [c R]]]] := reg D Hp cal'.
have ec : ceq = p_ceq p by have [_ _ [_ Ec _ _]] := pE Hp (rf_eqs R); have := rf_ceq R; rewrite Ec => -[].
subst ceq; have sol' : solves_text ptree f q' (binds l k) X E.
  by apply: (text_ext un D Hp (rf_eqs R) _ sol) => n ni; exact: (calibrated_one (un_par un) E' cal ni).
have fp : file_path m p eqs (p_ceq p) q' (bound f q') mdl st sh l k X E.
  by split=> //; [apply/(text_file un q' D Hp (rf_eqs R)) | rewrite (d_vars D)].
by have [_ _ ->] := C119_reported rqP klP R Hv hl hk G st0 ge Ht fp; rewrite ?(d_vars D).
Qed.
End Whole.
Print Assumptions C121_derived.
Print Assumptions C121_rejected.
Print Assumptions C121_solved.
Print Assumptions C121_same.
Print Assumptions C121_period.
Print Assumptions C121_simulate.
Print Assumptions C121_irfs.
Print Assumptions C121_determined.

(** A model file with the parameter b = 0.5 and the derived parameter x_bar = -2*b. *)
Module WholeEx.
Definition line (s : string) (t : text) : text := chars s ++ nl :: t.
Definition src : text :=
  line "declarations:" (line "  variables: [x, r]" (line "  parameters: [b]" (line "  shocks: [e]"
  (line "equations:" (line "  model:" (line "   ~ x + r = x(-2) + @" (line " e(-1);" (line "  constraint:" (line "   ~ r = 1.5*x"
  (line "  observables:" (line "    o: x" (line "calibration:" (line "  parameters: {b: 0.5}" (line "  parafunc: {x_bar: -2*b}"
  (line "  covariances: {e: 1}" [::]))))))))))))))).
Section Ex.
Variable F : rcfType.
Let nm (s : string) : rawexpr F := At (s, None).
Let lg (s : string) (d : int) : rawexpr F := At (s, Some d).
Definition grammar : seq (text * rawexpr F) :=
  [:: (chars "x + r ", Add (nm "x") (nm "r")); (chars " x(-2) +   e(-1)", Add (lg "x" (-2)) (lg "e" (-1)));
      (chars "r ", nm "r"); (chars " 1.5*x", Mul (Cst (3%:R / 2%:R)) (nm "x")); (chars "x", nm "x"); (chars "0", Cst 0)].
Definition ptree (t : text) : option (rawexpr F) := ohead [seq g.2 | g <- grammar & g.1 == t].
Definition f : rawfile F := RawFile [:: chars "x"; chars "r"] [:: ("b"%string, 2%:R^-1)] [:: "e"%string] [:: "x_bar"%string]
  (Entries (Some [:: chars "x + r = x(-2) +   e(-1)"]) (Some [:: chars "r = 1.5*x"]) [:: ("o"%string, chars "x")] [::]) None.
(** what the loader sees *)
Definition seen : text :=
  line "declarations:" (line "  variables: [x, r]" (line "  parameters: [b]" (line "  shocks: [e]"
  (line "equations:" (line "  model:" (line "   - x + r = x(-2) +   e(-1)" (line "  constraint:" (line "   - r = 1.5*x"
  (line "  observables:" (line "    o: x" (line "calibration:" (line "  parameters: {b: 0.5}" (line "  parafunc: {x_bar: -2*b}"
  (line "  covariances: {e: 1}" [::])))))))))))))).
Definition yaml (t : text) : res (rawfile F) := if t == seen then Ok f else Err ValueError.
Definition refs (_ : rawfile F) (n : string) : seq string := if n == "x_bar"%string then [:: "b"%string] else [::].
Definition dfun (_ : rawfile F) (n : string) (vs : seq F) : F := if n == "x_bar"%string then - (2%:R * nth 0 vs 0) else 0.

Lemma zero : ptree (chars "0") = Some (Cst 0). Proof. reflexivity. Qed.
Lemma Y : yaml (normalize src) = Ok f. Proof. reflexivity. Qed.
Lemma un : distinct_names f. Proof. reflexivity. Qed.
Lemma decl : declares ptree f (pf F).
Proof.
split; try reflexivity.
- by move=> v; rewrite !inE => /orP [] /eqP ->.
- split; last exact: I.
  by left; exists (chars "x + r "), (chars " x(-2) +   e(-1)"); split; reflexivity.
- exists (chars "r = 1.5*x"); split; first reflexivity.
  exists (chars "r "), (chars " 1.5*x"), (chars "r"); split; [reflexivity..| |by split; reflexivity].
  by exists [::], (chars " "); split=> // c w [[<- _]|] //; case: w => [[<-]|a []].
- by split; [split; reflexivity|exact: I].
Qed.
Lemma gr : forall n, n \in f_oths f -> grounded refs f n.
Proof. by move=> n; rewrite inE => /eqP ->; apply: gr_oth => // r; rewrite inE => /eqP ->; apply: gr_par. Qed.
Lemma bnd q : calibrated refs dfun f [:: 2%:R^-1] q -> bound f q = -1.
Proof.
move=> [_ [eb] eo]; have [ex _] := eo "x_bar"%string isT.
rewrite (_ : bound f q = q "x_bar"%string) // ex (_ : dfun _ _ _ = - (2%:R * q "b"%string)) // eb mulfV //.
by rewrite pnatr_eq0.
Qed.
Lemma one_g (q : string -> F) : exists g, regular_file (P_GenSysEx.tol F) (pf F) (pf_eqs F) (p_ceq (pf_p F)) q g (pf_c F) (-1).
Proof. by have [g [sm [omg [lam [_ _ R _ _]]]]] := @pf_solve0 F q; exists g. Qed.
Lemma reg : regular_text ptree refs dfun (P_GenSysEx.tol F) f [:: 2%:R^-1].
Proof.
move=> m p q D Hp cal; have em := declares_fun D decl; subst m.
have ep : p = pf_p F by move: Hp; rewrite pf_parse => -[].
subst p; rewrite (bnd cal); have [g R] := one_g q.
by exists (pf_eqs F), (p_ceq (pf_p F)), g, (pf_c F).
Qed.
Lemma hz : horizons None (Some (Zpos 3)) (Some (Zpos 17)) = Ok (Zpos 4, Zpos 17). Proof. reflexivity. Qed.
Lemma whole : let tol := P_GenSysEx.tol F in exists klein mdl, [/\ rq_ok (@some_rq F), klein_stable klein,
  regular_text ptree refs dfun tol f [seq p.2 | p <- f_pars f],
  solve_text tol (@some_rq F) klein ptree yaml refs dfun src None None (Some (Zpos 3)) (Some (Zpos 17)) = Ok mdl & (size (shk mdl) < dq mdl)%N].
Proof.
move=> tol; have [_ /(_ gr) [ps E]] := (psi_grounded refs dfun un).1.
pose q := par_at f ps [:: 2%:R^-1].
have cal : calibrated refs dfun f [:: 2%:R^-1] q by apply: (par_at_calibrated (un_par un) E).
have [g [klein [mdl [h1 h2 h3 h4 [_ h5 _ _]]]]] := @one_ex F q.
exists klein, mdl; split; [exact: h1|exact: h2|exact: reg| |exact: h5].
rewrite (@solve_text_eq F tol (@some_rq F) klein ptree zero yaml refs dfun src f Y un None None _ _ (pf F) (pf_p F) ps (Zpos 4, Zpos 17) decl (pf_parse F) E (erefl _) hz isT).
by rewrite [odflt _ _]/= (bnd cal); exact: h4.
Qed.
End Ex.
(** all hypotheses of C121 are met by this file at its own calibration, for horizons 4 and 17 *)
Example C121_example : let F := [rcfType of realalg] in let tol := P_GenSysEx.tol F in
  [/\ @ptree F (chars "0") = Some (Cst 0), @yaml F (normalize src) = Ok (f F), distinct_names (f F),
      declares (@ptree F) (f F) (pf F) /\ parse (pf F) = Ok (pf_p F) &
      (forall n, n \in f_oths (f F) -> grounded (@refs F) (f F) n) /\
      horizons None (Some (Zpos 3)) (Some (Zpos 17)) = Ok (Zpos 4, Zpos 17)] /\
  exists klein mdl, [/\ rq_ok (@some_rq F), klein_stable klein, regular_text (@ptree F) (@refs F) (@dfun F) tol (f F) [seq p.2 | p <- f_pars (f F)],
    solve_text tol (@some_rq F) klein (@ptree F) (@yaml F) (@refs F) (@dfun F) src None None (Some (Zpos 3)) (Some (Zpos 17)) = Ok mdl &
    (size (shk mdl) < dq mdl)%N].
Proof.
move=> F tol; split; last exact: (@whole F).
split; [exact: (@zero F)|exact: (@Y F)|exact: (@un F)|split; [exact: (@decl F)|exact: (@pf_parse F)]|split; [exact: (@gr F)|exact: hz]].
Qed.
(** rejected: x_bar defined by itself; a list of two numbers; b = -1, which makes the bound 2 *)
Example C121_circular (F : rcfType) : read_text (@ptree F) (@yaml F) (fun _ _ => [:: "x_bar"%string]) (@dfun F) src = Err NameError.
Proof. reflexivity. Qed.
Example C121_length (F : rcfType) klein : solve_text (P_GenSysEx.tol F) (@some_rq F) klein (@ptree F) (@yaml F) (@refs F) (@dfun F) src
  (Some [:: 1; 1]) None None None = Err ValueError.
Proof. reflexivity. Qed.
Example C121_bound (F : rcfType) klein : solve_text (P_GenSysEx.tol F) (@some_rq F) klein (@ptree F) (@yaml F) (@refs F) (@dfun F) src
  (Some [:: -1]) None None None = Err NotImplementedErr.
Proof.
have Ho : parse_file (@ptree F) (f F) = Ok (Some (pf_p F)) by apply/(fileP (@zero F)); exists (pf F); split; [exact: decl|exact: pf_parse].
have [_ /(_ erefl) [_ H]] := C121_rejected (P_GenSysEx.tol F) (@some_rq F) klein (@dfun F) (@Y F) (@un F) (Some [:: -1]) None None None Ho (@gr F).
have [_ [_ /(_ (@gr F) [:: -1] erefl) [q [cal _]]]] := C121_derived (@refs F) (@dfun F) (@Y F) (@un F) Ho.
apply: (H q cal); have [_ [eb] eo] := cal; have [ex _] := eo "x_bar"%string isT.
rewrite (_ : bound (f F) q = q "x_bar"%string) // ex (_ : dfun _ _ _ = - (2%:R * q "b"%string)) // eb mulrN1 opprK.
exact: ltr0Sn.
Qed.
End WholeEx.
