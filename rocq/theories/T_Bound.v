(** Property theorems C127: the value of the bound. *)
Set Warnings "-all".
From Coq Require Import String.
From mathcomp Require Import all_ssreflect all_algebra all_real_closed.
From Verif Require Import PyBase PyStr P_Loops M_FindLk M_Parser M_Engine S_Engine P_Engine P_Engine2 P_Engine3 M_GenSys S_GenSys M_Pipe M_Tools S_Tools P_Tools
  M_Full S_Full S_Meta P_Meta P_RQ P_PipeEx P_GenSysEx T_Meta T_Full S_Bound.
Set Implicit Arguments. Unset Strict Implicit. Unset Printing Implicit Defensive.
Import GRing.Theory Num.Theory Order.TTheory.
Local Open Scope ring_scope.

Section Lems.
Variables (F : realFieldType) (tol : F) (rq : forall d, 'M[F]_d -> 'M[F]_d * 'M[F]_d).
Variable klein : forall a b, 'M[F]_(a + b) -> 'M[F]_(a + b) -> res ('M[F]_(b, a) * 'M[F]_a).

Lemma cell00E dimq dimp (sm : sysmats F dimq dimp) f omg lam lm km t b : preprocess sm f omg lam lm km = Ok (t, b) -> t 0%N 0%N = Some (Cell omg 0 lam 0).
Proof.
case/preprocess_inv=> sm' [_ E _]; have := @stage1P _ _ _ sm' omg lam lm.+1 km.+1; rewrite E /= => /(_ 0%N 0%N isT isT) [c -> ].
by rewrite /= => -[->].
Qed.

Definition scaled (c : F) (a a' : tmodel F) : Prop :=
  exists sm f omg lam t' b', [/\ a' = @with_bound F a t' b' (c * xb a), stab (scell c) (tab a) t', sbt c (btab a) b',
    preprocess sm f omg lam (lmx a) (kmx a) = Ok (tab a, btab a) & preprocess (scale_h c sm) f omg lam (lmx a) (kmx a) = Ok (t', b')].

Lemma gen_sys_sc c m n e o (u : usys F m n e) names shks (ZZ0 : 'M[F]_(o, n)) ZZ1 lm km :
  rrel (scaled c) (gen_sys tol rq klein u names shks ZZ0 ZZ1 lm km) (gen_sys tol rq klein (scale_bound c u) names shks ZZ0 ZZ1 lm km).
Proof.
have [E1 [E2 _]] := C107_only_the_constant_changes tol u rq c.
pose K (x : F) (vvr : res (seq string * seq string * seq string)) (smr : res (sysmats F (dimq tol u) (dimp tol u))) (f : cnst F (dimq tol u) (dimp tol u)) :=
  rbind vvr (fun vv => rbind smr (fun sm => rbind (klein (mS sm) (mT sm)) (fun ol => rbind (preprocess sm f ol.1 ol.2 lm km) (fun tb =>
  Ok (@TM F (dimq tol u) (dimp tol u) tb.1 tb.2 lm km x shks _ #|dropeps (inq (tol:=tol) (u:=u))| (conform_mx 0 (zp tol u ZZ0)) (zq tol u ZZ0) ZZ1 vv.2))))).
change (rrel (scaled c) (K (x_bar u) (new_vv tol u names) (sys_of tol u rq) (ff tol u))
  (K (c * x_bar u) (new_vv tol u names) (sys_of tol (scale_bound c u) rq) (ff tol (scale_bound c u)))).
rewrite E1 E2 /K; case: new_vv => [vv|] //=; case: sys_of => [sm|] //=; case: klein => [ol|] //=.
have ss : ssm c sm (scale_h c sm) by [].
have := preprocess_rel (ff tol u) ol.1 ol.2 lm km ss.
case P1: (preprocess sm _ _ _ _ _) => [[t b]|]; case P2: (preprocess (scale_h c sm) _ _ _ _ _) => [[t' b']|] //= [ht hb].
by exists sm, (ff tol u), ol.1, ol.2, t', b'.
Qed.

Lemma solve_sc c m par b lm km : (c * b <= 0) = (b <= 0) ->
  rrel (scaled c) (solve_file tol rq klein m par b lm km) (solve_file tol rq klein m par (c * b) lm km).
Proof.
move=> h; rewrite /solve_file h; destruct (parse m) as [p|]; last by [].
rewrite /rbind; case: (b <= 0); last by [].
destruct (get_matrices p par) as [g|]; last by [].
destruct (insub _) as [i|]; last by [].
exact: (gen_sys_sc c (usys_of_file g i b)).
Qed.

(** what the linear run of a model depends on *)
Definition linked (a a' : tmodel F) : Prop :=
  exists t' b' x, a' = @with_bound F a t' b' x /\ t' 0%N 0%N = tab a 0%N 0%N.
Lemma scaled_linked c a a' : scaled c a a' -> linked a a'.
Proof.
move=> [sm [f [omg [lam [t' [b' [-> _ _ P1 P2]]]]]]]; exists t', b', (c * xb a); split=> //.
by rewrite (cell00E P1) (cell00E P2).
Qed.
Lemma linked_sym a a' : linked a a' -> linked a' a.
Proof. by case: a => dq dp t b ? ? ? ? ? ? ? ? ? ? [t' [b' [x [-> /= h]]]]; do 3 eexists; split; [reflexivity|]. Qed.
Lemma linear_t a a' st sh sk : linked a a' -> t_func a' st sh sk true = t_func a st sh sk true.
Proof.
by move=> [t' [b' [x [-> h]]]]; rewrite /t_func /t_func_raw /= /t_func_jit /=; case: ifP => //= _; rewrite h.
Qed.
Lemma linked_frame a a' : linked a a' -> same_frame a a'.
Proof. by move=> [t' [b' [x [-> _]]]]. Qed.
Lemma linear_loop a a' st es : linked a a' -> sim_loop a' true st es = sim_loop a true st es.
Proof.
move=> h; elim: es st => [|e es IH] st //=; rewrite (linear_t _ _ _ h).
by case: t_func => [[[x lk] fl]|] //=; rewrite IH.
Qed.
Lemma linear_irf a a' n st T lm km sl sk fo : linked a a' -> irf_run a' n st T lm km sl true sk fo = irf_run a n st T lm km sl true sk fo.
Proof.
move=> h; rewrite /irf_run; elim: (iota 0 T) (IS _ _ _ _ _) => [|t ts IH] s //=.
have -> : irf_step a' n lm km sl true sk fo s t = irf_step a n lm km sl true sk fo s t; last by case: irf_step.
have [e1 e2 [e3 e4] _ _] := linked_frame h.
by rewrite /irf_step /neps e2 e3; case: shock_vec => //= sv; rewrite !(linear_t _ _ _ h);
   case: (if _ then _ else _) => [[eff mult]|] //=; rewrite (linear_t _ _ _ h).
Qed.
Lemma rrel_sym A (R R' : A -> A -> Prop) x y : rrel R x y -> (forall u v, R u v -> R' v u) -> rrel R' y x.
Proof. by case: x => [u|e]; case: y => [v|e'] //= h H; apply: H. Qed.
Lemma simE P (setpar : P -> res (tmodel F)) op mask lin eps st par a : setpar par = Ok a ->
  sim_run setpar op mask lin par eps st =
  match (if mask is Some mk then mask_eps op mk eps else Ok eps) with
  | Ok es => match sim_loop a lin st es with Ok r => Ok (st :: [seq x.1 | x <- r.1], [seq x.2 | x <- r.1], r.2) | Err e => Err e end
  | Err e => Err e end.
Proof. by move=> E; rewrite /sim_run; case: (if mask is Some _ then _ else _) => //= es; rewrite E /= eqxx; case: sim_loop. Qed.
End Lems.

(** C127.  The bound multiplied by a positive number: loading ends in the same way, and states and shocks multiplied by this number give
    the multiplied results, with the same durations, flags and exceptions. *)
Theorem C127_scale (F : realFieldType) (tol : F) (rq : forall d, 'M[F]_d -> 'M[F]_d * 'M[F]_d)
    (klein : forall a b, 'M[F]_(a + b) -> 'M[F]_(a + b) -> res ('M[F]_(b, a) * 'M[F]_a)) (m : rawmodel F) par b lm km (c : F) : 0 < c ->
  both (fun mdl mdl' => [/\ same_frame mdl mdl', xb mdl = b /\ xb mdl' = c * b,
      forall st sh sk linear, t_func mdl' (scale c st) (omap (scale c) sh) sk linear = scale_out c (t_func mdl st sh sk linear),
      forall P (setpar : P -> res (tmodel F)) anyp shocklist st T linear sk fo,
        irfs mdl' setpar anyp [seq scale_shock c a | a <- shocklist] None (omap (scale c) st) T linear sk fo =
        scale_irfs c (irfs mdl setpar anyp shocklist None st T linear sk fo) &
      forall mask linear eps st,
        sim_run (fun q => solve_file tol rq klein m q (c * b) lm km) *%R mask linear par [seq scale c e | e <- eps] (scale c st) =
        scale_sim c (sim_run (fun q => solve_file tol rq klein m q b lm km) *%R mask linear par eps st)])
    (solve_file tol rq klein m par b lm km) (solve_file tol rq klein m par (c * b) lm km).
Proof.
move=> c0; have h : (c * b <= 0) = (b <= 0) by rewrite pmulr_rle0.
have := solve_sc tol rq klein m par lm km h.
destruct (solve_file tol rq klein m par b lm km) as [mdl|] eqn:E1; destruct (solve_file tol rq klein m par (c * b) lm km) as [mdl'|] eqn:E2; rewrite /both /rrel ?E2 // => S.
have fr := linked_frame (scaled_linked S).
case: S => sm [f [omg [lam [t' [b' [e _ _ P1 P2]]]]]].
have [t2 [b2]] := C107_units c0 P1; rewrite P2 => -[[e1 e2]] [U1 [U2 U3]]; rewrite -e1 -e2 -e in U1 U2 U3.
split=> //; last by move=> mask lin eps st; apply: U3.
have eb x md : solve_file tol rq klein m par x lm km = Ok md -> xb md = x.
  rewrite /solve_file; case: parse => [p|] //=; case: ifP => // _; case: get_matrices => [g|] //=; case: insub => [i|] //.
  by rewrite /gen_sys; case: new_vv => [vv|] //=; case: sys_of => [s|] //=; case: (klein _ _ _ _) => [ol|] //=; case: preprocess => [tb|] //= [<-].
by rewrite (eb _ _ E1) (eb _ _ E2).
Qed.
Print Assumptions C127_scale.

(** Two bounds, neither of them positive: loading ends in the same way, and linear runs are the same. *)
Theorem C127_any_bound (F : realFieldType) (tol : F) (rq : forall d, 'M[F]_d -> 'M[F]_d * 'M[F]_d)
    (klein : forall a b, 'M[F]_(a + b) -> 'M[F]_(a + b) -> res ('M[F]_(b, a) * 'M[F]_a)) (m : rawmodel F) par b b' lm km :
  b <= 0 -> b' <= 0 ->
  both (fun mdl mdl' => [/\ same_frame mdl mdl', forall st sh sk, t_func mdl' st sh sk true = t_func mdl st sh sk true,
      forall P (setpar : P -> res (tmodel F)) anyp shocklist st T sk fo,
        irfs mdl' setpar anyp shocklist None st T true sk fo = irfs mdl setpar anyp shocklist None st T true sk fo &
      forall op mask eps st,
        sim_run (fun q => solve_file tol rq klein m q b' lm km) op mask true par eps st =
        sim_run (fun q => solve_file tol rq klein m q b lm km) op mask true par eps st])
    (solve_file tol rq klein m par b lm km) (solve_file tol rq klein m par b' lm km).
Proof.
move=> h h'.
have L : rrel (@linked F) (solve_file tol rq klein m par b lm km) (solve_file tol rq klein m par b' lm km).
  case: (eqVneq b 0) => [->|b0]; last first.
    have e : b' = (b' / b) * b by rewrite divfK.
    have := @solve_sc F tol rq klein (b' / b) m par b lm km; rewrite -e h h' => /(_ erefl).
    by destruct (solve_file tol rq klein m par b lm km); destruct (solve_file tol rq klein m par b' lm km) => //= /scaled_linked.
  have := @solve_sc F tol rq klein 0 m par b' lm km; rewrite mul0r h' lexx => /(_ erefl).
  by move=> S; apply: (rrel_sym S) => x y /scaled_linked /linked_sym.
move: L; destruct (solve_file tol rq klein m par b lm km) as [mdl|] eqn:E1; destruct (solve_file tol rq klein m par b' lm km) as [mdl'|] eqn:E2; rewrite /both /rrel => L; [|by []..].
split; first exact: linked_frame.
- by move=> *; apply: linear_t.
- move=> P setpar anyp sl st T sk fo; have [e1 e2 [e3 e4] [e5 e6] _] := linked_frame L.
  by rewrite /irfs e1 e5 e6 (linear_irf _ _ _ _ _ _ _ _ L).
- by move=> op mask eps st; rewrite [LHS](simE op mask true eps st E2) [RHS](simE op mask true eps st E1); case: mask => [mk|]; rewrite ?(linear_loop _ _ L) //;
    case: (mask_eps op mk eps) => // es; rewrite (linear_loop _ _ L).
Qed.
Print Assumptions C127_any_bound.

(** A positive bound is rejected. *)
Theorem C127_positive_bound (F : realFieldType) (tol : F) (rq : forall d, 'M[F]_d -> 'M[F]_d * 'M[F]_d)
    (klein : forall a b, 'M[F]_(a + b) -> 'M[F]_(a + b) -> res ('M[F]_(b, a) * 'M[F]_a)) (m : rawmodel F) p par b lm km :
  parse m = Ok p -> 0 < b -> solve_file tol rq klein m par b lm km = Err NotImplementedErr.
Proof. by move=> h b0; rewrite /solve_file h /= leNgt b0. Qed.
Print Assumptions C127_positive_bound.

(** the example file is solved with the bounds -1, -3 and 0, and rejected with the bound 1 *)
Lemma pf_bounds (F : rcfType) (par : string -> F) : let tol := P_GenSysEx.tol F in
  exists klein, klein_ok klein /\ let S b := solve_file tol (@some_rq F) klein (pf F) par b 4 17 in
  [/\ exists a, S (-1) = Ok a, exists a, S (- 3%:R) = Ok a, exists a, S 0 = Ok a & S 1 = Err NotImplementedErr].
Proof.
move=> tol; have [g [kl [mdl [_ h2 R h4 _]]]] := @pf_full F par; exists kl; split=> //= .
have m1 : -1 <= 0 :> F by rewrite oppr_le0 ler01.
have m3 : - 3%:R <= 0 :> F by rewrite oppr_le0 ler0n.
split; first by exists mdl.
- have := C127_any_bound tol (@some_rq F) kl (pf F) par 4 17 m1 m3; rewrite h4; by case: solve_file => // a; exists a.
- have := C127_any_bound tol (@some_rq F) kl (pf F) par 4 17 m1 (lexx 0); rewrite h4; by case: solve_file => // a; exists a.
- by case: R => h *; apply: (C127_positive_bound _ _ _ _ _ _ h ltr01).
Qed.
Example C127_example (par : string -> realalg) : let F := [rcfType of realalg] in let tol := P_GenSysEx.tol F in
  exists klein, klein_ok klein /\ let S b := solve_file tol (@some_rq F) klein (pf F) par b 4 17 in
  [/\ exists a, S (-1) = Ok a, exists a, S (- 3%:R) = Ok a, exists a, S 0 = Ok a & S 1 = Err NotImplementedErr].
Proof. exact: (@pf_bounds [rcfType of realalg] par). Qed.
