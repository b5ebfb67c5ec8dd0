(** Property theorems C95, C96: from the model file to the stored rules and back. *)
Set Warnings "-all".
From Coq Require Import String.
From mathcomp Require Import all_ssreflect all_algebra all_real_closed.
From Verif Require Import PyBase PyStr M_Parser S_Parser P_Parser5 M_Engine S_Engine M_GenSys S_GenSys S_GenSys2 P_Engine P_Engine3 P_Engine4
  P_GenSys P_GenSys2 P_GenSys3 P_GenSys4 P_GenSys5 P_GenSys6 P_RQ M_Pipe S_Pipe P_Pipe P_Pipe2 P_PipeEx P_Pipe3 M_Tools T_Engine T_GenSys.
Set Implicit Arguments. Unset Strict Implicit. Unset Printing Implicit Defensive.
Import GRing.Theory Num.Theory Order.TTheory.
Local Open Scope ring_scope.

Lemma succ_int (s : nat) : (s.+1%:Z - 1 = s%:Z)%R /\ s.+1%:Z = (s%:Z + 1)%R.
Proof. by rewrite -addn1 PoszD addrK. Qed.

(** C95.  Every path generated by the rules stored for (l,k) is a path of the variables and shocks of the file that
    satisfies, from period 0 on, all equations written in the file; in periods l..l+k-1 the constrained variable is at
    the bound, in all others the file's constraint equation holds.  The values before period 0 are the ones carried
    by the lagged states. *)
Theorem C95_rules_solve_the_file (F : realFieldType) (tol : F) (m : rawmodel F) (p : parsed F) (eqs : seq (eqn F))
    (ceq : eqn F) (par : string -> F) (g : matrices F) (c : 'I_(size (p_vars p))) (xb : F)
    (rq : forall d, 'M[F]_d -> 'M[F]_d * 'M[F]_d) sm omg lam (l_max k_max : nat) t b :
  (** the file *)
  parse m = Ok p -> declared_eqs m = Ok eqs -> resolve_eqn (context m) (r_ceq m) = Ok ceq ->
  uniq (p_vars p) -> uniq (r_shks m) -> r_cvar m \in r_vars m ->
  each (fun q => affine_eqn q) eqs -> no_shock_lead eqs -> leads_upto 2 eqs ->
  affine_eqn ceq -> dates_in (-1) 0 0 0 (set_eq_zero ceq) ->
  (forall o, List.In o (p_obs p) -> [/\ affine o.2, no_shocks o.2 & dates_in (-1) 0 0 0 o.2]) ->
  each (fun q => const_of par q = 0) (p_eqs p) -> const_of par ceq = 0 ->
  (** the matrices and the compressed system *)
  get_matrices p par = Ok g -> nth EmptyString (p_vars p) c = r_cvar m ->
  let u := usys_of_file g c xb in
  well_scaled u tol -> constraint_connected u -> no_lead_lag u -> encodable u -> (forall d, is_rq (@rq d)) ->
  sys_of tol u rq = Ok sm -> linear_solution (mS sm) (mT sm) omg lam ->
  preprocess sm (ff tol u) omg lam l_max k_max = Ok (t, b) ->
  exists rules, stored l_max k_max t rules /\
    forall l k, (l <= l_max)%N -> (k <= k_max)%N ->
      (forall q0, exists qs ps, qs 0%N = q0 /\ follows rules l k qs ps) /\
      (forall qs ps, follows rules l k qs ps -> exists X E : path F,
         [/\ surprise_only (r_shks m) E,
             forall s : nat, qs s = q_of tol u (column (p_vars p) X (s%:Z - 1)) (column (p_shks p) E s%:Z),
             forall s : nat, ps s = p_of tol u (column (p_vars p) X s%:Z) (column (p_shks p) E (s%:Z + 1)) &
             solves_file par eqs ceq (r_cvar m) xb (binds l k) X E]).
Proof.
move=> Hp He Hce uv us cvi aff nl2 up2 affc cdat obsok c0 cc0 Hg Hc u ws cc nl en rqP sysE ls pre.
have [_ _ [_ Ec Es _]] := pE Hp He.
have ece : ceq = p_ceq p by move: Hce; rewrite Ec => -[].
subst ceq; have [rules [st H]] := C78_announced_paths_solve_users_model ws cc nl en rqP sysE ls pre.
exists rules; split=> // l k ll kk; have [ex an] := H l k ll kk; split=> // qs ps /an [x [eps [nf e1 e2 sol]]].
have us' : uniq (p_shks p) by rewrite Es.
exists (hist (path_of (zpath F) 1 x)), (hist_e (path_of (zpath F) 1 x) (path_of (zpath F) 0 eps)); split.
- rewrite -Es; exact: file_surprise.
- by move=> s; have [-> ->] := file_columns Hp He uv us x eps (zpath F) (zpath F) s.
- move=> s; have [] := file_columns Hp He uv us x eps (zpath F) (zpath F) s.+1.
  by rewrite e2 (succ_int s).1 (succ_int s).2 => -> ->.
- exact: (file_solved Hp He uv us aff nl2 up2 affc cdat obsok c0 cc0 Hg Hc sol _ _).
Qed.
Print Assumptions C95_rules_solve_the_file.

(** Conversely, every path of the file's variables that satisfies the file's equations for the schedule (l,k) obeys
    the compressed system, and follows the stored rules if from period l+k on it follows the linear solution. *)
Theorem C95_file_paths_follow_the_rules (F : realFieldType) (tol : F) (m : rawmodel F) (p : parsed F) (eqs : seq (eqn F))
    (ceq : eqn F) (par : string -> F) (g : matrices F) (c : 'I_(size (p_vars p))) (xb : F)
    (rq : forall d, 'M[F]_d -> 'M[F]_d * 'M[F]_d) sm omg lam (l_max k_max : nat) t b :
  (** the file *)
  parse m = Ok p -> declared_eqs m = Ok eqs -> resolve_eqn (context m) (r_ceq m) = Ok ceq ->
  uniq (p_vars p) -> uniq (r_shks m) -> r_cvar m \in r_vars m ->
  each (fun q => affine_eqn q) eqs -> no_shock_lead eqs -> leads_upto 2 eqs ->
  affine_eqn ceq -> dates_in (-1) 0 0 0 (set_eq_zero ceq) ->
  (forall o, List.In o (p_obs p) -> [/\ affine o.2, no_shocks o.2 & dates_in (-1) 0 0 0 o.2]) ->
  each (fun q => const_of par q = 0) (p_eqs p) -> const_of par ceq = 0 ->
  (** the matrices and the compressed system *)
  get_matrices p par = Ok g -> nth EmptyString (p_vars p) c = r_cvar m ->
  let u := usys_of_file g c xb in
  well_scaled u tol -> constraint_connected u -> no_lead_lag u -> encodable u -> (forall d, is_rq (@rq d)) ->
  sys_of tol u rq = Ok sm -> linear_solution (mS sm) (mT sm) omg lam ->
  preprocess sm (ff tol u) omg lam l_max k_max = Ok (t, b) ->
  (0 < l_max)%N ->
  exists rules, stored l_max k_max t rules /\
    forall l k X E, (l <= l_max)%N -> (k <= k_max)%N ->
      surprise_only (r_shks m) E -> solves_file par eqs ceq (r_cvar m) xb (binds l k) X E ->
      exists Y, agree (r_vars m) Y X /\
        let qs (s : nat) := q_of tol u (column (p_vars p) Y (s%:Z - 1)) (column (p_shks p) E s%:Z) in
        let ps (s : nat) := p_of tol u (column (p_vars p) Y s%:Z) (column (p_shks p) E (s%:Z + 1)) in
        obeys_schedule (mS sm) (mT sm) (mV sm) (mW sm) (mh sm) l k qs ps /\
        ((forall s, (l + k <= s)%N -> ps s = omg *m qs s) -> follows rules l k qs ps).
Proof.
move=> Hp He Hce uv us cvi aff nl2 up2 affc cdat obsok c0 cc0 Hg Hc u ws cc nl en rqP sysE ls pre l0.
have [_ _ [_ Ec Es _]] := pE Hp He.
have ece : ceq = p_ceq p by move: Hce; rewrite Ec => -[].
subst ceq; have [_ _ h1 h2] := sys_ofP rqP sysE; have [rules [st _]] := c01 pre h1 h2 ls.
exists rules; split=> // l k X E ll kk su sol.
have [Y [ag _ solY]] := file_complete Hp He uv us aff nl2 up2 affc cdat obsok c0 cc0 Hg Hc cvi sol.
exists Y; split=> // qs ps.
have ob : obeys_schedule (mS sm) (mT sm) (mV sm) (mW sm) (mh sm) l k qs ps.
  apply/(c78 ws cc rqP sysE l k qs ps nl en); eexists; eexists; split; last exact: solY.
  - by move=> s; apply/matrixP=> j i; rewrite mxE [RHS]mxE su // -Es mem_nth.
  - by [].
  - move=> s; rewrite /ps.
    by rewrite (succ_int s).1 (succ_int s).2.
split=> // om; have an : announced (mS sm) (mT sm) (mV sm) (mW sm) (mh sm) omg l k qs ps by split.
by have [] := C02_announced_path_unique pre h1 h2 ls st l0 ll kk an.
Qed.
Print Assumptions C95_file_paths_follow_the_rules.

(** variables x, r, shock e; x + r = x(-2) + e(-1); constraint r = 1.5 x; bound -1 *)
Lemma pf_all (F : rcfType) (par : string -> F) : let tol := P_GenSysEx.tol F in
  let m := pf F in let p := pf_p F in let eqs := pf_eqs F in let ceq := p_ceq p in let c := pf_c F in
  exists g sm omg lam t b,
  [/\ [/\ parse m = Ok p, declared_eqs m = Ok eqs, resolve_eqn (context m) (r_ceq m) = Ok ceq,
          uniq (p_vars p) /\ uniq (r_shks m) & r_cvar m \in r_vars m],
      [/\ each (fun q => affine_eqn q) eqs, no_shock_lead eqs & leads_upto 2 eqs],
      [/\ affine_eqn ceq, dates_in (-1) 0 0 0 (set_eq_zero ceq),
          forall o, List.In o (p_obs p) -> [/\ affine o.2, no_shocks o.2 & dates_in (-1) 0 0 0 o.2] &
          each (fun q => const_of par q = 0) (p_eqs p) /\ const_of par ceq = 0],
      get_matrices p par = Ok g /\ nth EmptyString (p_vars p) c = r_cvar m &
      let u := usys_of_file g c (-1) in
      [/\ well_scaled u tol, constraint_connected u /\ no_lead_lag u, encodable u, (forall d, is_rq (@some_rq F d)) &
      [/\ sys_of tol u (@some_rq F) = Ok sm, linear_solution (mS sm) (mT sm) omg lam &
          preprocess sm (ff tol u) omg lam 4 17 = Ok (t, b)]]].
Proof.
move=> tol m p eqs ceq c; have [uv us [a1 a2 a3] [a4 a5 a6] [a7 a8]] := @pf_ok F par.
have [g [Hg [ws [cc nl] en H]]] := @pf_u F par.
have [sm [omg [lam [[t b] [h1 h2 h3]]]]] := H (@some_rq F) 4%N 17%N (@some_rqP F).
exists g, sm, omg, lam, t, b; split; [split=> //|by split|by split|by split|].
by move=> u; split=> //; exact: some_rqP.
Qed.
Example C95_example (par : string -> realalg) : let F := [rcfType of realalg] in let tol := P_GenSysEx.tol F in
  let m := pf F in let p := pf_p F in let eqs := pf_eqs F in let ceq := p_ceq p in let c := pf_c F in
  exists g sm omg lam t b,
  [/\ [/\ parse m = Ok p, declared_eqs m = Ok eqs, resolve_eqn (context m) (r_ceq m) = Ok ceq,
          uniq (p_vars p) /\ uniq (r_shks m) & r_cvar m \in r_vars m],
      [/\ each (fun q => affine_eqn q) eqs, no_shock_lead eqs & leads_upto 2 eqs],
      [/\ affine_eqn ceq, dates_in (-1) 0 0 0 (set_eq_zero ceq),
          forall o, List.In o (p_obs p) -> [/\ affine o.2, no_shocks o.2 & dates_in (-1) 0 0 0 o.2] &
          each (fun q => const_of par q = 0) (p_eqs p) /\ const_of par ceq = 0],
      get_matrices p par = Ok g /\ nth EmptyString (p_vars p) c = r_cvar m &
      let u := usys_of_file g c (-1) in
      [/\ well_scaled u tol, constraint_connected u /\ no_lead_lag u, encodable u, (forall d, is_rq (@some_rq F d)) &
      [/\ sys_of tol u (@some_rq F) = Ok sm, linear_solution (mS sm) (mT sm) omg lam &
          preprocess sm (ff tol u) omg lam 4 17 = Ok (t, b)]]].
Proof. exact: (@pf_all [rcfType of realalg] par). Qed.
Print Assumptions C95_example.

(** C96.  The observables computed by the filter and the simulator.  In a solved model, whatever the paths [x] of the
    variables and [e] of the shocks and whatever the period, the observation matrices applied to the controls and the
    states without shocks give the value of the expression that the file declares for each observable. *)
Theorem C96_observables_as_declared (F : realFieldType) (tol : F) (m : rawmodel F) (p : parsed F) (eqs : seq (eqn F))
    (ceq : eqn F) (par : string -> F) (g : matrices F) (c : 'I_(size (p_vars p))) (xb : F)
    (rq : forall d, 'M[F]_d -> 'M[F]_d * 'M[F]_d) sm :
  (** the file *)
  parse m = Ok p -> declared_eqs m = Ok eqs -> resolve_eqn (context m) (r_ceq m) = Ok ceq ->
  uniq (p_vars p) -> uniq (r_shks m) ->
  each (fun q => affine_eqn q) eqs -> no_shock_lead eqs ->
  affine_eqn ceq -> dates_in (-1) 0 0 0 (set_eq_zero ceq) ->
  (forall o, List.In o (p_obs p) -> [/\ affine o.2, no_shocks o.2 & dates_in 0 0 0 0 o.2]) ->
  (** the matrices and the compressed system *)
  get_matrices p par = Ok g -> 0 < tol <= 1 ->
  let u := usys_of_file g c xb in
  sys_of tol u rq = Ok sm ->
  let hp := zp tol u (mx_of (size (p_obs p)) (size (p_vars p)) (g_ZZ0 g)) in
  let hq := zq tol u (mx_of (size (p_obs p)) (size (p_vars p)) (g_ZZ0 g)) in
  forall (o0 : string * expr F sym) (i : 'I_(size (p_obs p))) (x e : path F) (t : int) eps eps',
    let states := seq_of (q_of tol u (column (p_vars p) x t) eps) in
    let controls := seq_of (p_of tol u (column (p_vars p) x t) eps') in
    \sum_j hp i j * nth 0 controls j + \sum_j hq i j * nth 0 states j + nth 0 (g_ZZ1 g) i =
    eval (value par x e t) (nth o0 (p_obs p) i).2.
Proof.
move=> Hp He Hce uv us aff nl affc cdat obs0 Hg /andP [t0 t1] u so hp hq o0 i x e t eps eps' st co.
have [_ _ [_ Ec _ _]] := pE Hp He.
have ece : ceq = p_ceq p by move: Hce; rewrite Ec => -[].
subst ceq; exact: (obs_state Hp He uv us aff nl affc cdat obs0 Hg o0 i x e t eps' eps t0 t1 so).
Qed.
Print Assumptions C96_observables_as_declared.

(** The same by name, for the variables that are reported ([svv] the states, [cvv] the controls): it needs no solution,
    but every variable used in the observable has to be among the reported ones. *)
Theorem C96_observables_by_name (F : realFieldType) (tol : F) (m : rawmodel F) (p : parsed F) (eqs : seq (eqn F))
    (ceq : eqn F) (par : string -> F) (g : matrices F) (c : 'I_(size (p_vars p))) (xb : F) svv cvv vv :
  parse m = Ok p -> declared_eqs m = Ok eqs -> resolve_eqn (context m) (r_ceq m) = Ok ceq ->
  uniq (p_vars p) -> uniq (r_shks m) ->
  each (fun q => affine_eqn q) eqs -> no_shock_lead eqs ->
  affine_eqn ceq -> dates_in (-1) 0 0 0 (set_eq_zero ceq) ->
  (forall o, List.In o (p_obs p) -> [/\ affine o.2, no_shocks o.2 & dates_in 0 0 0 0 o.2]) ->
  get_matrices p par = Ok g ->
  let u := usys_of_file g c xb in
  new_vv tol u (in_tuple (p_vars p)) = Ok (svv, cvv, vv) -> uniq (vv0 tol u (in_tuple (p_vars p))) ->
  let hp := zp tol u (mx_of (size (p_obs p)) (size (p_vars p)) (g_ZZ0 g)) in
  let hq := zq tol u (mx_of (size (p_obs p)) (size (p_vars p)) (g_ZZ0 g)) in
  forall (o0 : string * expr F sym) (i : 'I_(size (p_obs p))) (x e : path F) (t : int),
    (forall a, a \in atoms (nth o0 (p_obs p) i).2 -> knd a = KVar -> nam a \in vv) ->
    \sum_j hp i j * x (nth EmptyString cvv j) t + \sum_j hq i j * x (nth EmptyString svv j) t + nth 0 (g_ZZ1 g) i =
    eval (value par x e t) (nth o0 (p_obs p) i).2.
Proof.
move=> Hp He Hce uv us aff nl affc cdat obs0 Hg u Hvv uvv hp hq o0 i x e t H.
have [_ _ [_ Ec _ _]] := pE Hp He.
have ece : ceq = p_ceq p by move: Hce; rewrite Ec => -[].
subst ceq; exact: (obs_reported Hp He uv us aff nl affc cdat obs0 Hg Hvv uvv x e t H).
Qed.
Print Assumptions C96_observables_by_name.

(** the file above: its observable o is x; the hypotheses of both theorems hold *)
Lemma pf_obs (F : rcfType) (par : string -> F) : let tol := P_GenSysEx.tol F in
  let m := pf F in let p := pf_p F in let eqs := pf_eqs F in let ceq := p_ceq p in let c := pf_c F in
  exists g sm svv cvv vv,
  [/\ [/\ parse m = Ok p, declared_eqs m = Ok eqs, resolve_eqn (context m) (r_ceq m) = Ok ceq &
          uniq (p_vars p) /\ uniq (r_shks m)],
      [/\ each (fun q => affine_eqn q) eqs, no_shock_lead eqs, affine_eqn ceq, dates_in (-1) 0 0 0 (set_eq_zero ceq) &
          forall o, List.In o (p_obs p) -> [/\ affine o.2, no_shocks o.2 & dates_in 0 0 0 0 o.2]],
      get_matrices p par = Ok g /\ 0 < tol <= 1 &
      let u := usys_of_file g c (-1) in
      [/\ sys_of tol u (@some_rq F) = Ok sm, new_vv tol u (in_tuple (p_vars p)) = Ok (svv, cvv, vv),
          uniq (vv0 tol u (in_tuple (p_vars p))) & "x"%string \in vv]].
Proof.
move=> tol m p eqs ceq c; have [uv us [a1 a2 a3] [a4 a5 a6] [a7 a8]] := @pf_ok F par.
have [g [Hg [ws [cc nl] en H]]] := @pf_u F par.
have [g' [Hg' [hA hB _ _] _ _ _]] := @pf_mat F par.
have eg : g' = g by move: Hg'; rewrite Hg => -[].
subst g'; have [sm [omg [lam [[t b] [h1 h2 h3]]]]] := H (@some_rq F) 4%N 17%N (@some_rqP F).
pose u := usys_of_file g c (-1).
case E: (new_vv tol u (in_tuple (p_vars p))) => [[[svv cvv] vv]|]; last by move: E.
have un : uniq (vv0 tol u (in_tuple (p_vars p))).
  rewrite /vv0 (_ : enum _ = [::]) ?cats0 //; apply/eqP; rewrite -size_eq0 -cardE; apply/eqP/eq_card0 => j.
  apply/negbTE/negP;rewrite -topredE /= /inall => /andP [/negP nf _]; apply: nf; apply/forallP => i.
  by rewrite (hA : AA0 u = 0) mxE normr0; have /andP [] := P_GenSysEx.tol_ok F.
exists g, sm, svv, cvv, vv; split; [by split| |by rewrite P_GenSysEx.tol_ok|].
  by split=> // o [<-|[]]; split=> // a; rewrite !inE => /eqP ->.
split=> //; have [_ _ _ /(_ ord0)] := C14_variables_partitioned (P_GenSysEx.tol_ok F) un E.
case: (boolP (_ \in vv)) => // _ [/(_ isT) [_ /(_ ord0)]].
rewrite (hB : BB0 u = _) mxE /= normr1 ltNge; by have /andP [_ ->] := P_GenSysEx.tol_ok F.
Qed.
Example C96_example (par : string -> realalg) : let F := [rcfType of realalg] in let tol := P_GenSysEx.tol F in
  let m := pf F in let p := pf_p F in let eqs := pf_eqs F in let ceq := p_ceq p in let c := pf_c F in
  exists g sm svv cvv vv,
  [/\ [/\ parse m = Ok p, declared_eqs m = Ok eqs, resolve_eqn (context m) (r_ceq m) = Ok ceq &
          uniq (p_vars p) /\ uniq (r_shks m)],
      [/\ each (fun q => affine_eqn q) eqs, no_shock_lead eqs, affine_eqn ceq, dates_in (-1) 0 0 0 (set_eq_zero ceq) &
          forall o, List.In o (p_obs p) -> [/\ affine o.2, no_shocks o.2 & dates_in 0 0 0 0 o.2]],
      get_matrices p par = Ok g /\ 0 < tol <= 1 &
      let u := usys_of_file g c (-1) in
      [/\ sys_of tol u (@some_rq F) = Ok sm, new_vv tol u (in_tuple (p_vars p)) = Ok (svv, cvv, vv),
          uniq (vv0 tol u (in_tuple (p_vars p))) & "x"%string \in vv]].
Proof. exact: (@pf_obs [rcfType of realalg] par). Qed.
Print Assumptions C96_example.
