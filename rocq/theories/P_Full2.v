Set Warnings "-all".
From Coq Require Import String.
From mathcomp Require Import all_ssreflect all_algebra.
From Verif Require Import PyBase PyStr M_Parser S_Parser P_Parser5 M_Engine S_Engine M_GenSys S_GenSys S_GenSys2 P_Engine P_Engine3 P_Engine4
  P_GenSys P_GenSys2 P_GenSys3 P_GenSys4 P_GenSys5 P_GenSys6 M_Pipe S_Pipe P_Pipe P_Pipe2 P_Pipe3 M_Tools S_Tools P_Tools P_Tools2
  M_Full S_Full P_Full T_Engine T_GenSys.
Set Implicit Arguments. Unset Strict Implicit. Unset Printing Implicit Defensive.
Import GRing.Theory Num.Theory Order.TTheory.
Local Open Scope ring_scope.

Lemma orig_mem (F : realFieldType) (tol : F) (m n e : nat) (u : usys F m n e) (names : n.-tuple string) a :
  a \in vv0 tol u names -> original names a \in (names : seq string).
Proof.
rewrite /vv0 mem_cat /original; case: ifP => // _ /= /mapP [j _ ->].
rewrite (index_map (f := fun v => append v "_lag")); last by move=> x y /append_injr.
by rewrite nth_index mem_tnth.
Qed.

Lemma vv_sub (F : realFieldType) (tol : F) (m n e : nat) (u : usys F m n e) (names : n.-tuple string) svv cvv vv a :
  new_vv tol u names = Ok (svv, cvv, vv) -> a \in vv -> a \in vv0 tol u names.
Proof.
rewrite /new_vv /masked; case: eqP => //= _ [_ _ <-].
rewrite mem_cat => /orP [] /mapP [j _ ->]; apply: mem_nth; rewrite /vv0 size_cat size_map size_tuple -cardE; exact: ltn_ord.
Qed.

Lemma nval_column (F : realFieldType) (names : seq string) (X : path F) t a : a \in names ->
  nval (in_tuple names) (column names X t) a = X a t.
Proof.
move=> ai; have lt : (index a names < size names)%N by rewrite index_mem.
by rewrite /nval -[index a _]/(nat_of_ord (Ordinal lt)) nth_seq_of mxE nth_index.
Qed.

Section Period.
Variable F : realFieldType.
Variable tol : F.
Variable rq : forall d, 'M[F]_d -> 'M[F]_d * 'M[F]_d.
Variable klein : forall a b, 'M[F]_(a + b) -> 'M[F]_(a + b) -> res ('M[F]_(b, a) * 'M[F]_a).
Hypothesis rqP : forall d, is_rq (@rq d).
Hypothesis klP : forall a b (S T : 'M[F]_(a + b)) omg lam, klein S T = Ok (omg, lam) -> linear_solution S T omg lam.
Variables (m : rawmodel F) (p : parsed F) (eqs : seq (eqn F)) (par : string -> F) (g : matrices F).
Variables (c : 'I_(size (p_vars p))) (xb : F) (lm km : nat).
Hypothesis Hp : parse m = Ok p.
Hypothesis He : declared_eqs m = Ok eqs.
Hypothesis uv : uniq (p_vars p).
Hypothesis us : uniq (r_shks m).
Hypothesis Hg : get_matrices p par = Ok g.
Hypothesis Hc : nth EmptyString (p_vars p) c = r_cvar m.
Let u := usys_of_file g c xb.
Let names := in_tuple (p_vars p).
Hypothesis un : uniq (vv0 tol u names).
Variable mdl : tmodel F.
Hypothesis G : solve_file tol rq klein m par xb lm km = Ok mdl.

Lemma solve_fileE : gen_sys tol rq klein u names (p_shks p)
  (mx_of (size (p_obs p)) (size (p_vars p)) (g_ZZ0 g)) (\col_i nth 0 (g_ZZ1 g) i) lm km = Ok mdl.
Proof.
move: G; rewrite /solve_file Hp /=; case: ifP => // _; rewrite Hg /= -Hc index_uniq //.
by case: insubP => [c' _ /= ec|]; rewrite ?ltn_ord //; have -> : c' = c by apply: val_inj.
Qed.

Hypothesis aff : each (fun q => affine_eqn q) eqs.
Hypothesis nl2 : no_shock_lead eqs.
Hypothesis up2 : leads_upto 2 eqs.
Hypothesis affc : affine_eqn (p_ceq p).
Hypothesis cdat : dates_in (-1) 0 0 0 (set_eq_zero (p_ceq p)).
Hypothesis obsok : forall o, List.In o (p_obs p) -> [/\ affine o.2, no_shocks o.2 & dates_in (-1) 0 0 0 o.2].
Hypothesis c0 : each (fun q => const_of par q = 0) (p_eqs p).
Hypothesis cc0 : const_of par (p_ceq p) = 0.
Hypothesis (ws : well_scaled u tol) (cc : constraint_connected u) (nl : no_lead_lag u) (en : encodable u).
Hypothesis ld : shocks_loaded tol u.
Hypothesis hl : (0 < lm < 999)%N.
Hypothesis hk : (0 < km)%N.
Hypothesis st0 : (size (shk mdl) < dq mdl)%N.

Lemma period st sh sk lin x (l k : nat) fl :
  (nq mdl <= size st)%N -> size sh = size (r_shks m) -> t_func mdl st (Some sh) sk lin = Ok (x, (l%:Z, k%:Z), fl) ->
  exists X E : path F,
  let rep := report (p_vars p) (vvs mdl) X in
  [/\ starts_from m p mdl st sh X E,
      solves_file par eqs (p_ceq p) (r_cvar m) xb (binds l k) X E, rep 0 = x &
      forall s : nat, t_func mdl (rep s%:Z) None (KTuple (remaining l k s.+1).1 (remaining l k s.+1).2) false =
                Ok (rep (s%:Z + 1), lkz (remaining l k s.+1), 0%N)].
Proof.
move=> ge sz Ht; have [_ _ [_ _ Es _]] := pE Hp He.
have t0 : 0 < tol by case: ws => /andP [].
have es : size (p_shks p) = size (p_shks p) by [].
have [svv [cvv [sm [omg [lam [t [b [E1 _ _ _ E5]]]]]]]] := gen_sysE un t0 ld solve_fileE.
have shkE : shk mdl = p_shks p by rewrite E5.
have vvE : vvs mdl = cvv ++ svv by rewrite E5.
have st1 : (size (p_shks p) < dq mdl)%N by rewrite -shkE.
have sz' : size sh = size (p_shks p) by rewrite Es.
have [xs [eps [[nf e0] e1 e2 sol e4]]] := gen_sys_path rqP klP un t0 ld es hl hk solve_fileE st1 ws cc nl en ge sz' Ht.
have us' : uniq (p_shks p) by rewrite Es.
pose X := hist (path_of (zpath F) 1 xs); pose E := hist_e (path_of (zpath F) 1 xs) (path_of (zpath F) 0 eps).
have col (s : nat) : column (p_vars p) X (s%:Z - 1) = xs s /\ column (p_shks p) E s%:Z = eps s.
  exact: (file_columns Hp He uv us xs eps _ _ s).
have repE (s : nat) : [seq nval names (xs s) (original names a) | a <- vvs mdl] = report (p_vars p) (vvs mdl) X (s%:Z - 1).
  apply/eq_in_map => a ai; rewrite -(col s).1 nval_column //; apply: (orig_mem (tol := tol) (u := u)).
  by apply: (vv_sub E1); rewrite -vvE.
have r0 : report (p_vars p) (vvs mdl) X (-1) = [seq nval names (xs 0%N) (original names a) | a <- vvs mdl].
  by rewrite repE sub0r.
have r1 (s : nat) : report (p_vars p) (vvs mdl) X s%:Z = [seq nval names (xs s.+1) (original names a) | a <- vvs mdl].
  by rewrite repE -addn1 PoszD addrK.
exists X, E; split.
- split.
  + rewrite -Es; exact: file_surprise.
  + rewrite -Es -e0 -(col 0%N).2; apply: (@eq_from_nth _ 0); rewrite size_map ?size_seq_of // => i lt.
    by rewrite (nth_map EmptyString) // -[in RHS](_ : nat_of_ord (Ordinal lt) = i) // nth_seq_of mxE.
  + by rewrite r0.
  + move=> v i; rewrite /X /hist ler_addl oppr_ge0 /=.
    by rewrite add0n subn1.
  + by move=> s t' t'0; rewrite /E /hist_e leNgt t'0.
- exact: (file_solved Hp He uv us aff nl2 up2 affc cdat obsok c0 cc0 Hg Hc sol _ _).
- by rewrite r1.
- by move=> s; have := e4 s; rewrite -r1 -(r1 s.+1) -addn1 PoszD.
Qed.
End Period.

Lemma conform_sum (F : realFieldType) (o a b : nat) (e : a = b) (A : 'M[F]_(o, a)) (B : 'M[F]_(o, b)) (v : seq F) i :
  \sum_j conform_mx B A i j * nth 0 v j = \sum_j A i j * nth 0 v j.
Proof. by case: _ / e B => B; rewrite conform_mx_id. Qed.

Section Obs.
Variable F : realFieldType.
Variable tol : F.
Variable rq : forall d, 'M[F]_d -> 'M[F]_d * 'M[F]_d.
Variable klein : forall a b, 'M[F]_(a + b) -> 'M[F]_(a + b) -> res ('M[F]_(b, a) * 'M[F]_a).
Variables (m : rawmodel F) (p : parsed F) (eqs : seq (eqn F)) (par : string -> F) (g : matrices F).
Variables (c : 'I_(size (p_vars p))) (xb : F) (lm km : nat).
Hypothesis Hp : parse m = Ok p.
Hypothesis He : declared_eqs m = Ok eqs.
Hypothesis uv : uniq (p_vars p).
Hypothesis us : uniq (r_shks m).
Hypothesis Hg : get_matrices p par = Ok g.
Hypothesis Hc : nth EmptyString (p_vars p) c = r_cvar m.
Let u := usys_of_file g c xb.
Let names := in_tuple (p_vars p).
Hypothesis un : uniq (vv0 tol u names).
Variable mdl : tmodel F.
Hypothesis G : solve_file tol rq klein m par xb lm km = Ok mdl.
Hypothesis aff : each (fun q => affine_eqn q) eqs.
Hypothesis nl2 : no_shock_lead eqs.
Hypothesis affc : affine_eqn (p_ceq p).
Hypothesis cdat : dates_in (-1) 0 0 0 (set_eq_zero (p_ceq p)).
Hypothesis obs0 : forall o, List.In o (p_obs p) -> [/\ affine o.2, no_shocks o.2 & dates_in 0 0 0 0 o.2].
Hypothesis t01 : 0 < tol <= 1.
Hypothesis ld : shocks_loaded tol u.

Lemma report_obs (X E : path F) t :
  obs_row mdl (report (p_vars p) (vvs mdl) X t) = Ok [seq eval (value par X E t) o.2 | o <- p_obs p].
Proof.
have /andP [t0 t1] := t01.
have [svv [cvv [sm [omg [lam [tt [b [E1 E2 _ _ E5]]]]]]]] := gen_sysE un t0 ld (solve_fileE Hp uv Hg Hc G).
have [_ Mq Mp dpE dqE] := layout_sizes un t0 ld E1.
pose col := column (p_vars p) X t.
have val a : a \in cvv ++ svv -> X (original (p_vars p) a) t = nval names col (original names a).
  move=> ai; rewrite nval_column //; apply: (orig_mem (tol := tol) (u := u)); exact: (vv_sub E1).
have mc : [seq X (original (p_vars p) a) t | a <- cvv] = seq_of (p_of tol u col 0).
  by rewrite (layout_p un t0 ld _ _ Mp); apply/eq_in_map => a ai; apply: val; rewrite mem_cat ai.
pose sv := [seq X (original (p_vars p) a) t | a <- svv].
have mq : seq_of (q_of tol u col 0) = sv ++ seq_of (0 : 'cV[F]_(size (p_shks p))).
  by rewrite (layout_q un t0 ld _ _ Mq); congr (_ ++ _); apply/esym/eq_in_map => a ai; apply: val; rewrite mem_cat ai orbT.
rewrite E5 /report /= map_cat mc -/sv.
set M := TM _ _ _ _ _ _ _ _ _ _.
have szc : #|dropeps (inp (tol:=tol) (u:=u))| = dimp tol u.
  rewrite dpE; move: Mp; rewrite /masked; case: eqP => // _ [<-]; by rewrite size_map -cardE.
have szs : size sv = #|dropeps (inq (tol:=tol) (u:=u))|.
  rewrite size_map; move: Mq; rewrite /masked; case: eqP => // _ [<-]; by rewrite size_map -cardE.
rewrite /obs_row /= take_size_cat ?size_seq_of // drop_size_cat ?size_seq_of // matvecE /=.
rewrite -[sv](seq_of_col_of szs) matvecE /= vaddE /= vaddE; congr Ok.
apply: (@eq_from_nth _ 0); rewrite size_seq_of ?size_map // => i lt.
have [o0 _] : exists o0 : string * expr F sym, True by case: (p_obs p) lt => // o0; exists o0.
rewrite -[in LHS](_ : nat_of_ord (Ordinal lt) = i) // nth_seq_of (nth_map o0) // !mxE /=.
rewrite -[in RHS](_ : nat_of_ord (Ordinal lt) = i) //.
rewrite -(@obs_state _ m p eqs par Hp He uv us aff nl2 affc cdat obs0 g Hg tol c xb rq sm o0 (Ordinal lt) X E t 0 0 t0 t1 E2).
congr (_ + _ + _).
  rewrite -(conform_sum szc _ 0); apply: eq_bigr => j _; congr (_ * _); by rewrite nth_seq_of.
apply: eq_bigr => j _; congr (_ * _); rewrite mxE mq nth_cat szs; by rewrite ltn_ord.
Qed.
End Obs.
