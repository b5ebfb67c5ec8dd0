Set Warnings "-all".
From Coq Require Import String.
From mathcomp Require Import all_ssreflect all_algebra.
From Verif Require Import PyBase PyStr M_FindLk M_Parser S_Parser P_Parser P_Parser2 P_Parser5 M_Engine S_Engine M_GenSys S_GenSys S_GenSys2 P_Engine P_Engine3 P_Engine4
  P_GenSys P_GenSys2 P_GenSys3 P_GenSys4 P_GenSys5 P_GenSys6 M_Pipe S_Pipe P_Pipe P_Pipe2 P_Pipe3 M_Tools S_Tools P_Tools P_Tools2 P_Tools3
  M_Full S_Full P_Full P_Full2 P_Full4 S_Mean P_Mean P_Mean2 T_Engine T_GenSys T_Full.
Set Implicit Arguments. Unset Strict Implicit. Unset Printing Implicit Defensive.
Import GRing.Theory Num.Theory Order.TTheory.
Local Open Scope ring_scope.

(** announced paths of a model whose linear solution is the stable one are bounded *)
Section Stable.
Variable F : realFieldType.
Variable mdl : tmodel F.
Variables (sm : sysmats F (dq mdl) (dp mdl)) (f : cnst F (dq mdl) (dp mdl)) (omg : 'M[F]_(dp mdl, dq mdl)) (lam : 'M[F]_(dq mdl)).
Hypothesis sd : @solved F mdl sm f omg lam.
Hypothesis ne : no_expected_shocks sm (neps mdl).
Hypothesis sb : stable_solution (mS sm) (mT sm) omg lam.
Notation ann := (announced (mS sm) (mT sm) (mV sm) (mW sm) (mh sm) omg).

Lemma ann_bounded l k q p : ann l k q p -> bounded_cols q /\ bounded_cols p.
Proof.
case=> ob tl; have [ls bl _] := sb.
pose Q s := q (s + (l + k))%N; pose Q' := fix Q' s := if s is s'.+1 then lam *m Q' s' else q (l + k)%N.
have a1 : ann 0%N 0%N Q (fun s => omg *m Q s).
  split=> // s; rewrite /binds andbF; have := ob (s + (l + k))%N; rewrite /binds ltnNge leq_addl andbF.
  by rewrite !tl ?leq_addl // -?addSn ?leq_addl.
have a2 : ann 0%N 0%N Q' (fun s => omg *m Q' s) by split=> // s; exact: ls.
have l0 : (0 < lmx mdl)%N by have /andP [] := sd_l sd.
have E := c02' (sd_pre sd) (sd_T sd) (sd_W sd) (sd_lin sd) l0 (leq0n _) (leq0n _) a1 a2 (erefl _ : Q 0%N = Q' 0%N).
have bQ : bounded_cols q.
  move=> i; apply: (@bnd_unshift _ (l + k)); apply: bnd_ext (bl Q' _ i) => // s.
  by have [] := E s; rewrite /Q => ->.
split=> // i; apply: (@bnd_unshift _ (l + k)); apply: bnd_ext (bnd_shift (l + k) (bnd_mul omg bQ i)) => s /=.
by rewrite tl // leq_addl.
Qed.

Lemma row_bounded l k q p i : ann l k q p -> bounded (fun s => nth 0 (path_row (nq mdl) q p s) i).
Proof.
move/ann_bounded=> [bq bp]; rewrite /path_row.
have [lt|ge] := ltnP i (dp mdl).
  by apply: bnd_ext (bp (Ordinal lt)) => s; rewrite nth_cat size_seq_of lt -[X in nth _ _ X]/(nat_of_ord (Ordinal lt)) nth_seq_of.
have [lt|ge'] := ltnP (i - dp mdl)%N (nq mdl); last first.
  apply: bnd_ext (bnd0 F) => s; rewrite nth_default // size_cat size_seq_of size_takel ?size_seq_of ?leq_subr //.
  by move: ge'; rewrite leq_subRL.
have lt' : (i - dp mdl < dq mdl)%N by apply: leq_trans lt _; rewrite leq_subr.
apply: bnd_ext (bnd_shift 1 (bq (Ordinal lt'))) => s.
by rewrite addn1 nth_cat size_seq_of ltnNge ge /= nth_take // -[X in nth _ _ X]/(nat_of_ord (Ordinal lt')) nth_seq_of.
Qed.

(** the rows reported when the expectations of one period are carried on are those of the announced path *)
Lemma carried_rows l k q p (rep : nat -> seq F) : (l <= lmx mdl)%N -> (k <= kmx mdl)%N -> ann l k q p ->
  rep 0%N = path_row (nq mdl) q p 0%N ->
  (forall s, exists lk fl, t_func mdl (rep s) None (KTuple (remaining l k s.+1).1 (remaining l k s.+1).2) false = Ok (rep s.+1, lk, fl)) ->
  forall s, rep s = path_row (nq mdl) q p s.
Proof.
move=> ll kk an r0 H; elim=> // s IH; have [lk [fl]] := H s; rewrite IH.
have e := last_path_row q p s; have inpE := ann_inp an ne e.
have nle : (nq mdl <= size (path_row (nq mdl) q p s))%N by rewrite (size_path_row sd) (sd_vv sd) leq_addl.
have E : t_func mdl (path_row (nq mdl) q p s) None (KTuple (remaining l k s.+1).1 (remaining l k s.+1).2) false =
    Ok (path_row (nq mdl) q p s.+1, lkz (remaining l k s.+1), 0%N) := ann_t_func sd ll kk an nle (size_nseq _ _) inpE.
by rewrite E => -[->].
Qed.
End Stable.

Section File.
Variables (F : realFieldType) (tol : F) (rq : forall d, 'M[F]_d -> 'M[F]_d * 'M[F]_d).
Variable klein : forall a b, 'M[F]_(a + b) -> 'M[F]_(a + b) -> res ('M[F]_(b, a) * 'M[F]_a).
Hypothesis rqP : rq_ok rq.
Hypothesis klP : klein_stable klein.
Variables (m : rawmodel F) (p : parsed F) (eqs : seq (eqn F)) (ceq : eqn F) (par : string -> F) (g : matrices F) (c : 'I_(size (p_vars p))).
Variables (xb : F) (lm km : nat).
Hypothesis R : regular_file tol m eqs ceq par g c xb.
Hypothesis Hv : r_cvar m \in r_vars m.
Variable mdl : tmodel F.
Hypothesis G : solve_file tol rq klein m par xb lm km = Ok mdl.
Hypothesis hl : (0 < lm < 999)%N.
Hypothesis hk : (0 < km)%N.
Hypothesis st0 : (size (shk mdl) < dq mdl)%N.

Lemma stable_ok : klein_ok klein.
Proof. by move=> a b S T omg lam /klP []. Qed.

Lemma file_core : exists sm f omg lam, [/\ @solved F mdl sm f omg lam /\ no_expected_shocks sm (neps mdl),
  stable_solution (mS sm) (mT sm) omg lam,
  lmx mdl = lm /\ kmx mdl = km /\ M_Tools.xb mdl = xb, {subset p_vars p <= vvs mdl} &
  forall st sh l k X E, (nq mdl <= size st)%N -> starts_from m p mdl st sh X E ->
    solves_file par eqs ceq (r_cvar m) xb (binds l k) X E -> bounded_path (r_vars m) X ->
    exists Y qs ps, [/\ announced (mS sm) (mT sm) (mV sm) (mW sm) (mh sm) omg l k qs ps, qs 0%N = inp_vec mdl st sh,
       agree (r_vars m) Y X /\ aux_values E (r_vars m) (r_shks m) (p_eqs p) (p_vars p) Y,
       forall s : nat, path_row (nq mdl) qs ps s = report (p_vars p) (vvs mdl) Y s%:Z &
       forall s : nat, notional_value par ceq (r_cvar m) X E s%:Z (notional (fq1 f) (fp1 f) (fq0 f) qs ps s)]].
Proof.
case: R => Hp He Hce uv us Hc aff nl2 up2 affc cdat c0 cc0 obs0 Hg ws cc nl en ld un.
have [_ _ [_ Ec _ _]] := pE Hp He.
have ece : ceq = p_ceq p by move: Hce; rewrite Ec => -[].
subst ceq.
have obs1 o : List.In o (p_obs p) -> [/\ affine o.2, no_shocks o.2 & dates_in (-1) 0 0 0 o.2].
  case/obs0 => h1 h2 h3; split=> // a /h3; case: (knd a) => // /andP [a1 a2]; apply/andP; split=> //.
  by apply: le_trans a1.
exact: (core rqP klP Hp He uv us Hg Hc Hv un aff nl2 up2 affc cdat obs1 c0 cc0 ws cc nl en ld hl hk G st0).
Qed.

Lemma file_orig a : a \in vvs mdl -> original (p_vars p) a \in p_vars p.
Proof.
case: R => Hp He Hce uv us Hc aff nl2 up2 affc cdat c0 cc0 obs0 Hg ws cc nl en ld un.
have t0 : 0 < tol by case: ws => /andP [].
have Ge := solve_fileE Hp uv Hg Hc G.
have [svv [cvv [sm [omg [lam [t [b [E1 _ _ _ E5]]]]]]]] := gen_sysE un t0 ld Ge.
rewrite E5 /= => ai; apply: (orig_mem (tol := tol) (u := usys_of_file g c xb) (names := in_tuple (p_vars p))); exact: (vv_sub E1).
Qed.

Lemma file_notional_uniq (X E : path F) t z z' : notional_value par ceq (r_cvar m) X E t z ->
  notional_value par ceq (r_cvar m) X E t z' -> z = z'.
Proof.
case: R => Hp He Hce uv us Hc aff nl2 up2 affc cdat c0 cc0 obs0 Hg ws cc nl en ld un.
have [_ _ [_ Ec _ _]] := pE Hp He.
have ece : ceq = p_ceq p by move: Hce; rewrite Ec => -[].
subst ceq.
have obs1 o : List.In o (p_obs p) -> [/\ affine o.2, no_shocks o.2 & dates_in (-1) 0 0 0 o.2].
  case/obs0 => h1 h2 h3; split=> // a /h3; case: (knd a) => // /andP [a1 a2]; apply/andP; split=> //.
  by apply: le_trans a1.
exact: (notional_uniq Hp He uv us Hg Hc aff nl2 affc cdat obs1 cc0 cc).
Qed.

Lemma period_bounded st sh sk lin x (l k : nat) fl X E :
  (nq mdl <= size st)%N -> size sh = size (r_shks m) -> t_func mdl st (Some sh) sk lin = Ok (x, (l%:Z, k%:Z), fl) ->
  period_solves m p eqs ceq par xb mdl st sh x l k X E -> bounded_path (p_vars p) X.
Proof.
move=> ge sz Ht [_ _ r0 rs _] v vi.
have [sm [f [omg [lam [[sd ne] sb [el [ek _]] sub _]]]]] := file_core.
have [ll kk [cl Ec ex]] := t_func_row (dims sd) Ht.
have [rules [sto H]] := c01 (sd_pre sd) (sd_T sd) (sd_W sd) (sd_lin sd); have [Hex Han] := H l k ll kk.
have [q [p' [q0 fo]]] := Hex (inp_vec mdl st sh); have an := Han _ _ fo.
have E0 : x = path_row (nq mdl) q p' 0%N.
  rewrite ex -q0; have [c' Ec' <-] := ann_row sd ll kk an 0%N.
  by move: Ec'; rewrite {1 2}/remaining leq0n subn0 => Ec'; have := etrans (esym Ec) Ec' => -[->].
have rows := @carried_rows _ _ _ _ _ _ sd ne _ _ _ _ (fun s => report (p_vars p) (vvs mdl) X s%:Z) ll kk an (etrans r0 E0).
apply: bnd_ext (row_bounded sd sb (index v (vvs mdl)) an) => s.
rewrite -rows => [|s']; last by do 2 eexists; rewrite rs -addn1 PoszD.
rewrite /report (nth_map EmptyString) ?index_mem ?sub // nth_index ?sub //.
by rewrite /original vi.
Qed.

(** a solution can be continued from any past that has the same states *)
Lemma restart (a b e : nat) (u : usys F a b e) bind (xs : nat -> 'cV[F]_b) eps x0 :
  well_scaled u tol -> constraint_connected u -> no_lead_lag u -> encodable u -> no_future_shocks eps ->
  q_of tol u x0 (eps 0%N) = q_of tol u (xs 0%N) (eps 0%N) -> solves_user u bind xs eps ->
  solves_user u bind (fun s => if s is s'.+1 then xs s else x0) eps.
Proof.
move=> ws cc nl en nf e0 /(c12 ws cc _ _ nl en nf) H; apply/(c12 ws cc _ _ nl en nf).
by apply: compressed_ext H => // -[|s].
Qed.

Lemma file_past st sh sk lin x (l k : nat) fl (P E : path F) :
  (nq mdl <= size st)%N -> t_func mdl st (Some sh) sk lin = Ok (x, (l%:Z, k%:Z), fl) ->
  starts_from m p mdl st sh P E ->
  exists X, [/\ forall v t, t < 0 -> X v t = P v t, solves_file par eqs ceq (r_cvar m) xb (binds l k) X E,
    report (p_vars p) (vvs mdl) X 0 = x &
    forall s : nat, t_func mdl (report (p_vars p) (vvs mdl) X s%:Z) None (KTuple (remaining l k s.+1).1 (remaining l k s.+1).2) false =
                Ok (report (p_vars p) (vvs mdl) X (s%:Z + 1), lkz (remaining l k s.+1), 0%N)].
Proof.
move=> ge Ht [su esh est hX hE].
case: R => Hp He Hce uv us Hc aff nl2 up2 affc cdat c0 cc0 obs0 Hg ws cc nl en ld un.
have [_ _ [_ Ec Es _]] := pE Hp He.
have ece : ceq = p_ceq p by move: Hce; rewrite Ec => -[].
subst ceq.
have obs1 o : List.In o (p_obs p) -> [/\ affine o.2, no_shocks o.2 & dates_in (-1) 0 0 0 o.2].
  case/obs0 => h1 h2 h3; split=> // a /h3; case: (knd a) => // /andP [a1 a2]; apply/andP; split=> //.
  by apply: le_trans a1.
have t0 : 0 < tol by case: ws => /andP [].
pose u := usys_of_file g c xb; pose names := in_tuple (p_vars p).
have Ge := solve_fileE Hp uv Hg Hc G.
have [svv [cvv [sm [omg [lam [t [b [E1 _ _ _ E5]]]]]]]] := gen_sysE un t0 ld Ge.
have [_ Mq Mp dpE dqE] := layout_sizes un t0 ld E1.
have shkE : shk mdl = p_shks p by rewrite E5.
have vvE : vvs mdl = cvv ++ svv by rewrite E5.
have st1 : (size (p_shks p) < dq mdl)%N by rewrite -shkE.
have sz' : size sh = size (p_shks p) by rewrite Es -esh size_map.
have [xs [eps [[nf e0] e1 e2 sol e4]]] := gen_sys_path rqP stable_ok un t0 ld (erefl _) hl hk Ge st1 ws cc nl en ge sz' Ht.
pose x0 := column (p_vars p) P (-1).
have lay (Z : path F) t' a : a \in cvv ++ svv -> nval names (column (p_vars p) Z t') (original names a) = Z (original (p_vars p) a) t'.
  move=> ai; rewrite nval_column //; apply: (orig_mem (tol := tol) (u := u) (names := names)); exact: (vv_sub E1).
have q0 : q_of tol u x0 (eps 0%N) = q_of tol u (xs 0%N) (eps 0%N).
  rewrite -[LHS]col_of_seq_of -[RHS]col_of_seq_of; congr (col_of _ _).
  rewrite !(layout_q un t0 ld _ _ Mq); congr (_ ++ _).
  move: e1; rewrite -est E5 /= /report !map_cat !drop_size_cat ?size_map -?dpE // => ->.
  by apply/eq_in_map => a ai; apply: lay; rewrite mem_cat ai orbT.
pose xs' s := if s is s'.+1 then xs s else x0.
have sol' : solves_user u (binds l k) xs' eps by apply: restart sol.
have us' : uniq (p_shks p) by rewrite Es.
pose y := path_of P 1 xs'; pose ee := path_of E 0 eps.
pose X := hist y; pose E' := hist_e y ee.
have yP v : y v (-1) = P v (-1).
  rewrite /y /path_of; case: insubP => // j lt ej; rewrite addNr mxE ej nth_index //.
  by rewrite -index_mem; apply: lt.
have XP v t' : t' < 0 -> X v t' = P v t'.
  rewrite /X /hist; case: (leP (-1) t') => [h1 h2|h _].
    have -> : t' = -1 by apply/eqP; rewrite eq_le h1 andbT; case: t' h2 {h1} => // -[|n].
    exact: yP.
  rewrite yP; case: t' h => // -[|n] // _.
  have -> : absz (-1 - Negz n.+1 : int)%R = n.+1 by rewrite NegzE opprK addrC -[n.+2]addn1 PoszD addrK.
  by rewrite -hX; congr (P _ _); rewrite NegzE -opprD -PoszD add1n.
have EE s t' : E' s t' = E s t'.
  rewrite /E' /hist_e; case: (leP 0 t') => [|lt]; last by rewrite -/X XP // hE.
  case: t' => // n _; rewrite /ee /path_of; case: insubP => // j lt ej; rewrite addr0 absz_nat.
  have sj : s = nth EmptyString (p_shks p) j by rewrite ej nth_index // -index_mem; apply: lt.
  case: n => [|n]; last by rewrite nf mxE su // -Es sj mem_nth.
  have := congr1 (fun r => nth 0 r j) (etrans e0 (esym esh)); rewrite nth_seq_of => ->.
  by rewrite -Es (nth_map EmptyString) // -sj.
have sf := file_solved Hp He uv us aff nl2 up2 affc cdat obs1 c0 cc0 Hg Hc sol' P E.
have col (s : nat) : column (p_vars p) X (s%:Z - 1) = xs' s.
  exact: (file_columns Hp He uv us xs' eps P E s).1.
have repE (s : nat) : [seq nval names (xs s.+1) (original names a) | a <- vvs mdl] = report (p_vars p) (vvs mdl) X s%:Z.
  apply/eq_in_map => a; rewrite vvE => ai; rewrite -[xs _]/(xs' s.+1) -(col s.+1) lay //.
  by rewrite -addn1 PoszD addrK.
exists X; split=> //.
- move=> s; have [s1 s2] := sf s.
  have ext q : holds par (hist y) E' s%:Z q -> holds par (hist y) E s%:Z q.
    by move=> h; apply/(sat1_ext (v := value par (hist y) E' s%:Z)) => // a ai; rewrite /value; case: (knd a).
  by split=> [q /s1 /ext //|]; move: s2; case: (binds l k s) => // /ext.
- by rewrite -repE.
- by move=> s; have := e4 s; rewrite !repE -addn1 PoszD.
Qed.
End File.
