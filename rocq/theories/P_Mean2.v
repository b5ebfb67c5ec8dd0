Set Warnings "-all".
From Coq Require Import String.
From mathcomp Require Import all_ssreflect all_algebra.
From Verif Require Import PyBase PyStr M_Parser S_Parser P_Parser P_Parser2 P_Parser5 M_Engine S_Engine M_GenSys S_GenSys S_GenSys2 P_Engine P_Engine3 P_Engine4
  P_GenSys P_GenSys2 P_GenSys3 P_GenSys4 P_GenSys5 P_GenSys6 M_Pipe S_Pipe P_Pipe P_Pipe2 P_Pipe3 M_Tools S_Tools P_Tools P_Tools2
  M_Full S_Full P_Full P_Full2 P_Full4 S_Mean P_Mean T_Engine T_GenSys.
Set Implicit Arguments. Unset Strict Implicit. Unset Printing Implicit Defensive.
Import GRing.Theory Num.Theory Order.TTheory.
Local Open Scope ring_scope.

Section File.
Variable F : realFieldType.
Variable tol : F.
Variable rq : forall d, 'M[F]_d -> 'M[F]_d * 'M[F]_d.
Variable klein : forall a b, 'M[F]_(a + b) -> 'M[F]_(a + b) -> res ('M[F]_(b, a) * 'M[F]_a).
Hypothesis rqP : forall d, is_rq (@rq d).
Hypothesis klP : klein_stable klein.
Variables (m : rawmodel F) (p : parsed F) (eqs : seq (eqn F)) (par : string -> F) (g : matrices F).
Variables (c : 'I_(size (p_vars p))) (xb : F) (lm km : nat).
Hypothesis Hp : parse m = Ok p.
Hypothesis He : declared_eqs m = Ok eqs.
Hypothesis uv : uniq (p_vars p).
Hypothesis us : uniq (r_shks m).
Hypothesis Hg : get_matrices p par = Ok g.
Hypothesis Hc : nth EmptyString (p_vars p) c = r_cvar m.
Hypothesis Hv : r_cvar m \in r_vars m.
Let u := usys_of_file g c xb.
Let names := in_tuple (p_vars p).
Hypothesis un : uniq (vv0 tol u names).
Hypothesis aff : each (fun q => affine_eqn q) eqs.
Hypothesis nl2 : no_shock_lead eqs.
Hypothesis up2 : leads_upto 2 eqs.
Hypothesis affc : affine_eqn (p_ceq p).
Hypothesis cdat : dates_in (-1) 0 0 0 (set_eq_zero (p_ceq p)).
Hypothesis obsok : forall o, List.In o (p_obs p) -> [/\ affine o.2, no_shocks o.2 & dates_in (-1) 0 0 0 o.2].
Hypothesis c0 : each (fun q => const_of par q = 0) (p_eqs p).
Hypothesis cc0 : const_of par (p_ceq p) = 0.
Hypothesis (ws : well_scaled u tol) (cc : constraint_connected u) (nl : no_lead_lag u) (en : encodable u).
Hypothesis ld : shocks_loaded tol u.
Hypothesis hl : (0 < lm < 999)%N.
Hypothesis hk : (0 < km)%N.

Let t01 : 0 < tol <= 1. Proof. by case: ws. Qed.
Let t0 : 0 < tol. Proof. by case/andP: t01. Qed.

Definition delta (n : string) : path F := fun v t => if (v == n) && (t == -1) then 1 else 0.
Notation zpath := (zpath F).

Lemma times_zpath row ns t : times row ns zpath t = 0.
Proof. by apply: big1 => j _; rewrite mulr0. Qed.
Lemma times_delta row (j : 'I_(size (p_vars p))) t : times row (p_vars p) (delta (nth EmptyString (p_vars p) j)) t =
  if t == -1 then nth 0 row j else 0.
Proof.
rewrite /times (bigD1 j) //= big1 ?addr0 /delta; last first.
  by move=> i ni; rewrite nth_uniq // (_ : (i == j :> nat) = false) ?mulr0 //; apply/negbTE.
by rewrite eqxx; case: eqP => _; rewrite ?mulr1 ?mulr0.
Qed.

Lemma gap_ext (v v' : sym -> F) q : {in eatoms q, v =1 v'} -> gap v q = gap v' q.
Proof.
move=> H; rewrite /gap.
have E i : eval v (if i then q.1 else q.2) = eval v' (if i then q.1 else q.2).
  apply: eval_atoms => a ai; apply: H; by rewrite /eatoms mem_cat; case: i ai => ->; rewrite ?orbT.
by rewrite (E true) (E false).
Qed.

Lemma nth_In (T : Type) (x0 : T) l i : (i < size l)%N -> List.In (nth x0 l i) l.
Proof. by elim: l i => [|y l IH] [|i] //= h; [left | right; apply: IH]. Qed.

Lemma lead_col (j : 'I_(size (p_vars p))) : nth EmptyString (p_vars p) j \notin r_vars m ->
  (forall q a, List.In q (p_eqs p) -> a \in eatoms q -> knd a = KVar -> nam a = nth EmptyString (p_vars p) j -> 0 <= dat a) ->
  (forall i, CC0 u i j = 0) /\ fc0 u 0 j = 0.
Proof.
set n := nth _ _ _ => nv H.
have [_ _ [_ Ec _ _]] := pE Hp He.
have [g' [Hg' _ h3 h4 _]] := get_matricesP par Hp He uv us aff nl2 affc cdat obsok.
have eg : g' = g by move: Hg'; rewrite Hg => -[].
subst g'; split=> [i|].
  have qi := nth_In (Cst 0, Cst 0) (ltn_ord i).
  have := h3 i (Cst 0, Cst 0) (delta n) zpath 0 (ltn_ord i).
  rewrite (@gap_ext _ (value par zpath zpath 0)) => [|a ai]; last first.
    rewrite /value; case ka: (knd a) => //; rewrite /delta; case: eqP => //= ea; case: eqP => // ed.
    by have := H _ _ qi ai ka ea; move: ed; rewrite add0r => ->.
  rewrite h3 // /linear_gap !times_zpath !times_delta /= !addr0 !subr0 => /eqP.
  by rewrite eq_sym -[X in _ == X]addr0 (inj_eq (addrI _)) mxE => /eqP.
have := h4 (delta n) zpath 0.
rewrite (@gap_ext _ (value par zpath zpath 0)) => [|a ai]; last first.
  have := resolve_eqnP Ec ai; rewrite /value; case ka: (knd a) => // vi; rewrite /delta; case: eqP => //= ea.
  by case/negP: nv; rewrite -ea.
rewrite h4 !times_zpath !times_delta /= !subr0 => /eqP.
rewrite eq_sym -[X in _ == X]addr0 (inj_eq (addrI _)) oppr_eq0 nth_drop => /eqP e0.
by rewrite !mxE /= e0 ?oppr0.
Qed.

Lemma all_listed sm svv cvv : sys_of tol u rq = Ok sm -> new_vv tol u names = Ok (svv, cvv, cvv ++ svv) ->
  forall v, v \in p_vars p -> v \in cvv ++ svv.
Proof.
move=> so nv; have [ll uvv sz _] := C14_variables_partitioned t01 un nv.
have e1 := size_rows Hp He; have e2 : (exists sm, sys_of tol u rq = Ok sm) by exists sm.
move/sys_of_sq: e2 => e2.
have sub : {subset cvv ++ svv <= vv0 tol u names} by move=> a ai; apply: (vv_sub nv).
have le : (size (vv0 tol u names) <= size (cvv ++ svv))%N.
  have e3 : size (vv0 tol u names) = (size (p_vars p) + na tol u)%N by rewrite /vv0 size_cat size_map -cardE.
  rewrite e3 -(leq_add2r (size (p_shks p))) sz -e2.
  by move: (na tol u) e1 => a <-; rewrite addn1 !addSn.
have [_ mem] := uniq_min_size uvv sub le.
by move=> v vi; rewrite mem /vv0 mem_cat vi.
Qed.

(** bounded paths of the file's variables are bounded paths of the compressed system *)
Lemma aux_bounded (X Y E : path F) : agree (r_vars m) Y X -> aux_values E (r_vars m) (r_shks m) (p_eqs p) (p_vars p) Y ->
  surprise_only (r_shks m) E -> bounded_path (r_vars m) X -> bounded_path (p_vars p) Y.
Proof.
move=> ag ax su bd; have bb v : base_name E (r_vars m) (r_shks m) Y v -> bounded (fun s => Y v s%:Z).
  case=> [vi|[s [si _ h]]]; first by apply: bnd_ext (bd v vi) => s; rewrite ag.
  by apply: bnd_cons; apply: bnd_ext (bnd0 F) => t; rewrite h su.
move=> n /ax [/bb //|[v [i [_ /bb h e]]]|[v [i [_ /bb h e _]]]].
  by apply: bnd_ext (bnd_move (- (i.+1)%:Z) h) => s; rewrite e.
by apply: bnd_ext (bnd_move 1 h) => s; rewrite e.
Qed.

Lemma yvec_bounded (Y E : path F) d d' : bounded_path (p_vars p) Y -> surprise_only (r_shks m) E ->
  forall j, bounded (fun s => yvec tol u (column (p_vars p) Y (s%:Z + d)) (column (p_shks p) E (s%:Z + d')) j 0).
Proof.
have [_ _ [_ _ Es _]] := pE Hp He; move=> bY su.
have bc (i : 'I_(size (p_vars p))) : bounded (fun s => column (p_vars p) Y (s%:Z + d) i 0).
  by apply: bnd_ext (bnd_move d (bY _ (mem_nth EmptyString (ltn_ord i)))) => s; rewrite mxE.
move=> j; case: (split_ordP j) => k ->; last first.
  have h : bounded (fun s => E (nth EmptyString (p_shks p) k) s%:Z).
    apply: bnd_cons; apply: bnd_ext (bnd0 F) => t; rewrite su // -Es mem_nth //.
  by apply: bnd_ext (bnd_move d' h) => s; rewrite /yvec col_mxEd mxE.
case: (split_ordP k) => i ->.
  by apply: bnd_ext (bc i) => s; rewrite /yvec col_mxEu col_mxEu.
by apply: bnd_ext (bc (enum_val i)) => s; rewrite /yvec col_mxEu col_mxEd [RHS]mxE.
Qed.

(** the states of period 0 of a completed path are those of the path it completes *)
Lemma start_q (X Y E : path F) eps : agree (r_vars m) Y X -> aux_values E (r_vars m) (r_shks m) (p_eqs p) (p_vars p) Y ->
  (forall v i, X v (-1 - i.+1%:Z) = X (var_lag v i.+1) (-1)) -> (forall s t, t < 0 -> E s t = X (var_s s) t) ->
  q_of tol u (column (p_vars p) Y (-1)) eps = q_of tol u (column (p_vars p) X (-1)) eps.
Proof.
move=> ag ax hX hE; apply: q_of_ext t0 _ _ _ _ => j; rewrite [column _ Y _ _ _]mxE [column _ X _ _ _]mxE.
set n := nth _ _ _; have ni : n \in p_vars p by apply: mem_nth.
have [nv|nv] := boolP (n \in r_vars m); first by left; rewrite ag.
have bb v t : base_name E (r_vars m) (r_shks m) Y v -> t < 0 -> Y v t = X v t.
  by case=> [vi|[s [si -> h]]] t1; [rewrite ag | rewrite h hE].
case: (ax n ni) => [h|[v [i [ev h e]]]|[v [i [_ h e H]]]].
- by left; rewrite bb.
- by left; rewrite e bb ?hX -?ev // -[X in _ < X]addr0 -opprD oppr_lt0.
- right; exact: (lead_col nv H).
Qed.

(** the notional value in terms of the file *)
Lemma change_cols (Y : path F) t z : column (p_vars p) (change Y (r_cvar m) t z) t = \col_j (if j == c then z else column (p_vars p) Y t j 0).
Proof.
apply/matrixP => j i0; rewrite !mxE /change eqxx andbT -Hc nth_uniq //.
Qed.
Lemma change_cols' (Y : path F) t t' z : t' != t -> column (p_vars p) (change Y (r_cvar m) t z) t' = column (p_vars p) Y t'.
Proof. by move=> ne; apply/matrixP => j i0; rewrite !mxE /change (negbTE ne) andbF. Qed.

Lemma slackE (Y E : path F) t : holds par Y E t (p_ceq p) <->
  fb0 u *m column (p_vars p) Y t + fc0 u *m column (p_vars p) Y (t - 1) + shock_row u *m column (p_shks p) E t = 0.
Proof.
have [g' [Hg' _ _ h4 _]] := get_matricesP par Hp He uv us aff nl2 affc cdat obsok.
have eg : g' = g by move: Hg'; rewrite Hg => -[].
subst g'; have := h4 Y E t; rewrite cc0 sub0r !times_col => G.
have {}G : gap (value par Y E t) (p_ceq p) = (fb0 u *m column (p_vars p) Y t + fc0 u *m column (p_vars p) Y (t - 1) + shock_row u *m column (p_shks p) E t) 0 0.
  rewrite G /= [RHS]mxE [X in _ = X + _]mxE !mulNmx [X in _ = _ + X]mxE [X in _ = X + _ + _]mxE [X in _ = _ + X + _]mxE; congr (- _ - _ - _).
    by rewrite !mxE; apply: eq_bigr => j _; rewrite !mxE nth_take.
  by rewrite !mxE; apply: eq_bigr => j _; rewrite !mxE nth_drop.
rewrite /holds; split=> [h|h].
  by apply/rowP => i; rewrite (ord1 i) -G /gap h subrr [RHS]mxE.
by apply/eqP; rewrite -subr_eq0; apply/eqP; rewrite -[LHS]/(gap _ _) G h mxE.
Qed.

Lemma notional_uniq (X E : path F) t z z' : notional_value par (p_ceq p) (r_cvar m) X E t z ->
  notional_value par (p_ceq p) (r_cvar m) X E t z' -> z = z'.
Proof.
have t1 : t - 1 != t by rewrite -[X in _ != X]addr0 (inj_eq (addrI t)).
move=> /slackE H /slackE H'; move: H'; rewrite -{}H !(change_cols' _ _ t1) => /addIr /addIr /rowP /(_ 0).
rewrite !change_cols [LHS]mxE [RHS]mxE (bigD1 c) //= [RHS](bigD1 c) //=.
rewrite (eq_bigr (fun j => fb0 u 0 j * column (p_vars p) X t j 0)) => [|j nj]; last by rewrite [X in _ * X]mxE (negbTE nj).
rewrite [X in _ = _ + X](eq_bigr (fun j => fb0 u 0 j * column (p_vars p) X t j 0)) => [|j nj]; last by rewrite [X in _ * X]mxE (negbTE nj).
move=> /addIr; rewrite [X in _ * X]mxE [X in _ = _ * X]mxE eqxx.
have [oc _] := cc; by move/(mulfI (oc : _ != 0)).
Qed.

Variable mdl : tmodel F.
Hypothesis G : solve_file tol rq klein m par xb lm km = Ok mdl.
Hypothesis st0 : (size (shk mdl) < dq mdl)%N.

Lemma core : exists sm f omg lam, [/\ @solved F mdl sm f omg lam /\ no_expected_shocks sm (neps mdl), stable_solution (mS sm) (mT sm) omg lam,
  lmx mdl = lm /\ kmx mdl = km /\ M_Tools.xb mdl = xb, {subset p_vars p <= vvs mdl} &
  forall st sh l k X E, (nq mdl <= size st)%N -> starts_from m p mdl st sh X E ->
    solves_file par eqs (p_ceq p) (r_cvar m) xb (binds l k) X E -> bounded_path (r_vars m) X ->
    exists Y qs ps, [/\ announced (mS sm) (mT sm) (mV sm) (mW sm) (mh sm) omg l k qs ps, qs 0%N = inp_vec mdl st sh,
       agree (r_vars m) Y X /\ aux_values E (r_vars m) (r_shks m) (p_eqs p) (p_vars p) Y,
       forall s : nat, path_row (nq mdl) qs ps s = report (p_vars p) (vvs mdl) Y s%:Z &
       forall s : nat, notional_value par (p_ceq p) (r_cvar m) X E s%:Z (notional (fq1 f) (fp1 f) (fq0 f) qs ps s)]].
Proof.
have [_ _ [_ Ec Es _]] := pE Hp He.
have Ge := solve_fileE Hp uv Hg Hc G.
have [svv [cvv [sm [omg [lam [t [b [E1 E2 E3 E4 E5]]]]]]]] := gen_sysE un t0 ld Ge.
have [_ Mq Mp dpE dqE] := layout_sizes un t0 ld E1.
have [_ _ h1 h2] := sys_ofP rqP E2.
have [ls sb suq] := klP E3.
move: st0; rewrite E5 /= => st1.
set M := TM _ _ _ _ _ _ _ _ _ _.
have e0 : (0 < size (p_shks p))%N.
  by rewrite lt0n; apply/eqP; apply/(new_vv_err tol u names); eexists; exact: E1.
have nqE : nq M = size svv by rewrite /nq /neps /= dqE addnK.
have sd : @solved F M sm (ff tol u) omg lam.
  by split=> //; rewrite /M /= size_cat -/M -dpE nqE.
exists sm, (ff tol u), omg, lam; split=> //.
- split=> //; exact: (noexp ws cc ld rqP E2).
- exact: (all_listed E2 E1).
move=> st sh l k X E ge [su esh est hX hE] sol bd.
have [Y [ag ax solY]] := file_complete Hp He uv us aff nl2 up2 affc cdat obsok c0 cc0 Hg Hc Hv sol.
pose qs (s : nat) := q_of tol u (column (p_vars p) Y (s%:Z - 1)) (column (p_shks p) E s%:Z).
pose ps (s : nat) := p_of tol u (column (p_vars p) Y s%:Z) (column (p_shks p) E (s%:Z + 1)).
have succ (s : nat) : (s.+1%:Z - 1 = s%:Z)%R /\ s.+1%:Z = (s%:Z + 1)%R by rewrite -addn1 PoszD addrK.
have ob : obeys_schedule (mS sm) (mT sm) (mV sm) (mW sm) (mh sm) l k qs ps.
  apply/(c78 ws cc rqP E2 l k qs ps nl en); eexists; eexists; split; last exact: solY.
  - by move=> s; apply/matrixP=> j i; rewrite mxE [RHS]mxE su // -Es mem_nth.
  - by [].
  - by move=> s; rewrite /ps (succ s).1 (succ s).2.
have bY := aux_bounded ag ax su bd.
have an : announced (mS sm) (mT sm) (mV sm) (mW sm) (mh sm) omg l k qs ps.
  split=> // s ls'; have bq : bounded_cols qs.
    by move=> i; apply: bnd_ext (yvec_bounded (-1) 0 bY su (enum_val i)) => s'; rewrite /qs /q_of addr0 [RHS]mxE.
  have bp : bounded_cols ps.
    by move=> i; apply: bnd_ext (yvec_bounded 0 1 bY su (enum_val i)) => s'; rewrite /ps /p_of addr0 [RHS]mxE.
  have := suq (fun s => qs (s + (l + k))%N) (fun s => ps (s + (l + k))%N) _ _ _ (s - (l + k))%N; rewrite subnK //; apply.
  - move=> s'; have := ob (s' + (l + k))%N; rewrite /binds ltnNge leq_addl andbF addSn; exact.
  - by move=> i; have := bnd_shift (l + k) (bq i).
  - by move=> i; have := bnd_shift (l + k) (bp i).
have orig v : v \in cvv ++ svv -> original (p_vars p) v \in p_vars p.
  move=> vi; apply: (orig_mem (tol := tol) (u := u) (names := names)); exact: (vv_sub E1).
have lay (Z : path F) t' a : a \in cvv ++ svv -> nval names (column (p_vars p) Z t') (original names a) = Z (original (p_vars p) a) t'.
  by move=> ai; rewrite nval_column // orig.
have rowE (s : nat) : path_row (nq M) qs ps s = report (p_vars p) (cvv ++ svv) Y s%:Z.
  rewrite /path_row /qs (succ s).1 (layout_p un t0 ld _ _ Mp) (layout_q un t0 ld _ _ Mq) take_size_cat ?size_map ?nqE //.
  rewrite -map_cat /report; apply/eq_in_map => a ai; exact: lay.
exists Y, qs, ps; split=> //.
- rewrite /qs sub0r (start_q _ ag ax hX hE) -[LHS]col_of_seq_of /inp_vec -est -esh; congr (col_of _ _).
  rewrite (layout_q un t0 ld _ _ Mq) /M /= /report map_cat drop_size_cat; last by rewrite size_map dpE.
  congr (_ ++ _).
    by apply/eq_in_map => a ai; apply: lay; rewrite mem_cat ai orbT.
  rewrite -Es; apply: (@eq_from_nth _ 0); rewrite size_seq_of ?size_map // => i lt.
  by rewrite (nth_map EmptyString) // -[in LHS](_ : nat_of_ord (Ordinal lt) = i) // nth_seq_of mxE.
move=> s; have := @C79_notional_value_is_the_users F tol _ _ _ u qs ps (fun s => column (p_vars p) Y (s%:Z - 1)) (fun s => column (p_shks p) E s%:Z) s ws cc en erefl erefl.
rewrite (succ s).1 (succ s).2 => /(_ erefl).
set z := notional _ _ _ _ _ _ => H.
suff : holds par (change Y (r_cvar m) s%:Z z) E s%:Z (p_ceq p).
  move=> h; apply/(sat1_ext (v := value par (change Y (r_cvar m) s%:Z z) E s%:Z)) => // a ai.
  by have := resolve_eqnP Ec ai; rewrite /value; case: (knd a) => // vi; rewrite /change ag.
apply/slackE; rewrite change_cols change_cols' //.
by rewrite -[X in _ != X]addr0 (inj_eq (addrI _)).
Qed.
End File.
