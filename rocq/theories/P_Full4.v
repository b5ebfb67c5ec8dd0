Set Warnings "-all".
From Coq Require Import String.
From mathcomp Require Import all_ssreflect all_algebra.
From Verif Require Import PyBase PyStr M_FindLk M_Parser S_Parser P_Parser5 M_Engine S_Engine M_GenSys S_GenSys S_GenSys2 P_Engine P_Engine3 P_Engine4
  P_GenSys P_GenSys2 P_GenSys3 P_GenSys4 P_GenSys5 P_GenSys6 M_Pipe S_Pipe P_Pipe P_Pipe2 P_Pipe3 M_Tools S_Tools P_Tools P_Tools2
  M_Full S_Full P_Full P_Full2 P_Full3 T_Engine T_GenSys.
Set Implicit Arguments. Unset Strict Implicit. Unset Printing Implicit Defensive.
Import GRing.Theory Num.Theory Order.TTheory.
Local Open Scope ring_scope.

Section NoExp.
Variable F : realFieldType.
Variable tol : F.
Variables m n e : nat.
Variable u : usys F m n e.
Hypothesis ws : well_scaled u tol.
Hypothesis cc : constraint_connected u.
Hypothesis ld : shocks_loaded tol u.
Variable rq : forall d, 'M[F]_d -> 'M[F]_d * 'M[F]_d.
Hypothesis rqP : forall d, is_rq (@rq d).
Variable sm : sysmats F (dimq tol u) (dimp tol u).
Hypothesis sysE : sys_of tol u rq = Ok sm.
Notation inq := (M_GenSys.inq (tol:=tol) (u:=u)).
Notation inp := (M_GenSys.inp (tol:=tol) (u:=u)).

Lemma noexp : no_expected_shocks sm e.
Proof.
have t0 := tol0 ws; have t1 := tol1 ws.
have dj := @disj F tol m n e u.
have [EU ER _ _] := sys_ofP rqP sysE.
move=> q q' p p' H i hi.
pose y0 := unsel (P := inq) q 0; pose y1 := unsel (P := inq) q' (unsel (P := inp) p 0); pose y2 := unsel (P := inp) p' 0.
have e0 : rowsub (@enum_val _ inq) y0 = q by apply: unsel_sel.
have e1 : rowsub (@enum_val _ inq) y1 = q' by apply: unsel_sel.
have e2 : rowsub (@enum_val _ inp) y1 = p by rewrite unsel_sel' // unsel_sel.
have e3 : rowsub (@enum_val _ inp) y2 = p' by apply: unsel_sel.
have yE (y : 'cV[F]_(n + na tol u + e)) : y = col_mx (col_mx (usubmx (usubmx y)) (dsubmx (usubmx y))) (dsubmx y) by rewrite !vsubmxK.
have z : dsubmx y1 = 0.
  case: H => [/EU|/ER]; rewrite -e0 -e1 -e2 -e3.
    move/(unc_y t0 t1 (cA ws) (cB ws) (cC ws) (cD ws) (cfc ws) (cfd ws) (occ cc)).
    by move=> h; rewrite (yE y0) (yE y1) (yE y2) in h; have [[]] := (unc_rows _ _ _ _ _ _ _ _ _).1 h.
  move/(con_y t0 t1 (cA ws) (cB ws) (cC ws) (cD ws) (cfc ws) (occ cc)).
  by move=> h; rewrite (yE y0) (yE y1) (yE y2) in h; have [[]] := (con_rows _ _ _ _ _ _ _ _ _).1 h.
have /(C18_shocks_are_last_states u t0) E := ld.
have : enum_val i \in drop (dimq tol u - e) (enum inq).
  rewrite (enum_val_nth (enum_val i)) -[in X in nth _ _ X](subnKC hi) -nth_drop mem_nth // size_drop -cardE.
  by rewrite ltn_sub2r // (leq_ltn_trans hi).
rewrite E => /mapP [k _ ei]; rewrite -e1 mxE ei.
by have := congr1 (fun A : 'cV[F]_e => A k 0) z; rewrite !mxE.
Qed.
End NoExp.

Lemma t_func_nat (F : realFieldType) (m : tmodel F) st sh sk lin x lk fl : endogenous sk ->
  t_func m st sh sk lin = Ok (x, lk, fl) -> exists l k, lk = lkz (l, k).
Proof.
move=> en /t_func_inv; case: lin.
  by rewrite /decode /= => -[l' [k' [c [[-> _] _ _ _ _]]]]; exists 0%N, 0%N.
rewrite (_ : decode sk false = (-1, -1)); last by case: sk en => // -[].
by case=> l' [k' [c [[r [_ [-> _]]] _ _ _ _]]]; exists r.1.1, r.1.2.
Qed.

Section Solved.
Variable F : realFieldType.
Variable tol : F.
Variable rq : forall d, 'M[F]_d -> 'M[F]_d * 'M[F]_d.
Variable klein : forall a b, 'M[F]_(a + b) -> 'M[F]_(a + b) -> res ('M[F]_(b, a) * 'M[F]_a).
Hypothesis rqP : forall d, is_rq (@rq d).
Hypothesis klP : forall a b (S T : 'M[F]_(a + b)) omg lam, klein S T = Ok (omg, lam) -> linear_solution S T omg lam.
Variables m n e o : nat.
Variable u : usys F m n e.
Variable names : n.-tuple string.
Variable shks : seq string.
Variables (ZZ0 : 'M[F]_(o, n)) (ZZ1 : 'cV[F]_o) (lm km : nat).
Hypothesis un : uniq (vv0 tol u names).
Hypothesis ld : shocks_loaded tol u.
Hypothesis es : size shks = e.
Hypothesis hl : (0 < lm < 999)%N.
Hypothesis hk : (0 < km)%N.
Variable mdl : tmodel F.
Hypothesis G : gen_sys tol rq klein u names shks ZZ0 ZZ1 lm km = Ok mdl.
Hypothesis st0 : (size shks < dq mdl)%N.
Hypothesis ws : well_scaled u tol.
Hypothesis cc : constraint_connected u.

Lemma gen_sys_solved : exists sm f omg lam, @solved F mdl sm f omg lam /\ no_expected_shocks sm (neps mdl).
Proof.
have t0 := tol0 ws.
have [svv [cvv [sm [omg [lam [t [b [E1 E2 E3 E4 E5]]]]]]]] := gen_sysE un t0 ld G.
have [_ Mq Mp dpE dqE] := layout_sizes un t0 ld E1.
have [_ _ h1 h2] := sys_ofP rqP E2.
have ls := klP E3.
move: st0; rewrite E5 /= => st1.
set M := TM _ _ _ _ _ _ _ _ _ _.
have e0 : (0 < size shks)%N.
  rewrite es lt0n; apply/eqP; apply/(new_vv_err tol u names); by eexists; exact: E1.
have nqE : nq M = size svv by rewrite /nq /neps /= dqE es addnK.
exists sm, (ff tol u), omg, lam; split.
  by split=> //; rewrite /M /= size_cat -/M -dpE nqE.
rewrite /M /neps /= es; exact: (noexp ws cc ld rqP E2).
Qed.
End Solved.

Section Rows.
Variable F : realFieldType.
Variable m : tmodel F.
Hypothesis dm : (0 < neps m < dq m)%N.
Hypothesis un : uniq (shk m).
Variable sl : seq (string * F * int).
Variables (lin : bool) (sk : setk) (fo : bool) (ns lM kM : nat).
Notation step := (irf_step m ns lM kM sl lin sk fo).

Lemma fold_inv t n st lk err mult rows r : foldM step (iota t n) (IS st lk err mult rows) = Ok r ->
  exists rs, [/\ i_rows r = rev rs ++ rows, size rs = n &
    forall j, (j < n)%N -> exists sk' fl, t_func m (nth [::] (st :: [seq x.1 | x <- rs]) j) (Some (shocks_at (shk m) sl (t + j))) sk' lin =
       Ok (nth ([::], (0, 0)) rs j, fl)].
Proof.
have /andP [e0 lt] := dm.
elim: n t st lk err mult rows => [|n IH] t st lk err mult rows /=; first by case=> <-; exists [::].
case S: (irf_step _ _ _ _ _ _ _ _ _ _) => [s|] //=.
have [x [lk' [fl [err' [mult' [sk' [-> E]]]]]]] : exists x lk' fl err' mult' sk', s = IS x lk' err' mult' ((x, lk') :: rows) /\
    t_func m st (Some (shocks_at (shk m) sl t)) sk' lin = Ok (x, lk', fl).
  move: S; rewrite /irf_step (shock_vecE un); case: ifP => // _ /=; rewrite sliceE' //.
  case: (if _ then _ else Ok _) => [[eff mu]|] //=; case: ifP => // _; rewrite t_func_block //.
  by case E: t_func => [[[x lk'] fl]|] //=; case: eqP => // _ [<-]; do 6 eexists; split; first by []; exact: E.
move/IH => [rs [h1 h2 h3]]; exists ((x, lk') :: rs); rewrite h1 /= h2 rev_cons cat_rcons; split=> // -[|j] jn.
  by exists sk', fl; rewrite addn0.
by rewrite -addSnnS; apply: h3.
Qed.

(** the states that enter a period have all the endogenous states *)
Hypothesis vvE : size (vvs m) = (dp m + nq m)%N.
Lemma enters_size st rs n : (nq m <= size st)%N ->
  (forall j, (j < n)%N -> exists sk' fl sh, t_func m (nth [::] (st :: [seq x.1 | x <- rs]) j) sh sk' lin = Ok (nth ([::], (0, 0)) rs j, fl)) ->
  size rs = n -> forall j, (j <= n)%N -> (nq m <= size (nth [::] (st :: [seq x.1 | x <- rs]) j))%N.
Proof.
move=> h H sz [|j] //= jn; rewrite (nth_map ([::], (0, 0))) ?sz //.
have [sk' [fl [sh]]] := H _ jn; case: (nth ([::], (0, 0)) rs j) => x lk /(t_func_size dm vvE) /= ->.
by rewrite vvE leq_addl.
Qed.
End Rows.
