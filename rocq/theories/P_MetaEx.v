(** The concrete model of P_ToolsEx.v on announced paths, and after very large shocks. *)
Set Warnings "-all".
From Coq Require Import String.
From mathcomp Require Import all_ssreflect all_algebra.
From Verif Require Import PyBase PyStr P_Loops M_FindLk M_Engine S_Engine S_FindLk S_Horizon M_GenSys M_Tools S_Tools P_Tools P_Tools2 P_Tools3 P_Tools4 S_Meta P_Meta P_Meta2 P_Meta3 P_Engine4 P_ToolsEx T_Engine T_Horizon.
Set Implicit Arguments. Unset Strict Implicit. Unset Printing Implicit Defensive.
Import GRing.Theory Num.Theory Order.TTheory.
Local Open Scope ring_scope.

(** the concrete model z(t) = 1/2 z(t-1) + e(t), r(t) = max(z(t), -1): z on every announced path *)
Lemma ex3_step l k q p s : announced_by ex3 ex3_omg l k q p -> q s.+1 = ex3_A *m q s.
Proof.
case=> /(_ s) + _; case: binds; rewrite /unconstrained /constrained /= !mul_block_col !mul0mx !mul1mx ?addr0 ?add0r.
  by rewrite add_col_mx !addr0 => /eq_col_mx [].
by case/eq_col_mx.
Qed.
Lemma ex3_Aq (v : 'cV[rat]_2) : (ex3_A *m v) 0 0 = v 0 0 / 2%:Q + v 1 0 /\ (ex3_A *m v) 1 0 = 0.
Proof.
rewrite !mxE !big_ord_recl !big_ord0 !mxE /= !mul0r !addr0 !mul1r [_^-1 * _]mulrC.
by rewrite (_ : lift ord0 ord0 = 1) //; apply: val_inj.
Qed.
Lemma ex3_z l k q p s : announced_by ex3 ex3_omg l k q p ->
  notional (fq1 ex3_f) (fp1 ex3_f) (fq0 ex3_f) q p s = (1 / 2%:Q) ^+ s * (q 0%N 0 0 / 2%:Q + q 0%N 1 0).
Proof.
move=> an; have H t : (q t.+1) 1 0 = 0 by rewrite (ex3_step t an); case: (ex3_Aq (q t)).
have rE (v : 'cV[rat]_2) : (ex3_r *m v) 0 0 = v 0 0 by rewrite mxE !big_ord_recl big_ord0 !mxE /= mul1r mul0r !addr0.
have -> : notional (fq1 ex3_f) (fp1 ex3_f) (fq0 ex3_f) q p s = q s.+1 0 0.
  by rewrite /notional /= !mul0mx add0r addr0 rE.
elim: s => [|s IH]; first by rewrite (ex3_step 0 an) (ex3_Aq (q 0%N)).1 expr0 mul1r.
rewrite (ex3_step s.+1 an) (ex3_Aq (q s.+1)).1 H addr0 IH exprSr; set X := _ + _; set h := (1 / _).
have -> : 2%:Q^-1 = h by rewrite /h mul1r.
exact: mulrAC.
Qed.
Lemma ex3_inp t b (x y e : rat) : let v := inp_vec (ex3_m t b) [:: x; y] [:: e] in v 0 0 = y /\ v 1 0 = e.
Proof. by rewrite /inp_vec !mxE. Qed.

Lemma ex3_half (x : rat) s : 0 <= x -> (1 / 2%:Q) ^+ s * x <= x.
Proof. by move=> h; rewrite -[X in _ <= X]mul1r; apply: ler_wpmul2r => //; apply: exprn_ile1. Qed.

Lemma ex3_big t b (sd : @solved _ (ex3_m t b) ex3 ex3_f ex3_omg ex3_A) (x y e : rat) : y / 2%:Q + e <= - 50%:Q ->
  msearch (inp_vec (ex3_m t b) [:: x; y] [:: e]) = Ok (0%N, 3%N, 2%N).
Proof.
move=> big; set v := inp_vec _ _ _; have [v0 v1] : v 0 0 = y /\ v 1 0 = e by exact: ex3_inp.
have [N NE] := notional_ex (f := ex3_f) (sd_pre sd) (sd_T sd) (sd_W sd) (sd_lin sd) v (lmx0 sd).
have NN l k s : (l <= 2)%N -> (k <= 3)%N -> N l k s = (1 / 2%:Q) ^+ s * (y / 2%:Q + e).
  move=> ll kk; have [q [p [q0 an]]] := @ex3_path l k v ll kk.
  by rewrite (NE _ _ _ _ ll kk an q0) (ex3_z s an) q0 v0 v1.
have NL l k s : (l <= 2)%N -> (k <= 3)%N -> (s <= 5)%N -> N l k s < -1.
  move=> ll kk ls; rewrite NN //; apply: le_lt_trans (_ : (1 / 2%:Q) ^+ s * (- 50%:Q) < -1).
    by apply: ler_wpmul2l => //; apply: exprn_ge0.
  by move: ls; do 6 (case: s => [//|s]).
have na l k : (l <= 2)%N -> (k <= 3)%N -> ~ admissible N (-1) l k.
  move=> ll kk [_ _ _ _]; apply/negP; rewrite -ltNge; apply: NL => //; exact: (leq_add ll kk).
have nc : ~ (forall s, (s < 3)%N -> -1 < N 0%N 0%N s).
  by move/(_ 0%N isT) => h; have := lt_trans h (NL 0%N 0%N 0%N isT isT isT); rewrite ltxx.
have [l [k [fl [Es so]]]] := searchP (sd_pre sd) (sd_T sd) (sd_W sd) (sd_lin sd) (-1) NE (sd_k sd) isT.
rewrite /msearch Es; case: so => {Es l k fl}.
- by move/nc.
- by move=> l k _ [lL kK a _]; case: (na l k).
- move=> k _ _ kK [k0 [_ _ h _]]; have := lt_trans h (NL 0%N k k isT kK (@leq_trans 3 k 5 kK isT)); by rewrite ltxx.
- by [].
Qed.

Lemma ex3_row t b (sd : @solved _ (ex3_m t b) ex3 ex3_f ex3_omg ex3_A) l k c v : (l <= 2)%N -> (k <= 3)%N -> tab (ex3_m t b) l k = Some c ->
  exists x, cell_row c v = [:: x; v 0 0 / 2%:Q + v 1 0].
Proof.
move=> ll kk Ec; have [q [p [q0 an]]] := @ex3_path l k v ll kk.
have [c' Ec' Er] := ann_row sd ll kk an 0; rewrite (_ : remaining l k 0 = (l, k)) in Ec'; last by rewrite /remaining leq0n subn0.
have <- : c' = c by move: Ec; rewrite (Ec' : tab (ex3_m t b) l k = Some c') => -[].
rewrite -q0 Er; exists (p 0%N 0 0); have [e _] := ex3_Aq (q 0%N); rewrite /path_row (ex3_step 0 an).
rewrite /seq_of (_ : enum 'I_1 = [:: 0]); last by apply: (inj_map val_inj); rewrite val_enum_ord.
rewrite (_ : enum 'I_2 = [:: 0; 1]); last by apply: (inj_map val_inj); rewrite val_enum_ord.
by rewrite -e.
Qed.
