(** Concrete systems used as witnesses and as non-vacuity examples. *)
Set Warnings "-all".
From mathcomp Require Import all_ssreflect all_algebra.
From Verif Require Import PyBase M_Engine M_FindLk S_Engine S_FindLk P_Loops P_Engine P_Engine2 P_FindLk P_Engine3.
Set Implicit Arguments. Unset Strict Implicit. Unset Printing Implicit Defensive.
Import GRing.Theory Num.Theory Order.TTheory.
Local Open Scope ring_scope.
Local Open Scope py_scope.

Section Exog.
Variable F : fieldType.
Variables dimq dimp : nat.
Variables (sm : sysmats F dimq dimp) (f : cnst F dimq dimp).
Variables (omg : 'M[F]_(dimp, dimq)) (lam : 'M[F]_dimq) (l_max k_max : nat).
Hypothesis S12 : ursubmx (mS sm) = 0.
Hypothesis V12 : ursubmx (mV sm) = 0.
Hypothesis S11 : ulsubmx (mS sm) \in unitmx.
Hypothesis V11 : ulsubmx (mV sm) \in unitmx.
Hypothesis T22 : drsubmx (mT sm) \in unitmx.
Hypothesis W22 : drsubmx (mW sm) \in unitmx.

(** models whose states evolve autonomously can always be preprocessed *)
Lemma preprocess_exog : exists t b, preprocess sm f omg lam l_max k_max = Ok (t, b).
Proof.
case E : (preprocess _ _ _ _ _ _) => [[t b]|e]; first by exists t, b.
exfalso; move: E; rewrite /preprocess.
case E0 : (normalise sm) => [sm'|e0] /=; last first.
  by move: E0; rewrite /normalise /nl_inv T22 /= W22.
have := @stage1P' _ _ _ sm' omg lam l_max.+1 k_max.+1.
case E1 : (stage1 _ _ _ _ _) => [t|e1] /= H; last first.
  case: H => l [c]; rewrite /get_lam /nl_inv.
  have [eS eV] : ursubmx (mS sm') = 0 /\ ursubmx (mV sm') = 0.
    move: E0; rewrite /normalise /nl_inv T22 /= W22 /= => -[<-] /=.
    have [_ e1' _ _] := lower_blocks (invmx (drsubmx (mT sm))) (mS sm).
    have [_ e2' _ _] := lower_blocks (invmx (drsubmx (mW sm))) (mV sm).
    by rewrite /lower in e1' e2'; rewrite e1' e2'.
  have [uS uV] : ulsubmx (mS sm') = ulsubmx (mS sm) /\ ulsubmx (mV sm') = ulsubmx (mV sm).
    move: E0; rewrite /normalise /nl_inv T22 /= W22 /= => -[<-] /=.
    have [e1' _ _ _] := lower_blocks (invmx (drsubmx (mT sm))) (mS sm).
    have [e2' _ _ _] := lower_blocks (invmx (drsubmx (mW sm))) (mV sm).
    by rewrite /lower in e1' e2'; rewrite e1' e2'.
  by case: (l != 0%N); rewrite ?eS ?eV mul0mx addr0 ?uS ?uV ?S11 ?V11.
pose C l k := if t l k is Some c then c else Cell omg 0 lam 0.
have [|b -> //] := @stage2P _ _ _ f t l_max.+1 k_max.+1 C.
by move=> l k ll kk; rewrite /C; have [c -> _] := H l k ll kk.
Qed.
End Exog.

Definition mk2 (a b c d : rat) : 'M[rat]_(1 + 1) := block_mx a%:M b%:M c%:M d%:M.
Definition cv2 (a b : rat) : 'cV[rat]_(1 + 1) := col_mx a%:M b%:M.
Notation "n %/q d" := (n%:Q / d%:Q) (at level 40).

Lemma unit1 (a : rat) : a != 0 -> (a%:M : 'M[rat]_1) \in unitmx.
Proof. by move=> h; rewrite unitmxE det_scalar expr1 unitfE. Qed.

Lemma mk2E a b c d (x y : rat) : mk2 a b c d *m cv2 x y = cv2 (a * x + b * y) (c * x + d * y).
Proof. by rewrite /mk2 /cv2 mul_block_col -!scalar_mxM -!raddfD. Qed.

Lemma scalar1 (A : 'M[rat]_1) : A = (A 0 0)%:M.
Proof. by apply/matrixP=> i j; rewrite !ord1 !mxE eqxx mulr1n. Qed.

Lemma cv2_inj a b c d : cv2 a b = cv2 c d -> a = c /\ b = d.
Proof.
move/eq_col_mx => [/matrixP /(_ 0 0) e1 /matrixP /(_ 0 0) e2].
by move: e1 e2; rewrite !mxE !eqxx !mulr1n.
Qed.

Lemma cv2_add a b c d : cv2 a b + cv2 c d = cv2 (a + c) (b + d).
Proof. by rewrite /cv2 add_col_mx -!raddfD. Qed.

(** Example 1: a forward-looking control driven by an AR(1) state,
      z(t) = 1/2 z(t-1);   p(t) = 1/2 p(t+1) + z(t)
    and, while the constraint binds, p(t) = 1/4 p(t+1) + z(t) - 1. *)
Definition ex1 : sysmats [fieldType of rat] 1 1 :=
  SysMats (mk2 1 0 1 (1 %/q 2)) (mk2 (1 %/q 2) 0 0 1)
          (mk2 1 0 1 (1 %/q 4)) (mk2 (1 %/q 2) 0 0 1) (cv2 0 1).
Definition ex1_omg : 'M[rat]_(1, 1) := (2 %/q 3)%:M.
Definition ex1_lam : 'M[rat]_1 := (1 %/q 2)%:M.
Definition ex1_f : cnst [fieldType of rat] 1 1 := Cnst (0 : 'rV_1) (1%:M : 'rV_1) (0 : 'rV_1).

Lemma ex1_ok l_max k_max : exists t b, preprocess ex1 ex1_f ex1_omg ex1_lam l_max k_max = Ok (t, b).
Proof.
apply: preprocess_exog; rewrite /= /mk2 ?block_mxKur ?block_mxKul ?block_mxKdr ?raddf0 //;
 exact: unit1.
Qed.

Lemma ex1_blocks : ursubmx (mT ex1) = 0 /\ ursubmx (mW ex1) = 0.
Proof. by rewrite /= /mk2 !block_mxKur raddf0. Qed.

Lemma ex1_lsol : linear_solution (mS ex1) (mT ex1) ex1_omg ex1_lam.
Proof.
move=> q; rewrite [q]scalar1 /unconstrained /ex1_omg /ex1_lam -!scalar_mxM -!/(cv2 _ _) /=.
rewrite !mk2E; congr cv2.
  by rewrite mul1r mul0r addr0 mul0r addr0.
rewrite mul0r add0r !mul1r !mulrA -mulrDl; congr (_ * _).
Qed.

(** Example 2: an exogenous oscillating state and r = max(z, -1):
      z(t) = -1/2 z(t-1);  r(t) = z(t)  or  r(t) = -1. *)
Definition ex2 : sysmats [fieldType of rat] 1 1 :=
  SysMats (mk2 1 0 1 0) (mk2 (- (1 %/q 2)) 0 0 1)
          (mk2 1 0 0 0) (mk2 (- (1 %/q 2)) 0 0 1) (cv2 0 1).
Definition ex2_omg : 'M[rat]_(1, 1) := (- (1 %/q 2))%:M.
Definition ex2_lam : 'M[rat]_1 := (- (1 %/q 2))%:M.
Definition ex2_f : cnst [fieldType of rat] 1 1 := Cnst (1%:M : 'rV_1) (0 : 'rV_1) (0 : 'rV_1).

Lemma ex2_ok l_max k_max : exists t b, preprocess ex2 ex2_f ex2_omg ex2_lam l_max k_max = Ok (t, b).
Proof.
apply: preprocess_exog; rewrite /= /mk2 ?block_mxKur ?block_mxKul ?block_mxKdr ?raddf0 //;
 exact: unit1.
Qed.

Lemma ex2_blocks : ursubmx (mT ex2) = 0 /\ ursubmx (mW ex2) = 0.
Proof. by rewrite /= /mk2 !block_mxKur raddf0. Qed.

Lemma ex2_lsol : linear_solution (mS ex2) (mT ex2) ex2_omg ex2_lam.
Proof.
move=> q; rewrite [q]scalar1 /unconstrained /ex2_omg /ex2_lam -!scalar_mxM -!/(cv2 _ _) /=.
by rewrite !mk2E; congr cv2; rewrite ?mul1r ?mul0r ?addr0 ?add0r ?mul1r.
Qed.

Definition ex2_z (s : nat) : rat := (- (1 %/q 2)) ^+ s * 20%:Q.

Lemma ex2_path l k q p : obeys_schedule (mS ex2) (mT ex2) (mV ex2) (mW ex2) (mh ex2) l k q p ->
  q 0%N = (20%:Q)%:M -> forall s, q s = (ex2_z s)%:M.
Proof.
move=> H q0; elim=> [|s IH]; first by rewrite q0 /ex2_z expr0 mul1r.
have := H s; rewrite [q s.+1]scalar1 [p s.+1]scalar1 [p s]scalar1 IH /unconstrained /constrained /=.
rewrite -!/(cv2 _ _) !mk2E.
case: ifP => _; rewrite ?cv2_add => /cv2_inj [+ _];
 by rewrite mul1r !mul0r !addr0 => ->; rewrite mulrA -exprS.
Qed.

Definition ex2_N (l k s : nat) : rat := ex2_z s.+1.

Lemma ex2_notional l_max k_max :
  notional_on (mS ex2) (mT ex2) (mV ex2) (mW ex2) (mh ex2) ex2_omg (fq1 ex2_f) (fp1 ex2_f) (fq0 ex2_f)
    l_max k_max (20%:Q)%:M ex2_N.
Proof.
move=> l k q p _ _ [Ho _] q0 s.
by rewrite /notional /= !mul0mx addr0 add0r mul1mx (ex2_path Ho q0) mxE eqxx mulr1n.
Qed.

Lemma ex2_adm : admissible ex2_N (-1) 0 1.
Proof. by split. Qed.

Lemma ex2_hit Lm : ~ (forall s, (s < Lm.+1)%N -> (-1) < ex2_N 0 0 s).
Proof. by move/(_ 0%N isT). Qed.

Lemma ex2_outcome Lm Km l k fl : search_outcome ex2_N (-1) Lm.+1 Km.+2 l k fl -> (l, k, fl) = (0%N, 1%N, 0%N).
Proof.
have a := ex2_adm.
case=> {l k fl}.
- by move/ex2_hit.
- move=> l k _ [lL kK [k0 _ _ _ _] nf].
  case: l lL nf => [|l] lL nf; last by case: (nf 0%N 1%N isT isT _ a); left.
  case: k kK k0 nf => [|[|k]] // kK _ nf; by case: (nf 0%N 1%N isT isT _ a); right.
- by move=> k _ /(_ 0%N 1%N isT isT a).
- by move=> _ /(_ 0%N 1%N isT isT a).
Qed.
