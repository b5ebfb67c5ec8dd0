(** Concrete models used as examples and counterexamples for the gensys theorems. *)
Set Warnings "-all".
From Coq Require Import String.
From mathcomp Require Import all_ssreflect all_algebra.
From Verif Require Import PyBase PyStr M_Engine S_Engine M_GenSys S_GenSys S_GenSys2 P_GenSys P_GenSys5 P_GenSys6.
Set Implicit Arguments. Unset Strict Implicit. Unset Printing Implicit Defensive.
Import GRing.Theory Num.Theory Order.TTheory.
Local Open Scope ring_scope.

Section Ex.
Variable F : realFieldType.

(** one row, two columns *)
Definition row2 (a b : F) : 'M[F]_(1, 1 + 1) := row_mx a%:M b%:M.
Definition col2 (a b : F) : 'cV[F]_(1 + 1) := col_mx a%:M b%:M.
Definition one1 (a : F) : 'M[F]_(1, 1) := a%:M.
Definition xv : 'I_(1 + 1) := lshift 1 0.
Definition rv : 'I_(1 + 1) := rshift 1 0.

Lemma row2x a b i : row2 a b i xv = a.
Proof. by rewrite /row2 /xv row_mxEl !ord1 mxE eqxx mulr1n. Qed.
Lemma row2r a b i : row2 a b i rv = b.
Proof. by rewrite /row2 /rv row_mxEr !ord1 mxE eqxx mulr1n. Qed.
Lemma xr (j : 'I_(1 + 1)) : j = xv \/ j = rv.
Proof. by case: (split_ordP j) => i ->; rewrite ord1; [left|right]. Qed.
Lemma row2_col a b c d : row2 a b *m col2 c d = one1 (a * c + b * d).
Proof. by rewrite /row2 /col2 mul_row_col -!scalar_mxM -!raddfD. Qed.
Lemma one1M a b : one1 a *m one1 b = one1 (a * b).
Proof. by rewrite /one1 -scalar_mxM. Qed.
Lemma one1D a b : one1 a + one1 b = one1 (a + b).
Proof. by rewrite /one1 -raddfD. Qed.
Lemma one1_0 : one1 0 = 0.
Proof. by rewrite /one1 raddf0. Qed.
Lemma one1_inj a b : one1 a = one1 b -> a = b.
Proof. by move/matrixP/(_ 0 0); rewrite !mxE eqxx !mulr1n. Qed.
Lemma col2E (v : 'cV[F]_(1 + 1)) : v = col2 (v xv 0) (v rv 0).
Proof.
apply/matrixP=> i j; rewrite ord1; case: (xr i) => ->.
  by rewrite {2}/xv /col2 col_mxEu mxE eqxx mulr1n.
by rewrite {2}/rv /col2 col_mxEd mxE eqxx mulr1n.
Qed.
Lemma col2x a b : col2 a b xv 0 = a.
Proof. by rewrite /col2 /xv col_mxEu mxE eqxx mulr1n. Qed.
Lemma col2r a b : col2 a b rv 0 = b.
Proof. by rewrite /col2 /rv col_mxEd mxE eqxx mulr1n. Qed.
Lemma row2Z c a b : c *: row2 a b = row2 (c * a) (c * b).
Proof. by rewrite /row2 scale_row_mx !scale_scalar_mx. Qed.
Lemma row2N a b : - row2 a b = row2 (- a) (- b).
Proof. by rewrite /row2 opp_row_mx -!raddfN. Qed.
Lemma row2_00 : row2 0 0 = 0.
Proof. by rewrite /row2 raddf0 row_mx0. Qed.

Definition tol : F := 100%:R^-1.
Lemma tol_ok : 0 < tol <= 1.
Proof. by rewrite /tol invr_gt0 ltr0n /= invf_le1 ?ltr0n // ler1n. Qed.

Definition big (a : F) : bool := (a == 0) || (1 <= `|a|).
Lemma clean_row2 a b : big a -> big b -> clean tol (row2 a b).
Proof.
have [t0 t1] := andP tol_ok.
move=> ha hb i j; case: (xr j) => ->; rewrite ?row2x ?row2r.
  by case/orP: ha => [/eqP ->|h]; [left|right; apply: le_trans h].
by case/orP: hb => [/eqP ->|h]; [left|right; apply: le_trans h].
Qed.
Lemma clean_one1 a : big a -> clean tol (one1 a).
Proof.
have [t0 t1] := andP tol_ok.
by move=> /orP ha i j; rewrite !ord1 mxE eqxx mulr1n; case: ha => [/eqP ->|h]; [left|right; apply: le_trans h].
Qed.
Lemma big0 : big 0. Proof. by rewrite /big eqxx. Qed.
Lemma bign n : big n%:R.
Proof. by rewrite /big normr_nat; case: n => [|n]; rewrite ?eqxx // ler1n orbT. Qed.
Lemma bigNn n : big (- n%:R).
Proof. by rewrite /big normrN oppr_eq0; exact: bign. Qed.
Lemma big1 : big 1. Proof. exact: (bign 1). Qed.
Lemma bigN1 : big (- 1). Proof. exact: (bigNn 1). Qed.

Lemma unit2 a b c d : a * d - b * c != 0 -> (col_mx (row2 a b) (row2 c d) : 'M[F]_(1 + 1)) \in unitmx.
Proof.
move=> D; apply: inj_unit => v; rewrite [v]col2E; move: (v xv 0) (v rv 0) => x y.
rewrite mul_col_mx !row2_col => /col_mx_eq0P; rewrite -one1_0 => -[/one1_inj e1 /one1_inj e2].
have hx : (a * d - b * c) * x = 0.
  have -> : (a * d - b * c) * x = d * (a * x + b * y) - b * (c * x + d * y).
    rewrite !mulrDr mulrBl [d * (b * y)]mulrCA [b * (c * x) + _]addrC addrKA.
    by rewrite [a * d]mulrC -!mulrA.
  by rewrite e1 e2 !mulr0 subr0.
have hy : (a * d - b * c) * y = 0.
  have -> : (a * d - b * c) * y = a * (c * x + d * y) - c * (a * x + b * y).
    rewrite !mulrDr mulrBl [a * (c * x)]mulrCA [c * (a * x) + a * _]addrC addrKA.
    by rewrite [b * c]mulrC -!mulrA.
  by rewrite e1 e2 !mulr0 subr0.
move/eqP: hx; rewrite mulf_eq0 (negbTE D) /= => /eqP ->.
move/eqP: hy; rewrite mulf_eq0 (negbTE D) /= => /eqP ->.
by rewrite /col2 raddf0 col_mx0.
Qed.

(** A hybrid model with one shock:
      - x(t+1) + x(t) + r(t) - x(t-1) - eps(t) = 0,   constraint 2 r(t) = 3 x(t). *)
Definition exH : usys F 1 (1 + 1) 1 :=
  USys (row2 (-1) 0) (row2 1 1) (row2 (-1) 0) (one1 (-1)) (row2 (-3%:R) 2%:R) (row2 0 0) (Some (one1 0)) rv (-1).

Lemma exH_ws : well_scaled exH tol.
Proof.
split; rewrite /= ?row2Z ?mulr0 ?tol_ok //; try split;
  try apply: clean_row2; try apply: clean_one1; rewrite ?big0 ?big1 ?bigN1 //.
Qed.
Lemma exH_cc : constraint_connected exH.
Proof.
split; first by rewrite /own_coef /= row2r pnatr_eq0.
by move=> j _; right; left; exists 0; case: (xr j) => -> /=; rewrite ?row2x ?row2r oner_eq0.
Qed.
Lemma exH_nll : no_lead_lag exH.
Proof. by move=> j _ /=; rewrite row2_00 mxE. Qed.
Lemma exH_en : encodable exH.
Proof. by split=> /=; [exact: row2_00|left; exact: one1_0]. Qed.

(** x(t) = 2^(t+1), r(t) = 3/2 x(t) is a solution without shocks *)
Definition exH_x (s : nat) : 'cV[F]_(1 + 1) := col2 (2%:R ^+ s) (if s is s'.+1 then 3%:R * 2%:R ^+ s' else 0).
Definition exH_eps (s : nat) : 'cV[F]_1 := 0.

Lemma exH_sol : no_future_shocks exH_eps /\ solves_user exH (fun _ => false) exH_x exH_eps.
Proof.
split=> // s.
rewrite /model_equations /slack_equation /= /exH_x /exH_eps !mulmx0 !addr0 row2_00 mul0mx addr0 !row2_col !one1D; split.
  rewrite !mul0r !addr0 !mul1r !mulN1r -one1_0; congr one1.
  rewrite !exprS mulrA -mulrDl -!mulNr -!mulrDl -[X in _ - X]mul1r -mulrBl.
  by rewrite mulNr -natrM -natrD -addrA -[X in _ + (_ - X)]/(1%:R) -natrB // addNr mul0r.
by rewrite -one1_0; congr one1; rewrite exprS mulNr mulrCA addNr.
Qed.

(** A purely backward-looking model:
      x(t) + r(t) - x(t-1) - eps(t) = 0,   constraint 2 r(t) = 3 x(t). *)
Definition exB : usys F 1 (1 + 1) 1 :=
  USys 0 (row2 1 1) (row2 (-1) 0) (one1 (-1)) (row2 (-3%:R) 2%:R) 0 (Some 0) rv (-1).

Lemma exB_ws : well_scaled exB tol.
Proof.
split; rewrite /= ?tol_ok //; try split; rewrite ?scaler0;
  try apply: clean_row2; try apply: clean_one1; try apply: clean0; rewrite ?big0 ?big1 ?bigN1 //.
Qed.
Lemma exB_cc : constraint_connected exB.
Proof.
split; first by rewrite /own_coef /= row2r pnatr_eq0.
by move=> j _; right; left; exists 0; case: (xr j) => -> /=; rewrite ?row2x ?row2r oner_eq0.
Qed.
Lemma exB_nll : no_lead_lag exB.
Proof. by move=> j _ /=; rewrite mxE. Qed.
Lemma exB_en : encodable exB.
Proof. by split=> //; left. Qed.

Lemma exB_ok (rq : forall d, 'M[F]_d -> 'M[F]_d * 'M[F]_d) f l_max k_max : (forall d, is_rq (@rq d)) ->
  exists sm omg lam t b,
  [/\ sys_of tol exB rq = Ok sm, linear_solution (mS sm) (mT sm) omg lam &
      preprocess sm f omg lam l_max k_max = Ok (t, b)].
Proof.
move=> rqP; have [t0 t1] := andP tol_ok.
apply: (@backward_ok _ tol _ _ exB) => //.
- exact: (cB exB_ws).
- exact: (cC exB_ws).
- exact: (cD exB_ws).
- exact: (occ exB_cc).
- rewrite /fbn /= row2r row2Z; apply: unit2.
  rewrite !mul1r -mulrBr opprK -natrD mulf_neq0 ?oppr_eq0 ?invr_eq0 ?pnatr_eq0 //.
- have -> : delta_mx 0 rv = row2 0 1.
    by apply/matrixP=> i j; rewrite (ord1 i); case: (xr j) => ->; rewrite ?row2x ?row2r [LHS]mxE ?eqxx // /xv /rv eq_lrshift.
  by apply: unit2; rewrite mulr0 mulr1 subr0 oner_eq0.
Qed.

(** A variable with a lead in the model and a lag in the constraint:
      x(t+1) + x(t) + r(t) = 0,   constraint r(t) + x(t-1) = 0. *)
Definition exL : usys F 1 (1 + 1) 1 :=
  USys (row2 1 0) (row2 1 1) 0 0 (row2 0 1) (row2 1 0) None rv (-1).
Definition exL_x (s : nat) : 'cV[F]_(1 + 1) := col2 1 (-1).

Lemma exL_ws : well_scaled exL tol.
Proof.
split; rewrite /= ?tol_ok //; try split; rewrite /own_coef /= ?row2r ?invr1 ?scale1r;
  try apply: clean_row2; try apply: clean0; rewrite ?big0 ?big1 //.
Qed.
Lemma exL_cc : constraint_connected exL.
Proof.
split; first by rewrite /own_coef /= row2r oner_eq0.
by move=> j _; right; left; exists 0; case: (xr j) => -> /=; rewrite ?row2x ?row2r oner_eq0.
Qed.
Lemma exL_bad :
  solves (AAeff exL) (BB0 exL) (CC0 exL) (DD0 exL) (fbn exL) (fcE exL) (fdE exL) (cv exL) (x_bar exL)
    (fun _ => false) exL_x exH_eps /\ ~ solves_user exL (fun _ => false) exL_x exH_eps.
Proof.
split=> [s|].
  have -> : AAeff exL = 0.
    apply/matrixP=> i j; rewrite [LHS]mxE [RHS]mxE /fcE /= /fcn /= row2r invr1 scaleN1r row2N.
    case: (xr j) => ->; rewrite ?row2x ?row2r ?oppr0; last by case: eqP.
    by rewrite oppr_eq0 oner_eq0.
  rewrite /model_equations /slack_equation /fcE /fdE /fbn /fcn /= row2r invr1 !scaleN1r !row2N.
  by rewrite !mul0mx !addr0 add0r !row2_col one1D; split; rewrite -one1_0; congr one1; rewrite ?mul1r ?oppr0 ?mul0r ?addr0 ?add0r ?mulr1 ?mulrNN ?mulr1 ?addrN ?subrr.
move/(_ 0%N) => [h _]; move: h; rewrite /model_equations /= !mul0mx !addr0 !row2_col one1D -one1_0 => /one1_inj /eqP.
by rewrite !mul1r mul0r addr0 subrr addr0 oner_eq0.
Qed.

(** The constrained variable occurs in the constraint only:
      x(t) - x(t-1) - eps(t) = 0,   constraint r(t) = x(t). *)
Definition exM : usys F 1 (1 + 1) 1 :=
  USys 0 (row2 1 0) (row2 (-1) 0) (one1 (-1)) (row2 (-1) 1) 0 (Some 0) rv (-1).

(** A shock whose loading is zero at the current parameters *)
Definition exS : usys F 1 (1 + 1) 1 :=
  USys 0 (row2 1 1) (row2 (-1) 0) (one1 0) (row2 (-3%:R) 2%:R) 0 (Some 0) rv (-1).
End Ex.
