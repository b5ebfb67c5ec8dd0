(** A concrete model with as many variables as shocks: z(t) = 1/2 z(t-1) + 2 e(t), r(t) = max(2 u(t), -1), and a solver of the
    Lyapunov equation for a single state. *)
Set Warnings "-all".
From Coq Require Import String.
From mathcomp Require Import all_ssreflect all_algebra.
From Verif Require Import PyBase PyStr M_FindLk M_Engine S_Engine P_EngineEx M_Tools S_Tools P_Tools P_ToolsEx M_Filter S_Filter P_Filter.
Set Implicit Arguments. Unset Strict Implicit. Unset Printing Implicit Defensive.
Import GRing.Theory Num.Theory Order.TTheory.
Local Open Scope ring_scope.

Definition ef_A : 'M[rat]_3 := \matrix_(i, j) (if i == 0 then nth 0 [:: 1 / 2%:Q; 2%:Q; 0] j else 0).
Definition ef_B : 'M[rat]_(1, 3) := \matrix_(i, j) nth 0 [:: 0; 0; 2%:Q] j.
Definition ef : sysmats [realFieldType of rat] 3 1 :=
  @SysMats _ 3 1 (block_mx 1%:M 0 0 0) (block_mx ef_A 0 (- ef_B) 1%:M)
          (block_mx 1%:M 0 0 0) (block_mx ef_A 0 0 1%:M) (col_mx 0 1%:M).
Definition ef_f : cnst [realFieldType of rat] 3 1 := @Cnst _ 3 1 0 1%:M 0.
Definition ef_m t b : tmodel [realFieldType of rat] :=
  @TM _ 3 1 t b 2 3 (-1) [:: "e"%string; "u"%string] 2 1 (\matrix_(i, j) (i == 0)%:R) (\matrix_(i, j) (i != 0)%:R) 0
    [:: "r"%string; "z"%string].

Lemma ef_lsol : linear_solution (mS ef) (mT ef) ef_B ef_A.
Proof.
move=> q; rewrite /unconstrained /= !mul_block_col !mul0mx !mul1mx !addr0 mulNmx ?mul0mx ?add0r.
by rewrite [- _ + _]addrC subrr.
Qed.

Lemma ef_solved : exists t b, lsolved (ef_m t b) /\ cell10 (ef_m t b) = Ok (Cell ef_B 0 ef_A 0).
Proof.
have [||||||t [b e]] := @preprocess_exog _ 3 1 ef ef_f ef_B ef_A 2 3; rewrite /= ?block_mxKur ?block_mxKul ?block_mxKdr ?unitmx1 //.
have h1 : ursubmx (mT ef) = 0 by rewrite /= block_mxKur.
have h2 : ursubmx (mW ef) = 0 by rewrite /= block_mxKur.
exists t, b; split; first by eapply (@LSolved _ (ef_m t b) ef ef_f ef_B ef_A e h1 h2 ef_lsol).
by rewrite /cell10 /= (T_Engine.C11_k0_entries_linear e h1 h2 ef_lsol).
Qed.

Lemma ex3_lsolved : exists t b, lsolved (ex3_m t b).
Proof.
by have [t [b [e h1 h2 h3 h4 h5 _ _ _]]] := ex3_solved ex3_f; exists t, b; eapply (@LSolved _ (ex3_m t b) ex3 ex3_f ex3_omg ex3_A).
Qed.

Definition lyap_sc n (A Q : 'M[rat]_n) : res 'M[rat]_n :=
  let a := mget A 0 0 in
  if (A == a%:M) && (a ^+ 2 != 1) then Ok ((1 - a ^+ 2)^-1 *: Q) else Err LinAlgErr.
Lemma lyap_sc_sound : sound_lyap (F := [realFieldType of rat]) lyap_sc.
Proof.
move=> n A Q X; rewrite /lyap_sc /solves_lyap; case: ifP => // /andP [/eqP eA ne] [<-].
set a := mget A 0 0 in eA ne *; rewrite eA tr_scalar_mx mul_scalar_mx mul_mx_scalar !scalerA.
set u := (1 - _)^-1; rewrite -{3}[Q]scale1r -scalerDl.
congr (_ *: _); have nz : 1 - a ^+ 2 != 0 by rewrite subr_eq0 eq_sym.
by rewrite -expr2 -[X in _ = _ + X](mulfV nz) -/u -mulrDl [a ^+ 2 + _]addrC subrK mul1r.
Qed.

Lemma mget_lt (F : ringType) a b (A : 'M[F]_(a, b)) i j (hi : (i < a)%N) (hj : (j < b)%N) : mget A i j = A (Ordinal hi) (Ordinal hj).
Proof. by rewrite /mget !insubT. Qed.
(** the effect of the shocks *)
Lemma ef_E t b : E_of (m := ef_m t b) (Cell ef_B 0 ef_A 0) = \matrix_(i, j) (if i == j :> nat then 0 else 2%:Q).
Proof.
have l3 : (1 < 3)%N && (2 < 3)%N by [].
apply/matrixP=> i j; rewrite /E_of [LHS]mxE [RHS]mxE; case: splitP => k ek; rewrite mxE add0n ek; case: k ek => -[|] //= lk ek.
  case: j => -[|[|]] //= lj; first by rewrite (@mget_lt _ _ _ ef_B 0 1 isT isT) mxE.
  by rewrite (@mget_lt _ _ _ ef_B 0 2 isT isT) mxE.
case: j => -[|[|]] //= lj; first by rewrite (@mget_lt _ _ _ ef_A 0 1 isT isT) mxE.
by rewrite (@mget_lt _ _ _ ef_A 0 2 isT isT) mxE.
Qed.

Lemma ef_distinct t b : lsolved (ef_m t b) -> cell10 (ef_m t b) = Ok (Cell ef_B 0 ef_A 0) -> distinct_effects (ef_m t b).
Proof.
move=> ls hc; apply: (distinct_of ls hc) => v v'; rewrite ef_E => H.
have {H} : forall i : 'I_2, (\matrix_(i < 2, j < 2) (if i == j :> nat then 0 else 2%:Q) *m v) i 0 = (\matrix_(i < 2, j < 2) (if i == j :> nat then 0 else 2%:Q) *m v') i 0.
  by move=> i; rewrite [in LHS]H.
move: v v'; rewrite /neps [size _]/= => v v' H; have := H 0; have := H 1.
rewrite !mxE !big_ord_recl !big_ord0 !mxE /= !mul0r !addr0 !add0r => h0 h1.
have two : 2%:Q != 0 by [].
have {}h0 := mulfI two h0; have {}h1 := mulfI two h1.
apply/matrixP=> i j; rewrite (ord1 j); case: i => -[|[|]] // lt.
  by rewrite (_ : Ordinal lt = 0) //; apply: val_inj.
by rewrite (_ : Ordinal lt = lift ord0 0) //; apply: val_inj.
Qed.

Definition ef_E2 : 'M[rat]_2 := \matrix_(i, j) (if i == j :> nat then 0 else 2%:Q).
Lemma ef_EE (a : rat) : ef_E2 *m a%:M *m ef_E2^T = (4%:Q * a)%:M.
Proof.
rewrite mul_mx_scalar -scalemxAl (_ : ef_E2 *m ef_E2^T = (4%:Q)%:M); first by rewrite scale_scalar_mx mulrC.
apply/matrixP=> i j; rewrite mxE big_ord_recl big_ord_recl big_ord0 !mxE addr0; case: i => -[|[|]] // li; case: j => -[|[|]] // lj; by rewrite /= ?mul0r ?mulr0 ?addr0 ?add0r.
Qed.
Lemma ef_ne : Sq (4%:Q%:M : 'M[[realFieldType of rat]]_2) <> Sq (16%:Q%:M : 'M[[realFieldType of rat]]_2).
Proof. by move/(congr1 (as_size 2)); rewrite !as_size_same => -[] /matrixP /(_ 0 0); rewrite !mxE. Qed.

Lemma ef_state (Q : 'M[rat]_1) : exists X, lyap_sc (slice ef_A 0 1 0 1) Q = Ok X.
Proof.
have -> : slice ef_A 0 1 0 1 = (1 / 2%:Q)%:M.
  apply/matrixP=> i j; rewrite !ord1 !mxE (@mget_lt _ _ _ ef_A 0 0 isT isT) mxE //.
rewrite /lyap_sc (_ : mget _ 0 0 = 1 / 2%:Q); last by rewrite (@mget_lt _ 1 1 _ 0 0 isT isT) mxE.
by rewrite eqxx; eexists.
Qed.
