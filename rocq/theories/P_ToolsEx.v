(** A concrete solved model: z(t) = 1/2 z(t-1) + e(t), r(t) = max(z(t), -1). *)
Set Warnings "-all".
From Coq Require Import String.
From mathcomp Require Import all_ssreflect all_algebra.
From Verif Require Import PyBase PyStr M_FindLk M_Engine S_Engine P_EngineEx M_Tools S_Tools T_Engine.
Set Implicit Arguments. Unset Strict Implicit. Unset Printing Implicit Defensive.
Import GRing.Theory Num.Theory Order.TTheory.
Local Open Scope ring_scope.

Definition ex3_A : 'M[rat]_2 := \matrix_(i, j) (if i == 0 then if j == 0 then 1 / 2%:Q else 1 else 0).
Definition ex3_r : 'M[rat]_(1, 2) := \matrix_(i, j) (j == 0)%:R.
Definition ex3 : sysmats [realFieldType of rat] 2 1 :=
  @SysMats _ 2 1 (block_mx 1%:M 0 ex3_r 0) (block_mx ex3_A 0 0 1%:M)
          (block_mx 1%:M 0 0 0) (block_mx ex3_A 0 0 1%:M) (col_mx 0 1%:M).
Definition ex3_omg : 'M[rat]_(1, 2) := ex3_r *m ex3_A.
(** the notional value is z, or (for traj) r itself *)
Definition ex3_f : cnst [realFieldType of rat] 2 1 := @Cnst _ 2 1 ex3_r 0 0.
Definition ex3_fr : cnst [realFieldType of rat] 2 1 := @Cnst _ 2 1 0 1%:M 0.

Definition ex3_m t b : tmodel [realFieldType of rat] :=
  @TM _ 2 1 t b 2 3 (-1) [:: "e"%string] 2 1 (\matrix_(i, j) (i == 0)%:R) (\matrix_(i, j) (i != 0)%:R) 0
    [:: "r"%string; "z"%string].

Lemma ex3_ne t b : neps (ex3_m t b) = 1%N. Proof. by []. Qed.
Lemma ex3_nq t b : nq (ex3_m t b) = 1%N. Proof. by []. Qed.

Lemma ex3_lsol : linear_solution (mS ex3) (mT ex3) ex3_omg ex3_A.
Proof.
move=> q; rewrite /unconstrained /= !mul_block_col !mul0mx !mul1mx !addr0 !add0r.
by rewrite /ex3_omg mulmxA.
Qed.

Lemma ex3_solved (f : cnst [realFieldType of rat] 2 1) : exists t b, @solved _ (ex3_m t b) ex3 f ex3_omg ex3_A.
Proof.
have u1 n : (1%:M : 'M[rat]_n) \in unitmx by exact: unitmx1.
have [||||||t [b e]] := @preprocess_exog _ 2 1 ex3 f ex3_omg ex3_A 2 3; rewrite /= ?block_mxKur ?block_mxKul ?block_mxKdr //.
exists t, b; split=> //=; rewrite ?block_mxKur //; exact: ex3_lsol.
Qed.

Lemma ex3_noshock : no_expected_shocks ex3 1.
Proof.
move=> q q' p p' H i hi.
have e : q' = ex3_A *m q.
  case: H; rewrite /unconstrained /constrained /= !mul_block_col !mul0mx !mul1mx ?addr0 ?add0r.
    by case/eq_col_mx.
  by rewrite add_col_mx !addr0 => /eq_col_mx [].
rewrite e mxE big1 // => j _; rewrite mxE.
by rewrite (_ : (i == 0) = false) ?mul0r //; apply/negbTE; apply: contraTneq hi => ->.
Qed.

(** the control is at the bound, -1, while the constraint binds and z otherwise *)
Lemma ex3_p l k q p s : obeys_schedule (mS ex3) (mT ex3) (mV ex3) (mW ex3) (mh ex3) l k q p ->
  p s = if binds l k s then - 1%:M else ex3_r *m q s.+1.
Proof.
move/(_ s); case: binds; rewrite /unconstrained /constrained /= !mul_block_col !mul0mx !mul1mx ?addr0 ?add0r.
  by rewrite add_col_mx => /eq_col_mx [_ /eqP]; rewrite eq_sym addr_eq0 => /eqP.
by case/eq_col_mx.
Qed.

Lemma ex3_path l k (v : 'cV[rat]_2) : (l <= 2)%N -> (k <= 3)%N -> exists q p, q 0%N = v /\ announced_by ex3 ex3_omg l k q p.
Proof.
move=> ll kk; have [t [b [e h1 h2 h3 _ _ _ _ _]]] := ex3_solved ex3_f.
have [rules [_ H]] := C01_announced_paths_solve_the_model e h1 h2 h3.
have [ex an] := H l k ll kk; have [q [p [q0 fo]]] := ex v.
by exists q, p; split=> //; apply: an.
Qed.

(** r itself in period 0, from rest: 0 on the (0,0) path, -1 on the (0,1) path *)
Lemma ex3_N N : notional_on (mS ex3) (mT ex3) (mV ex3) (mW ex3) (mh ex3) ex3_omg (fq1 ex3_fr) (fp1 ex3_fr) (fq0 ex3_fr)
    2 3 0 N -> N 0%N 0%N 0%N <> N 0%N 1%N 0%N.
Proof.
move=> NE; have [q [p [q0 a0]]] := @ex3_path 0 0 0 isT isT; have [q' [p' [q0' a1]]] := @ex3_path 0 1 0 isT isT.
rewrite (NE 0%N 0%N q p isT isT a0 q0 0%N) (NE 0%N 1%N q' p' isT isT a1 q0' 0%N).
case: a0 a1 => o0 c0 [o1 c1].
rewrite /notional /= !mul0mx !addr0 !mul1mx (c0 0%N) // (ex3_p 0 o1) [binds _ _ _]/= q0 mulmx0.
by rewrite !mxE.
Qed.
