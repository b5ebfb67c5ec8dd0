(** Property theorems C104: intervals of states and observables. *)
Set Warnings "-all".
From mathcomp Require Import all_ssreflect all_algebra.
From mathcomp Require Import all_real_closed.
From Verif Require Import M_Obs S_Obs.
Set Implicit Arguments. Unset Strict Implicit. Unset Printing Implicit Defensive.
Import GRing.Theory Num.Theory Order.TTheory.
Local Open Scope ring_scope.

Section C104.
Variable F : rcfType.
Variables T nx no : nat.
Implicit Types (H : 'M[F]_(no, nx)) (c : 'rV[F]_no) (x : 'M[F]_(T, nx)) (covs : 'I_T -> 'M[F]_nx).

Lemma k0 : 0 <= k196 F. Proof. by rewrite divr_ge0 // ler0n. Qed.
Lemma h100 : (100%:R : F) != 0. Proof. by rewrite pnatr_eq0. Qed.

Lemma bandE n (m s : 'M[F]_(T, n)) t i :
  ((band m s).1.1 t i = m t i - k196 F * s t i) * ((band m s).1.2 t i = m t i) * ((band m s).2 t i = m t i + k196 F * s t i).
Proof. by rewrite /= !mxE. Qed.

Lemma bandP n (m s : 'M[F]_(T, n)) t i v : 0 <= s t i -> s t i ^+ 2 = v ->
  interval95 ((band m s).1.1 t i) ((band m s).1.2 t i) ((band m s).2 t i) v.
Proof.
move=> s0 <-; have a0 : 0 <= k196 F * s t i by rewrite mulr_ge0 // k0.
split; rewrite /= !mxE.
- by rewrite ler_subl_addr !ler_addl a0.
- by rewrite addrC addKr opprB addrC addrNK.
- rewrite [_ + _ - _]addrAC subrr add0r exprMn mulrAC -exprMn; congr (_ ^+ 2 * _).
  by rewrite /k196 mulfVK // h100.
Qed.

(** the intervals of the states are 95% intervals *)
Theorem C104_states H c x covs t i : 0 <= covs t i i ->
  let iv := (o_func_covs H c x covs).2 in
  iv.1.2 = x /\ interval95 (iv.1.1 t i) (iv.1.2 t i) (iv.2 t i) (covs t i i).
Proof.
move=> v0 iv; split=> //; apply: bandP; rewrite mxE; first exact: sqrtr_ge0.
exact: sqr_sqrtr.
Qed.

Lemma var_row H (S : 'M[F]_nx) o : var_of (row o H) S = \sum_i \sum_j H o i * H o j * S i j.
Proof.
rewrite /var_of mxE exchange_big /=; apply: eq_bigr => j _; rewrite mxE big_distrl /=.
by apply: eq_bigr => i _; rewrite !mxE mulrAC.
Qed.

(** an observable that is a nonnegative multiple of one variable: its interval is the 95% interval *)
Theorem C104_one_variable H c x covs t o j : 0 <= covs t j j -> 0 <= H o j -> (forall i, i != j -> H o i = 0) ->
  let iv := (o_func_covs H c x covs).1 in
  iv.1.2 = obs H c x /\ interval95 (iv.1.1 t o) (iv.1.2 t o) (iv.2 t o) (var_of (row o H) (covs t)).
Proof.
move=> v0 h0 hz iv; split=> //.
have E : std_obs H covs t o = H o j * Num.sqrt (covs t j j).
  rewrite mxE mxE (bigD1 j) //= !mxE big1 ?addr0 // => i ij; by rewrite (hz i ij) mul0r.
apply: bandP; rewrite E; first by rewrite mulr_ge0 // sqrtr_ge0.
rewrite exprMn sqr_sqrtr // var_row (bigD1 j) //= [X in _ + X]big1 ?addr0.
  rewrite (bigD1 j) //= [X in _ + X]big1 ?addr0 ?expr2 // => i ij; by rewrite (hz i ij) mulr0 mul0r.
by move=> i ij; apply: big1 => k _; rewrite (hz i ij) !mul0r.
Qed.

Lemma affine (a d : F) : (forall b, 0 <= b * a + d) -> a = 0.
Proof.
move=> h; case: (eqVneq a 0) => // a0; have := h (- (d + 1) / a).
by rewrite mulfVK // opprD addrAC addNr add0r oppr_ge0 ler10.
Qed.

(** Cauchy-Schwarz *)
Lemma cov_le n (S : 'M[F]_n) i j : covariance S -> S i j <= Num.sqrt (S i i) * Num.sqrt (S j j).
Proof.
move=> [sy psd].
have sij : S j i = S i j by rewrite -{1}sy mxE.
have e k l : (row k S *m (delta_mx l 0 : 'cV_n)) 0 0 = S k l by rewrite -colE !mxE.
have e' k l : \sum_j row k S 0 j * (delta_mx l 0 : 'cV[F]_n) j 0 = S k l by rewrite -e mxE.
have q a b : 0 <= a ^+ 2 * S i i + (a * b * S i j) *+ 2 + b ^+ 2 * S j j.
  have := psd (a *: delta_mx 0 i + b *: delta_mx 0 j); congr (_ <= _).
  rewrite linearD /= !linearZ /= mulmxDl -!scalemxAl -!rowE mulmxDl !mulmxDr -!scalemxAl -!scalemxAr !trmx_delta.
  rewrite !mxE !e' sij !mulrA -!expr2 [b * a]mulrC.
  by rewrite mulr2n !addrA.
have di : 0 <= S i i.
  by have := q 1 0; rewrite !(mul0r, mulr0, mul1r, expr1n, expr0n, add0r, addr0, mul0rn).
have dj : 0 <= S j j.
  by have := q 0 1; rewrite !(mul0r, mulr0, mul1r, expr1n, expr0n, add0r, addr0, mul0rn).
set si := Num.sqrt (S i i); set sj := Num.sqrt (S j j).
have ei : S i i = si ^+ 2 by rewrite sqr_sqrtr.
have ej : S j j = sj ^+ 2 by rewrite sqr_sqrtr.
have i0 : 0 <= si by exact: sqrtr_ge0.
have j0 : 0 <= sj by exact: sqrtr_ge0.
case: (eqVneq si 0) => [s0|sn].
  have z : S i j *+ 2 = 0.
    apply: (@affine _ (S j j)) => b; have := q b 1.
    by rewrite ei s0 expr0n mulr0 add0r mulr1 expr1n mul1r -mulrnAr.
  by rewrite s0 mul0r; move/eqP: z; rewrite mulrn_eq0 /= => /eqP ->.
case: (eqVneq sj 0) => [t0|tn].
  have z : S i j *+ 2 = 0.
    apply: (@affine _ (S i i)) => b; have := q 1 b.
    by rewrite ej t0 expr0n mulr0 addr0 mul1r expr1n mul1r -mulrnAr addrC.
  by rewrite t0 mulr0; move/eqP: z; rewrite mulrn_eq0 /= => /eqP ->.
have p : 0 < si * sj by rewrite mulr_gt0 // lt0r ?sn ?tn.
have := q sj (- si); rewrite ei ej sqrrN -exprMn -[X in _ + X]exprMn [sj * si]mulrC mulrN mulNr [sj * si]mulrC.
rewrite addrAC -mulr2n mulNrn -mulrnBl pmulrn_lge0 // subr_ge0 expr2.
by rewrite ler_pmul2l.
Qed.

(** an observable with nonnegative loadings: its interval contains the 95% interval *)
Theorem C104_nonnegative_loadings H c x covs t o : covariance (covs t) -> (forall i, 0 <= H o i) ->
  let iv := (o_func_covs H c x covs).1 in
  iv.1.2 = obs H c x /\
  exists v, var_of (row o H) (covs t) <= v /\ interval95 (iv.1.1 t o) (iv.1.2 t o) (iv.2 t o) v.
Proof.
move=> cv h0 iv; split=> //; exists (std_obs H covs t o ^+ 2).
have E : std_obs H covs t o = \sum_i H o i * Num.sqrt (covs t i i).
  by rewrite mxE mxE; apply: eq_bigr => i _; rewrite !mxE.
split; last first.
  by apply: bandP => //; rewrite E; apply: sumr_ge0 => i _; rewrite mulr_ge0 // sqrtr_ge0.
rewrite var_row E expr2 big_distrl /=; apply: ler_sum => i _; rewrite big_distrr /=; apply: ler_sum => j _.
by rewrite mulrACA; apply: ler_wpmul2l; [rewrite mulr_ge0|exact: cov_le].
Qed.

(** with a negative loading the ends are swapped, and then the interval is empty *)
Theorem C104_negative_loading_refuted H c x covs t o j : 0 < covs t j j -> H o j < 0 -> (forall i, i != j -> H o i = 0) ->
  let iv := (o_func_covs H c x covs).1 in iv.2 t o < iv.1.2 t o /\ iv.1.2 t o < iv.1.1 t o.
Proof.
move=> v0 h0 hz; rewrite [(o_func_covs _ _ _ _).1]/(band (obs H c x) (std_obs H covs)) => iv.
rewrite !(bandE (obs H c x) (std_obs H covs)).
have E : std_obs H covs t o = H o j * Num.sqrt (covs t j j).
  rewrite mxE mxE (bigD1 j) //= !mxE big1 ?addr0 // => i ij; by rewrite (hz i ij) mul0r.
have p : 0 < k196 F by rewrite divr_gt0 // ltr0n.
rewrite E.
have n : k196 F * (H o j * Num.sqrt (covs t j j)) < 0.
  by rewrite pmulr_rlt0 // nmulr_rlt0 // sqrtr_gt0.
by rewrite gtr_addl ltr_addl oppr_gt0.
Qed.
End C104.
Print Assumptions C104_states.
Print Assumptions C104_one_variable.
Print Assumptions C104_nonnegative_loadings.
Print Assumptions C104_negative_loading_refuted.

(** The hypotheses can be met: two states with correlation one half, three observables; the first is twice a state,
    the second the sum of both states and the third the negative of a state. *)
Section Ex.
Variable F : rcfType.
Let S : 'M[F]_2 := \matrix_(i, j) (if i == j then 2%:R else 1).
Let H : 'M[F]_(3, 2) := \matrix_(o, i)
  (if o == 0 then (if i == 0 then 2%:R else 0) else if o == 1 then 1 else if i == 0 then - 1 else 0).

Example C104_ex_covariance : covariance S.
Proof.
split; first by apply/matrixP => i j; rewrite !mxE eq_sym.
move=> v; rewrite !mxE !big_ord_recl big_ord0 !mxE !big_ord_recl !big_ord0 !mxE /= !addr0.
set a := v 0 ord0; set b := v 0 _.
have -> : (a * 2%:R + b * 1) * a + (a * 1 + b * 2%:R) * b = a ^+ 2 + b ^+ 2 + (a + b) ^+ 2.
  rewrite !mulr1 !mulr_natr !mulr2n !mulrDl -!expr2 sqrrD [b * a]mulrC !mulr2n !addrA.
  by rewrite [RHS](ACl (1 * 3 * 4 * 5 * 2 * 6)).
by rewrite !addr_ge0 // sqr_ge0.
Qed.

Example C104_ex_one : [/\ 0 <= S 0 0, 0 <= H 0 0 & forall i, i != 0 -> H 0 i = 0].
Proof. by split; rewrite ?mxE /= ?ler0n // => i i0; rewrite mxE /= (negbTE i0). Qed.

Example C104_ex_sum : forall i, 0 <= H 1 i.
Proof. by move=> i; rewrite mxE /= ler01. Qed.

Example C104_ex_negative : [/\ 0 < S 0 0, H 2%:R 0 < 0 & forall i, i != 0 -> H 2%:R i = 0].
Proof. by split; rewrite ?mxE /= ?ltr0n ?oppr_lt0 ?ltr01 // => i i0; rewrite mxE /= (negbTE i0). Qed.
End Ex.
