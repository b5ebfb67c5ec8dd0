(** Proofs about systems with small coefficients (C118). *)
Set Warnings "-all".
From Coq Require Import String.
From mathcomp Require Import all_ssreflect all_algebra.
From Verif Require Import PyBase PyStr M_Engine M_GenSys M_Full S_Inv.
Set Implicit Arguments. Unset Strict Implicit. Unset Printing Implicit Defensive.
Import Order.Theory GRing.Theory Num.Theory.
Local Open Scope ring_scope.

Section Small.
Variable F : realFieldType.
Definition total (r c : nat) (A : 'M[F]_(r, c)) : F := \sum_i \sum_j `|A i j|.
Lemma total_ge0 r c (A : 'M[F]_(r, c)) : 0 <= total A.
Proof. by apply: sumr_ge0 => i _; apply: sumr_ge0. Qed.
Lemma le_total r c (A : 'M[F]_(r, c)) i j : `|A i j| <= total A.
Proof.
rewrite /total (bigD1 i) //= (bigD1 j) //= -addrA ler_addl addr_ge0 //; last by apply: sumr_ge0 => k _; apply: sumr_ge0.
by apply: sumr_ge0.
Qed.

Lemma small_masks (tol : F) m n e (u : usys F m n e) j0 : 0 < tol ->
  (forall j, fast0 tol (AA0 u) j) -> (forall j, fast0 tol (BB0 u) j) -> (forall j, fast0 tol (CC0 u) j) -> fc0 u 0 j0 = 0 ->
  (dimq tol u + dimp tol u < n + na tol u + e)%N.
Proof.
move=> tp sA sB sC f0.
pose P (j : 'I_(n + na tol u + e)) := inq (tol:=tol) (u:=u) j || inp (tol:=tol) (u:=u) j.
have -> : (dimq tol u + dimp tol u)%N = #|P|.
  rewrite /dimq /dimp -cardUI [X in (_ + X)%N](_ : _ = 0%N) ?addn0.
    by apply: eq_card => j; rewrite !inE.
  apply: eq_card0 => j; rewrite !inE; apply/negbTE/negP => /andP [h1]; rewrite -topredE /= /inp => /andP [_ /negP] h2.
  exact: h2.
pose j1 : 'I_(n + na tol u + e) := lshift e (lshift (na tol u) j0).
have nP : ~~ P j1.
  have z : `|0 : F| < tol by rewrite normr0.
  rewrite /P /inp.
  have q : ~~ inq (tol:=tol) (u:=u) j1.
    rewrite /inq negb_or !negbK; apply/andP; split.
      apply/forallP=> i; rewrite /CC2 -[i]splitK; case: (split i) => i1 /=; last by rewrite block_mxEdl mxE.
      rewrite block_mxEul /CC1 -[i1]splitK; case: (split i1) => i2 /=; last by rewrite block_mxEdl mxE.
      rewrite block_mxEul mxE; case: ifP => // _; exact: (forallP (sC j0)).
    have op c (A : 'rV[F]_c) j : (- A) 0 j = - A 0 j by rewrite mxE.
    have r0 : row_mx (fcn u) (0 : 'rV_(na tol u)) 0 (lshift (na tol u) j0) = 0 by rewrite row_mxEl /fcn mxE f0 mulr0.
    by rewrite /fc2 /j1; case: (fd0 u) => [fd|]; rewrite ?op row_mxEl r0 ?oppr0.
  rewrite negb_or q /= negb_and negb_or !negbK; apply/orP; left; apply/andP; split.
    apply/forallP=> i; rewrite /AA2 -[i]splitK; case: (split i) => i1 /=; last by rewrite block_mxEdl mxE.
    rewrite block_mxEul /AA1 -[i1]splitK; case: (split i1) => i2 /=; last by rewrite block_mxEdl mxE.
    rewrite block_mxEul; exact: (forallP (sA j0)).
  apply/forallP=> i; rewrite /BB2 -[i]splitK; case: (split i) => i1 /=; last by rewrite block_mxEdl mxE.
  rewrite block_mxEul /BB1 -[i1]splitK; case: (split i1) => i2 /=.
    rewrite block_mxEul; exact: (forallP (sB j0)).
  rewrite block_mxEdl /lagsel !mxE.
  have : inall tol u (enum_val i2) by have := enum_valP i2.
  by rewrite /inall sA.
rewrite -[X in (_ < X)%N]card_ord; apply: proper_card; apply/properP; split; first by apply/subsetP.
by exists j1.
Qed.

(** small enough coefficients *)
Lemma small_scale (tol : F) r c (A : 'M[F]_(r, c)) (t K : F) j : 0 < tol -> total A < K -> 0 < t <= tol / K -> fast0 tol (t%:M *m A) j.
Proof.
move=> tp tK /andP [t0 tl]; have K0 : 0 < K := le_lt_trans (total_ge0 A) tK.
apply/forallP=> i; rewrite mul_scalar_mx mxE normrM (gtr0_norm t0).
apply: (le_lt_trans (y := t * total A)); first by rewrite ler_pmul2l // le_total.
apply: (lt_le_trans (y := t * K)); first by rewrite ltr_pmul2l.
by rewrite -ler_pdivl_mulr.
Qed.

End Small.
