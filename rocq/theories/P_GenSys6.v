Set Warnings "-all".
From mathcomp Require Import all_ssreflect all_algebra.
From Verif Require Import PyBase M_Engine S_Engine M_GenSys S_GenSys S_GenSys2 P_Engine P_Engine3 P_Engine4 P_GenSys P_GenSys2 P_GenSys3 P_GenSys4.
Set Implicit Arguments. Unset Strict Implicit. Unset Printing Implicit Defensive.
Import GRing.Theory Num.Theory Order.TTheory.
Local Open Scope ring_scope.

Section Top.
Variable F : realFieldType.
Variable tol : F.
Variables m n e : nat.
Variable u : usys F m n e.
Hypothesis ws : well_scaled u tol.
Hypothesis cc : constraint_connected u.

Lemma tol0 : 0 < tol. Proof. by case: ws => /andP []. Qed.
Lemma tol1 : tol <= 1. Proof. by case: ws => /andP []. Qed.
Lemma cA : clean tol (AA0 u). Proof. by case: ws => _ []. Qed.
Lemma cB : clean tol (BB0 u). Proof. by case: ws => _ []. Qed.
Lemma cC : clean tol (CC0 u). Proof. by case: ws => _ _ []. Qed.
Lemma cD : clean tol (DD0 u). Proof. by case: ws => _ _ []. Qed.
Lemma cleanN r c (A : 'M[F]_(r, c)) : clean tol A -> clean tol (- A).
Proof. by move=> h i j; rewrite mxE normrN; case: (h i j) => [->|]; [left; rewrite oppr0|right]. Qed.
Lemma cfc : clean tol (fcE u).
Proof.
case: ws => _ _ _ h _; rewrite /fcE /fcn scaleNr /own_coef; case: (fd0 u) => [_|]; rewrite ?opprK //.
exact: cleanN.
Qed.
Lemma cfd : clean tol (fdE u).
Proof.
case: ws => _ _ _ _; rewrite /fdE; case: (fd0 u) => [fd|] h; first exact: cleanN.
exact: clean0.
Qed.
Lemma occ j : j = cv u \/ fbn u 0 j <> 0 -> occurs (AA0 u) j \/ occurs (BB0 u) j \/ occurs (CC0 u) j.
Proof.
case: cc => _ h [h1|h1]; apply: h; [by left|right].
by apply/eqP=> e0; apply: h1; rewrite mxE e0 mulr0.
Qed.
Lemma prov : no_lead_lag u -> forall j, occurs (AA0 u) j -> fcE u 0 j = 0.
Proof. by move=> h j /h e0; rewrite /fcE /fcn; case: (fd0 u) => [_|]; rewrite !mxE e0 mulr0 ?oppr0. Qed.

Lemma c12_enc binding x eps : no_future_shocks eps ->
  compressed (u:=u) (tol:=tol) binding (fun s => q_of tol u (x s) (eps s)) (fun s => p_of tol u (x s.+1) (eps s.+1)) <->
  solves (AAeff u) (BB0 u) (CC0 u) (DD0 u) (fbn u) (fcE u) (fdE u) (cv u) (x_bar u) binding x eps.
Proof. exact: (compressed_user tol0 tol1 cA cB cC cD cfc cfd occ). Qed.

Lemma solves_enc AA binding x eps : encodable u ->
  solves AA (BB0 u) (CC0 u) (DD0 u) (fb0 u) (fc0 u) (shock_row u) (cv u) (x_bar u) binding x eps <->
  solves AA (BB0 u) (CC0 u) (DD0 u) (fbn u) (fcE u) (fdE u) (cv u) (x_bar u) binding x eps.
Proof.
case: cc => nz _ en.
have E : forall (x1 x0 : 'cV[F]_n) (ep : 'cV[F]_e),
  (fb0 u *m x1 + fc0 u *m x0 + shock_row u *m ep = 0) <-> (fbn u *m x1 + fcE u *m x0 + fdE u *m ep = 0).
  rewrite /shock_row; case E : (fd0 u) => [fd|].
    by apply/(encoded_some nz E); move: en; rewrite /encodable E.
  exact: (encoded_none nz E).
by split=> H s; case: (H s) => h1 h2; split=> //; move: h2; case: (binding s) => // h2; apply/E.
Qed.

Lemma c12 binding x eps : no_lead_lag u -> encodable u -> no_future_shocks eps ->
  compressed (u:=u) (tol:=tol) binding (fun s => q_of tol u (x s) (eps s)) (fun s => p_of tol u (x s.+1) (eps s.+1)) <->
  solves_user u binding x eps.
Proof.
move=> nl en nf; rewrite c12_enc // AAeffE; last exact: prov.
by rewrite /solves_user solves_enc.
Qed.

Lemma c12_complete binding q p : no_lead_lag u -> compressed (u:=u) (tol:=tol) binding q p ->
  exists x eps, [/\ no_future_shocks eps, forall s, q s = q_of tol u (x s) (eps s) &
                    forall s, p s = p_of tol u (x s.+1) (eps s.+1)].
Proof.
move=> nl H; have [h1 [h2 h3]] := rebuild tol0 tol1 cA cB cC cD cfc cfd occ (prov nl) H.
by exists (xu q p), (ep q p); split.
Qed.

Lemma compressed_ext binding q p q' p' : (forall s, q s = q' s) -> (forall s, p s = p' s) ->
  compressed (u:=u) (tol:=tol) binding q p -> compressed (u:=u) (tol:=tol) binding q' p'.
Proof. by move=> e1 e2 H s; have := H s; rewrite -!e1 -!e2. Qed.

Variable rq : forall d, 'M[F]_d -> 'M[F]_d * 'M[F]_d.
Hypothesis rqP : forall d, is_rq (@rq d).
Variable sm : sysmats F (dimq tol u) (dimp tol u).
Hypothesis sysE : sys_of tol u rq = Ok sm.

Lemma c78 l k q p : no_lead_lag u -> encodable u ->
  obeys_schedule (mS sm) (mT sm) (mV sm) (mW sm) (mh sm) l k q p <->
  exists x eps, [/\ no_future_shocks eps, forall s, q s = q_of tol u (x s) (eps s),
     forall s, p s = p_of tol u (x s.+1) (eps s.+1) & solves_user u (binds l k) x eps].
Proof.
move=> nl en; rewrite (obeys_compressed rqP sysE); split.
  move=> H; have [x [eps [nf e1 e2]]] := c12_complete nl H; exists x, eps; split=> //.
  by apply/(c12 _ _ nl en nf); apply: compressed_ext H.
case=> x [eps [nf e1 e2 /(c12 _ _ nl en nf)]]; exact: compressed_ext.
Qed.

(** any lagged values and current shocks can be the starting point *)
Lemma start_ex (q0 : 'cV[F]_(dimq tol u)) : exists y, rowsub (@enum_val _ (inq (tol:=tol) (u:=u))) y = q0.
Proof. by exists (unsel (P:=inq (tol:=tol) (u:=u)) q0 0); apply: unsel_sel. Qed.
End Top.

Section Notional.
Variable F : realFieldType.
Variable tol : F.
Variables m n e : nat.
Variable u : usys F m n e.
Hypothesis ws : well_scaled u tol.
Hypothesis cc : constraint_connected u.

Lemma c79 q p x eps s : encodable u ->
  q s = q_of tol u (x s) (eps s) -> q s.+1 = q_of tol u (x s.+1) (eps s.+1) -> p s = p_of tol u (x s.+1) (eps s.+1) ->
  own_coef u * notional (fq1 (ff tol u)) (fp1 (ff tol u)) (fq0 (ff tol u)) q p s +
  (\sum_(j | j != cv u) fb0 u 0 j * x s.+1 j 0) + (fc0 u *m x s) 0 0 + (shock_row u *m eps s) 0 0 = 0.
Proof.
move=> en e0 e1 e2.
rewrite (notional_user (tol0 ws) (tol1 ws) (cA ws) (cB ws) (cC ws) (cD ws) (cfc ws) (cfd ws) (occ cc) e0 e1 e2).
have nz : own_coef u != 0 by case: cc.
have E1 : own_coef u * (\sum_(j | j != cv u) fbn u 0 j * x s.+1 j 0) = - (\sum_(j | j != cv u) fb0 u 0 j * x s.+1 j 0).
  rewrite -sumrN mulr_sumr; apply: eq_bigr => j _.
  by rewrite mxE -/(own_coef u) mulrA mulrA mulrN divff // mulN1r mulNr.
have E2 : own_coef u * (fcE u *m x s) 0 0 = - (fc0 u *m x s) 0 0.
  move: en; rewrite /encodable /fcE /fcn; case: (fd0 u) => [fd [-> _]|_].
    by rewrite scaler0 oppr0 mul0mx !mxE mulr0 oppr0.
  by rewrite -scalemxAl mxE -/(own_coef u) mulrA mulrN divff // mulN1r.
have E3 : own_coef u * (fdE u *m eps s) 0 0 = - (shock_row u *m eps s) 0 0.
  move: en; rewrite /encodable /fdE /shock_row; case: (fd0 u) => [fd [_ [->|->]]|_].
  - by rewrite oppr0 mul0mx !mxE mulr0 oppr0.
  - by rewrite mul1r mulNmx [LHS]mxE.
  - by rewrite mul0mx !mxE mulr0 oppr0.
rewrite !mulrDr E1 E2 E3; move: (\sum_(_ | _) _) (_ 0 0) (_ 0 0) => a b c.
by rewrite -!opprD -!addrA addNr.
Qed.
End Notional.
