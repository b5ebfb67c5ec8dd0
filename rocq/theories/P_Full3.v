Set Warnings "-all".
From Coq Require Import String PeanoNat.
From mathcomp Require Import all_ssreflect all_algebra.
From Verif Require Import PyBase PyStr P_Loops M_FindLk M_Engine S_Engine M_Tools S_Tools P_Tools P_Tools2 P_Tools3 P_Tools4 T_Engine.
Set Implicit Arguments. Unset Strict Implicit. Unset Printing Implicit Defensive.
Import GRing.Theory Num.Theory Order.TTheory.
Local Open Scope ring_scope.

Section Same.
Variable F : realFieldType.
Variable m : tmodel F.
Hypothesis dm : (0 < neps m < dq m)%N.
Hypothesis vvE : size (vvs m) = (dp m + nq m)%N.
Hypothesis un : uniq (shk m).
Variable sl : seq (string * F * int).
Variables (lin : bool) (sk : setk) (fo : bool).
Hypothesis en : endogenous sk.
Hypothesis nf : ~~ (fo && has (fun a => a.2 != 0) sl).
Notation step := (irf_step m (size (vvs m)) (lmx m) (kmx m) sl lin sk fo).

Lemma t_func_size st sh sk' lin' x lk fl : t_func m st sh sk' lin' = Ok (x, lk, fl) -> size x = size (vvs m).
Proof.
have /andP [e0 lt] := dm.
move/t_func_inv; case: (decode sk' lin') => l1 k1 /= [l' [k' [c [_ _ _ _ ->]]]].
by rewrite size_cat size_seq_of py_to_neg // ?size_takel ?size_seq_of ?leq_subr // vvE.
Qed.

Lemma step_sim st lk err mult rows t : known_at (shk m) sl t ->
  step (IS st lk err mult rows) t =
  rbind (t_func m st (Some (shocks_at (shk m) sl t)) KNone lin) (fun r =>
    Ok (IS r.1.1 r.1.2 (Nat.lor err r.2) mult ((r.1.1, r.1.2) :: rows))).
Proof.
move=> kn; have /andP [e0 lt] := dm; rewrite /irf_step (shock_vecE un) kn /=.
have -> : [&& fo, ~~ np_any (shocks_at (shk m) sl t) & np_anyz [seq a.2 | a <- sl]] = false.
  apply/negbTE; apply: contra nf => /and3P [-> _]; by rewrite /np_anyz has_map.
rewrite /= sliceE' //.
have [-> ->] : set_k_at sk t = sk /\ t_func m (last_n (nq m) st) (Some (shocks_at (shk m) sl t)) sk lin =
     t_func m st (Some (shocks_at (shk m) sl t)) KNone lin.
  rewrite t_func_block //; case: sk en => [|[]|l k|n] //= _; split=> //.
have -> : (if sk is KTuple l k then (l <= (lmx m)%:Z) && (k <= (kmx m)%:Z) else true) = true by case: sk en.
by case E: t_func => [[[x lk'] fl]|] //=; rewrite (t_func_size E) eqxx.
Qed.

Lemma fold_sim t n st lk err mult rows : (forall s, (t <= s < t + n)%N -> known_at (shk m) sl s) ->
  foldM step (iota t n) (IS st lk err mult rows) =
  rbind (sim_loop m lin st [seq shocks_at (shk m) sl s | s <- iota t n]) (fun r =>
    Ok (IS (last st [seq x.1 | x <- r.1]) (last lk [seq x.2 | x <- r.1]) (Nat.lor err r.2) mult (rev r.1 ++ rows))).
Proof.
elim: n t st lk err rows => [|n IH] t st lk err rows kn /=; first by rewrite Nat.lor_0_r.
rewrite step_sim; last by apply: kn; rewrite leqnn -addSnnS leq_addr.
case: t_func => [[[x lk'] fl]|] //=; rewrite IH; last by move=> s /andP [h1 h2]; apply: kn; rewrite ltnW // -addSnnS.
case: sim_loop => //= -[r1 fl1] /=; congr (Ok (IS _ _ _ _ _)).
  by rewrite Nat.lor_assoc.
by rewrite rev_cons cat_rcons.
Qed.
End Same.
