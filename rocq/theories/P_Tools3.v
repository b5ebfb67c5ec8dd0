Set Warnings "-all".
From Coq Require Import String PeanoNat.
From mathcomp Require Import all_ssreflect all_algebra.
From Verif Require Import PyBase PyStr M_FindLk M_Engine S_Engine P_Loops P_Engine2 P_Engine3 P_Engine4 M_Tools S_Tools P_Tools P_Tools2 T_Engine.
Set Implicit Arguments. Unset Strict Implicit. Unset Printing Implicit Defensive.
Import GRing.Theory Num.Theory Order.TTheory.
Local Open Scope ring_scope.

Section Run.
Variable F : realFieldType.
Variable m : tmodel F.
Variables (sm : sysmats F (dq m) (dp m)) (f : cnst F (dq m) (dp m)).
Variables (omg : 'M[F]_(dp m, dq m)) (lam : 'M[F]_(dq m)).
Hypothesis sd : solved sm f omg lam.
Hypothesis un : uniq (shk m).
Variable sl : seq (string * F * int).
Variable st0 : seq F.
Hypothesis sz0 : (nq m <= size st0)%N.

Notation step := (irf_step m (size (vvs m)) (lmx m) (kmx m) sl).
Notation run sk fo T := (irf_run m (size (vvs m)) (Some st0) T (lmx m) (kmx m) sl false sk fo).

Lemma runS sk fo T : run sk fo T.+1 = rbind (run sk fo T) (fun s => step false sk fo s T).
Proof.
rewrite /irf_run -addn1 iotaD foldM_cat /= add0n; case: foldM => //= s; by case: irf_step.
Qed.

Lemma run_prefix sk fo T r : run sk fo T.+1 = Ok r ->
  exists2 r0, run sk fo T = Ok r0 & step false sk fo r0 T = Ok r.
Proof. by rewrite runS; case: (run sk fo T) => //= s; exists s. Qed.

Lemma step_rows lin sk fo s t s' : step lin sk fo s t = Ok s' ->
  i_rows s' = (i_st s', i_lk s') :: i_rows s /\ size (i_st s') = size (vvs m).
Proof.
rewrite /irf_step; case: (shock_vec _ _ _) => //= sv.
case: (if _ then _ else _) => [[eff mult]|] //=; case: ifP => // _.
case: (t_func _ _ _ _ _) => [[[st' lk'] flag]|] //=; case: eqP => // e [<-] //=.
Qed.

Lemma run_rows sk fo T r : run sk fo T = Ok r -> size (i_rows r) = T /\
  forall t, (t < T)%N -> exists2 rt, run sk fo t.+1 = Ok rt & nth ([::], (0, 0)) (rev (i_rows r)) t = (i_st rt, i_lk rt).
Proof.
elim: T r => [|T IH] r; first by case=> <-.
move=> E; have [r0 E0 Es] := run_prefix E; have [sz H] := IH _ E0.
have [er _] := step_rows Es; rewrite er /= sz rev_cons; split=> // t.
rewrite ltnS leq_eqVlt nth_rcons size_rev sz => /orP [/eqP -> | lt].
  by rewrite ltnn eqxx; exists r.
by rewrite lt; apply: H.
Qed.

Lemma run_size sk fo T r : run sk fo T = Ok r -> (nq m <= size (i_st r))%N.
Proof.
case: T => [[<-] //|T E]; have [r0 _ Es] := run_prefix E.
by have [_ ->] := step_rows Es; rewrite (sd_vv sd) leq_addl.
Qed.

Lemma short_st (s : seq F) : py_from (- ((dq m)%:Z - (neps m)%:Z)) s = last_n (nq m) s.
Proof. by rewrite sliceE' // (sd_st sd). Qed.

Lemma size_sh t : size (shocks_at (shk m) sl t) = neps m.
Proof. exact: size_shocks_at. Qed.

(** expectations given by the caller *)
Lemma step_fixed l k q p sk fo s t :
  (l <= lmx m)%N -> (k <= kmx m)%N -> announced_by sm omg l k q p -> fixes sk l k ->
  ~~ np_anyz [seq a.2 | a <- sl] -> known_at (shk m) sl t ->
  (nq m <= size (i_st s))%N -> inp_vec m (i_st s) (shocks_at (shk m) sl t) = q t ->
  step false sk fo s t = Ok (IS (path_row (nq m) q p t) (lkz (remaining l k t)) (i_err s) (i_mult s)
                             ((path_row (nq m) q p t, lkz (remaining l k t)) :: i_rows s)).
Proof.
move=> ll kk an fx na kn sz ei; rewrite /irf_step shock_vecE // kn /=.
rewrite (negbTE na) !andbF /= (set_k_at_remaining _ fx) /=.
have [l1 k1] := remaining_le l k t; rewrite !lez_nat (leq_trans l1 ll) (leq_trans k1 kk) /=.
rewrite short_st t_func_block ?(sd_st sd) // (ann_t_func sd ll kk an sz (size_sh t) ei) /=.
by rewrite (size_path_row sd) eqxx PeanoNat.Nat.lor_0_r.
Qed.

Lemma all0_at t : all (fun a : string * F * int => a.2 == 0) sl -> (0 < t)%N ->
  known_at (shk m) sl t /\ shocks_at (shk m) sl t = nseq (neps m) 0.
Proof.
move=> a0 t0; have ne (a : string * F * int) : a \in sl -> (a.2 == t%:Z) = false.
  by move=> ai; rewrite (eqP (allP a0 a ai)); case: t t0.
split; first by apply/allP=> a ai; rewrite ne.
apply: (@eq_from_nth _ 0); rewrite size_sh ?size_nseq // => i lt.
rewrite (nth_map EmptyString) // nth_nseq lt /shock_size.
by rewrite (@eq_in_filter _ _ pred0) ?filter_pred0 // => a /ne ->; rewrite andbF.
Qed.

Lemma run_fixed l k q p sk fo T :
  (l <= lmx m)%N -> (k <= kmx m)%N -> announced_by sm omg l k q p -> fixes sk l k ->
  no_expected_shocks sm (neps m) ->
  all (fun a : string * F * int => a.2 == 0) sl -> all (fun a : string * F * int => a.1.1 \in shk m) sl ->
  q 0%N = inp_vec m st0 (shocks_at (shk m) sl 0) ->
  exists2 r, run sk fo T = Ok r &
    [/\ rev (i_rows r) = [seq (path_row (nq m) q p t, lkz (remaining l k t)) | t <- iota 0 T],
        i_err r = 0%N, i_mult r = false &
        last_n (nq m) (i_st r) = if T is T'.+1 then take (nq m) (seq_of (q T)) else last_n (nq m) st0].
Proof.
move=> ll kk an fx ne a0 ak q0.
have na : ~~ np_anyz [seq a.2 | a <- sl].
  by rewrite /np_anyz has_map -all_predC; apply: sub_all a0 => a /= ->.
elim: T => [|T [r E [er e1 e2 es]]]; first by eexists; [reflexivity | split].
rewrite runS E [rbind _ _]/= (step_fixed _ ll kk an fx na); first last.
- case: T E er es => [[<-] _ _ //|T E er es].
  have [_ ->] := all0_at a0 (ltn0Sn T); exact: (ann_inp an ne).
- exact: (run_size E).
- apply/allP=> a ai; apply/implyP=> _; exact: (allP ak).
eexists; first by [].
split; [|exact: e1|exact: e2|exact: last_path_row].
have -> : iota 0 T.+1 = rcons (iota 0 T) T by rewrite -addn1 iotaD cats1.
by rewrite [i_rows _]/= rev_cons er map_rcons.
Qed.

(** expectations found by the search, or held since the last shock *)
Definition lk_ok (lk : int * int) : Prop := exists l k, [/\ lk = lkz (l, k), (l <= lmx m)%N & (k <= kmx m)%N].

Definition forced_at (fo : bool) (t : nat) : bool :=
  [&& fo, ~~ np_any (shocks_at (shk m) sl t) & np_anyz [seq a.2 | a <- sl]].

Lemma endo_t_func sk t st sh : endogenous sk -> t_func m st sh (set_k_at sk t) false = t_func m st sh KNone false.
Proof. by case: sk => // -[]. Qed.

Lemma step_endo sk fo s t : endogenous sk -> known_at (shk m) sl t ->
  (nq m <= size (i_st s))%N -> ~~ forced_at fo t ->
  exists l k fl c, [/\ (l <= lmx m)%N, (k <= kmx m)%N, tab m l k = Some c &
    step false sk fo s t =
    let x := cell_row c (inp_vec m (i_st s) (shocks_at (shk m) sl t)) in
    Ok (IS x (lkz (l, k)) (Nat.lor (i_err s) fl) (i_mult s) ((x, lkz (l, k)) :: i_rows s))].
Proof.
move=> en kn sz nf; have [l [k [fl [c [ll kk Ec E]]]]] := t_func_total sd sz (size_sh t).
exists l, k, fl, c; split=> //; rewrite /irf_step shock_vecE // kn /=.
rewrite -/(forced_at fo t) (negbTE nf) /= short_st t_func_block ?(sd_st sd) //.
rewrite endo_t_func // E /=.
have -> : (if set_k_at sk t is KTuple l k then (l <= (lmx m)%:Z) && (k <= (kmx m)%:Z) else true) = true by case: sk en => // -[].
by rewrite size_cell_row ?(sd_eps sd) // (sd_vv sd) eqxx.
Qed.

Lemma step_held sk fo s t l k c : known_at (shk m) sl t -> (nq m <= size (i_st s))%N -> forced_at fo t ->
  elapse (i_lk s) = lkz (l, k) -> (l <= lmx m)%N -> (k <= kmx m)%N -> tab m l k = Some c ->
  exists mu, step false sk fo s t =
    let x := cell_row c (inp_vec m (i_st s) (shocks_at (shk m) sl t)) in
    Ok (IS x (lkz (l, k)) (i_err s) mu ((x, lkz (l, k)) :: i_rows s)).
Proof.
move=> kn sz fa el ll kk Ec; have [l' [k' [fl' [c' [_ _ _ E]]]]] := t_func_total sd sz (size_sh t).
eexists; rewrite /irf_step shock_vecE // kn /= -/(forced_at fo t) fa short_st el /= t_func_block ?(sd_st sd) // E /=.
rewrite !lez_nat ll kk /= t_func_block ?(sd_st sd) // (t_func_forced (dims sd) sz (size_sh t) ll kk Ec) /=.
by rewrite size_cell_row ?(sd_eps sd) // (sd_vv sd) eqxx PeanoNat.Nat.lor_0_r.
Qed.

Lemma elapse_ok lk : lk_ok lk -> exists l k, [/\ elapse lk = lkz (l, k), (l <= lmx m)%N & (k <= kmx m)%N].
Proof.
case=> l [k [-> ll kk]]; have := elapse_remaining l k 0; rewrite remaining0 => ->.
have [l1 k1] := remaining_le l k 1; exists (remaining l k 1).1, (remaining l k 1).2.
by rewrite (leq_trans l1 ll) (leq_trans k1 kk); case: remaining.
Qed.

Lemma step_total sk fo s t : endogenous sk -> known_at (shk m) sl t ->
  (nq m <= size (i_st s))%N -> lk_ok (i_lk s) -> exists2 s', step false sk fo s t = Ok s' & lk_ok (i_lk s').
Proof.
move=> en kn sz ok; case fa: (forced_at fo t).
  have [l [k [el ll kk]]] := elapse_ok ok; have [c Ec] := cells_ok sd ll kk.
  have [mu ->] := step_held sk kn sz fa el ll kk Ec.
  by eexists; [reflexivity | exists l, k].
have [l [k [fl [c [ll kk Ec ->]]]]] := step_endo en kn sz (negbT fa).
by eexists; [reflexivity | exists l, k].
Qed.

Lemma run_total sk fo T : endogenous sk -> (forall t, (t < T)%N -> known_at (shk m) sl t) ->
  exists2 r, run sk fo T = Ok r & lk_ok (i_lk r).
Proof.
move=> en; elim: T => [|T IH] kn.
  by eexists; [reflexivity | exists 0%N, 0%N].
have [r E ok] := IH (fun t h => kn t (ltnW h)).
by rewrite runS E /=; apply: step_total (run_size E) ok => //; apply: kn.
Qed.

Lemma run_unknown sk fo T : endogenous sk -> (exists2 t, (t < T)%N & ~~ known_at (shk m) sl t) ->
  run sk fo T = Err ValueError.
Proof.
move=> en; elim: T => [|T IH] [t lt kn] //; rewrite runS.
move: lt; rewrite ltnS leq_eqVlt => /orP [/eqP e|lt]; last by rewrite IH //; exists t.
case: (boolP [forall i : 'I_T, known_at (shk m) sl i]) => [/forallP al|/forallPn [i ni]]; last first.
  by rewrite IH //; exists i.
have [r -> _] := @run_total sk fo T en (fun t h => al (Ordinal h)).
by rewrite /= /irf_step shock_vecE // -e (negbTE kn).
Qed.

(** all shocks in period 0: forcing has no effect *)
Lemma step_force0 lin sk s t : all (fun a : string * F * int => a.2 == 0) sl ->
  step lin sk true s t = step lin sk false s t.
Proof.
move=> a0; have na : np_anyz [seq a.2 | a <- sl] = false.
  by apply/negbTE; rewrite /np_anyz has_map -all_predC; apply: sub_all a0 => a /= ->.
by rewrite /irf_step na; case: shock_vec => //= sv; rewrite andbF.
Qed.

(** no shock in a period *)
Definition quiet t : Prop := known_at (shk m) sl t /\ shocks_at (shk m) sl t = nseq (neps m) 0.

Lemma quiet_forced t : quiet t -> np_anyz [seq a.2 | a <- sl] -> forced_at true t.
Proof. by case=> _ e na; rewrite /forced_at e na andbT /np_any /= has_nseq eqxx andbF. Qed.

Lemma run_hold l k q p sk a n r : endogenous sk -> no_expected_shocks sm (neps m) ->
  (forall t, (t <= a + n)%N -> known_at (shk m) sl t) ->
  np_anyz [seq x.2 | x <- sl] -> 
  (forall j, (0 < j <= n)%N -> quiet (a + j)) ->
  run sk true a = Ok r ->
  announced_by sm omg l k q p -> q 0%N = inp_vec m (i_st r) (shocks_at (shk m) sl a) ->
  (exists2 r1, run sk true a.+1 = Ok r1 & i_lk r1 = lkz (l, k)) ->
  forall j, (j <= n)%N -> exists2 rj, run sk true (a + j).+1 = Ok rj &
    i_st rj = path_row (nq m) q p j /\ i_lk rj = lkz (remaining l k j).
Proof.
move=> en ne kn na qu Ea an q0 [r1 E1 e1].
have [rx E0 [l0 [k0 [eq0 ll kk]]]] := @run_total sk true a.+1 en (fun t h => kn t (leq_trans h (leq_addr _ _))).
move: E0 eq0; rewrite E1 => -[<-]; rewrite e1 => -[el ek]; move: ll kk; rewrite -el -ek => ll kk {l0 k0 el ek}.
elim=> [|j IH] le.
  rewrite addn0; exists r1 => //; rewrite remaining0; split=> //.
  move: E1; rewrite runS Ea /= => Es.
  have [c Ec ec] := ann_row sd ll kk an 0; move: Ec; rewrite remaining0 /= => Ec.
  rewrite -ec q0; case fa: (forced_at true a).
    have [l2 [k2 [el2 ll2 kk2]]] : exists l k, [/\ elapse (i_lk r) = lkz (l, k), (l <= lmx m)%N & (k <= kmx m)%N].
      have [ry Ex ok] := @run_total sk true a en (fun t h => kn t (leq_trans (ltnW h) (leq_addr _ _))).
      by move: Ex ok; rewrite Ea => -[<-]; apply: elapse_ok.
    have [c2 Ec2] := cells_ok sd ll2 kk2.
    have [mu Em] := step_held sk (kn a (leq_addr _ _)) (run_size Ea) fa el2 ll2 kk2 Ec2.
    move: Es; rewrite Em => -[er1]; move: e1; rewrite -er1 /= => -[h1 h2].
    by move: Ec2; rewrite h1 h2 Ec => -[->].
  have [l2 [k2 [fl [c2 [ll2 kk2 Ec2 Em]]]]] := step_endo en (kn a (leq_addr _ _)) (run_size Ea) (negbT fa).
  move: Es; rewrite Em => -[er1]; move: e1; rewrite -er1 /= => -[h1 h2].
  by move: Ec2; rewrite h1 h2 Ec => -[->].
have [rj Ej [es ek]] := IH (ltnW le).
have qj : quiet (a + j.+1) by apply: qu; rewrite ltn0Sn le.
rewrite addnS runS Ej /=.
have el : elapse (i_lk rj) = lkz (remaining l k j.+1) by rewrite ek elapse_remaining.
have [c Ec ec] := ann_row sd ll kk an j.+1; have [l1 k1] := remaining_le l k j.+1.
move: el; rewrite {2}(surjective_pairing (remaining l k j.+1)) => el.
have [mu Em] := step_held sk (proj1 qj) (run_size Ej) (quiet_forced qj na) el (leq_trans l1 ll) (leq_trans k1 kk) Ec.
rewrite addnS in Em; rewrite Em; eexists; first by [].
move: (proj2 qj); rewrite addnS => ->; rewrite /= -surjective_pairing; split=> //.
rewrite (ann_inp an ne (j := j)) ?ec // es; exact: last_path_row.
Qed.

(** before the first shock *)
Lemma run_before sk a : (forall t, (t < a)%N -> quiet t) -> np_anyz [seq x.2 | x <- sl] ->
  exists2 r, run sk true a = Ok r & i_lk r = (0, 0).
Proof.
move=> qu na; elim: a qu => [|a IH] qu; first by eexists.
have [r E e] := IH (fun t h => qu t (ltnW h)); rewrite runS E /=.
have qa : quiet a by apply: qu.
have el : elapse (i_lk r) = lkz (0%N, 0%N) by rewrite e.
have [mu ->] := step_held sk (proj1 qa) (run_size E) (quiet_forced qa na) el (leq0n _) (leq0n _) (cell00 sd).
by eexists.
Qed.
End Run.
