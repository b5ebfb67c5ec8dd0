Set Warnings "-all".
From Coq Require Import String.
From mathcomp Require Import all_ssreflect all_algebra.
From Verif Require Import PyBase PyStr P_Loops M_FindLk M_Engine S_Engine P_Engine T_Engine M_Tools S_Tools P_Tools P_Tools2 P_Tools4 M_Stats S_Stats.
Set Implicit Arguments. Unset Strict Implicit. Unset Printing Implicit Defensive.
Import GRing.Theory Num.Theory Order.TTheory.
Local Open Scope ring_scope.

Section P.
Variable F : realFieldType.

(** sort_nhd *)
Lemma sort_foldP (hd : seq F) a b xs ys : 
  foldl (@sort_step F) (a, b, xs, ys) hd =
  (a + \sum_(h <- hd | h < 0) h, b + \sum_(h <- hd | h > 0) h,
   xs ++ [seq (a + \sum_(h <- take i hd | h < 0) h, a + \sum_(h <- take i.+1 hd | h < 0) h) | i <- iota 0 (size hd)],
   ys ++ [seq (b + \sum_(h <- take i hd | h > 0) h, b + \sum_(h <- take i.+1 hd | h > 0) h) | i <- iota 0 (size hd)]).
Proof.
elim: hd a b xs ys => [|h hd IH] a b xs ys /=; first by rewrite !big_nil !addr0 !cats0.
rewrite IH !big_cons !cat_rcons take0 !big_nil !addr0 -[1%N]addn0 !iotaDl -!map_comp.
have e (P : pred F) c s : c + (if P h then h else 0) + \sum_(i <- s | P i) i = c + \sum_(i <- h :: s | P i) i.
  by rewrite big_cons; case: ifP => _; rewrite ?addr0 ?addrA.
congr (_, _, _, _).
- by rewrite (e (fun h => h < 0)) big_cons.
- by rewrite (e (fun h => h > 0)) big_cons.
- congr (_ ++ _ :: _).
  by apply: eq_map => i /=; rewrite !(e (fun h => h < 0)).
congr (_ ++ _ :: _).
by apply: eq_map => i /=; rewrite !(e (fun h => h > 0)).
Qed.

Variable m : tmodel F.
Hypothesis dm : (0 < neps m < dq m)%N.
Implicit Types (st sh : seq F).

Definition row0 (c : cell F (dq m) (dp m)) (u : 'cV[F]_(dq m)) : seq F := seq_of (pm c *m u) ++ take (nq m) (seq_of (qm c *m u)).
Definition term (c : cell F (dq m) (dp m)) : seq F := seq_of (pt c) ++ take (nq m) (seq_of (qt c)).

Lemma nth_take0 n (s : seq F) i : nth 0 (take n s) i = if (i < n)%N then nth 0 s i else 0.
Proof. by case: ltnP => h; [rewrite nth_take | rewrite nth_default // size_take; case: ifP => // /negbT; rewrite -leqNgt => /leq_trans ->]. Qed.
Lemma nth_seq0 n (v : 'cV[F]_n) i : nth 0 (seq_of v) i = if insub i is Some j then v j 0 else 0.
Proof.
case: insubP => [j lj ej|]; first by rewrite -ej nth_seq_of.
by rewrite -leqNgt => h; rewrite nth_default // size_seq_of.
Qed.
Lemma nth_row0 c u x : nth 0 (row0 c u) x = 
  if (x < dp m)%N then nth 0 (seq_of (pm c *m u)) x else if (x - dp m < nq m)%N then nth 0 (seq_of (qm c *m u)) (x - dp m) else 0.
Proof. by rewrite nth_cat size_seq_of nth_take0. Qed.
Lemma nth_seqD n (u v : 'cV[F]_n) x : nth 0 (seq_of (u + v)) x = nth 0 (seq_of u) x + nth 0 (seq_of v) x.
Proof. by rewrite !nth_seq0; case: insubP => [j _ _|_]; rewrite ?mxE ?addr0. Qed.
Lemma nth_row0_sum c n (u : nat -> 'cV[F]_(dq m)) x : 
  \sum_(s <- iota 0 n) nth 0 (row0 c (u s)) x = nth 0 (row0 c (\sum_(s <- iota 0 n) u s)) x.
Proof.
elim: (iota 0 n) => [|s l IH]; rewrite ?big_nil ?big_cons.
  by rewrite nth_row0 !mulmx0 !seq_of0 !nth_nseq !if_same.
rewrite IH !nth_row0 !mulmxDr; case: ifP => _; rewrite ?nth_seqD //; case: ifP => _; by rewrite ?nth_seqD ?addr0.
Qed.
Lemma nth_cell_row c u x : nth 0 (cell_row c u) x = nth 0 (row0 c u) x + nth 0 (term c) x.
Proof.
rewrite nth_row0 /term /cell_row !nth_cat !size_seq_of !nth_take0.
by case: ifP => _; rewrite ?nth_seqD //; case: ifP => _; rewrite ?nth_seqD ?addr0.
Qed.
Lemma size_row0 c u : size (row0 c u) = (dp m + nq m)%N.
Proof. by have [e0 _] := andP dm; rewrite -(@size_cell_row F m (Cell (pm c) 0 (qm c) 0) u e0) /cell_row /= !addr0. Qed.
Lemma size_term c : size (term c) = (dp m + nq m)%N.
Proof. by rewrite size_cat size_seq_of size_takel // size_seq_of leq_subr. Qed.

(** the contributions add up to the state *)
Definition shape (state : seq F) (hds : seq (seq F)) : Prop :=
  size hds = neps m /\ forall s, (s < neps m)%N -> size (nth [::] hds s) = size state.
Definition whole (hds : seq (seq F)) (sh : seq F) : 'cV[F]_(dq m) :=
  \sum_(s <- iota 0 (neps m)) col_of (dq m) (hd_input m (nth [::] hds s) sh s).
Definition adds (state : seq F) (hds : seq (seq F)) : Prop :=
  [/\ size hds = neps m, forall s, (s < neps m)%N -> size (nth [::] hds s) = size state &
      forall x, \sum_(s <- iota 0 (neps m)) nth 0 (nth [::] hds s) x = nth 0 state x].

Definition unit_eps (sh : seq F) (s : nat) : seq F := [seq if j == s then nth 0 sh s else 0 | j <- iota 0 (neps m)].
Lemma size_input row sh s : (nq m <= size row)%N -> size (hd_input m row sh s) = dq m.
Proof.
have [e0 lt] := andP dm; move=> ge; rewrite /hd_input sliceE // size_cat size_map size_iota size_last_n (minn_idPl ge) subnK //; exact: ltnW.
Qed.
Lemma sum_single n (f : nat -> F) j : (j < n)%N -> \sum_(s <- iota 0 n) (if j == s then f s else 0) = f j.
Proof.
move=> lt; rewrite (bigD1_seq j) ?iota_uniq ?mem_iota //= eqxx big1 ?addr0 // => s /negbTE.
by rewrite eq_sym => ->.
Qed.
Lemma input_sum state hds sh : adds state hds -> (nq m <= size state)%N -> size sh = neps m ->
  whole hds sh = inp_vec m state sh.
Proof.
rewrite /whole; have [e0 lt] := andP dm; move=> [sz ss sm] ge es; apply/matrixP=> i j; rewrite summxE /inp_vec mxE.
under eq_bigr => s _ do rewrite mxE.
rewrite (eq_big_seq (fun s => nth 0 (last_n (nq m) (nth [::] hds s) ++ unit_eps sh s) i)); last by move=> s _; rewrite /hd_input sliceE.
rewrite nth_cat size_last_n (minn_idPl ge).
rewrite (eq_big_seq (fun s => if (i < nq m)%N then nth 0 (nth [::] hds s) (size state - nq m + i) else nth 0 (unit_eps sh s) (i - nq m))); last first.
  move=> s; rewrite mem_iota add0n => /andP [_ ls]; rewrite nth_cat size_last_n ss // (minn_idPl ge).
  by case: ifP => // _; rewrite /last_n nth_drop ss.
case: ltnP => h; first by rewrite sm /last_n nth_drop.
have li : (i - nq m < neps m)%N by rewrite ltn_subLR // /nq subnK ?(ltnW lt).
rewrite -(sum_single (nth 0 sh) li); apply: eq_bigr => s _.
by rewrite (nth_map 0%N) ?size_iota // nth_iota // add0n; case: eqP => [->|].
Qed.

Lemma image_ok (c : cell F (dq m) (dp m)) v : size v = dq m -> hd_image c v = Ok (row0 c (col_of (dq m) v)).
Proof. have [e0 lt] := andP dm; by move=> sz; rewrite /hd_image /matvec sz eqxx /= py_to_neg // size_seq_of. Qed.

(** the row [b] of the constraint, applied *)
Definition con (b : bcell F (dq m)) (u : 'cV[F]_(dq m)) : F := (b.1 *m u) 0 0.
Lemma cons_ok b v : size v = dq m -> hd_cons b v = Ok (con b (col_of (dq m) v)).
Proof. by move=> sz; rewrite /hd_cons /matvec sz eqxx /= -[0%N]/(nat_of_ord (ord0 : 'I_1)) nth_seq_of. Qed.
Lemma con_sum b n (u : nat -> 'cV[F]_(dq m)) : \sum_(s <- iota 0 n) con b (u s) = con b (\sum_(s <- iota 0 n) u s).
Proof. by rewrite /con mulmx_sumr summxE. Qed.

Variables (sm : sysmats F (dq m) (dp m)) (f : cnst F (dq m) (dp m)) (omg : 'M[F]_(dp m, dq m)) (lam : 'M[F]_(dq m)).
Hypothesis sd : @solved F m sm f omg lam.

Lemma bcell_ok l k : (l <= lmx m)%N -> (k <= kmx m)%N -> exists b, btab m 0%N l k = Some b.
Proof.
move=> ll kk; have [H _] := C03_checks_are_notional (sd_pre sd) (sd_T sd) (sd_W sd) (sd_lin sd) (lmx0 sd).
have [rules [_ /(_ l k ll kk) [ex an]]] := C01_announced_paths_solve_the_model (sd_pre sd) (sd_T sd) (sd_W sd) (sd_lin sd).
have [q [p [_ /an a]]] := ex 0.
have := H 0%N l k q p isT ll kk; rewrite /check_cnst !ltnS ll kk /=; case: (btab m 0%N l k) => [b|]; first by exists b.
by move=> /(_ (fun e => ltac:(by [])) (fun e => ltac:(by [])) a).
Qed.

Lemma t_func_known lin st sh : (nq m <= size st)%N -> size sh = neps m ->
  exists l k fl c, [/\ (l <= lmx m)%N, (k <= kmx m)%N, tab m l k = Some c &
    t_func m st (Some sh) KNone lin = Ok (cell_row c (inp_vec m st sh), lkz (l, k), fl)].
Proof.
move=> ge es; case: lin; last exact: (t_func_total sd ge es).
by exists 0%N, 0%N, 0%N, (Cell omg 0 lam 0); split=> //; [exact: (cell00 sd) | exact: (t_func_linear _ dm ge es (cell00 sd))].
Qed.
Lemma term_k0 l c : (l <= lmx m)%N -> tab m l 0%N = Some c -> term c = nseq (dp m + nq m) 0.
Proof.
move=> ll; rewrite (C11_k0_entries_linear (sd_pre sd) (sd_T sd) (sd_W sd) (sd_lin sd) ll) => -[<-].
rewrite /term /= !seq_of0 take_nseq; first by rewrite -nseqD.
exact: leq_subr.
Qed.

Lemma step_ok lin state hds sh : shape state hds -> (nq m <= size state)%N -> size sh = neps m ->
  exists l k fl c b hds', [/\ [/\ (l <= lmx m)%N, (k <= kmx m)%N, tab m l k = Some c & btab m 0%N l k = Some b],
    t_func m state (Some sh) KNone lin = Ok (cell_row c (inp_vec m state sh), lkz (l, k), fl),
    nhd_step m lin (state, hds) sh = Ok (cell_row c (inp_vec m state sh), hds'),
    size hds' = neps m /\ (forall s, (s < neps m)%N -> size (nth [::] hds' s) = (dp m + nq m)%N) &
    forall x, \sum_(s <- iota 0 (neps m)) nth 0 (nth [::] hds' s) x =
      nth 0 (row0 c (whole hds sh)) x + (if (k != 0%N) && (con b (whole hds sh) != 0) then nth 0 (term c) x else 0)].
Proof.
move=> ad ge es; have [l [k [fl [c [ll kk Ec E]]]]] := t_func_known lin ge es.
have [b Eb] := bcell_ok ll kk; have [szh ssh] := ad.
set vs := [seq hd_input m (nth [::] hds s) sh s | s <- iota 0 (neps m)].
pose u s := col_of (dq m) (hd_input m (nth [::] hds s) sh s).
have sv s : (s < neps m)%N -> size (hd_input m (nth [::] hds s) sh s) = dq m by move=> ls; apply: size_input; rewrite ssh.
have su : \sum_(s <- iota 0 (neps m)) u s = whole hds sh by [].
have E1 : mapM (hd_image c) vs = Ok [seq row0 c (u s) | s <- iota 0 (neps m)].
  rewrite (@mapM_ok _ _ _ (fun v => row0 c (col_of (dq m) v))) /vs; first by rewrite -map_comp.
  by move=> v /mapP [s]; rewrite mem_iota add0n => /andP [_ ls] ->; rewrite image_ok // sv.
have E2 : mapM (hd_cons b) vs = Ok [seq con b (u s) | s <- iota 0 (neps m)].
  rewrite (@mapM_ok _ _ _ (fun v => con b (col_of (dq m) v))) /vs; first by rewrite -map_comp.
  by move=> v /mapP [s]; rewrite mem_iota add0n => /andP [_ ls] ->; rewrite cons_ok // sv.
have n1 s : (s < neps m)%N -> nth [::] [seq row0 c (u s) | s <- iota 0 (neps m)] s = row0 c (u s).
  by move=> ls; rewrite (nth_map 0%N) ?size_iota // nth_iota.
have n2 s : (s < neps m)%N -> nth 0 [seq con b (u s) | s <- iota 0 (neps m)] s = con b (u s).
  by move=> ls; rewrite (nth_map 0%N) ?size_iota // nth_iota.
exists l, k, fl, c, b; rewrite /nhd_step E /= !ltnS ll kk /= Ec /= -/vs E1 /= Eb /= E2 /= big_map con_sum su.
have base x : \sum_(s <- iota 0 (neps m)) nth 0 (nth [::] [seq row0 c (u s) | s <- iota 0 (neps m)] s) x = nth 0 (row0 c (whole hds sh)) x.
  rewrite -su -nth_row0_sum; apply: eq_big_seq => s; rewrite mem_iota add0n => /andP [_ ls]; by rewrite n1.
case: ifP => k0.
  exists [seq row0 c (u s) | s <- iota 0 (neps m)]; split=> //.
    by split=> [|s ls]; rewrite ?size_map ?size_iota // n1 // size_row0.
  by move=> x; rewrite base; move: k0; rewrite eqz_nat => ->; rewrite addr0.
rewrite eqz_nat in k0; rewrite k0 /=.
case: ifP => c0.
  exists [seq row0 c (u s) | s <- iota 0 (neps m)]; split=> //.
    by split=> [|s ls]; rewrite ?size_map ?size_iota // n1 // size_row0.
  by move=> x; rewrite base addr0.
have [e0 lt] := andP dm; rewrite py_to_neg // size_seq_of -/(term c).
set tot := con b _ in c0 *.
pose g s := [seq x.1 + x.2 | x <- zip (row0 c (u s)) [seq con b (u s) / tot * x | x <- term c]].
have zs s : size (row0 c (u s)) = size [seq con b (u s) / tot * x | x <- term c] by rewrite size_map size_row0 size_term.
rewrite (@mapM_ok _ _ _ g); last first.
  by move=> s; rewrite mem_iota add0n => /andP [_ ls]; rewrite n1 // n2 // /vadd zs eqxx.
have ng s : (s < neps m)%N -> nth [::] [seq g i | i <- iota 0 (neps m)] s = g s.
  by move=> ls; rewrite (nth_map 0%N) ?size_iota // nth_iota.
exists [seq g s | s <- iota 0 (neps m)]; split=> //.
  by split=> [|s ls]; rewrite ?size_map ?size_iota // ng // size_map size1_zip ?size_row0 // -zs size_row0.
move=> x; rewrite (eq_big_seq (fun s => nth 0 (row0 c (u s)) x + con b (u s) / tot * nth 0 (term c) x)); last first.
  move=> s; rewrite mem_iota add0n => /andP [_ ls]; rewrite ng // /g.
  case: (ltnP x (dp m + nq m)) => lx.
    rewrite (nth_map (0, 0)) ?size1_zip -?zs ?size_row0 // nth_zip //= (nth_map 0) ?size_term //.
  by rewrite !nth_default ?mulr0 ?addr0 // ?size_map ?size1_zip -?zs ?size_row0 ?size_term.
rewrite big_split /= nth_row0_sum su -!mulr_suml con_sum su -/tot.
by rewrite divff ?mul1r //; apply/negbT.
Qed.

Lemma step_adds lin state hds sh : shape state hds -> (nq m <= size state)%N -> size sh = neps m ->
  exists x lk fl hds', [/\ t_func m state (Some sh) KNone lin = Ok (x, lk, fl), nhd_step m lin (state, hds) sh = Ok (x, hds'),
    (nq m <= size x)%N, shape x hds' & adds state hds -> (lk.2 <> 0 -> constraint_part (inp_vec m state sh) lk <> 0) -> adds x hds'].
Proof.
move=> ad ge es; have [l [k [fl [c [b [hds' [[ll kk Ec Eb] E1 E2 [sz ss] H]]]]]]] := step_ok lin ad ge es.
exists (cell_row c (inp_vec m state sh)), (lkz (l, k)), fl, hds'; have [e0 _] := andP dm; split=> //.
- by rewrite size_cell_row // leq_addl.
- by split=> // s ls; rewrite ss // size_cell_row.
move=> aa; rewrite (input_sum aa ge es) in H.
rewrite /constraint_part /= Eb -/(con b _) => nz; split=> //.
  by move=> s ls; rewrite ss // size_cell_row.
move=> x; rewrite H nth_cell_row; congr (_ + _); case: ifP => // /negbT; rewrite negb_and !negbK => /orP [/eqP k0|/eqP c0].
  by move: Ec; rewrite k0 => /(term_k0 ll) ->; rewrite nth_nseq if_same.
case: (k =P 0%N) => [k0|nk]; first by move: Ec; rewrite k0 => /(term_k0 ll) ->; rewrite nth_nseq if_same.
by case: nz => // -[].
Qed.

Lemma loop_adds lin es state hds : shape state hds -> (nq m <= size state)%N -> all (fun e => size e == neps m) es ->
  exists xs fl rs, [/\ sim_loop m lin state es = Ok (xs, fl), nhd_loop m lin (state, hds) es = Ok rs,
    [seq r.1 | r <- rs] = [seq x.1 | x <- xs], size rs = size es &
    adds state hds ->
    (forall t, (t < size es)%N -> (nth (0, 0) [seq x.2 | x <- xs] t).2 <> 0 ->
       constraint_part (inp_vec m (nth [::] (state :: [seq x.1 | x <- xs]) t) (nth [::] es t)) (nth (0, 0) [seq x.2 | x <- xs] t) <> 0) ->
    forall t, (t < size es)%N -> adds (nth [::] [seq x.1 | x <- xs] t) (nth ([::], [::]) rs t).2].
Proof.
elim: es state hds => [|e es IH] state hds sp ge; first by exists [::], 0%N, [::].
rewrite [all _ _]/=; case/andP => /eqP se al; have [x [lk [fl [hds' [E1 E2 gx spx ax]]]]] := step_adds lin sp ge se.
have [xs [fl' [rs [F1 F2 F3 F4 F5]]]] := IH x hds' spx gx al.
exists ((x, lk) :: xs), (Nat.lor fl fl'), ((x, hds') :: rs).
have -> : nhd_loop m lin (state, hds) (e :: es) =
  rbind (nhd_step m lin (state, hds) e) (fun y => rbind (nhd_loop m lin y es) (fun r => Ok (y :: r))) by [].
rewrite E2 [sim_loop _ _ _ _]/= E1 /= F1 F2 /= F3 F4; split=> //.
move=> aa nz; have ax' := ax aa (nz 0%N isT).
by case=> [|t] lt //=; apply: F5 => // j; exact: (nz j.+1).
Qed.

Lemma start_adds init : adds init (nseq (neps m) [seq x / (neps m)%:R | x <- init]).
Proof.
have [e0 _] := andP dm; split; first by rewrite size_nseq.
  by move=> s ls; rewrite nth_nseq ls size_map.
move=> x; rewrite (eq_big_seq (fun _ => nth 0 init x / (neps m)%:R)).
  by rewrite big_const_seq count_predT size_iota iter_addr addr0 -mulrnAr -[_^-1 *+ _]mulr_natr mulVf ?mulr1 // pnatr_eq0 -lt0n.
move=> s; rewrite mem_iota add0n => /andP [_ ls]; rewrite nth_nseq ls.
by case: (ltnP x (size init)) => lx; [rewrite (nth_map 0) | rewrite !nth_default ?mul0r ?size_map].
Qed.

Lemma sample_adds lin T init es : (nq m <= size init)%N -> all (fun e => size e == neps m) es ->
  match nhd_sample m lin T init es with
  | Ok rs => T = (size es).+1 /\ size rs = T /\ (forall t, (t < T)%N -> (nth ([::], [::]) rs t).1 = sim_state m lin init es t) /\
             (attributable m lin init es -> forall t x, (t < T)%N ->
                \sum_(s <- iota 0 (neps m)) nth 0 (nth [::] (nth ([::], [::]) rs t).2 s) x = nth 0 (sim_state m lin init es t) x)
  | Err e => T <> (size es).+1
  end.
Proof.
move=> ge al; have ad := start_adds init; have [s1 s2 _] := ad.
have [xs [fl [rs [F1 F2 F3 F4 F5]]]] := loop_adds lin (conj s1 s2) ge al.
rewrite /nhd_sample F2 /=; case: ltnP => [lt e|ge1]; first by rewrite e ltnn in lt.
case: ltnP => [lt e|le1]; first by rewrite e ltnn in lt.
have eT : T = (size es).+1 by apply/eqP; rewrite eqn_leq le1 ge1.
rewrite /sim_state F1; split=> //; split; first by rewrite /= F4 eT.
split.
  case=> [|t] lt //=; rewrite -F3 (nth_map ([::], [::])) // F4.
  by rewrite eT in lt.
move=> at_ [|t] x lt /=; first by case: ad => _ _ ->.
rewrite eT ltnS in lt; by have [_ _ ->] := F5 ad (at_ _ _ F1) t lt.
Qed.
End P.
