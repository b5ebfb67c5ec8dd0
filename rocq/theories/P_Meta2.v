(** Runs away from the bound, runs that agree up to a period, runs from rest. *)
Set Warnings "-all".
From Coq Require Import String.
From mathcomp Require Import all_ssreflect all_algebra.
From Verif Require Import PyBase PyStr P_Loops M_FindLk M_Engine S_Engine S_FindLk P_Engine4 M_GenSys M_Tools S_Tools P_Tools P_Tools2 P_Tools3 P_Tools4 S_Meta P_Meta T_Engine.
Set Implicit Arguments. Unset Strict Implicit. Unset Printing Implicit Defensive.
Import GRing.Theory Num.Theory Order.TTheory.
Local Open Scope ring_scope.

Section Clear.
Variable F : realFieldType.
Variable m : tmodel F.
Variables (sm : sysmats F (dq m) (dp m)) (f : cnst F (dq m) (dp m)).
Variables (omg : 'M[F]_(dp m, dq m)) (lam : 'M[F]_(dq m)).
Hypothesis sd : solved sm f omg lam.

Lemma path_ex l k v : (l <= lmx m)%N -> (k <= kmx m)%N -> exists q p, q 0%N = v /\ announced_by sm omg l k q p.
Proof.
move=> ll kk; have [rules [_ H]] := C01_announced_paths_solve_the_model (sd_pre sd) (sd_T sd) (sd_W sd) (sd_lin sd).
have [ex an] := H l k ll kk; have [q [p [q0 fo]]] := ex v.
by exists q, p; split=> //; apply: an.
Qed.

Lemma clear_search v : clear_of_bound sm f omg v <-> msearch v = Ok (0%N, 0%N, 0%N).
Proof.
have [N NE] := notional_ex (f := f) (sd_pre sd) (sd_T sd) (sd_W sd) (sd_lin sd) v (lmx0 sd).
have /andP [_ l9] := sd_l sd; split.
  move=> cl; apply: (search0_slack (sd_pre sd) (sd_T sd) (sd_W sd) (sd_lin sd) NE l9) => s ls.
  have [q [p [q0 an]]] := @path_ex 0 0 v isT isT.
  by rewrite (NE 0%N 0%N q p isT isT an q0 s); apply: cl.
move=> E q p an q0 s ls; rewrite -(NE 0%N 0%N q p isT isT an q0 s).
by have [[H _] _] := c05 (sd_pre sd) (sd_T sd) (sd_W sd) (sd_lin sd) NE (sd_k sd) l9 E; apply: H.
Qed.

Lemma search_k0 v l fl : msearch v = Ok (l, 0%N, fl) -> clear_of_bound sm f omg v.
Proof.
have [N NE] := notional_ex (f := f) (sd_pre sd) (sd_T sd) (sd_W sd) (sd_lin sd) v (lmx0 sd).
have /andP [_ l9] := sd_l sd => E q p an q0 s ls; rewrite -(NE 0%N 0%N q p isT isT an q0 s).
by have [[H _] _] := c05 (sd_pre sd) (sd_T sd) (sd_W sd) (sd_lin sd) NE (sd_k sd) l9 E; apply: H.
Qed.

Lemma clear_t_func st sh : (nq m <= size st)%N -> size sh = neps m -> clear_of_bound sm f omg (inp_vec m st sh) ->
  t_func m st (Some sh) KNone false = t_func m st (Some sh) KNone true.
Proof.
move=> ge es /clear_search E; rewrite (t_func_linear KNone (dims sd) ge es (cell00 sd)).
exact: (t_func_endo (dims sd) ge es E (leq0n _) (leq0n _) (cell00 sd)).
Qed.

Section Run.
Hypothesis un : uniq (shk m).
Variable sl : seq (string * F * int).
Variable st0 : seq F.
Hypothesis sz0 : (nq m <= size st0)%N.
Variable sk : setk.
Hypothesis en : endogenous sk.
Variable fo : bool.

Notation step := (irf_step m (size (vvs m)) (lmx m) (kmx m) sl).
Notation run lin T := (irf_run m (size (vvs m)) (Some st0) T (lmx m) (kmx m) sl lin sk fo).

Lemma runS' lin T : run lin T.+1 = rbind (run lin T) (fun s => step lin sk fo s T).
Proof. by rewrite /irf_run -addn1 iotaD foldM_cat /= add0n; case: foldM => //= s; case: irf_step. Qed.

Lemma step_clear s t s' : i_lk s = (0, 0) -> (nq m <= size (i_st s))%N -> step true sk fo s t = Ok s' ->
  [/\ i_lk s' = (0, 0), (nq m <= size (i_st s'))%N, i_err s' = i_err s, i_mult s' = i_mult s & i_rows s' = (i_st s', (0, 0)) :: i_rows s] /\
  (clear_of_bound sm f omg (inp_vec m (i_st s) (shocks_at (shk m) sl t)) -> step false sk fo s t = Ok s').
Proof.
move=> lk0 sz; rewrite /irf_step shock_vecE //; case: ifP => //= kn.
rewrite (short_st sd) lk0 /=.
have B k l : t_func m (last_n (nq m) (i_st s)) (Some (shocks_at (shk m) sl t)) k l = t_func m (i_st s) (Some (shocks_at (shk m) sl t)) k l.
  by apply: t_func_block; apply: sd_st sd.
have L k := t_func_linear k (dims sd) sz (size_sh m sl t) (cell00 sd).
have Fo := t_func_forced (dims sd) sz (size_sh m sl t) (leq0n _) (leq0n _) (cell00 sd).
pose x := cell_row (Cell omg 0 lam 0) (inp_vec m (i_st s) (shocks_at (shk m) sl t)).
have sx : size x == size (vvs m) by rewrite size_cell_row ?(sd_eps sd) // (sd_vv sd).
have SK : (if set_k_at sk t is KTuple l k then (l <= (lmx m)%:Z) && (k <= (kmx m)%:Z) else true) = true by case: (sk) en => // -[].
have mx : Num.max (0 - 1 : int) 0 = 0 by [].
rewrite mx; set cond := [&& _, _ & _].
suff [-> H] : rbind (if cond then rbind (t_func m (last_n (nq m) (i_st s)) (Some (shocks_at (shk m) sl t)) KNone true)
       (fun r => Ok (KTuple 0 0, i_mult s || (r.1.2 != (0, 0)))) else Ok (set_k_at sk t, i_mult s)) (fun em : setk * bool =>
     let: (eff, mult) := em in
     if (if eff is KTuple l k then (l <= (lmx m)%:Z) && (k <= (kmx m)%:Z) else true)
     then rbind (t_func m (last_n (nq m) (i_st s)) (Some (shocks_at (shk m) sl t)) eff true) (fun r =>
       let: (st', lk', flag) := r in
       if size st' == size (vvs m) then Ok (IS st' lk' (Nat.lor (i_err s) flag) mult ((st', lk') :: i_rows s)) else Err ValueError)
     else Err IndexError) = Ok (IS x (0, 0) (Nat.lor (i_err s) 0) (i_mult s) ((x, (0, 0)) :: i_rows s)) /\
  (clear_of_bound sm f omg (inp_vec m (i_st s) (shocks_at (shk m) sl t)) ->
   rbind (if cond then rbind (t_func m (last_n (nq m) (i_st s)) (Some (shocks_at (shk m) sl t)) KNone false)
       (fun r => Ok (KTuple 0 0, i_mult s || (r.1.2 != (0, 0)))) else Ok (set_k_at sk t, i_mult s)) (fun em : setk * bool =>
     let: (eff, mult) := em in
     if (if eff is KTuple l k then (l <= (lmx m)%:Z) && (k <= (kmx m)%:Z) else true)
     then rbind (t_func m (last_n (nq m) (i_st s)) (Some (shocks_at (shk m) sl t)) eff false) (fun r =>
       let: (st', lk', flag) := r in
       if size st' == size (vvs m) then Ok (IS st' lk' (Nat.lor (i_err s) flag) mult ((st', lk') :: i_rows s)) else Err ValueError)
     else Err IndexError) = Ok (IS x (0, 0) (Nat.lor (i_err s) 0) (i_mult s) ((x, (0, 0)) :: i_rows s))).
  case=> <-; split; last exact: H.
  split=> //=; last by rewrite PeanoNat.Nat.lor_0_r.
  by rewrite (eqP sx) (sd_vv sd) leq_addl.
rewrite !B !L; split.
  by case: (cond) => /=; rewrite ?SK B L -/x /= sx ?orbF.
move=> /clear_search E.
have Nn := t_func_endo (dims sd) sz (size_sh m sl t) E (leq0n _) (leq0n _) (cell00 sd).
rewrite Nn -/x; case: (cond) => /=; first by rewrite B Fo -/x /= sx orbF.
by rewrite SK B endo_t_func // Nn -/x /= sx.
Qed.

Lemma run_clear T r : run true T = Ok r ->
  (forall t, (t < T)%N -> clear_of_bound sm f omg (inp_vec m (nth [::] (st0 :: [seq x.1 | x <- rev (i_rows r)]) t) (shocks_at (shk m) sl t))) ->
  run false T = Ok r.
Proof.
suff G : run true T = Ok r -> [/\ i_lk r = (0, 0), (nq m <= size (i_st r))%N, size (i_rows r) = T,
     nth [::] (st0 :: [seq x.1 | x <- rev (i_rows r)]) T = i_st r &
    ((forall t, (t < T)%N -> clear_of_bound sm f omg (inp_vec m (nth [::] (st0 :: [seq x.1 | x <- rev (i_rows r)]) t) (shocks_at (shk m) sl t))) ->
  run false T = Ok r)] by move/G => -[].
elim: T r => [|T IH] r; first by case=> <-.
rewrite runS' runS'; case E: (run true T) => [r0|] //= Es; have [e1 e2 e3 e4 e5] := IH _ E.
have [[s1 s2 s3 s4 s5] H] := step_clear e1 e2 Es.
have R : [seq x.1 | x <- rev (i_rows r)] = rcons [seq x.1 | x <- rev (i_rows r0)] (i_st r) by rewrite s5 rev_cons map_rcons.
have sr : size [seq x.1 | x <- rev (i_rows r0)] = T by rewrite size_map size_rev.
have nthR t : (t <= T)%N -> nth [::] (st0 :: [seq x.1 | x <- rev (i_rows r)]) t = nth [::] (st0 :: [seq x.1 | x <- rev (i_rows r0)]) t.
  by move=> h; rewrite R; case: t h => //= t h; rewrite nth_rcons sr h.
split=> //; first by rewrite s5 /= e3.
  by rewrite R /= nth_rcons sr ltnn eqxx.
move=> cl; rewrite e5 /=; last by move=> t lt; rewrite -nthR ?(ltnW lt) //; apply: cl; apply: ltnW.
by apply: H; rewrite -e4 -nthR //; apply: cl.
Qed.
End Run.

Lemma sim_clear st es xs : (nq m <= size st)%N -> all (fun e => size e == neps m) es ->
  sim_loop m true st es = Ok xs ->
  (forall t, (t < size es)%N -> clear_of_bound sm f omg (inp_vec m (nth [::] (st :: [seq x.1 | x <- xs.1]) t) (nth [::] es t))) ->
  sim_loop m false st es = Ok xs.
Proof.
elim: es st xs => [|e es IH] st xs //= sz /andP [/eqP se al].
have L := t_func_linear KNone (dims sd) sz se (cell00 sd); rewrite L /=.
set x := cell_row _ _; case E: (sim_loop m true x es) => [ys|] //= [<-] cl.
have := cl 0%N isT; rewrite /= => /(clear_t_func sz se) ->; rewrite L /= -/x.
rewrite (IH x ys) //.
  by rewrite size_cell_row ?(sd_eps sd) // leq_addl.
by move=> t lt; have := cl t.+1 lt.
Qed.

(** the state of rest *)
Lemma rest_path l k q p : mh sm = 0 \/ k = 0%N -> (l <= lmx m)%N -> (k <= kmx m)%N -> announced_by sm omg l k q p -> q 0%N = 0 ->
  forall s, q s = 0 /\ p s = 0.
Proof.
move=> h0 ll kk an q0.
have [rules [st _]] := C01_announced_paths_solve_the_model (sd_pre sd) (sd_T sd) (sd_W sd) (sd_lin sd).
have [_ U] := C02_announced_path_unique (sd_pre sd) (sd_T sd) (sd_W sd) (sd_lin sd) st (lmx0 sd) ll kk an.
apply: (U (fun=> 0) (fun=> 0)) => //; split=> [s|s _]; last by rewrite mulmx0.
rewrite /unconstrained /constrained col_mx0 !mulmx0.
case: h0 => [->|->]; first by rewrite addr0; case: binds.
by rewrite /binds addn0 ltnNge; case: leqP.
Qed.

Lemma rest_clear : xb m < 0 -> clear_of_bound sm f omg 0.
Proof.
move=> xn q p an q0 s _; have H := rest_path (or_intror erefl) (leq0n _) (leq0n _) an q0.
by rewrite /notional (H s).1 (H s).2 (H s.+1).1 !mulmx0 !addr0 mxE.
Qed.

Lemma inp_zero n k : inp_vec m (nseq n 0) (nseq k 0) = 0.
Proof.
rewrite /inp_vec /last_n drop_nseq; apply/matrixP => i j; rewrite !mxE nth_cat.
by case: ifP => _; rewrite nth_nseq; case: ifP.
Qed.

Lemma cell_row_rest : cell_row (Cell omg 0 lam 0) (0 : 'cV_(dq m)) = nseq (size (vvs m)) 0.
Proof.
rewrite /cell_row /= !mulmx0 !addr0 !seq_of0 take_nseq ?leq_subr //.
by rewrite (sd_vv sd) nseqD.
Qed.
End Clear.
