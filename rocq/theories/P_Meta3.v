(** Impulse responses: later shocks, longer horizons, shocks moved in time. *)
Set Warnings "-all".
From Coq Require Import String.
From mathcomp Require Import all_ssreflect all_algebra.
From Verif Require Import PyBase PyStr P_Loops M_FindLk M_Engine S_Engine S_FindLk P_Engine4 M_GenSys M_Tools S_Tools P_Tools P_Tools2 P_Tools3 P_Tools4 S_Meta P_Meta P_Meta2 T_Engine.
Set Implicit Arguments. Unset Strict Implicit. Unset Printing Implicit Defensive.
Import GRing.Theory Num.Theory Order.TTheory.
Local Open Scope ring_scope.

Lemma foldM_eq_in S (X : eqType) (f g : S -> X -> res S) (xs : seq X) s :
  (forall s x, x \in xs -> f s x = g s x) -> foldM f xs s = foldM g xs s.
Proof.
elim: xs s => [|x xs IH] s //= H; rewrite H ?mem_head //; case: (g s x) => //= a.
by apply: IH => s' y hy; apply: H; rewrite inE hy orbT.
Qed.

Section Shift.
Variable F : realFieldType.
Implicit Types (m : tmodel F) (sl : seq (string * F * int)).

Lemma shock_vec_filter names sl t : shock_vec names sl t = shock_vec names [seq a <- sl | a.2 == t%:Z] t.
Proof.
rewrite /shock_vec; elim: sl (nseq _ _) => [|[[s x] per] sl IH] v //=.
case: ifP => /= h; last exact: IH.
by rewrite h; case: py_find => //= i; apply: IH.
Qed.

Lemma run_causal m n T lm km sl sl' st lin sk (fo : bool) :
  agree_before T sl sl' -> (fo -> has (fun a => a.2 != 0) sl = has (fun a => a.2 != 0) sl') ->
  irf_run m n st T lm km sl lin sk fo = irf_run m n st T lm km sl' lin sk fo.
Proof.
move=> ag fe; apply: foldM_eq_in => s t; rewrite mem_iota => /andP [_ lt].
rewrite /irf_step shock_vec_filter (ag _ lt) -shock_vec_filter; case: shock_vec => //= sv.
suff -> : [&& fo, ~~ np_any sv & np_anyz [seq a.2 | a <- sl]] = [&& fo, ~~ np_any sv & np_anyz [seq a.2 | a <- sl']] by [].
by rewrite /np_anyz !has_map; case: fo fe => // /(_ isT) fe; congr andb; congr andb; exact: fe.
Qed.

(** rows are only added *)
Definition addrows (R : seq (seq F * (int * int))) (s : irf_st F) : irf_st F :=
  IS (i_st s) (i_lk s) (i_err s) (i_mult s) (i_rows s ++ R).

Lemma step_add m n lm km sl lin sk fo s t R :
  irf_step m n lm km sl lin sk fo (addrows R s) t = rmap (addrows R) (irf_step m n lm km sl lin sk fo s t).
Proof.
rewrite /irf_step; case: shock_vec => //= sv; case: (if _ then _ else _) => [[eff mult]|] //=.
case: ifP => // _; case: t_func => [[[x lk] fl]|] //=; by case: ifP.
Qed.

Lemma fold_add m n lm km sl lin sk fo s ts R :
  foldM (irf_step m n lm km sl lin sk fo) ts (addrows R s) = rmap (addrows R) (foldM (irf_step m n lm km sl lin sk fo) ts s).
Proof. by elim: ts s => [|t ts IH] s //=; rewrite step_add; case: irf_step. Qed.

Lemma step_one m n lm km sl lin sk fo s t s' : irf_step m n lm km sl lin sk fo s t = Ok s' -> exists x, i_rows s' = x :: i_rows s.
Proof.
rewrite /irf_step; case: shock_vec => //= sv; case: (if _ then _ else _) => [[eff mult]|] //=.
case: ifP => // _; case: t_func => [[[x lk] fl]|] //=; case: ifP => // _ [<-] /=; by eexists.
Qed.

Lemma fold_rows m n lm km sl lin sk fo s ts s' : foldM (irf_step m n lm km sl lin sk fo) ts s = Ok s' ->
  exists2 R, i_rows s' = R ++ i_rows s & size R = size ts.
Proof.
elim: ts s => [|t ts IH] s /=; first by case=> <-; exists [::].
case E: irf_step => [s1|] // /IH [R -> sz]; have [x ->] := step_one E.
by exists (rcons R x); rewrite ?cat_rcons // size_rcons sz.
Qed.

Lemma run_longer m n T d lm km sl st lin sk fo r : irf_run m n st (T + d) lm km sl lin sk fo = Ok r ->
  exists2 r0, irf_run m n st T lm km sl lin sk fo = Ok r0 & rev (i_rows r0) = take T (rev (i_rows r)).
Proof.
rewrite /irf_run iotaD foldM_cat; case E: (foldM _ (iota 0 T) _) => [r0|] //= E2; exists r0 => //.
have [R0 e0] := fold_rows E; rewrite size_iota cats0 in e0 * => sz.
have [R e _] := fold_rows E2.
by rewrite e rev_cat e0 take_size_cat // size_rev.
Qed.

(** shocks moved by [d] periods *)
Definition mv (d : nat) (a : string * F * int) := (a.1, a.2 + d%:Z).
Lemma norm_later d a : norm_shock (later d a) = mv d (norm_shock a).
Proof. by case: a => [s|s x|s x t] //=; rewrite /mv /= add0r. Qed.

Lemma shock_vec_mv names sl d t : shock_vec names (map (mv d) sl) (d + t) = shock_vec names sl t.
Proof.
rewrite /shock_vec; elim: sl (nseq _ _) => [|[[s x] per] sl IH] v //=.
rewrite PoszD addrC (inj_eq (addrI _)); case: ifP => _; last exact: IH.
by case: py_find => //= i; apply: IH.
Qed.

Lemma shock_vec_early names sl d t : (t < d)%N -> all (fun a : string * F * int => 0 <= a.2) sl ->
  shock_vec names (map (mv d) sl) t = Ok (nseq (size names) 0).
Proof.
move=> lt; rewrite /shock_vec; elim: sl (nseq _ _) => [|[[s x] per] sl IH] v //= /andP [p0 al].
rewrite ifN ?IH //; apply: contraTneq lt => e; rewrite -leqNgt -lez_nat -e.
by rewrite ler_addr.
Qed.

Lemma np_anyz_mv sl d : all (fun a : string * F * int => 0 <= a.2) sl -> has (fun a => a.2 != 0) sl ->
  np_anyz [seq a.2 | a <- map (mv d) sl] = np_anyz [seq a.2 | a <- sl].
Proof.
move=> /allP al /hasP [a ain a0].
have -> : np_anyz [seq a.2 | a <- sl] by rewrite /np_anyz has_map; apply/hasP; exists a.
rewrite /np_anyz -map_comp has_map; apply/hasP; exists a => //=.
by apply: lt0r_neq0; apply: ltr_paddr => //; rewrite lt_def a0 al.
Qed.

Variable m : tmodel F.
Variables (sm : sysmats F (dq m) (dp m)) (f : cnst F (dq m) (dp m)).
Variables (omg : 'M[F]_(dp m, dq m)) (lam : 'M[F]_(dq m)).
Hypothesis sd : solved sm f omg lam.
Hypothesis xn : xb m < 0.
Let z : seq F := nseq (size (vvs m)) 0.

Lemma t_func_rest n lin : (nq m <= n)%N ->
  t_func m (nseq n 0) (Some (nseq (neps m) 0)) KNone lin = Ok (z, (0, 0), 0%N) /\
  t_func m (nseq n 0) (Some (nseq (neps m) 0)) (KTuple 0 0) lin = Ok (z, (0, 0), 0%N).
Proof.
move=> hn; have sn : (nq m <= size (nseq n (0%R : F)))%N by rewrite size_nseq.
have se : size (nseq (neps m) (0 : F)) = neps m by rewrite size_nseq.
have C := cell_row_rest sd; have I := inp_zero m n (neps m).
have L k := t_func_linear k (dims sd) sn se (cell00 sd).
have Fo := t_func_forced (dims sd) sn se (leq0n _) (leq0n _) (cell00 sd).
rewrite I C in Fo; rewrite I C in L.
case: lin; rewrite ?L //; split; last exact: Fo.
by rewrite (clear_t_func sd sn se) ?L // I; apply: (rest_clear sd).
Qed.

Lemma step_rest sl lin sk fo t R : endogenous sk -> shock_vec (shk m) sl t = Ok (nseq (size (shk m)) 0) ->
  irf_step m (size (vvs m)) (lmx m) (kmx m) sl lin sk fo (IS z (0, 0) 0 false R) t = Ok (IS z (0, 0) 0 false ((z, (0, 0)) :: R)).
Proof.
move=> en E; rewrite /irf_step E /= (short_st sd) /last_n drop_nseq size_nseq.
have nn : (nq m <= size (vvs m) - (size (vvs m) - nq m))%N by rewrite subKn // (sd_vv sd) leq_addl.
have [T1 T2] := t_func_rest lin nn.
rewrite (_ : nseq (size (shk m)) 0 = nseq (neps m) 0) // T1 /=.
have mx : Num.max (0 - 1 : int) 0 = 0 by [].
rewrite mx; case: (boolP [&& _, _ & _]) => _ /=; first by rewrite T2 /= size_nseq eqxx.
have -> : t_func m (nseq (size (vvs m) - (size (vvs m) - nq m)) 0) (Some (nseq (neps m) 0)) (set_k_at sk t) lin = Ok (z, (0, 0), 0%N).
  by rewrite -T1 /t_func /t_func_raw; case: (sk) en => // -[].
have -> : (if set_k_at sk t is KTuple l k then (l <= (lmx m)%:Z) && (k <= (kmx m)%:Z) else true) = true by case: (sk) en => // -[].
by rewrite /= size_nseq eqxx.
Qed.

Lemma run_rest sl lin sk fo n T : endogenous sk -> (forall t, (t < T)%N -> shock_vec (shk m) sl t = Ok (nseq (size (shk m)) 0)) ->
  (n <= T)%N ->
  foldM (irf_step m (size (vvs m)) (lmx m) (kmx m) sl lin sk fo) (iota 0 n) (IS z (0, 0) 0 false [::]) =
  Ok (IS z (0, 0) 0 false (nseq n (z, (0, 0)))).
Proof.
move=> en H; elim: n => [|n IH] hn //; rewrite -addn1 iotaD foldM_cat IH 1?ltnW //= add0n step_rest ?H //.
by rewrite addn1.
Qed.

Lemma run_later sl lin sk fo d T : endogenous sk -> all (fun a : string * F * int => 0 <= a.2) sl ->
  fo = false \/ has (fun a => a.2 != 0) sl ->
  irf_run m (size (vvs m)) None (d + T) (lmx m) (kmx m) (map (mv d) sl) lin sk fo =
  rmap (addrows (nseq d (z, (0, 0)))) (irf_run m (size (vvs m)) None T (lmx m) (kmx m) sl lin sk fo).
Proof.
move=> en al hf; rewrite /irf_run /= iotaD foldM_cat -/z.
rewrite (@run_rest _ lin sk fo d d en _ (leqnn d)); last by move=> t lt; apply: shock_vec_early.
rewrite /= add0n -[IS z _ _ _ (nseq d _)]/(addrows (nseq d (z, (0, 0))) (IS z (0, 0) 0 false [::])) fold_add; congr rmap.
have -> : iota d T = [seq d + i | i <- iota 0 T]%N by rewrite -iotaDl addn0.
elim: (iota 0 T) (IS _ _ _ _ _) => [|t ts IH] s //=.
rewrite (_ : irf_step _ _ _ _ (map (mv d) sl) _ _ _ s (d + t) = irf_step m (size (vvs m)) (lmx m) (kmx m) sl lin sk fo s t).
  by case: irf_step.
rewrite /irf_step shock_vec_mv; case: shock_vec => //= sv.
have -> : [&& fo, ~~ np_any sv & np_anyz [seq a.2 | a <- map (mv d) sl]] = [&& fo, ~~ np_any sv & np_anyz [seq a.2 | a <- sl]].
  by case: hf => [->|h] //; rewrite np_anyz_mv.
by have -> : set_k_at sk (d + t) = set_k_at sk t by case: (sk) en => // -[].
Qed.
End Shift.

Lemma step_endo_eq (F : realFieldType) (m : tmodel F) sm f omg lam (sd : @solved F m sm f omg lam) sl sk fo s t l k fl c :
  uniq (shk m) -> endogenous sk -> known_at (shk m) sl t -> (nq m <= size (i_st s))%N -> ~~ forced_at m sl fo t ->
  msearch (inp_vec m (i_st s) (shocks_at (shk m) sl t)) = Ok (l, k, fl) -> (l <= lmx m)%N -> (k <= kmx m)%N -> tab m l k = Some c ->
  irf_step m (size (vvs m)) (lmx m) (kmx m) sl false sk fo s t =
    let x := cell_row c (inp_vec m (i_st s) (shocks_at (shk m) sl t)) in
    Ok (IS x (lkz (l, k)) (Nat.lor (i_err s) fl) (i_mult s) ((x, lkz (l, k)) :: i_rows s)).
Proof.
move=> un en kn sz nf Es ll kk Ec; have E := t_func_endo (dims sd) sz (size_sh m sl t) Es ll kk Ec.
rewrite /irf_step shock_vecE // kn /=.
rewrite -/(forced_at m sl fo t) (negbTE nf) /= (short_st sd) t_func_block ?(sd_st sd) //.
rewrite endo_t_func // E /=.
have -> : (if set_k_at sk t is KTuple l k then (l <= (lmx m)%:Z) && (k <= (kmx m)%:Z) else true) = true by case: sk en => // -[].
by rewrite size_cell_row ?(sd_eps sd) // (sd_vv sd) eqxx.
Qed.
