Set Warnings "-all".
From Coq Require Import String.
From mathcomp Require Import all_ssreflect all_algebra.
From Verif Require Import PyBase PyStr M_FindLk M_Engine S_Engine P_Loops P_Engine2 P_Engine3 P_Engine4 M_Tools S_Tools P_Tools T_Engine.
Set Implicit Arguments. Unset Strict Implicit. Unset Printing Implicit Defensive.
Import GRing.Theory Num.Theory Order.TTheory.
Local Open Scope ring_scope.

Section Shocks.
Variable F : realFieldType.
Variable names : seq string.
Hypothesis un : uniq names.
Implicit Type sl : seq (string * F * int).

Lemma shock_vecE sl t : shock_vec names sl t =
  if known_at names sl t then Ok (shocks_at names sl t) else Err ValueError.
Proof.
rewrite /shock_vec /known_at /shocks_at /shock_size.
set step := fun v a => _.
have gen : forall sl (g : string -> F), foldM step sl [seq g n | n <- names] =
   if all (fun a => (a.2 == t%:Z) ==> (a.1.1 \in names)) sl
   then Ok [seq last (g n) [seq a.1.2 | a <- sl & (a.1.1 == n) && (a.2 == t%:Z)] | n <- names]
   else Err ValueError.
  elim=> [|[[s x] per] sl' IH] g //=.
  case: (per == t%:Z) => /=; last first.
    by rewrite IH; case: ifP => // _; congr Ok; apply: eq_map => n; rewrite andbF.
  rewrite /py_find; case: (boolP (s \in names)) => si //=.
  have -> : set_nth 0 [seq g n | n <- names] (index s names) x = [seq (if s == n then x else g n) | n <- names].
    have lt : (index s names < size names)%N by rewrite index_mem.
    apply: (@eq_from_nth _ 0); rewrite size_set_nth !size_map ?(maxn_idPr lt) // => i li.
    rewrite nth_set_nth /= (nth_map s) // (nth_map s) //.
    case: eqP => [->|ne]; first by rewrite nth_index // eqxx.
    case: eqP => // e; case: ne; by rewrite e index_uniq.
  rewrite IH; case: ifP => // _; congr Ok; apply: eq_map => n; rewrite andbT.
  by case: eqP.
have -> : nseq (size names) (0 : F) = [seq (fun=> 0) n | n <- names].
  by elim: names => //= a l ->.
by rewrite gen.
Qed.

Lemma size_shocks_at sl t : size (shocks_at names sl t) = size names.
Proof. by rewrite size_map. Qed.
End Shocks.

(** elapsed expectations *)
Lemma pred_int n : Posz n.+1 - 1 = Posz n.
Proof. by rewrite intS addrC addKr. Qed.
Lemma max_int0 n : Order.max (Posz n) 0 = Posz n.
Proof. exact: max_l. Qed.
Lemma max_neg (i : int) : i <= 0 -> Order.max i 0 = 0.
Proof. exact: max_r. Qed.

Lemma elapse_remaining l k j : elapse (lkz (remaining l k j)) = lkz (remaining l k j.+1).
Proof.
case: (remP l k j) => [l1 k1|k1|] _ _; rewrite /elapse /lkz /=.
- by rewrite pred_int.
- by rewrite pred_int max_int0.
- by [].
Qed.

Lemma set_k_at_remaining sk l k t : fixes sk l k ->
  set_k_at sk t = KTuple (lkz (remaining l k t)).1 (lkz (remaining l k t)).2.
Proof.
have one n : Order.max (Posz n - Posz t) 0 = Posz (n - t).
  case: (leqP t n) => h; first by rewrite subzn // max_int0.
  by rewrite max_neg; [rewrite (_ : (n - t)%N = 0%N) //; apply/eqP; rewrite subn_eq0 ltnW | rewrite subr_le0 lez_nat ltnW].
have zero n : remaining 0 n t = (0%N, (n - t)%N) by rewrite /remaining leqn0; case: eqP => [->|_]; rewrite ?subn0.
case: sk => //= [b [-> -> ->]|a b [-> ->]|n [n0 -> e]].
- by rewrite zero /= -one.
- rewrite /remaining subr_ge0 lez_nat; case: (leqP t l) => h /=; first by rewrite subzn.
  rewrite -PoszD one; congr KTuple; congr Posz; by rewrite subnBA ?(ltnW h).
- by move: n0; rewrite e zero /= -one; case: k {e} => [|k].
Qed.

Section Irfs.
Variable F : realFieldType.
Variable m : tmodel F.
Variables (sm : sysmats F (dq m) (dp m)) (f : cnst F (dq m) (dp m)).
Variables (omg : 'M[F]_(dp m, dq m)) (lam : 'M[F]_(dq m)).
Hypothesis sd : solved sm f omg lam.

Lemma dims : (0 < neps m < dq m)%N.
Proof. by rewrite (sd_eps sd) (sd_st sd). Qed.
Lemma lmx0 : (0 < lmx m)%N.
Proof. by have /andP [] := sd_l sd. Qed.

(** the search always succeeds *)
Lemma t_func_total st sh : (nq m <= size st)%N -> size sh = neps m ->
  exists l k fl c, [/\ (l <= lmx m)%N, (k <= kmx m)%N, tab m l k = Some c &
    t_func m st (Some sh) KNone false = Ok (cell_row c (inp_vec m st sh), lkz (l, k), fl)].
Proof.
move=> ge es.
have [l [k [fl [c [E ll kk Ec]]]]] := C08_results_in_range (sd_pre sd) (sd_T sd) (sd_W sd) (sd_lin sd) (sd_k sd) (sd_l sd)
  (inp_vec m st sh) (xb m).
exists l, k, fl, c; split=> //; exact: (t_func_endo dims).
Qed.

Lemma cells_ok l k : (l <= lmx m)%N -> (k <= kmx m)%N -> exists c, tab m l k = Some c.
Proof. exact: (c08' (sd_pre sd)). Qed.

Lemma cell00 : tab m 0%N 0%N = Some (Cell omg 0 lam 0).
Proof. exact: (C11_k0_entries_linear (sd_pre sd) (sd_T sd) (sd_W sd) (sd_lin sd)). Qed.

Section Path.
Variables (l k : nat) (q : nat -> 'cV[F]_(dq m)) (p : nat -> 'cV[F]_(dp m)).
Hypothesis (ll : (l <= lmx m)%N) (kk : (k <= kmx m)%N).
Hypothesis an : announced_by sm omg l k q p.

Lemma ann_row j : exists2 c, tab m (remaining l k j).1 (remaining l k j).2 = Some c & cell_row c (q j) = path_row (nq m) q p j.
Proof.
have [rules [st H]] := c01 (sd_pre sd) (sd_T sd) (sd_W sd) (sd_lin sd).
have fo := c02 (sd_pre sd) (sd_T sd) (sd_W sd) (sd_lin sd) st lmx0 ll kk an.
have [l1 k1] := remaining_le l k j.
have := st (remaining l k j).1 (remaining l k j).2 (leq_trans l1 ll) (leq_trans k1 kk).
have := fo j; case: (rules _ _) => -[pm' pt'] [qm' qt'] [e1 e2] e3.
by eexists; first exact: e3; rewrite /cell_row /path_row /= -e1 -e2.
Qed.

Lemma ann_noshock (ne : no_expected_shocks sm (neps m)) j i : (nq m <= i)%N -> forall lt : (i < dq m)%N, q j.+1 (Ordinal lt) 0 = 0.
Proof.
move=> ge lt; case: an => ob _; apply: (ne (q j) _ (p j) (p j.+1)) => //.
by have := ob j; case: binds; [right | left].
Qed.

Lemma ann_inp (ne : no_expected_shocks sm (neps m)) j st :
  last_n (nq m) st = take (nq m) (seq_of (q j.+1)) -> inp_vec m st (nseq (neps m) 0) = q j.+1.
Proof.
move=> e; rewrite /inp_vec e; apply/matrixP=> i i0; rewrite (ord1 i0) {i0} mxE nth_cat size_takel ?size_seq_of ?leq_subr //.
case: ltnP => h; first by rewrite nth_take // nth_seq_of.
rewrite nth_nseq if_same; case: i h => i lt h; by rewrite (ann_noshock ne).
Qed.

Lemma last_path_row j : last_n (nq m) (path_row (nq m) q p j) = take (nq m) (seq_of (q j.+1)).
Proof. by apply: last_n_cat; rewrite size_takel // size_seq_of leq_subr. Qed.

Lemma size_path_row j : size (path_row (nq m) q p j) = size (vvs m).
Proof. by rewrite size_cat size_seq_of size_takel ?size_seq_of ?leq_subr // (sd_vv sd). Qed.

(** one period whose expectations are given *)
Lemma ann_t_func j st sh : (nq m <= size st)%N -> size sh = neps m -> inp_vec m st sh = q j ->
  t_func m st (Some sh) (KTuple (lkz (remaining l k j)).1 (lkz (remaining l k j)).2) false =
  Ok (path_row (nq m) q p j, lkz (remaining l k j), 0%N).
Proof.
move=> ge es ei; have [c Ec <-] := ann_row j; have [l1 k1] := remaining_le l k j.
by rewrite (t_func_forced dims ge es (leq_trans l1 ll) (leq_trans k1 kk) Ec) ei.
Qed.
End Path.
End Irfs.
