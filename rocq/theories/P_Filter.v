(** Proofs about filtering. *)
Set Warnings "-all".
From Coq Require Import String.
From mathcomp Require Import all_ssreflect all_algebra.
From Verif Require Import PyBase PyStr M_FindLk M_Engine S_Engine M_Tools S_Tools P_Tools T_Engine M_Filter S_Filter.
Set Implicit Arguments. Unset Strict Implicit. Unset Printing Implicit Defensive.
Import GRing.Theory Num.Theory Order.TTheory.
Local Open Scope ring_scope.

Section Proofs.
Variable F : realFieldType.
Implicit Type m : tmodel F.

Lemma mgetE (a b : nat) (A : 'M[F]_(a, b)) (i : 'I_a) (j : 'I_b) : mget A i j = A i j.
Proof. by rewrite /mget !valK. Qed.

Lemma mulcol (a b : nat) (A : 'M[F]_(a, b)) (s : seq F) (i : 'I_a) :
  (A *m col_of b s) i 0 = \sum_(0 <= j < b) mget A i j * nth 0 s j.
Proof. by rewrite mxE big_mkord; apply: eq_bigr => j _; rewrite mgetE /col_of mxE. Qed.
Lemma slicecol (a b i0 r j0 c : nat) (A : 'M[F]_(a, b)) (s : seq F) (i : 'I_r) :
  (slice A i0 r j0 c *m col_of c s) i 0 = \sum_(0 <= j < c) mget A (i0 + i) (j0 + j) * nth 0 s j.
Proof. by rewrite mxE big_mkord; apply: eq_bigr => j _; rewrite /slice /col_of !mxE. Qed.

(** [A] times the stacked vector is the sum of the two column blocks *)
Lemma cut_cols (a b n e r : nat) (A : 'M[F]_(a, b)) (s t : seq F) (i : 'I_a) (i' : 'I_r) : b = (n + e)%N -> size s = n -> i = i' :> nat ->
  (A *m col_of b (s ++ t)) i 0 = (slice A 0 r 0 n *m col_of n s + slice A 0 r n e *m col_of e t) i' 0.
Proof.
move=> eb es ei; rewrite mulcol [RHS]mxE !slicecol (@big_cat_nat _ _ _ n) //=; last by rewrite eb leq_addr.
congr (_ + _); rewrite /= ?add0n.
  rewrite !big_nat; apply: eq_bigr => j /andP [_ lt]; by rewrite nth_cat es lt !add0n ei.
have be : (b - n = e)%N by rewrite eb addKn.
rewrite -{1}[n]add0n big_addn be !big_nat; apply: eq_bigr => j /andP [_ lt].
by rewrite nth_cat es ltnNge leq_addl /= addnK addnC ei.
Qed.

Lemma last_nE m (st : seq F) : size st = dx m -> last_n (nq m) st = drop (dp m) st.
Proof. by move=> es; rewrite /last_n es /dx /ns /nq addnK. Qed.

Lemma padcol m (A : 'M[F]_(dx m, ns m)) st : size st = dx m -> 
  (row_mx 0 A : 'M[F]_(dx m)) *m col_of (dx m) st = A *m col_of (ns m) (drop (dp m) st).
Proof.
move=> es; have -> : col_of (dx m) st = col_mx (col_of (dp m) (take (dp m) st)) (col_of (ns m) (drop (dp m) st)).
  apply/matrixP=> i j; rewrite (ord1 j) !mxE; case: splitP => k ek; rewrite /col_of mxE ek.
    by rewrite nth_take.
  by rewrite nth_drop.
by rewrite mul_row_col mul0mx add0r.
Qed.

Lemma seq_of_cat (a b : nat) (u : 'cV[F]_a) (v : 'cV[F]_b) : seq_of (col_mx u v) = seq_of u ++ seq_of v.
Proof.
apply: (@eq_from_nth _ 0); first by rewrite size_cat !size_seq_of.
move=> i; rewrite size_seq_of => lt; rewrite (nth_seq_of (col_mx u v) (Ordinal lt)) nth_cat size_seq_of mxE.
case: splitP => k /= ek; rewrite ek ?ltn_ord; first by rewrite nth_seq_of.
by rewrite ltnNge leq_addr /= addKn nth_seq_of.
Qed.

Lemma take_seq_of (a b : nat) (u : 'cV[F]_a) (v : 'cV[F]_b) : (b <= a)%N ->
  (forall (i : 'I_a) (j : 'I_b), i = j :> nat -> u i 0 = v j 0) -> take b (seq_of u) = seq_of v.
Proof.
move=> le H; apply: (@eq_from_nth _ 0); first by rewrite size_takel !size_seq_of.
move=> i; rewrite size_takel ?size_seq_of // => lt; rewrite nth_take //.
rewrite (nth_seq_of v (Ordinal lt)) (nth_seq_of u (Ordinal (leq_trans lt le))); exact: H.
Qed.
Lemma eq_seq_of (a : nat) (u v : 'cV[F]_a) : (forall i, u i 0 = v i 0) -> seq_of u = seq_of v.
Proof. by move=> H; congr seq_of; apply/matrixP=> i j; rewrite (ord1 j). Qed.

Lemma dqE m : (neps m < dq m)%N -> dq m = (ns m + neps m)%N.
Proof. by move=> lt; rewrite /ns subnK // ltnW. Qed.

Lemma row_block m omg lam (s sh : seq F) : (neps m < dq m)%N -> size s = ns m -> size sh = neps m ->
  @cell_row F m (Cell omg 0 lam 0) (col_of (dq m) (s ++ sh)) =
  seq_of (F_of (Cell omg 0 lam 0) *m col_of (ns m) s + E_of (Cell omg 0 lam 0) *m col_of (neps m) sh).
Proof.
move=> lt es eh; have ed := dqE lt.
rewrite /cell_row /F_of /E_of /= !addr0 !mul_col_mx add_col_mx seq_of_cat; congr (_ ++ _).
  by apply: eq_seq_of => i; apply: cut_cols.
by apply: take_seq_of => [|i j eij]; [rewrite /nq leq_subr | apply: cut_cols].
Qed.

Lemma linear_cell m : lsolved m -> exists omg lam, cell10 m = Ok (Cell omg 0 lam 0) /\ tab m 0%N 0%N = Some (Cell omg 0 lam 0).
Proof.
case=> sm f omg lam pre hT hW hl _ _ l0; have H := C11_k0_entries_linear pre hT hW hl.
by exists omg, lam; rewrite (H 0%N) // /cell10 /= ltnS l0 /= (H 1%N).
Qed.

Lemma ls_dims m : lsolved m -> (0 < neps m < dq m)%N.
Proof. by case=> sm f omg lam _ _ _ _ h1 h2 _; rewrite h1. Qed.

Lemma lawP m : lsolved m -> exists omg lam, let c := Cell omg 0 lam 0 in
  [/\ cell10 m = Ok c, linear_law (row_mx 0 (F_of c)) (E_of c)
   & linear_state_law (slice (qm c) 0 (ns m) 0 (ns m)) (slice (qm c) 0 (ns m) (ns m) (neps m))].
Proof.
move=> ls; have dm := ls_dims ls; have [e0 lt] := andP dm; have [omg [lam [h1 h2]]] := linear_cell ls.
exists omg, lam; split=> // [x eps ex ee|x eps ex ee].
  have nx : (nq m <= size x)%N by rewrite ex leq_addl.
  rewrite (t_func_linear KNone dm nx ee h2) /inp_vec last_nE // row_block ?size_drop ?ex ?addKn //.
  by rewrite padcol.
have nx : (nq m <= size x)%N by rewrite ex.
rewrite (t_func_linear KNone dm nx ee h2) /inp_vec last_n_id // row_block //.
by rewrite /F_of /E_of !mul_col_mx add_col_mx seq_of_cat; eexists; split; [reflexivity | rewrite size_seq_of].
Qed.

Lemma distinct_of m c : lsolved m -> cell10 m = Ok c ->
  (forall v v' : 'cV[F]_(neps m), E_of c *m v = E_of c *m v' -> v = v') -> distinct_effects m.
Proof.
move=> ls hc inj x eps eps' sx se se'; have [omg [lam [hc' law _]]] := lawP ls.
rewrite hc' in hc; case: hc => e1; rewrite e1 in law; rewrite !law // => -[] /(congr1 (col_of (dx m))).
by rewrite !col_of_seq_of => /addrI /inj /(congr1 (@seq_of F _)); rewrite !seq_of_col_of.
Qed.

Lemma drsub_pad p n (F1 : 'M[F]_(p + n, n)) : drsubmx (row_mx 0 F1 : 'M[F]_(p + n, p + n)) = dsubmx F1.
Proof. by apply/matrixP=> i j; rewrite !mxE; case: splitP => k; rewrite ?mxE /= => ek; [have := ltn_ord k; rewrite -ek ltnNge leq_addr | congr (F1 _ _); apply: val_inj; apply/eqP; rewrite -(eqn_add2l p) ek]. Qed.

Lemma stationary p n (F1 : 'M[F]_(p + n, n)) (Q : 'M[F]_(p + n)) p4 : p4 = dsubmx F1 *m p4 *m (dsubmx F1)^T + drsubmx Q ->
  let P := F1 *m p4 *m F1^T + Q in P = row_mx 0 F1 *m P *m (row_mx 0 F1)^T + Q.
Proof.
move=> e4 P; rewrite tr_row_mx trmx0 -{2}[P]submxK mul_row_block !mul0mx !add0r mul_row_col mulmx0 add0r.
suff -> : drsubmx P = p4 by [].
rewrite /P /drsubmx !linearD /= [RHS]e4; congr (_ + _).
by rewrite -!mul_dsub_mx -mulmx_rsub trmx_dsub.
Qed.

Lemma as_size_same d (A : 'M[F]_d) : as_size d (Sq A) = Some A.
Proof. by rewrite /as_size /=; case: eqP => // e; rewrite (eq_irrelevance e erefl) castmx_id. Qed.
Lemma as_size_other d d' (A : 'M[F]_d) : d <> d' -> as_size d' (Sq A) = None.
Proof. by rewrite /as_size /=; case: eqP. Qed.
Lemma as_sizeP d q (A : 'M[F]_d) : as_size d q = Some A -> q = Sq A.
Proof. by case: q => d' B; rewrite /as_size /=; case: eqP => // e [<-]; case: d / e A; rewrite castmx_id. Qed.
Lemma setup_ok (lyap : forall n, 'M[F]_n -> 'M[F]_n -> res 'M[F]_n) m q (P : 'M[F]_(dx m)) : lsolved m -> exists f, setup_kf lyap q (Some P) = Ok f.
Proof. by move=> ls; have [omg [lam [hc _ _]]] := lawP ls; rewrite /setup_kf hc /=; eexists. Qed.
Lemma Q_after_ok (lyap : forall n, 'M[F]_n -> 'M[F]_n -> res 'M[F]_n) m q (P : 'M[F]_(dx m)) n : lsolved m -> exists q', Q_after lyap (Some P) n q = Ok q'.
Proof.
move=> ls; rewrite /Q_after; elim: n q 0%N => [|n IH] q j /=; first by eexists.
by have [f ->] := setup_ok lyap q P ls; apply: IH.
Qed.
Lemma inits_ok (lyap : forall n, 'M[F]_n -> 'M[F]_n -> res 'M[F]_n) m c (Q0 : 'M[F]_(neps m)) : cell10 m = Ok c ->
  (forall Q, exists X, lyap _ (slice (qm c) 0 (ns m) 0 (ns m)) Q = Ok X) ->
  [/\ exists f : kf m, setup_kf lyap (Sq Q0) None = Ok f, exists P, get_p_init_lyapunov lyap Q0 = Ok P &
      exists P, init_reduced lyap Q0 = Ok P].
Proof.
move=> hc H; split.
- rewrite /setup_kf hc /= /kf_Q as_size_same as_size_same /= drsub_pad /F_of col_mxKd; set Q := drsubmx _.
  by have [X ->] := H Q; eexists.
- rewrite /get_p_init_lyapunov hc /= /F_of col_mxKd; set Q := drsubmx _; have [X ->] := H Q; by eexists.
rewrite /init_reduced hc /=; exact: H.
Qed.
End Proofs.
