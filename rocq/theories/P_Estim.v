(** Proofs for C63, C64, C88. *)
Set Warnings "-all".
From Coq Require Import String ZArith.
From mathcomp Require Import all_ssreflect all_algebra.
From Verif Require Import PyBase PyStr M_Solve M_Filter M_Params M_Estim S_Estim.
Set Implicit Arguments. Unset Strict Implicit. Unset Printing Implicit Defensive.
Import GRing.Theory Num.Theory Order.TTheory.
Local Open Scope ring_scope.

Section Put.
Variable F : realFieldType.
Notation vec := (seq F).
Definition wr (v : vec) (ps : seq (nat * F)) : vec := foldl (fun b ic => set_nth 0 b ic.1 ic.2) v ps.
Lemma size_wr v ps : all (fun p => p.1 < size v)%N ps -> size (wr v ps) = size v.
Proof.
elim: ps v => //= [[i x] ps] IH v /andP [/= h1 h2]; have e : size (set_nth 0 v i x) = size v by rewrite size_set_nth; apply/maxn_idPr.
by rewrite IH e.
Qed.
Lemma nth_wr v ps j : j \notin map fst ps -> nth 0 (wr v ps) j = nth 0 v j.
Proof.
elim: ps v => //= [[i x] ps] IH v /=; rewrite inE negb_or => /andP [ne nj].
by rewrite IH // nth_set_nth /= (negbTE ne).
Qed.
Lemma wr_eq ps (v1 v2 : vec) : size v1 = size v2 -> all (fun p => p.1 < size v1)%N ps ->
  (forall j, j \notin map fst ps -> nth 0 v1 j = nth 0 v2 j) -> wr v1 ps = wr v2 ps.
Proof.
elim: ps v1 v2 => [|[i x] ps IH] v1 v2 es.
  by move=> _ H; apply: (@eq_from_nth _ 0) => // j _; exact: H.
move=> /= /andP [/= h1 h2] H.
have e1 : size (set_nth 0 v1 i x) = size v1 by rewrite size_set_nth; apply/maxn_idPr.
have e2 : size (set_nth 0 v2 i x) = size v2 by rewrite size_set_nth; apply/maxn_idPr; rewrite -es.
apply: IH; rewrite ?e1 ?e2 // => j nj; rewrite !nth_set_nth /=; case: eqP => // ne.
by apply: H; rewrite inE negb_or nj andbT; apply/eqP.
Qed.

Definition idx (a : option (seq nat)) (v : vec) : seq nat := if a is Some l then l else iota 0 (size v).
(** the two vectors differ at most at the positions of the estimated parameters *)
Definition agree (a : option (seq nat)) (v1 v2 : vec) : Prop :=
  size v1 = size v2 /\ forall j, j \notin idx a v1 -> nth 0 v1 j = nth 0 v2 j.
Lemma put_atE a (c v : vec) : put_at a c v =
  if ~~ all (fun i => i < size v)%N (idx a v) then Err IndexError
  else if size c == size (idx a v) then Ok (wr v (zip (idx a v) c))
  else if size c == 1%N then Ok (wr v [seq (i, head 0 c) | i <- idx a v]) else Err ValueError.
Proof.
have H l w (x : F) : foldl (fun b i => set_nth 0 b i x) w l = wr w [seq (i, x) | i <- l] by elim: l w => //= i l IH w; rewrite IH.
by rewrite /put_at -/(idx a v); case: ifP => // _; case: ifP => // _; case: ifP => // _; rewrite H.
Qed.
Lemma agree_idx a v1 v2 : agree a v1 v2 -> idx a v1 = idx a v2.
Proof. by case: a => //= -[-> _]. Qed.
Lemma agree_refl a v : agree a v v. Proof. by []. Qed.
Lemma agree_trans a v1 v2 v3 : agree a v1 v2 -> agree a v2 v3 -> agree a v1 v3.
Proof.
move=> h1 h2; have e := agree_idx h1; case: h1 h2 => [e1 h1] [e2 h2]; split; first by rewrite e1.
by move=> j nj; rewrite h1 // h2 // -e.
Qed.
Lemma agree_sym a v1 v2 : agree a v1 v2 -> agree a v2 v1.
Proof. by move=> h; have e := agree_idx h; case: h => e1 h1; split=> // j; rewrite -e => /h1. Qed.
Lemma zip_fst_sub (l : seq nat) (c : vec) : size c = size l -> map fst (zip l c) = l.
Proof. by move=> e; rewrite -/unzip1 unzip1_zip // e. Qed.
Lemma put_at_agree a c v1 v2 : agree a v1 v2 -> put_at a c v1 = put_at a c v2.
Proof.
move=> h; have e := agree_idx h; case: h => es h; rewrite !put_atE -e -es; case: ifP => // /negbFE al.
case: ifP => [/eqP sc|_]; [|case: ifP => // _]; congr Ok; apply: wr_eq => //.
- have /allP al' := al; apply/allP=> -[i x] /(map_f fst); rewrite zip_fst_sub //; exact: al'.
- by rewrite zip_fst_sub.
- by rewrite all_map.
by rewrite -map_comp map_id.
Qed.
Lemma put_at_keeps a c v v' : put_at a c v = Ok v' -> agree a v v'.
Proof.
rewrite put_atE; case: ifP => // /negbFE al; case: ifP => [/eqP sc|_]; [|case: ifP => // _] => -[<-].
  have az : all (fun p : nat * F => p.1 < size v)%N (zip (idx a v) c).
    have /allP al' := al; apply/allP=> -[i x] /(map_f fst); rewrite zip_fst_sub //; exact: al'.
  by split; [rewrite size_wr | move=> j nj; rewrite nth_wr // zip_fst_sub].
split; first by rewrite size_wr // all_map.
by move=> j nj; rewrite nth_wr // -map_comp map_id.
Qed.
End Put.

Section Estim.
Variable F : realFieldType.
Notation vec := (seq F).
Variables PP X V M L S T : Type.
Variable p0 : vec.
Variable pcompile : vec -> res PP.
Variable has_constraint : bool.
Variable xbar_of : vec -> res X.
Variable positive : X -> bool.
Variable names : V.
Variable mats : PP -> res M.
Variable layout : M -> res L.
Variable order : L -> V.
Variable linsol : M -> X -> res S.
Variable tables : M -> X -> S -> Z * Z -> res T.
Notation mstate := (mstate vec PP X V L S T).
Notation solve := (@solve vec PP X V M L S T p0 pcompile has_constraint xbar_of positive names mats layout order linsol tables).
Variables C R : Type.
Variable seed_rng : nat -> R.
Variable sqQQ : PP -> res C.
Variable lik : fset C -> C -> PP -> X -> L -> S -> T -> R -> res (xr F) * C * R.
Variables (ncols neps : nat) (kind : fkind) (dispatch : bool).
Variable prior_arg : option (seq nat).
Variables (l_max k_max : Z) (seed : nat).
Notation est := (est F PP X V L S T C R).
Variable report : est -> res unit.
Variable bptrans : vec -> vec.
Variable lprior : vec -> res (xr F).
Notation try_ll := (@try_ll F PP X V M L S T p0 pcompile has_constraint xbar_of positive names mats layout order linsol tables C R seed_rng sqQQ lik
  ncols neps kind dispatch prior_arg l_max k_max seed).
Notation llike := (@llike F PP X V M L S T p0 pcompile has_constraint xbar_of positive names mats layout order linsol tables C R seed_rng sqQQ lik
  ncols neps kind dispatch prior_arg l_max k_max seed report).
Notation lprob := (@lprob F PP X V M L S T p0 pcompile has_constraint xbar_of positive names mats layout order linsol tables C R seed_rng sqQQ lik
  ncols neps kind dispatch prior_arg l_max k_max seed report bptrans lprior).
Notation do_act := (@do_act F PP X V M L S T p0 pcompile has_constraint xbar_of positive names mats layout order linsol tables C R seed_rng sqQQ lik
  ncols neps kind dispatch prior_arg l_max k_max seed report bptrans lprior).

(** a solve with explicit horizons does not depend on the state it starts from *)
Lemma solve_indep (s1 s2 : mstate) p l k :
  let r1 := solve s1 (Some p) (Some l) (Some k) false in
  let r2 := solve s2 (Some p) (Some l) (Some k) false in
  r1.2 = r2.2 /\ (is_ok r1.2 -> r1.1 = r2.1).
Proof.
have hz lks : horizons lks (Some l) (Some k) = horizons None (Some l) (Some k) by [].
rewrite /M_Solve.solve; case: (pcompile p) => // pp; case: has_constraint => //=.
case: (xbar_of p) => // x; case: (positive x) => //=; case: (mats pp) => // mm.
rewrite !(hz (m_lks _)); case: (horizons _ _ _) => // lk; case: (layout mm) => // ly.
by case: (linsol mm x) => // so; case: (tables mm x so lk).
Qed.

Definition sim (s1 s2 : est) : Prop := e_f s1 = e_f s2 /\ agree prior_arg (e_pfix s1) (e_pfix s2).

Lemma run_lik_f (s : est) : e_f (run_lik lik s).1 = e_f s /\ e_pfix (run_lik lik s).1 = e_pfix s.
Proof. by rewrite /run_lik; case: (e_Q s) => [?|] //; case: (m_ppar _) => [?|] //; case: (m_xbar _) => [?|] //;
  case: (m_layout _) => [?|] //; case: (m_sys _) => [?|] //; case: (m_tab _) => [?|] //; case: lik => [[]]. Qed.
Lemma get_ll_f (s : est) : e_f (get_ll_st lik ncols neps kind dispatch s).1 = e_f s /\ e_pfix (get_ll_st lik ncols neps kind dispatch s).1 = e_pfix s.
Proof. by rewrite /get_ll_st; do 3 case: ifP => // _; have := run_lik_f s; case: run_lik. Qed.

Lemma try_sim s p : sim (try_ll s p).1 s.
Proof.
rewrite /M_Estim.try_ll /=; case E: put_at => [pf|e] //=.
have ag := agree_sym (put_at_keeps E).
case: M_Solve.solve => ms [_|e] //=; case: (m_ppar ms) => // pp; case: (sqQQ pp) => // q.
set s' := Est _ _ _ _ _; have [h1 h2] := get_ll_f s'; by split; rewrite ?h1 ?h2.
Qed.

(** the value found does not depend on what happened before *)
Lemma try_indep s1 s2 p : sim s1 s2 -> (try_ll s1 p).2 = (try_ll s2 p).2.
Proof.
case=> ef ag; rewrite /M_Estim.try_ll /= (put_at_agree p ag) ef; case: put_at => [pf|e] //=.
have [] := solve_indep (e_ms s1) (e_ms s2) pf l_max k_max.
case: (solve (e_ms s1) _ _ _ _) => ms1 r1.
case: (solve (e_ms s2) _ _ _ _) => ms2 r2 /= <-.
case: r1 => [u|e] //= /(_ isT) <-; case: (m_ppar ms1) => // pp; case: (sqQQ pp) => // q.
Qed.

Lemma llike_sim s p v : sim (llike s p v).1 s.
Proof.
rewrite /M_Estim.llike; have := try_sim s p; case: try_ll => s' [x|e] //= h.
by case: e => //; case: ifP => // _; case: report.
Qed.
Lemma llike_indep s1 s2 p v : (v <= 1)%N \/ (forall s, report s = Ok tt) -> sim s1 s2 -> (llike s1 p v).2 = (llike s2 p v).2.
Proof.
move=> H sm; rewrite /M_Estim.llike; have := try_indep p sm; case: try_ll => t1 r1; case: try_ll => t2 r2 /= <-.
case: r1 => // e; case: H => [h|h]; first by rewrite ltnNge h; case: e.
by case: e; rewrite ?h //; case: (1 < v)%N.
Qed.
Lemma llike_rng s p v : (v <= 1)%N \/ (forall s, report s = Ok tt) -> (llike s p v).2 <> Err KeyboardInterruptExn ->
  e_rng (llike s p v).1 = e_rng s.
Proof.
move=> H; rewrite /M_Estim.llike; case: try_ll => s' [x|e] //=; case: H => [h|h]; first by rewrite ltnNge h; case: e.
by case: e; rewrite ?h //; case: (1 < v)%N.
Qed.
Lemma lprob_sim s p v t u : sim (lprob s p v t u).1 s.
Proof.
rewrite /M_Estim.lprob; case: lprior => [lp|e] //; case: ifP => // _; case: ifP => _; last by case: isinf.
set q := if u then _ else _; have := llike_sim s q v; case: llike => s' [x|e] //=; by case: isinf.
Qed.
Lemma lprob_indep s1 s2 p v t u : (v <= 1)%N \/ (forall s, report s = Ok tt) -> sim s1 s2 -> (lprob s1 p v t u).2 = (lprob s2 p v t u).2.
Proof.
move=> H sm; rewrite /M_Estim.lprob; case: lprior => [lp|e] //; case: ifP => // _; case: ifP => _; last by case: isinf.
set q := if u then _ else _; have := llike_indep q H sm; case: llike => t1 r1; case: llike => t2 r2 /= <-.
by case: r1 => //= x; case: isinf.
Qed.
Lemma lprob_rng s p v t u : (v <= 1)%N \/ (forall s, report s = Ok tt) -> (lprob s p v t u).2 <> Err KeyboardInterruptExn ->
  e_rng (lprob s p v t u).1 = e_rng s.
Proof.
move=> H; rewrite /M_Estim.lprob; case: lprior => [lp|e] //; case: ifP => // _; case: ifP => _; last by case: isinf.
set q := if u then _ else _; have := llike_rng (s := s) (p := q) H; case: llike => s' [x|e] /= h.
  by have e := h ltac:(done); case: isinf.
by move=> ne; apply: h.
Qed.
Lemma sim_trans s1 s2 s3 : sim s1 s2 -> sim s2 s3 -> sim s1 s3.
Proof. by case=> a b [c d]; split; [rewrite a | exact: agree_trans d]. Qed.
Lemma acts_sim s h : sim (foldl do_act s h) s.
Proof.
elim/last_ind: h => //= h a IH; rewrite foldl_rcons; apply: sim_trans IH; set t := foldl _ _ _.
by case: a => [p v tm u|c|q|r] //=; exact: lprob_sim.
Qed.
(** no evaluation of the likelihood is not a number *)
Lemma get_ll_num (s : est) x : (get_ll_st lik ncols neps kind dispatch s).2 = Ok x -> ~~ isnan x.
Proof. by rewrite /get_ll_st; do 3 case: ifP => // _; case: run_lik => s' [y|e] //= [<-]; case: y. Qed.
Lemma llike_num s p v x : (llike s p v).2 = Ok x -> ~~ isnan x.
Proof.
rewrite /M_Estim.llike; case E: try_ll => [s' [y|e]] /=.
  move=> [<-]; have := f_equal snd E; rewrite /M_Estim.try_ll /=; case: put_at => // pf; case: M_Solve.solve => ms [_|e] //=.
  by case: (m_ppar ms) => // pp; case: (sqQQ pp) => // q; apply: get_ll_num.
by case: e {E} => //=; case: ifP => _; rewrite ?[in X in X -> _]/=; try (by case=> <-); case: report => //= _ [<-].
Qed.
End Estim.

Section Mode.
Variable F : realFieldType.
Lemma beats_irr (x : xr F) : ~~ beats x x. Proof. by case: x => //= x; rewrite ltxx. Qed.
Lemma nbeats_trans (x y z : xr F) : ~~ beats x y -> ~~ beats y z -> ~~ beats x z.
Proof. by case: x => [x|||]; case: y => [y|||]; case: z => [z|||] //=; rewrite -!leNgt; apply: le_trans. Qed.
Lemma beats_nbeats (x y z : xr F) : ~~ beats x y -> beats z y -> ~~ beats x z.
Proof.
by case: x => [x|||]; case: y => [y|||]; case: z => [z|||] //=; rewrite -?leNgt // => h1 h2; apply: le_trans h1 (ltW h2).
Qed.
Lemma argmax_fromP (l pre : seq (xr F)) b i : i = size pre -> (b < i)%N ->
  (forall j, (j < i)%N -> ~~ beats (nth NaN pre j) (nth NaN pre b)) ->
  let r := argmax_from b (nth NaN pre b) i l in
  (r < size (pre ++ l))%N /\ forall j, (j < size (pre ++ l))%N -> ~~ beats (nth NaN (pre ++ l) j) (nth NaN (pre ++ l) r).
Proof.
elim: l pre b i => [|x l IH] pre b i ei lt H /=.
  by rewrite cats0 -ei; split.
have nx : nth NaN (rcons pre x) i = x by rewrite nth_rcons ei ltnn eqxx.
have nb j : (j < i)%N -> nth NaN (rcons pre x) j = nth NaN pre j by move=> h; rewrite nth_rcons -ei h.
case: ifP => B.
- have := IH (rcons pre x) i i.+1; rewrite nx -cat_rcons; apply; rewrite ?size_rcons ?ei // => j; rewrite ltnS leq_eqVlt -ei => /orP [/eqP ->|lj].
    by rewrite nx beats_irr.
  by rewrite nb //; apply: beats_nbeats (H _ lj) B.
have := IH (rcons pre x) b i.+1; rewrite (nb b lt) -cat_rcons; apply; rewrite ?size_rcons ?ei // -?ei; first exact: ltnW.
move=> j; rewrite ltnS leq_eqVlt => /orP [/eqP ->|lj]; first by rewrite nx B.
by rewrite nb //; apply: H.
Qed.
Lemma argmaxP (l : seq (xr F)) i : argmax l = Ok i -> (i < size l)%N /\ forall j, (j < size l)%N -> ~~ beats (nth NaN l j) (nth NaN l i).
Proof.
case: l => // x l [<-]; have := @argmax_fromP l [:: x] 0 1 erefl isT; rewrite cat1s /=; apply.
by case=> // _; exact: beats_irr.
Qed.
End Mode.
Lemma flat_pos {A B : Type} (da : A) (db : B) (a : seq (seq A)) (b : seq (seq B)) k : same_shape a b -> (k < size (flatten a))%N ->
  exists i j, [/\ (i < size a)%N, (j < size (nth [::] a i))%N, nth da (flatten a) k = entry da a i j & nth db (flatten b) k = entry db b i j].
Proof.
rewrite /same_shape; elim: a b k => [|r a IH] [|r' b] k //= [e1 e2]; rewrite size_cat => lk.
case: (leqP (size r) k) => h; last first.
  by exists 0%N, k; rewrite !nth_cat -e1 h.
have lt' : (k - size r < size (flatten a))%N by rewrite ltn_subLR.
have [i [j [h1 h2 h3 h4]]] := IH b _ e2 lt'; exists i.+1, j; rewrite !nth_cat -e1 [(k < size r)%N]ltnNge h /=; by split.
Qed.
Lemma pos_flat {A : Type} (da : A) (a : seq (seq A)) i j : (i < size a)%N -> (j < size (nth [::] a i))%N ->
  exists2 k, (k < size (flatten a))%N & nth da (flatten a) k = entry da a i j.
Proof.
elim: a i => [|r a IH] [|i] //= li lj; rewrite size_cat.
  by exists j; [exact: ltn_addr | rewrite nth_cat lj].
by have [k lk e] := IH i li lj; exists (size r + k)%N; rewrite ?ltn_add2l // nth_cat [(_ < size r)%N]ltnNge leq_addr /= addKn.
Qed.
