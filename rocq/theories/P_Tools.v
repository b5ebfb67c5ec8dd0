Set Warnings "-all".
From Coq Require Import String.
From mathcomp Require Import all_ssreflect all_algebra.
From Verif Require Import PyBase PyStr M_FindLk M_Engine S_Engine P_Loops P_Engine2 P_Engine3 P_Engine4 M_Tools S_Tools.
Set Implicit Arguments. Unset Strict Implicit. Unset Printing Implicit Defensive.
Import GRing.Theory Num.Theory Order.TTheory.
Local Open Scope ring_scope.

Section Vec.
Variable F : ringType.
Lemma size_seq_of n (v : 'cV[F]_n) : size (seq_of v) = n.
Proof. by rewrite size_map size_enum_ord. Qed.
Lemma nth_seq_of n (v : 'cV[F]_n) (i : 'I_n) : nth 0 (seq_of v) i = v i 0.
Proof. by rewrite (nth_map i) ?size_enum_ord // nth_ord_enum. Qed.
Lemma col_of_seq_of n (v : 'cV[F]_n) : col_of n (seq_of v) = v.
Proof. by apply/matrixP=> i j; rewrite mxE nth_seq_of (ord1 j). Qed.
Lemma seq_of_col_of n (s : seq F) : size s = n -> seq_of (col_of n s) = s.
Proof.
move=> e; apply: (@eq_from_nth _ 0); rewrite size_seq_of // => i lt.
by rewrite (nth_seq_of _ (Ordinal lt)) mxE.
Qed.
Lemma matvecE m n (A : 'M[F]_(m, n)) (v : 'cV[F]_n) : matvec A (seq_of v) = Ok (seq_of (A *m v)).
Proof. by rewrite /matvec size_seq_of eqxx col_of_seq_of. Qed.
Lemma vaddE n (u v : 'cV[F]_n) : vadd (seq_of u) (seq_of v) = Ok (seq_of (u + v)).
Proof.
rewrite /vadd !size_seq_of eqxx; congr Ok; apply: (@eq_from_nth _ 0).
  by rewrite size_map size_zip !size_seq_of minnn.
rewrite size_map size_zip !size_seq_of minnn => i lt.
rewrite (nth_map (0, 0)) ?size_zip ?size_seq_of ?minnn // nth_zip ?size_seq_of //=.
by rewrite !(nth_seq_of _ (Ordinal lt)) mxE.
Qed.
Lemma seq_of0 n : seq_of (0 : 'cV[F]_n) = nseq n 0.
Proof.
apply: (@eq_from_nth _ 0); rewrite ?size_nseq size_seq_of // => i lt.
by rewrite (nth_seq_of _ (Ordinal lt)) mxE nth_nseq lt.
Qed.
Lemma size_lincomb (a b : F) x y : size x = size y -> size (lincomb a x b y) = size x.
Proof. by move=> e; rewrite size_map size_zip e minnn. Qed.
Lemma lincomb_cat (a b : F) x y x' y' : size x = size y ->
  lincomb a (x ++ x') b (y ++ y') = lincomb a x b y ++ lincomb a x' b y'.
Proof. by move=> e; rewrite /lincomb zip_cat // map_cat. Qed.
Lemma lincomb_drop (a b : F) n x y : lincomb a (drop n x) b (drop n y) = drop n (lincomb a x b y).
Proof.
rewrite /lincomb -map_drop; congr map.
by elim: x y n => [|u x IH] [|v y] [|n] //=; case: drop.
Qed.
Lemma lincomb_take (a b : F) n x y : lincomb a (take n x) b (take n y) = take n (lincomb a x b y).
Proof.
rewrite /lincomb -map_take; congr map.
by elim: x y n => [|u x IH] [|v y] [|n] //=; rewrite IH.
Qed.
Lemma nth_lincomb (a b : F) x y i : size x = size y -> nth 0 (lincomb a x b y) i = a * nth 0 x i + b * nth 0 y i.
Proof.
move=> e; case: (ltnP i (size x)) => lt.
  by rewrite (nth_map (0, 0)) ?size_zip -?e ?minnn // nth_zip.
by rewrite !nth_default ?mulr0 ?addr0 -?e ?size_lincomb.
Qed.
Lemma col_of_lincomb (a b : F) n x y : size x = size y ->
  col_of n (lincomb a x b y) = a *: col_of n x + b *: col_of n y.
Proof. by move=> e; apply/matrixP=> i j; rewrite !mxE nth_lincomb. Qed.
Lemma seq_of_lincomb (a b : F) n (u v : 'cV[F]_n) :
  seq_of (a *: u + b *: v) = lincomb a (seq_of u) b (seq_of v).
Proof.
apply: (@eq_from_nth _ 0); rewrite ?size_lincomb ?size_seq_of // => i lt.
by rewrite nth_lincomb ?size_seq_of // !(nth_seq_of _ (Ordinal lt)) !mxE.
Qed.
End Vec.

Lemma py_from_neg (A : Type) (n : nat) (s : seq A) : (0 < n)%N -> py_from (- n%:Z) s = last_n n s.
Proof. by case: n. Qed.
Lemma py_to_neg (A : Type) (n : nat) (s : seq A) : (0 < n)%N -> py_to (- n%:Z) s = take (size s - n) s.
Proof. by case: n. Qed.
Lemma size_last_n (A : Type) n (s : seq A) : size (last_n n s) = minn n (size s).
Proof. by rewrite /last_n size_drop -minnE minnC. Qed.

Lemma last_n_id (A : Type) n (s : seq A) : size s = n -> last_n n s = s.
Proof. by move=> e; rewrite /last_n e subnn drop0. Qed.
Lemma last_n_twice (A : Type) n (s : seq A) : last_n n (last_n n s) = last_n n s.
Proof.
rewrite {1}/last_n size_last_n; case: (leqP n (size s)) => h; first by rewrite subnn drop0.
by rewrite (_ : (size s - n)%N = 0%N) ?drop0 //; apply/eqP; rewrite subn_eq0 ltnW.
Qed.
Lemma last_n_cat (A : Type) n (x y : seq A) : size y = n -> last_n n (x ++ y) = y.
Proof. by move=> e; rewrite /last_n size_cat e addnK drop_size_cat. Qed.

Section TFunc.
Variable F : realFieldType.
Implicit Types (m : tmodel F) (st : seq F).

Lemma sliceE m st : (neps m < dq m)%N -> py_from (- (dq m)%:Z + (neps m)%:Z) st = last_n (nq m) st.
Proof.
move=> lt; rewrite -py_from_neg ?subn_gt0 // addrC /nq -subzn ?(ltnW lt) // opprB; done.
Qed.
Lemma sliceE' m st : (neps m < dq m)%N -> py_from (- ((dq m)%:Z - (neps m)%:Z)) st = last_n (nq m) st.
Proof. by move=> lt; rewrite opprB addrC sliceE. Qed.

Lemma t_func_block m st sh sk lin : (neps m < dq m)%N ->
  t_func m (last_n (nq m) st) sh sk lin = t_func m st sh sk lin.
Proof. by move=> lt; rewrite /t_func /t_func_raw !sliceE // last_n_twice. Qed.

Lemma t_func_obs_block m st sh sk lin : (neps m < dq m)%N ->
  t_func_obs m (last_n (nq m) st) sh sk lin = t_func_obs m st sh sk lin.
Proof. by move=> lt; rewrite /t_func_obs /t_func_raw !sliceE // last_n_twice. Qed.

Lemma t_func_nostates m st sh sk lin : neps m = dq m -> size st != 0%N ->
  size (odflt (nseq (neps m) 0) sh) = neps m ->
  t_func m st sh sk lin = Err ValueError.
Proof.
move=> e st0 es; rewrite /t_func /t_func_raw e addNr /=.
case: (decode sk lin) => l k; rewrite /t_func_jit drop0 size_cat.
case: sh es => [sh|] /= es; rewrite ?es e ?size_nseq -{2}[dq m]add0n eqn_add2r (negbTE st0) //.
Qed.

Lemma t_func_short m st sh sk lin : (neps m < dq m)%N -> (size st < nq m)%N ->
  size (odflt (nseq (neps m) 0) sh) = neps m ->
  t_func m st sh sk lin = Err ValueError.
Proof.
move=> lt l2 es; rewrite /t_func /t_func_raw sliceE //.
case: (decode sk lin) => l k; rewrite /t_func_jit size_cat es size_last_n (minn_idPr (ltnW l2)).
suff /negbTE -> : (size st + neps m)%N != dq m by [].
rewrite neq_ltn; apply/orP; left; move: l2; rewrite -(ltn_add2r (neps m)) subnK //; exact: ltnW.
Qed.

(** decoding *)
Lemma t_func_search m st sh lin k1 k2 : (k1 = KNone \/ exists b, k1 = KBool b) ->
  (k2 = KNone \/ (exists b, k2 = KBool b) \/ (exists l, k2 = KTuple l (-1)) \/ k2 = KInt (-1)) ->
  t_func m st sh k1 lin = t_func m st sh k2 lin.
Proof.
move=> h1 h2; rewrite /t_func /t_func_raw /decode; case: lin => //.
case: h1 => [->|[b ->]]; case: h2 => [->|[[b' ->]|[[l ->]|->]]] //.
Qed.

Definition cell_row m (c : cell F (dq m) (dp m)) (v : 'cV[F]_(dq m)) : seq F :=
  seq_of (pm c *m v + pt c) ++ take (nq m) (seq_of (qm c *m v + qt c)).
Definition msearch m (v : 'cV[F]_(dq m)) :=
  find_lk (check_cnst (btab m) (lmx m).+1 (kmx m).+1 v) (xb m) (lmx m).+1 (kmx m).+1.

Lemma inp_size m st (sh : seq F) : (neps m < dq m)%N -> (nq m <= size st)%N -> size sh = neps m ->
  size (last_n (nq m) st ++ sh) = dq m.
Proof. by move=> lt ge es; rewrite size_cat es size_last_n (minn_idPl ge) subnK // ltnW. Qed.

Lemma t_func_forced m st sh l k c : (0 < neps m < dq m)%N -> (nq m <= size st)%N -> size sh = neps m ->
  (l <= lmx m)%N -> (k <= kmx m)%N -> tab m l k = Some c ->
  t_func m st (Some sh) (KTuple l k) false = Ok (cell_row c (inp_vec m st sh), (Posz l, Posz k), 0%N).
Proof.
move=> /andP [e0 lt] ge es ll kk Ec; rewrite /t_func /t_func_raw /= sliceE // /t_func_jit inp_size // eqxx /=.
by rewrite !ltnS ll kk /= Ec /= py_to_neg // size_seq_of.
Qed.

Lemma t_func_linear m st sh sk c : (0 < neps m < dq m)%N -> (nq m <= size st)%N -> size sh = neps m ->
  tab m 0%N 0%N = Some c ->
  t_func m st (Some sh) sk true = Ok (cell_row c (inp_vec m st sh), (0, 0), 0%N).
Proof. by move=> h1 h2 h3 h4; have := t_func_forced h1 h2 h3 (leq0n _) (leq0n _) h4. Qed.

Lemma t_func_endo m st sh l k fl c : (0 < neps m < dq m)%N -> (nq m <= size st)%N -> size sh = neps m ->
  msearch (inp_vec m st sh) = Ok (l, k, fl) -> (l <= lmx m)%N -> (k <= kmx m)%N -> tab m l k = Some c ->
  t_func m st (Some sh) KNone false = Ok (cell_row c (inp_vec m st sh), (Posz l, Posz k), fl).
Proof.
move=> /andP [e0 lt] ge es Es ll kk Ec; rewrite /t_func /t_func_raw /= sliceE // /t_func_jit inp_size // eqxx /=.
by rewrite -/(inp_vec m st sh) -/(msearch _) Es /= !ltnS ll kk /= Ec /= py_to_neg // size_seq_of.
Qed.

Lemma size_cell_row m (c : cell F (dq m) (dp m)) v : (0 < neps m)%N -> (size (cell_row c v) = dp m + nq m)%N.
Proof.
move=> e0; rewrite size_cat size_seq_of size_take size_seq_of /nq; case: ifP => // /negbT.
by rewrite -leqNgt => h; congr addn; apply/eqP; rewrite eqn_leq h leq_subr.
Qed.

Lemma last_cell_row m (c : cell F (dq m) (dp m)) v :
  last_n (nq m) (cell_row c v) = take (nq m) (seq_of (qm c *m v + qt c)).
Proof. by apply: last_n_cat; rewrite size_takel // size_seq_of leq_subr. Qed.

(** what is returned by a successful call *)
Lemma t_func_inv m st sh sk lin x lk fl : t_func m st sh sk lin = Ok (x, lk, fl) ->
  let: (l, k) := decode sk lin in
  let v := col_of (dq m) (py_from (- (dq m)%:Z + (neps m)%:Z) st ++ odflt (nseq (neps m) 0) sh) in
  exists l' k' c,
    [/\ if k == -1 then exists r, msearch v = Ok r /\ (lk = (Posz r.1.1, Posz r.1.2)) /\ fl = r.2
        else lk = (l, k) /\ fl = 0%N,
        py_index OutOfBounds (lmx m).+1 lk.1 = Ok l', py_index OutOfBounds (kmx m).+1 lk.2 = Ok k',
        tab m l' k' = Some c &
        x = seq_of (pm c *m v + pt c) ++ py_to (- (neps m)%:Z) (seq_of (qm c *m v + qt c))].
Proof.
rewrite /t_func /t_func_raw; case: (decode sk lin) => l k.
rewrite /t_func_jit; case: eqP => // sz.
set v := col_of _ _; rewrite -/(msearch v).
case: (k == -1); last first.
  rewrite /=; case E1: py_index => [l'|] //=; case E2: py_index => [k'|] //=.
  by case E3: (tab m l' k') => [c|] //= [<- <- <-]; exists l', k', c.
case: (msearch v) => [r|] //=; case E1: (_ < _)%N => //=; case E2: (_ < _)%N => //=.
case E3: (tab m _ _) => [c|] //= [<- <- <-]; exists r.1.1, r.1.2, c; rewrite /= E1 E2; split=> //.
by exists r.
Qed.

(** searching and then forcing the pair found gives the same state *)
Lemma t_func_search_forced m st sh x lk fl : t_func m st sh KNone false = Ok (x, lk, fl) ->
  exists l k, lk = (Posz l, Posz k) /\
    t_func m st sh (KTuple lk.1 lk.2) false = Ok (x, lk, 0%N).
Proof.
rewrite /t_func /t_func_raw /= /t_func_jit; case: eqP => // sz.
set v := col_of _ _; rewrite -/(msearch v).
case: (msearch v) => [r|] //=; case E1: (_ < _)%N => //=; case E2: (_ < _)%N => //=.
case E3: (tab m _ _) => [c|] //= [<- <- _]; exists r.1.1, r.1.2; split=> //=.
by rewrite E1 /= E2 /= E3.
Qed.

(** observables *)
Lemma obs_agree m st sh sk lin : (0 < neps m < dq m)%N -> nsv m = nq m ->
  match t_func m st sh sk lin, t_func_obs m st sh sk lin with
  | Ok (x, lk, fl), Ok (q, o, lk', fl') => [/\ q = drop (dp m) x, lk = lk', fl = fl' & obs_row m x = Ok o]
  | Err e, Err e' => e = e'
  | _, _ => False
  end.
Proof.
move=> /andP [e0 lt] en; rewrite /t_func /t_func_obs /t_func_raw; case: (decode sk lin) => l k.
rewrite /t_func_jit; case: eqP => // sz.
set v := col_of _ _; case: (if k == -1 then _ else _) => [[[l1 k1] fl]|] //=.
case: (py_index _ _ l1) => [l2|] //=; case: (py_index _ _ k1) => [k2|] //=.
case: (tab m l2 k2) => [c|] //=.
set p := pm c *m v + pt c; set q := py_to _ _.
have eq : size q = nsv m by rewrite /q py_to_neg // size_seq_of en size_takel // size_seq_of leq_subr.
rewrite matvecE /= -[q](seq_of_col_of eq) matvecE /= vaddE /= vaddE /=.
split=> //; first by rewrite drop_size_cat // size_seq_of.
by rewrite /obs_row take_size_cat ?size_seq_of // drop_size_cat ?size_seq_of // !matvecE /= vaddE /= vaddE.
Qed.

(** linearity *)
Lemma cell_row_lincomb m (c : cell F (dq m) (dp m)) a b (u v : 'cV[F]_(dq m)) : pt c = 0 -> qt c = 0 ->
  cell_row c (a *: u + b *: v) = lincomb a (cell_row c u) b (cell_row c v).
Proof.
move=> e1 e2; rewrite /cell_row e1 e2 !addr0 lincomb_cat ?size_seq_of // lincomb_take.
by rewrite !mulmxDr -!scalemxAr !seq_of_lincomb.
Qed.

Lemma last_n_lincomb n a b (x y : seq F) : size x = size y ->
  last_n n (lincomb a x b y) = lincomb a (last_n n x) b (last_n n y).
Proof. by move=> e; rewrite /last_n size_lincomb // -e lincomb_drop. Qed.

Lemma inp_vec_lincomb m a b st st' (sh sh' : seq F) : size st = size st' -> size sh = size sh' ->
  inp_vec m (lincomb a st b st') (lincomb a sh b sh') = a *: inp_vec m st sh + b *: inp_vec m st' sh'.
Proof.
move=> e1 e2; rewrite /inp_vec last_n_lincomb // -lincomb_cat ?size_last_n ?e1 //.
by rewrite col_of_lincomb // !size_cat !size_last_n e1 e2.
Qed.

End TFunc.
