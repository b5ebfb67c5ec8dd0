Set Warnings "-all".
From Coq Require Import String PeanoNat.
From mathcomp Require Import all_ssreflect all_algebra.
From Verif Require Import PyBase PyStr M_FindLk M_Engine S_Engine P_Loops P_Engine2 P_Engine3 P_Engine4 M_Tools S_Tools P_Tools P_Tools2 T_Engine.
Set Implicit Arguments. Unset Strict Implicit. Unset Printing Implicit Defensive.
Import GRing.Theory Num.Theory Order.TTheory.
Local Open Scope ring_scope.

Lemma mapM_ok (X : eqType) Y (f : X -> res Y) (g : X -> Y) xs : (forall x, x \in xs -> f x = Ok (g x)) -> mapM f xs = Ok (map g xs).
Proof.
elim: xs => [|x xs IH] H //=; rewrite H ?mem_head // IH // => y yi.
by apply: H; rewrite inE yi orbT.
Qed.

Section Sim.
Variable F : realFieldType.
Variable m : tmodel F.

Definition last_state (st : seq F) (xs : seq (seq F * (int * int))) : seq F := last st [seq x.1 | x <- xs].

Lemma sim_cat lin st e1 e2 : sim_loop m lin st (e1 ++ e2) =
  rbind (sim_loop m lin st e1) (fun r1 =>
  rbind (sim_loop m lin (last_state st r1.1) e2) (fun r2 => Ok (r1.1 ++ r2.1, Nat.lor r1.2 r2.2))).
Proof.
elim: e1 st => [|e e1 IH] st /=; first by rewrite /last_state /=; case: (sim_loop m lin st e2) => //= -[a b]; rewrite PeanoNat.Nat.lor_0_l.
case: (t_func _ _ _ _ _) => [[[st' lk] fl]|] //=; rewrite IH.
case: (sim_loop m lin st' e1) => [[r1 f1]|] //=.
case: (sim_loop m lin _ e2) => [[r2 f2]|] //=.
by rewrite PeanoNat.Nat.lor_assoc.
Qed.

Lemma sim_size lin st es r : sim_loop m lin st es = Ok r -> size r.1 = size es.
Proof.
elim: es st r => [|e es IH] st r /=; first by case=> <-.
case: (t_func _ _ _ _ _) => [[[st' lk] fl]|] //=.
by case E: (sim_loop m lin st' es) => [[r1 f1]|] //= [<-] /=; rewrite (IH _ _ E).
Qed.

(** each state follows from the previous one *)
Lemma sim_steps lin st es r : sim_loop m lin st es = Ok r ->
  exists fls, [/\ r.2 = foldr Nat.lor 0%N fls, size fls = size es &
  forall t, (t < size es)%N -> 
    t_func m (nth [::] (st :: [seq x.1 | x <- r.1]) t) (Some (nth [::] es t)) KNone lin =
    Ok (nth [::] (st :: [seq x.1 | x <- r.1]) t.+1, nth (0, 0) [seq x.2 | x <- r.1] t, nth 0%N fls t)].
Proof.
elim: es st r => [|e es IH] st r /=; first by case=> <-; exists [::].
case E0: (t_func _ _ _ _ _) => [[[st' lk] fl]|] //=.
case E: (sim_loop m lin st' es) => [r1|] //= [<-].
have [fls [e1 sz H]] := IH _ _ E; exists (fl :: fls); split=> /=; rewrite ?e1 ?sz //.
by case=> [|t] lt //=; apply: H.
Qed.

Lemma sim_total sm f omg lam (sd : @solved F m sm f omg lam) lin st es :
  (nq m <= size st)%N -> all (fun e => size e == neps m) es -> exists r, sim_loop m lin st es = Ok r.
Proof.
elim: es st => [|e es IH] st h /=; first by eexists.
case/andP=> /eqP se al; have dm := dims sd.
have [c [lk [fl ->]]] : exists c lk fl, t_func m st (Some e) KNone lin = Ok (cell_row c (inp_vec m st e), lk, fl).
  case: lin {IH}; last first.
    by have [l [k [fl [c [_ _ _ E]]]]] := t_func_total sd h se; exists c, (lkz (l, k)), fl.
  by have E := t_func_linear KNone dm h se (cell00 sd); do 3 eexists; exact: E.
have [|r E] := IH (cell_row c (inp_vec m st e)) _ al; last by rewrite [rbind _ _]/= E; eexists.
by rewrite size_cell_row ?leq_addl //; case/andP: dm.
Qed.

Section Lin.
Variables (omg : 'M[F]_(dp m, dq m)) (lam : 'M[F]_(dq m)).
Hypothesis c00 : tab m 0%N 0%N = Some (Cell omg 0 lam 0).
Hypothesis dm : (0 < neps m < dq m)%N.

Lemma t_func_superpose a b st st' sh sh' sk :
  size st = size st' -> (nq m <= size st)%N -> size sh = neps m -> size sh' = neps m ->
  exists x x', [/\ t_func m st (Some sh) sk true = Ok (x, (0, 0), 0%N),
    t_func m st' (Some sh') sk true = Ok (x', (0, 0), 0%N), size x = size x', size x = (dp m + nq m)%N &
    t_func m (lincomb a st b st') (Some (lincomb a sh b sh')) sk true = Ok (lincomb a x b x', (0, 0), 0%N)].
Proof.
move=> es ge e1 e2; have [e0 _] := andP dm; do 2 eexists; split.
- exact: (t_func_linear _ dm ge e1 c00).
- by apply: (t_func_linear _ dm _ e2 c00); rewrite -es.
- by rewrite !size_cell_row.
- by rewrite size_cell_row.
rewrite (t_func_linear _ dm _ _ c00) ?size_lincomb ?e1 ?e2 //.
by rewrite inp_vec_lincomb ?e1 ?e2 // cell_row_lincomb.
Qed.

Lemma sim_superpose a b st st' es es' :
  size st = size st' -> (nq m <= size st)%N -> size es = size es' ->
  all (fun e => size e == neps m) es -> all (fun e => size e == neps m) es' ->
  exists xs xs', [/\ sim_loop m true st es = Ok ([seq (x, (0, 0)) | x <- xs], 0%N),
     sim_loop m true st' es' = Ok ([seq (x, (0, 0)) | x <- xs'], 0%N), size xs = size xs' &
     sim_loop m true (lincomb a st b st') (lincombs a es b es') = Ok ([seq (x, (0, 0)) | x <- lincombs a xs b xs'], 0%N)].
Proof.
elim: es es' st st' => [|e es IH] [|e' es'] st st' // ez ge es0; first by exists [::], [::].
move=> /= /andP [/eqP h1 h2] /andP [/eqP h1' h2'].
have [x [x' [E1 E2 sx sx2 E3]]] := t_func_superpose a b KNone ez ge h1 h1'.
have le : (nq m <= size x)%N by rewrite sx2 leq_addl.
have es1 : size es = size es' by case: es0.
have [xs [xs' [R1 R2 sxs R3]]] := IH es' x x' sx le es1 h2 h2'.
exists (x :: xs), (x' :: xs').
by rewrite /= E1 E2 E3 /= R1 R2 R3 /= sxs.
Qed.
End Lin.
End Sim.

Section Masks.
Variable F : realFieldType.
Lemma mask_eps_ok (op : F -> F -> F) mk eps :
  mask_eps op mk eps = 
  if (size mk == size eps) && all (fun x => size x.1 == size x.2) (zip mk eps)
  then Ok [seq [seq (if y.1 is Some a then op a y.2 else y.2) | y <- zip x.1 x.2] | x <- zip mk eps]
  else Err ValueError.
Proof.
elim: mk eps => [|r mk IH] [|e eps] //=; rewrite /mask_row IH eqSS.
by case: eqP => //= _; case: eqP => //= _; case: all.
Qed.
End Masks.

Section Traj.
Variable F : realFieldType.
Variable m : tmodel F.
Variables (sm : sysmats F (dq m) (dp m)) (f : cnst F (dq m) (dp m)).
Variables (omg : 'M[F]_(dp m, dq m)) (lam : 'M[F]_(dq m)).
Hypothesis sd : solved sm f omg lam.
Variable tb : btable F (dq m).
Hypothesis Et : preprocess_tmats f (tab m) (lmx m) (kmx m) = Ok tb.
Variable state : seq F.
Hypothesis ss : size state = dq m.
Variable N : nat -> nat -> nat -> F.
Hypothesis NE : notional_on (mS sm) (mT sm) (mV sm) (mW sm) (mh sm) omg (fq1 f) (fp1 f) (fq0 f) (lmx m) (kmx m)
  (col_of (dq m) state) N.

Lemma read_tmN s l k : (s < lmx m + kmx m + 2)%N -> (l <= lmx m)%N -> (k <= kmx m)%N ->
  read_tm tb state s l k = Ok (N l k s).
Proof.
move=> ls ll kk.
have [rules [_ /(_ l k ll kk) [ex an]]] := c01 (sd_pre sd) (sd_T sd) (sd_W sd) (sd_lin sd).
have [q [p [q0 fo]]] := ex (col_of (dq m) state).
have [_ [tb' Et' H]] := C03_checks_are_notional (sd_pre sd) (sd_T sd) (sd_W sd) (sd_lin sd) (lmx0 sd).
move: Et'; rewrite Et => -[etb]; move: H; rewrite -etb => H.
have [v Ev ev] := H s l k q p ls ll kk (an _ _ fo).
by rewrite /read_tm Ev /= ss eqxx -q0 ev (NE ll kk (an _ _ fo) q0).
Qed.

Lemma szT : ((lmx m).+1 + (kmx m).+1 = lmx m + kmx m + 2)%N.
Proof. by rewrite addSn addnS addn2. Qed.

Lemma trajN l (k : nat) : (l <= lmx m)%N -> (k < (kmx m).+1)%N ->
  mapM (fun s => read_tm tb state s l k) (iota 0 ((lmx m).+1 + (kmx m).+1)) =
  Ok [seq N l k s | s <- iota 0 (lmx m + kmx m + 2)].
Proof.
move=> ll kk; rewrite szT; apply: mapM_ok => s; rewrite mem_iota add0n => /andP [_ ls].
exact: read_tmN.
Qed.

Lemma traj_pos l k : (l <= lmx m)%N -> (k <= kmx m)%N ->
  traj tb state l%:Z k.+1%:Z = Ok [seq N l k s | s <- iota 0 (lmx m + kmx m + 2)].
Proof. move=> ll kk; rewrite /traj pred_int /= !ltnS ll kk /=; exact: trajN. Qed.

Lemma traj_zero l : (l <= lmx m)%N ->
  traj tb state l%:Z 0 = Ok [seq N l (kmx m) s | s <- iota 0 (lmx m + kmx m + 2)].
Proof. move=> ll; rewrite /traj sub0r /= !ltnS ll /= subn1; exact: trajN. Qed.

Lemma k_mapN l k : (odflt 0%N l <= lmx m)%N -> (k <= kmx m)%N ->
  k_map tb state (omap Posz l) (Some k%:Z) =
  Ok ([seq N i k (i + k) - xb m | i <- iota 0 (lmx m)], [seq N (odflt 0%N l) i (odflt 0%N l + i) - xb m | i <- iota 0 (kmx m)]).
Proof.
move=> ll kk; rewrite /k_map /=.
have -> : odflt 0 (omap Posz l) = Posz (odflt 0%N l) by case: l {ll}.
move: (odflt 0%N l) ll => {l} l ll.
rewrite (@mapM_ok _ _ _ (fun i => N i k (i + k)%N - xb m)) /=; last first.
  move=> i; rewrite mem_iota add0n => /andP [_ li].
  have h : (i + k < lmx m + kmx m + 2)%N by rewrite addn2 ltnS -addSn leq_add // leqW // ltnW.
  by rewrite szT h /= ltnS (ltnW li) /= ltnS kk /= read_tmN ?(ltnW li).
rewrite (@mapM_ok _ _ _ (fun i => N l i (l + i)%N - xb m)) //= => i.
rewrite mem_iota add0n => /andP [_ li].
have h : (l + i < lmx m + kmx m + 2)%N by rewrite addn2 ltnS -addnS leq_add // leqW // ltnW.
by rewrite szT h /= ltnS ll /= ltnS (ltnW li) /= read_tmN ?(ltnW li).
Qed.
End Traj.

Section TmCache.
Variables (A TB : Type) (build : A -> res TB).
Lemma tm_memo_stays s tb os : tm_memo s = Some tb -> tm_memo (tm_run build s os) = Some tb.
Proof.
elim: os s => [|o os IH] s e //=; apply: IH; case: o => //=; by rewrite e.
Qed.
End TmCache.

Section S2s.
Variable F : realFieldType.
Lemma shock2stateE (m : tmodel F) s x : (0 < neps m <= dq m)%N ->
  shock2state m s x =
  if s \in shk m then Ok [seq (if i == (dq m - neps m + index s (shk m))%N then x else 0) | i <- iota 0 (dq m)]
  else Err ValueError.
Proof.
move=> /andP [e0 le]; rewrite /shock2state py_from_neg // size_last_n size_nseq (minn_idPl le) /py_find.
case: ifP => // si /=; have lt : (index s (shk m) < neps m)%N by rewrite index_mem.
rewrite lt; congr Ok; apply: (@eq_from_nth _ 0).
  rewrite size_set_nth size_nseq size_map size_iota; apply/maxn_idPr.
  by rewrite -(subnK le) addnK ltn_add2l.
rewrite size_set_nth size_nseq => i; rewrite (_ : maxn _ _ = dq m); last first.
  by apply/maxn_idPr; rewrite -{2}(subnK le) ltn_add2l.
by move=> li; rewrite nth_set_nth /= nth_nseq (nth_map 0%N) ?size_iota // nth_iota // add0n li.
Qed.
End S2s.

Lemma tables_ex (F : realFieldType) (m : tmodel F) sm f omg lam (sd : @solved F m sm f omg lam) :
  exists tb, preprocess_tmats f (tab m) (lmx m) (kmx m) = Ok tb.
Proof.
by have [_ [tb Et _]] := C03_checks_are_notional (sd_pre sd) (sd_T sd) (sd_W sd) (sd_lin sd) (lmx0 sd); exists tb.
Qed.
