Set Warnings "-all".
From Coq Require Import String.
From mathcomp Require Import all_ssreflect all_algebra.
From Verif Require Import PyBase PyStr M_Parser S_Parser P_Parser5 M_Engine S_Engine M_GenSys S_GenSys S_GenSys2 P_Engine P_Engine3 P_Engine4
  P_GenSys P_GenSys2 P_GenSys3 P_GenSys4 P_GenSys5 P_GenSys6 M_Pipe S_Pipe P_Pipe P_Pipe2 P_Pipe3 M_Tools S_Tools P_Tools P_Tools2
  M_Full S_Full T_Engine T_GenSys.
Set Implicit Arguments. Unset Strict Implicit. Unset Printing Implicit Defensive.
Import GRing.Theory Num.Theory Order.TTheory.
Local Open Scope ring_scope.

Lemma append_injr (a b c : string) : append a c = append b c -> a = b.
Proof.
have len x y : String.length (append x y) = (String.length x + String.length y)%N by elim: x => //= ch x ->.
elim: a b => [|x a IH] [|y b] //= E.
- by have := congr1 String.length E; rewrite /= len -addSn -[LHS]add0n => /eqP; rewrite eqn_add2r.
- by have := congr1 String.length E; rewrite /= len -addSn -[RHS]add0n => /eqP; rewrite eqn_add2r.
- by case: E => -> /IH ->.
Qed.

Section Layout.
Variable F : realFieldType.
Variable tol : F.
Variables m n e : nat.
Variable u : usys F m n e.
Variable names : n.-tuple string.
Hypothesis un : uniq (vv0 tol u names).
Hypothesis t0 : 0 < tol.
Hypothesis ld : shocks_loaded tol u.
Notation inq := (M_GenSys.inq (tol:=tol) (u:=u)).
Notation inp := (M_GenSys.inp (tol:=tol) (u:=u)).
Notation na := (M_GenSys.na tol u).

Lemma un_names : uniq names.
Proof. by move: un; rewrite /vv0 cat_uniq => /andP []. Qed.

(** value of a named variable *)
Definition nval (x : 'cV[F]_n) (a : string) : F := nth 0 (seq_of x) (index a names).

Lemma nval_nth (x : 'cV[F]_n) (j : 'I_n) : nval x (tnth names j) = x j 0.
Proof. by rewrite /nval (tnth_nth EmptyString) index_uniq ?size_tuple ?un_names // nth_seq_of. Qed.

Lemma orig_name (j : 'I_(n + na)) x :
  nval x (original names (nth EmptyString (vv0 tol u names) j)) =
  (col_mx x (rowsub (@enum_val _ (inall tol u)) x) : 'cV[F]_(n + na)) j 0.
Proof.
case: (split_ordP j) => i ->.
  rewrite col_mxEu /= /vv0 nth_cat size_tuple ltn_ord -tnth_nth /original mem_tnth.
  exact: nval_nth.
rewrite col_mxEd mxE /= /vv0 nth_cat size_tuple ltnNge leq_addr /= addKn.
have lt : (i < size (enum (inall tol u)))%N by rewrite -cardE.
set j0 : 'I_n := enum_val i.
have ei : nth EmptyString [seq append (tnth names j) "_lag" | j <- enum (inall tol u)] i = append (tnth names j0) "_lag".
  rewrite (nth_map j0) //; congr (append (tnth _ _) _); by rewrite /j0 [in RHS](enum_val_nth (enum_val i)).
rewrite ei /original.
have nn : append (tnth names j0) "_lag" \notin names.
  apply/negP => h; move: un; rewrite /vv0 cat_uniq => /and3P [_ /hasPn H _].
  have : append (tnth names j0) "_lag" \in [seq append (tnth names j) "_lag" | j <- enum (inall tol u)].
    by apply/mapP; exists j0 => //; rewrite mem_enum; apply: enum_valP.
  by move=> /H; rewrite /= h.
rewrite (negbTE nn) -nval_nth; congr (nval _ _).
rewrite (index_map (f := fun v => append v "_lag")); last by move=> a b /append_injr.
by rewrite nth_index // mem_tnth.
Qed.

Lemma seq_sub (c : nat) (P : pred 'I_c) (v : 'cV[F]_c) : seq_of (rowsub (@enum_val _ P) v) = [seq v i 0 | i <- enum P].
Proof.
apply: (@eq_from_nth _ 0); rewrite ?size_seq_of ?size_map -?cardE // => i lt.
rewrite -[i]/(nat_of_ord (Ordinal lt)) nth_seq_of mxE (nth_map (enum_val (Ordinal lt))) -?cardE //.
by rewrite [in LHS](enum_val_nth (enum_val (Ordinal lt))).
Qed.

Lemma enum_split (P : pred 'I_(n + na + e)) :
  enum P = [seq lshift e k | k <- enum (dropeps P)] ++ [seq @rshift _ e k | k <- enum (fun k => P (rshift _ k))].
Proof.
rewrite (enum_pred P) enum_ord_add filter_cat !filter_map; congr (_ ++ _); congr map; rewrite [RHS]enum_pred map_id enumT; exact: eq_filter.
Qed.

Lemma shk_q k : inq (rshift (n + na) k).
Proof.
have /(C18_shocks_are_last_states u t0) E := ld.
have : rshift (n + na) k \in drop (dimq tol u - e) (enum inq) by rewrite E map_f // mem_enum.
by move/mem_drop; rewrite mem_enum.
Qed.
Lemma shk_p k : inp (rshift (n + na) k) = false.
Proof. by rewrite /M_GenSys.inp shk_q andbF. Qed.

Lemma layout P svv (x : 'cV[F]_n) (eps : 'cV[F]_e) : masked names P = Ok svv ->
  [seq yvec tol u x eps (lshift e k) 0 | k <- enum (dropeps P)] = [seq nval x (original names a) | a <- svv].
Proof.
rewrite /masked; case: eqP => // _ [<-]; rewrite -map_comp; apply: eq_map => j /=.
by rewrite /yvec col_mxEu orig_name.
Qed.

Lemma layout_q svv (x : 'cV[F]_n) (eps : 'cV[F]_e) : masked names inq = Ok svv ->
  seq_of (q_of tol u x eps) = [seq nval x (original names a) | a <- svv] ++ seq_of eps.
Proof.
move=> E; rewrite /q_of seq_sub enum_split map_cat -map_comp (layout x eps E); congr (_ ++ _).
rewrite -map_comp /seq_of; have -> : enum (fun k => inq (rshift (n + na) k)) = enum 'I_e.
  by apply: eq_enum => k; rewrite !inE; apply: shk_q.
by apply: eq_map => k /=; rewrite /yvec col_mxEd.
Qed.

Lemma layout_p cvv (x : 'cV[F]_n) (eps : 'cV[F]_e) : masked names inp = Ok cvv ->
  seq_of (p_of tol u x eps) = [seq nval x (original names a) | a <- cvv].
Proof.
move=> E; rewrite /p_of seq_sub enum_split map_cat -map_comp (layout x eps E).
have -> : enum (fun k => inp (rshift (n + na) k)) = [::]; last by rewrite cats0.
by rewrite (eq_enum (B := pred0)) ?enum0 // => k; rewrite !inE; apply: shk_p.
Qed.

Lemma layout_sizes svv cvv vv : new_vv tol u names = Ok (svv, cvv, vv) ->
  [/\ vv = cvv ++ svv, masked names inq = Ok svv, masked names inp = Ok cvv, dimp tol u = size cvv & dimq tol u = (size svv + e)%N].
Proof.
rewrite /new_vv; case E1: (masked _ _) => [s|] //=; case E2: (masked _ _) => [c|] //= [<- <- <-].
have := congr1 size (layout_p 0 0 E2); rewrite size_seq_of size_map => h1.
by have := congr1 size (layout_q 0 0 E1); rewrite size_cat !size_seq_of size_map => h2.
Qed.
End Layout.

Lemma t_func_row (F : realFieldType) (m : tmodel F) st sh sk lin x (l k : nat) fl :
  (0 < neps m < dq m)%N -> t_func m st (Some sh) sk lin = Ok (x, (l%:Z, k%:Z), fl) ->
  [/\ (l <= lmx m)%N, (k <= kmx m)%N & exists2 c, tab m l k = Some c & x = cell_row c (inp_vec m st sh)].
Proof.
move=> /andP [e0 lt] /t_func_inv; case: (decode sk lin) => l1 k1 /= [l' [k' [c [_ h1 h2 h3 ->]]]].
move: h1 h2; rewrite !ltnS; case: (leqP l) => // ll [el]; case: (leqP k) => // kk [ek].
split=> //; exists c; first by rewrite el ek.
by rewrite /cell_row /inp_vec (sliceE st lt) py_to_neg // size_seq_of.
Qed.

Section GenSys.
Variable F : realFieldType.
Variable tol : F.
Variable rq : forall d, 'M[F]_d -> 'M[F]_d * 'M[F]_d.
Variable klein : forall a b, 'M[F]_(a + b) -> 'M[F]_(a + b) -> res ('M[F]_(b, a) * 'M[F]_a).
Hypothesis rqP : forall d, is_rq (@rq d).
Hypothesis klP : forall a b (S T : 'M[F]_(a + b)) omg lam, klein S T = Ok (omg, lam) -> linear_solution S T omg lam.
Variables m n e o : nat.
Variable u : usys F m n e.
Variable names : n.-tuple string.
Variable shks : seq string.
Variables (ZZ0 : 'M[F]_(o, n)) (ZZ1 : 'cV[F]_o) (lm km : nat).
Hypothesis un : uniq (vv0 tol u names).
Hypothesis t0 : 0 < tol.
Hypothesis ld : shocks_loaded tol u.
Hypothesis es : size shks = e.
Hypothesis hl : (0 < lm < 999)%N.
Hypothesis hk : (0 < km)%N.
Variable mdl : tmodel F.
Hypothesis G : gen_sys tol rq klein u names shks ZZ0 ZZ1 lm km = Ok mdl.
Hypothesis st0 : (size shks < dq mdl)%N.

Lemma gen_sysE : exists svv cvv sm omg lam t b,
  [/\ new_vv tol u names = Ok (svv, cvv, cvv ++ svv), sys_of tol u rq = Ok sm, klein (mS sm) (mT sm) = Ok (omg, lam),
      preprocess sm (ff tol u) omg lam lm km = Ok (t, b) &
      mdl = @TM F (dimq tol u) (dimp tol u) t b lm km (x_bar u) shks
        o #|dropeps (inq (tol:=tol) (u:=u))| (conform_mx 0 (zp tol u ZZ0)) (zq tol u ZZ0) ZZ1 (cvv ++ svv)].
Proof.
move: G; rewrite /gen_sys; case E1: new_vv => [[[svv cvv] vv]|] //=; case E2: sys_of => [sm|] //=.
case E3: klein => [[omg lam]|] //=; case E4: preprocess => [[t b]|] //= [<-].
have [ev _ _ _ _] := layout_sizes un t0 ld E1.
by exists svv, cvv, sm, omg, lam, t, b; rewrite -ev.
Qed.

(** the rest of the way: in terms of the model's vectors *)
Lemma gen_sys_path st sh sk lin x (l k : nat) fl :
  well_scaled u tol -> constraint_connected u -> no_lead_lag u -> encodable u ->
  (nq mdl <= size st)%N -> size sh = e -> t_func mdl st (Some sh) sk lin = Ok (x, (l%:Z, k%:Z), fl) ->
  exists xs eps,
  let rep t := [seq nval names (xs t) (original names a) | a <- vvs mdl] in
  [/\ no_future_shocks eps /\ seq_of (eps 0%N) = sh, drop (dp mdl) (rep 0%N) = last_n (nq mdl) st, rep 1%N = x,
      solves_user u (binds l k) xs eps &
      forall s, t_func mdl (rep s.+1) None (KTuple (remaining l k s.+1).1 (remaining l k s.+1).2) false =
                Ok (rep s.+2, lkz (remaining l k s.+1), 0%N)].
Proof.
move=> ws cc nl en.
have [svv [cvv [sm [omg [lam [t [b [E1 E2 E3 E4 E5]]]]]]]] := gen_sysE.
have [_ Mq Mp dpE dqE] := layout_sizes un t0 ld E1.
have [_ _ h1 h2] := sys_ofP rqP E2.
have ls := klP E3.
move: st0; rewrite E5 /= => st1 ge sz E.
set M := TM _ _ _ _ _ _ _ _ _ _ in E ge *.
have e0 : (0 < size shks)%N.
  rewrite es lt0n; apply/eqP; apply/(new_vv_err tol u names); by eexists; exact: E1.
have nqE : nq M = size svv by rewrite /nq /neps /= dqE es addnK.
have sd : @solved F M sm (ff tol u) omg lam.
  by split=> //; rewrite /M /= size_cat -/M -dpE nqE.
have [ll kk [c Ec ex]] := t_func_row (dims sd) E.
have [rules [sto H]] := c01 E4 h1 h2 ls; have [Hex Han] := H l k ll kk.
have [q [p [q0 fo]]] := Hex (inp_vec M st sh).
have an := Han _ _ fo; have [ob _] := an.
have [xs [eps [nf e1 e2 sol]]] := (c78 ws cc rqP E2 l k q p nl en).1 ob.
exists xs, eps; pose rep i := [seq nval names (xs i) (original names a) | a <- vvs M].
have repq i : drop (dp M) (rep i) = [seq nval names (xs i) (original names a) | a <- svv].
  by rewrite /rep /= map_cat drop_size_cat // size_map.
have seqq i : seq_of (q i) = drop (dp M) (rep i) ++ seq_of (eps i).
  by rewrite e1 (layout_q un t0 ld _ _ Mq) repq.
have szq i : size (drop (dp M) (rep i)) = nq M by rewrite repq size_map nqE.
have rowE i : path_row (nq M) q p i = rep i.+1.
  rewrite /path_row e2 (layout_p un t0 ld _ _ Mp) seqq take_size_cat ?szq // repq.
  by rewrite /rep /= map_cat.
have lastE i : last_n (nq M) (rep i) = drop (dp M) (rep i).
  by rewrite /last_n /rep size_map /M /= size_cat -dpE nqE addnK.
have q0E : seq_of (q 0%N) = last_n (nq M) st ++ sh.
  by rewrite q0 seq_of_col_of // inp_size // ?(sd_st sd) // sz /neps /= es.
have [e3 e4] : drop (dp M) (rep 0%N) = last_n (nq M) st /\ seq_of (eps 0%N) = sh.
  have := seqq 0%N; rewrite q0E => /eqP; rewrite eqseq_cat ?szq; last by rewrite size_last_n (minn_idPl ge).
  by case/andP=> /eqP -> /eqP ->.
split=> //.
- rewrite -[LHS]/(rep 1%N) ex -q0 -rowE; have [c' Ec' <-] := ann_row sd ll kk an 0%N.
  by move: Ec'; rewrite {1 2}/remaining leq0n subn0 => Ec'; have := etrans (esym Ec) Ec' => -[->].
move=> s; rewrite -[X in t_func _ X]/(rep s.+1) -[X in Ok (X, _, _)]/(rep s.+2) -(rowE s.+1).
have inpE : inp_vec M (rep s.+1) (nseq (neps M) 0) = q s.+1.
  rewrite /inp_vec lastE -[RHS]col_of_seq_of seqq; congr (col_of _ (_ ++ _)).
  rewrite nf; apply: (@eq_from_nth _ 0); rewrite ?size_nseq ?size_seq_of //.
  move=> i lt; rewrite nth_nseq lt.
  by rewrite (_ : i = Ordinal (etrans (esym (congr1 (leq i.+1) es)) lt)) // nth_seq_of mxE.
have nle : (nq M <= size (rep s.+1))%N by rewrite /rep size_map /M /= size_cat -/M nqE leq_addl.
exact: (ann_t_func sd ll kk an nle (size_nseq _ _) inpE).
Qed.
End GenSys.
