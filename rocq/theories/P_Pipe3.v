(** Observation matrices: the reported variables give the file's observables. *)
Set Warnings "-all".
From Coq Require Import String.
From mathcomp Require Import all_ssreflect all_algebra.
From Verif Require Import PyBase PyStr M_Parser S_Parser P_Parser P_Parser2 P_Parser3 P_Parser4 P_Parser5 M_Engine M_GenSys S_GenSys S_GenSys2 P_GenSys2 P_GenSys3
  M_Tools M_Pipe S_Pipe P_Pipe P_Pipe2.
Set Implicit Arguments. Unset Strict Implicit. Unset Printing Implicit Defensive.
Import GRing.Theory Num.Theory Order.TTheory.
Local Open Scope ring_scope.

Section Sum.
Variable F : realFieldType.
Variable tol : F.
Variables m n e o : nat.
Variable u : usys F m n e.
Variable names : n.-tuple string.
Notation inq := (inq (tol:=tol) (u:=u)).
Notation inp := (inp (tol:=tol) (u:=u)).
Notation vv0 := (vv0 tol u names).

Lemma hx_sum (ZZ0 : 'M[F]_(o, n)) (h : 'I_(n + na tol u) -> F) i :
  \sum_j zp tol u ZZ0 i j * h (enum_val j) + \sum_j zq tol u ZZ0 i j * h (enum_val j) =
  \sum_(j | inp (lshift e (lshift (na tol u) j)) || inq (lshift e (lshift (na tol u) j))) ZZ0 i j * h (lshift (na tol u) j).
Proof.
have ez P : \sum_(k < #|dropeps P|) selc (dropeps P) (ZZpad tol u ZZ0) i k * h (enum_val k) =
    \sum_(k | dropeps P k) ZZpad tol u ZZ0 i k * h k.
  rewrite [RHS](eq_bigl (mem (dropeps P))) // [RHS]big_enum_val.
  by apply: eq_bigr => k _; rewrite mxE.
rewrite [X in X + _]ez [X in _ + X]ez.
rewrite (big_split_ord) /= [X in _ + X](big_split_ord) /=.
have z0 (P : pred 'I_(na tol u)) : \sum_(j | P j) ZZpad tol u ZZ0 i (rshift n j) * h (rshift n j) = 0.
  by apply: big1 => j _; rewrite /ZZpad row_mxEr mxE mul0r.
rewrite !z0 !addr0 [RHS](bigID (fun j => inp (lshift e (lshift (na tol u) j)))) /=; congr (_ + _).
  apply: eq_big => [j|j _]; first by rewrite /dropeps; case: (inp _); rewrite ?andbF.
  by rewrite /ZZpad row_mxEl.
apply: eq_big => [j|j _]; last by rewrite /ZZpad row_mxEl.
rewrite /dropeps; case E3: (inp _) => /=; last by rewrite andbT.
by apply/negbTE; move: E3; rewrite /M_GenSys.inp => /andP [].
Qed.

Lemma masked_nth (P : pred 'I_(n + na tol u + e)) l (j : 'I_#|dropeps P|) : masked names P = Ok l ->
  nth EmptyString l j = nth EmptyString vv0 (enum_val j : 'I_(n + na tol u)).
Proof.
rewrite /masked; case: eqP => // _ [<-].
have lt : (j < size (enum (dropeps P)))%N by rewrite -cardE.
rewrite (nth_map (enum_val j) _ _ lt); congr (nth _ _ (nat_of_ord _)).
by rewrite [in RHS](enum_val_nth (enum_val j)).
Qed.

Lemma vec_nth (P : pred 'I_(n + na tol u + e)) (v : 'cV[F]_(n + na tol u + e)) (j : 'I_#|dropeps P|) :
  nth 0 (seq_of (rowsub (@enum_val _ P) v)) j = v (lshift e (enum_val j)) 0.
Proof.
have eP : enum P = [seq lshift e k | k <- enum (dropeps P)] ++ [seq @rshift _ e k | k <- enum (fun k => P (rshift _ k))].
  rewrite (enum_pred P) enum_ord_add filter_cat !filter_map; congr (_ ++ _); congr map; rewrite [RHS]enum_pred map_id enumT; exact: eq_filter.
have lt : (j < size (enum (dropeps P)))%N by rewrite -cardE.
have ltP : (j < #|P|)%N by rewrite (leq_trans lt) // (cardE P) eP size_cat size_map leq_addr.
rewrite /seq_of (nth_map (Ordinal ltP)) ?size_enum_ord // mxE; congr (v _ 0).
have -> : nth (Ordinal ltP) (enum 'I_#|P|) j = Ordinal ltP by apply: val_inj; rewrite /= nth_enum_ord.
rewrite (enum_val_nth (lshift e (enum_val j))) /= eP nth_cat size_map lt.
by rewrite (nth_map (enum_val j)) // [in RHS](enum_val_nth (enum_val j)).
Qed.
End Sum.

Section File.
Variable F : realFieldType.
Variables (m : rawmodel F) (p : parsed F) (eqs : seq (eqn F)) (par : string -> F).
Hypothesis Hp : parse m = Ok p.
Hypothesis He : declared_eqs m = Ok eqs.
Hypothesis uv : uniq (p_vars p).
Hypothesis us : uniq (r_shks m).
Hypothesis aff : each (fun q => affine_eqn q) eqs.
Hypothesis nolead : no_shock_lead eqs.
Hypothesis affc : affine_eqn (p_ceq p).
Hypothesis cdat : dates_in (-1) 0 0 0 (set_eq_zero (p_ceq p)).
Hypothesis obs0 : forall o, List.In o (p_obs p) -> [/\ affine o.2, no_shocks o.2 & dates_in 0 0 0 0 o.2].
Variable g : matrices F.
Hypothesis Hg : get_matrices p par = Ok g.
Let ZZ0 : 'M[F]_(size (p_obs p), size (p_vars p)) := mx_of _ _ (g_ZZ0 g).

Lemma obsIn o0 i : (i < size (p_obs p))%N -> List.In (nth o0 (p_obs p) i) (p_obs p).
Proof. by elim: (p_obs p) i => [|b l IH] [|i] //= h; [left | right; apply: IH]. Qed.

Lemma obs_value i o0 y e t : (i < size (p_obs p))%N ->
  eval (value par y e t) (nth o0 (p_obs p) i).2 = nth 0 (g_ZZ1 g) i + times (nth [::] (g_ZZ0 g) i) (p_vars p) y t.
Proof.
have ob' o : List.In o (p_obs p) -> [/\ affine o.2, no_shocks o.2 & dates_in (-1) 0 0 0 o.2].
  move=> /obs0 [h1 h2 h3]; split=> // a ai; have := h3 a ai; case: (knd a) => //.
  by move=> /andP [l1 l2]; rewrite l2 (le_trans _ l1).
have [g' [Hg' _ _ _ [_ _ h7]]] := get_matricesP par Hp He uv us aff nolead affc cdat ob'.
have eg : g' = g by move: Hg'; rewrite Hg => -[].
subst g' => lt; rewrite (h7 i o0 y e t lt); apply: eval_atoms => a ai.
have [_ nsh dd] := obs0 (obsIn o0 lt).
have := dd a ai; have := nsh a ai; rewrite /value /only_at; case: (knd a) => // _ /andP [l1 l2].
have -> : dat a = 0 by apply/eqP; rewrite eq_le l1 l2.
by rewrite addr0 eqxx.
Qed.

(** the columns of variables that do not occur in an observable are zero *)
Lemma obs_zero i o0 (j : 'I_(size (p_vars p))) : (i < size (p_obs p))%N ->
  (forall a, a \in atoms (nth o0 (p_obs p) i).2 -> knd a = KVar -> nam a <> nth EmptyString (p_vars p) j) ->
  nth 0 (nth [::] (g_ZZ0 g) i) j = 0.
Proof.
move=> lt no; pose y : path F := fun v _ => (v == nth EmptyString (p_vars p) j)%:R.
have T : times (nth [::] (g_ZZ0 g) i) (p_vars p) y 0 = nth 0 (nth [::] (g_ZZ0 g) i) j.
  rewrite /times (bigD1 j) //= big1 => [|k kj]; first by rewrite addr0 /y eqxx mulr1.
  by rewrite /y nth_uniq // (negbTE (kj : (k : nat) != j)) mulr0.
have Z : times (nth [::] (g_ZZ0 g) i) (p_vars p) (@zero_path F) 0 = 0.
  by rewrite /times big1 // => k _; rewrite mulr0.
have := obs_value o0 y (@zero_path F) 0 lt; have := obs_value o0 (@zero_path F) (@zero_path F) 0 lt.
rewrite T Z addr0 => E1 E2.
have E : eval (value par y (@zero_path F) 0) (nth o0 (p_obs p) i).2 = eval (value par (@zero_path F) (@zero_path F) 0) (nth o0 (p_obs p) i).2.
  apply: eval_atoms => a ai; rewrite /value; case ka: (knd a) => //.
  by rewrite /y (introF eqP (no a ai ka)).
by move: E2; rewrite E E1 => /eqP; rewrite addrC -subr_eq subrr eq_sym => /eqP.
Qed.

Variables (tol : F) (c : 'I_(size (p_vars p))) (xb : F).
Let u := usys_of_file g c xb.

Notation mi := (fun j => M_GenSys.inp (tol:=tol) (u:=u) (lshift (size (p_shks p)) (lshift (na tol u) j))
  || M_GenSys.inq (tol:=tol) (u:=u) (lshift (size (p_shks p)) (lshift (na tol u) j))).

Lemma obs_sum o0 (i : 'I_(size (p_obs p))) (y e : path F) t (h : 'I_(size (p_vars p) + na tol u) -> F) :
  (forall j : 'I_(size (p_vars p)), h (lshift _ j) = y (nth EmptyString (p_vars p) j) t) ->
  (forall a (j : 'I_(size (p_vars p))), a \in atoms (nth o0 (p_obs p) i).2 -> knd a = KVar -> nam a = nth EmptyString (p_vars p) j -> mi j) ->
  \sum_j zp tol u ZZ0 i j * h (enum_val j) + \sum_j zq tol u ZZ0 i j * h (enum_val j) + nth 0 (g_ZZ1 g) i =
  eval (value par y e t) (nth o0 (p_obs p) i).2.
Proof.
move=> hy H; rewrite (hx_sum ZZ0) (obs_value o0 y e t (ltn_ord i)) addrC; congr (_ + _).
rewrite /times [RHS](bigID mi) /= [X in _ + X]big1 => [|j /negP nj].
  by rewrite addr0; apply: eq_bigr => j _; rewrite mxE hy.
rewrite (obs_zero (o0 := o0) (ltn_ord i)) ?mul0r // => a ai ka ea.
by apply: nj; exact: (H a).
Qed.

(** nothing is missing in a system that could be solved *)
Lemma solved_mi rq sm : 0 < tol -> tol <= 1 -> sys_of tol u rq = Ok sm -> forall j, mi j.
Proof.
move=> t0 t1; rewrite /sys_of; case: eqP => // pf _ j.
have D := dims u t0 t1; have szE := size_rows Hp He.
have m0 : #|missing tol u| = 0%N.
  apply/eqP; rewrite -(eqn_add2l (dimq tol u + dimp tol u)) D addn0 -pf.
  by move: (na tol u) => k; rewrite -szE addn1 !addSn.
by have := card0_eq m0 j; rewrite -topredE /= /missing orbC => /negbT; rewrite negb_and !negbK.
Qed.

Lemma obs_state rq sm o0 (i : 'I_(size (p_obs p))) y e t eps eps' : 0 < tol -> tol <= 1 -> sys_of tol u rq = Ok sm ->
  \sum_j zp tol u ZZ0 i j * nth 0 (seq_of (p_of tol u (column (p_vars p) y t) eps)) j +
  \sum_j zq tol u ZZ0 i j * nth 0 (seq_of (q_of tol u (column (p_vars p) y t) eps')) j + nth 0 (g_ZZ1 g) i =
  eval (value par y e t) (nth o0 (p_obs p) i).2.
Proof.
move=> t0 t1 so; rewrite -(@obs_sum o0 i y e t (fun j => yvec tol u (column (p_vars p) y t) eps (lshift _ j) 0)).
- congr (_ + _ + _); apply: eq_bigr => j _; first by rewrite /p_of vec_nth.
  by rewrite /q_of vec_nth /yvec !col_mxEu.
- by move=> j; rewrite /yvec !col_mxEu mxE.
- by move=> a j _ _ _; exact: (solved_mi t0 t1 so).
Qed.

Variables (svv cvv vv : seq string).
Hypothesis Hvv : new_vv tol u (in_tuple (p_vars p)) = Ok (svv, cvv, vv).
Hypothesis uvv : uniq (vv0 tol u (in_tuple (p_vars p))).

Lemma obs_reported o0 (i : 'I_(size (p_obs p))) y e t :
  (forall a, a \in atoms (nth o0 (p_obs p) i).2 -> knd a = KVar -> nam a \in vv) ->
  \sum_j zp tol u ZZ0 i j * y (nth EmptyString cvv j) t + \sum_j zq tol u ZZ0 i j * y (nth EmptyString svv j) t + nth 0 (g_ZZ1 g) i =
  eval (value par y e t) (nth o0 (p_obs p) i).2.
Proof.
have := Hvv; rewrite /new_vv.
case E1: (masked (in_tuple (p_vars p)) (M_GenSys.inq (tol:=tol) (u:=u))) => [s|] //=; case E2: (masked (in_tuple (p_vars p)) (M_GenSys.inp (tol:=tol) (u:=u))) => [k|] //= [<- <- <-].
have [_ [m1 _]] := masked_mem uvv E1; have [_ [m2 _]] := masked_mem uvv E2.
move=> H; rewrite -(@obs_sum o0 i y e t (fun j => y (nth EmptyString (vv0 tol u (in_tuple (p_vars p))) j) t)).
- by congr (_ + _ + _); apply: eq_bigr => j _; rewrite (masked_nth _ (E1)) || rewrite (masked_nth _ E2).
- by move=> j; rewrite nth_var (tnth_nth EmptyString).
- move=> a j ai ka ea; have := H a ai ka; rewrite ea.
  have := nth_var tol u (in_tuple (p_vars p)) j; rewrite (tnth_nth EmptyString) => <-.
  by rewrite mem_cat m1 m2.
Qed.
End File.
