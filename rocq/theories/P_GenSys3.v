Set Warnings "-all".
From Coq Require Import String.
From mathcomp Require Import all_ssreflect all_algebra.
From Verif Require Import PyBase PyStr M_Engine S_Engine M_GenSys S_GenSys P_GenSys P_GenSys2 P_Engine3 P_Engine4.
Set Implicit Arguments. Unset Strict Implicit. Unset Printing Implicit Defensive.
Import GRing.Theory Num.Theory Order.TTheory.
Local Open Scope ring_scope.

(** ** partition of the variables (C14), shocks (C18) *)
Lemma enum_ord_add a b : enum 'I_(a + b) = map (lshift b) (enum 'I_a) ++ map (@rshift a b) (enum 'I_b).
Proof.
apply: (inj_map val_inj); rewrite val_enum_ord map_cat iotaD add0n; congr (_ ++ _).
  by rewrite -(map_comp val (lshift b)) -val_enum_ord; apply: eq_map.
rewrite -(map_comp val (@rshift a b)) -[a in LHS]addn0 iotaDl -val_enum_ord -map_comp; exact: eq_map.
Qed.

Lemma enum_pred (T : finType) (P : pred T) : enum P = filter P (enum T).
Proof. by rewrite enumT. Qed.

Section Part.
Variable F : realFieldType.
Variable tol : F.
Variables m n e : nat.
Variable u : usys F m n e.
Hypothesis tol0 : 0 < tol.
Hypothesis tol1 : tol <= 1.
Notation na := (na tol u).
Notation inall := (inall tol u).
Notation inq := (inq (tol:=tol) (u:=u)).
Notation inp := (inp (tol:=tol) (u:=u)).
Notation var j := (lshift e (lshift na j)).
Notation lagv j := (lshift e (@rshift n na j)).
Notation shk j := (@rshift (n + na) e j).

Lemma f0z : `|0 : F| < tol. Proof. by rewrite normr0. Qed.

Lemma fast0_col (r1 r2 c : nat) (A : 'M[F]_(r1, c)) (B : 'M[F]_(r2, c)) j :
  fast0 tol (col_mx A B) j = fast0 tol A j && fast0 tol B j.
Proof.
apply/forallP/andP => [h|[/forallP h1 /forallP h2] i].
  split; apply/forallP=> i; [have := h (lshift r2 i)|have := h (rshift r1 i)];
  by rewrite ?col_mxEu ?col_mxEd.
by case: (split_ordP i) => a ->; rewrite ?col_mxEu ?col_mxEd.
Qed.
Lemma fast0_rowl (r c1 c2 : nat) (A : 'M[F]_(r, c1)) (B : 'M[F]_(r, c2)) j :
  fast0 tol (row_mx A B) (lshift c2 j) = fast0 tol A j.
Proof. by apply: eq_forallb => i; rewrite row_mxEl. Qed.
Lemma fast0_rowr (r c1 c2 : nat) (A : 'M[F]_(r, c1)) (B : 'M[F]_(r, c2)) j :
  fast0 tol (row_mx A B) (@rshift c1 c2 j) = fast0 tol B j.
Proof. by apply: eq_forallb => i; rewrite row_mxEr. Qed.
Lemma fast0_0 (r c : nat) (j : 'I_c) : fast0 tol (0 : 'M[F]_(r, c)) j.
Proof. by apply/forallP=> i; rewrite mxE f0z. Qed.

Lemma fast0_1 (r : nat) (j : 'I_r) : fast0 tol (1%:M : 'M[F]_r) j = false.
Proof. by apply/negP => /forallP /(_ j); rewrite mxE eqxx normr1 ltNge tol1. Qed.

Definition f0E := (fast0_col, fast0_rowl, fast0_rowr, fast0_0, fast0_1, andbT, andTb).

Lemma A2_var j : fast0 tol (AA2 tol u) (var j) = fast0 tol (AA0 u) j.
Proof. by rewrite /AA2 /AA1 /block_mx !f0E. Qed.
Lemma B2_var j : fast0 tol (BB2 tol u) (var j) = fast0 tol (BB0 u) j && ~~ inall j.
Proof.
rewrite /BB2 /BB1 /block_mx !f0E; congr (_ && _).
apply/forallP/idP => [h|ni i].
  apply/negP => ij; have := h (enum_rank_in ij j).
  by rewrite !mxE enum_rankK_in // eqxx normrN normr1 ltNge tol1.
rewrite !mxE; case: eqP => [ej|_]; last by rewrite oppr0 f0z.
have : inall j by rewrite -ej; exact: enum_valP i.
by rewrite (negbTE ni).
Qed.
Lemma C2_var j : fast0 tol (CC2 tol u) (var j) = fast0 tol (CC0 u) j || inall j.
Proof.
rewrite /CC2 /CC1 /block_mx !f0E.
apply/forallP/orP => [h|h i].
  case ia : (inall j); [by right | left; apply/forallP => i].
  by have := h i; rewrite mxE ia.
rewrite mxE; case: ifP => [_|ia]; first exact: f0z.
by case: h => [/forallP -> //|]; rewrite ia.
Qed.
Lemma fc2_var j : fc2 tol u 0 (var j) = fcE u 0 j.
Proof. by rewrite fc2E !row_mxEl. Qed.

(** which variables become states, controls, or are left out *)
Lemma inq_var j : inq (var j) =
  (~~ fast0 tol (CC0 u) j && fast0 tol (AA0 u) j) || (tol <= `|fcE u 0 j|).
Proof.
rewrite /M_GenSys.inq C2_var fc2_var negb_or -leNgt /M_GenSys.inall negb_and !negbK.
by case: (fast0 tol (CC0 u) j); case: (fast0 tol (AA0 u) j).
Qed.
Lemma inp_var j : inp (var j) =
  (~~ fast0 tol (AA0 u) j || ~~ fast0 tol (BB0 u) j) && ~~ inq (var j).
Proof.
rewrite /inp A2_var B2_var negb_and negbK /M_GenSys.inall.
by case: (fast0 tol (AA0 u) j); rewrite ?orbF.
Qed.

Lemma lag_in j : inq (lagv j) || inp (lagv j).
Proof.
case iq : (inq _) => //=; rewrite /inp iq andbT.
rewrite [fast0 tol (BB2 _ _) _](_ : _ = false) ?orbT //.
by rewrite /BB2 /BB1 /block_mx !f0E.
Qed.

Lemma lag_inq j : inq (lagv j).
Proof.
rewrite /M_GenSys.inq /CC2 /CC1 /block_mx !f0E.
have := enum_valP j; rewrite unfold_in => /andP [_ h].
apply/orP; left; apply/negP => /forallP h'; case/negP: h; apply/forallP => i.
by have := h' i; rewrite mxE.
Qed.

Lemma shk_in j : inq (shk j) || inp (shk j).
Proof.
case iq : (inq _) => //=; rewrite /inp iq andbT.
rewrite [fast0 tol (BB2 _ _) _](_ : _ = false) ?orbT //.
by rewrite /BB2 /block_mx !f0E.
Qed.

Lemma shk_inq j : inq (shk j) = ~~ fast0 tol (DD0 u) j || (tol <= `|fdE u 0 j|).
Proof.
rewrite /M_GenSys.inq fc2E row_mxEr -leNgt /CC2 /DD1 /block_mx !f0E; reflexivity.
Qed.

Definition missing (j : 'I_n) : bool := ~~ inq (var j) && ~~ inp (var j).

Lemma missingE j : missing j =
  [&& fast0 tol (AA0 u) j, fast0 tol (BB0 u) j, fast0 tol (CC0 u) j & `|fcE u 0 j| < tol].
Proof.
rewrite /missing inp_var inq_var ltNge.
by case: (fast0 tol (AA0 u) j); case: (fast0 tol (BB0 u) j); case: (fast0 tol (CC0 u) j); case: (tol <= _).
Qed.

Lemma count_split (P : pred 'I_(n + na + e)) :
  #|P| = (#|[pred j | P (var j)]| + #|[pred j | P (lagv j)]| + #|[pred j | P (shk j)]|)%N.
Proof.
have cs a b (Q : pred 'I_(a + b)) : #|Q| = (#|[pred j | Q (lshift b j)]| + #|[pred j | Q (rshift a j)]|)%N.
  by rewrite -!sum1_card big_split_ord.
by rewrite cs; congr (_ + _)%N; rewrite cs.
Qed.

Lemma dims : (dimq tol u + dimp tol u + #|missing| = n + na + e)%N.
Proof.
rewrite /dimq /dimp -cardUI.
have -> : #|[predI inq & inp]| = 0%N.
  apply: eq_card0 => j; rewrite !inE; apply/negbTE.
  exact: disj.
rewrite addn0 count_split.
have -> : #|[pred j | [predU inq & inp] (lagv j)]| = na.
  by rewrite -[RHS]card_ord; apply: eq_card => j; rewrite !inE; exact: lag_in.
have -> : #|[pred j | [predU inq & inp] (shk j)]| = e.
  by rewrite -[RHS]card_ord; apply: eq_card => j; rewrite !inE; exact: shk_in.
have E : (#|[pred j | [predU inq & inp] (var j)]| + #|missing| = n)%N.
  rewrite -[RHS]card_ord -(cardC missing) addnC; congr (_ + _)%N.
  by apply: eq_card => j; rewrite !inE negb_and !negbK.
by rewrite addnAC [X in (X + e)%N]addnAC E.
Qed.

Lemma card_pred_sum a b (Q : pred 'I_(a + b)) :
  #|Q| = (#|[pred j | Q (lshift b j)]| + #|[pred j | Q (rshift a j)]|)%N.
Proof. by rewrite -!sum1_card big_split_ord. Qed.

(** names *)
Variable names : n.-tuple string.
Hypothesis uniq0 : uniq (vv0 tol u names).

Lemma size_vv0 : size (vv0 tol u names) = (n + na)%N.
Proof. by rewrite size_cat size_tuple size_map -cardE. Qed.

Lemma nth_var j : nth ""%string (vv0 tol u names) (nat_of_ord (lshift na j)) = tnth names j.
Proof. by rewrite /vv0 nth_cat size_tuple /= ltn_ord -tnth_nth. Qed.

Lemma name_inj (i j : 'I_(n + na)) :
  nth ""%string (vv0 tol u names) (nat_of_ord i) = nth ""%string (vv0 tol u names) (nat_of_ord j) -> i = j.
Proof.
move=> h; apply/val_inj/eqP; move/eqP: h.
by rewrite nth_uniq // size_vv0.
Qed.

Lemma masked_mem P l : @masked F tol m n e u names P = Ok l ->
  uniq l /\ (forall j, (nth ""%string (vv0 tol u names) (nat_of_ord j) \in l) = P (lshift e j)) /\
  size l = #|[pred j | P (lshift e j)]|.
Proof.
rewrite /masked; case: ifP => // _ [<-]; split; last split.
- by rewrite map_inj_uniq ?enum_uniq // => i j; apply: name_inj.
- move=> j; apply/mapP/idP => [[i]|h]; last by exists j; rewrite ?mem_enum.
  by rewrite mem_enum => h /name_inj ->.
- by rewrite size_map -cardE; apply: eq_card.
Qed.

Lemma masked_sub P l x : @masked F tol m n e u names P = Ok l -> x \in l ->
  exists2 j, P (lshift e j) & x = nth ""%string (vv0 tol u names) (nat_of_ord (j : 'I_(n + na))).
Proof.
rewrite /masked; case: ifP => // _ [<-] /mapP [j]; rewrite mem_enum => h ->; by exists j.
Qed.

Lemma new_vvP svv cvv vv : new_vv tol u names = Ok (svv, cvv, vv) ->
  [/\ vv = cvv ++ svv, uniq vv,
      (size vv + e = dimq tol u + dimp tol u)%N &
      forall j, tnth names j \notin vv <->
        [&& fast0 tol (AA0 u) j, fast0 tol (BB0 u) j, fast0 tol (CC0 u) j & `|fcE u 0 j| < tol]].
Proof.
rewrite /new_vv; case E1 : (@masked _ _ _ _ _ _ _ _) => [s|] //=; case E2 : (@masked _ _ _ _ _ _ _ _) => [c|] //= [<- <- <-].
have [u1 [m1 z1]] := masked_mem E1; have [u2 [m2 z2]] := masked_mem E2.
split=> //.
- rewrite cat_uniq u1 u2 andbT /=; apply/hasPn => x xs; apply/negP => xc.
  have [j Pj ex] := masked_sub E1 xs; move: xc; rewrite /= ex m2 => Qj.
  by have := disj (tol:=tol) (u:=u) (lshift e j); rewrite Pj Qj.
- rewrite size_cat z1 z2 /dimq /dimp (card_pred_sum (M_GenSys.inq (tol:=tol) (u:=u))) (card_pred_sum (M_GenSys.inp (tol:=tol) (u:=u))).
  have E : (#|[pred j | inq (shk j)]| + #|[pred j | inp (shk j)]| = e)%N.
    rewrite -[RHS]card_ord -(cardC [pred j | inq (shk j)]); congr (_ + _)%N.
    apply: eq_card => j; rewrite !inE; have := shk_in j; have := disj (tol:=tol) (u:=u) (shk j).
    by move: (inq _) (inp _) => [] [].

  by rewrite addnACA E; congr (_ + _)%N; rewrite addnC.
- move=> j; rewrite -missingE mem_cat -nth_var m1 m2 negb_or andbC; exact: iff_refl.
Qed.

Lemma new_vv_err : (exists r, new_vv tol u names = Ok r) <-> e <> 0%N.
Proof.
rewrite /new_vv /masked; case: eqP => h; first by split=> // -[].
by split=> // _; eexists.
Qed.

(** C18 *)
Lemma shocks_last :
  drop (dimq tol u - e) (enum (M_GenSys.inq (tol:=tol) (u:=u))) = [seq shk j | j <- enum 'I_e] <->
  (forall k, (exists i, tol <= `|DD0 u i k|) \/ tol <= `|fdE u 0 k|).
Proof.
rewrite /dimq cardE (enum_pred (M_GenSys.inq (tol:=tol) (u:=u))) enum_ord_add filter_cat.
set a := filter inq (map _ _); set b := filter inq (map _ _).
have loads k : inq (shk k) <-> (exists i, tol <= `|DD0 u i k|) \/ tol <= `|fdE u 0 k|.
  rewrite shk_inq negb_forall; split=> [/orP [/existsP [i]|]|[[i h]|->]]; rewrite ?orbT //.
  - by rewrite -leNgt; left; exists i.
  - by right.
  - by apply/orP; left; apply/existsP; exists i; rewrite -leNgt.
have sb : (size b <= e)%N by rewrite size_filter (leq_trans (count_size _ _)) // size_map size_enum_ord.
split=> [h k|h].
  apply/loads; have /mem_drop : shk k \in drop (size (a ++ b) - e) (a ++ b).
    by rewrite h map_f // mem_enum.
  by rewrite mem_cat !mem_filter => /orP [] /andP [].
have -> : b = [seq shk j | j <- enum 'I_e].
  by rewrite /b; apply/all_filterP/allP => x /mapP [k _ ->]; apply/loads.
by rewrite size_cat size_map size_enum_ord addnK drop_size_cat.
Qed.
End Part.
