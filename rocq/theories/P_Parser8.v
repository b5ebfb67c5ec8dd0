(** Name clashes: a file whose expansion repeats a name is rejected when its matrices are built. *)
Set Warnings "-all".
From Coq Require Import String.
From mathcomp Require Import all_ssreflect all_algebra.
From Verif Require Import PyBase PyStr M_Parser S_Parser P_Parser P_Parser2 P_Parser3 P_Parser4 P_Parser5.
Set Implicit Arguments. Unset Strict Implicit. Unset Printing Implicit Defensive.
Import GRing.Theory.
Local Open Scope ring_scope.

Lemma size_dedup seen l : (size (dedup seen l) <= size l)%N.
Proof.
elim: l seen => [|x l IH] seen //=; case: ifP => _; last exact: IH.
exact: leq_trans (IH _) (leqnSn _).
Qed.
Lemma dedup_uniq seen l : size (dedup seen l) = size l -> uniq l /\ forall x, x \in l -> x \notin seen.
Proof.
elim: l seen => [|x l IH] seen //=; case: ifP => xs.
  by move=> e; have := size_dedup seen l; rewrite e ltnn.
move=> [] /IH [u h]; rewrite u andbT; split.
  by apply/negP=> /h; rewrite mem_rcons mem_head.
by move=> y; rewrite in_cons => /orP [/eqP ->|/h]; rewrite ?xs // mem_rcons in_cons negb_or => /andP [].
Qed.

Section P8.
Variable F : fieldType.
Implicit Types (q : eqn F) (d : dict).

Notation men := (@mentions F).

Lemma lookup_dated d a : (forall x, x \in d -> dated x.2) -> dated a -> dated (lookup d a).
Proof.
move=> h da; rewrite /lookup; case e: [seq x.2 | x <- d & x.1 == a] => [|y l] //=.
have : y \in [seq x.2 | x <- d & x.1 == a] by rewrite e mem_head.
by case/mapP => x; rewrite mem_filter => /andP [_ /h hx] ->.
Qed.
Lemma men_subs d q : (forall x, x \in d -> dated x.2) -> men q -> men (subs d q).
Proof.
move=> h /hasP [a ai da]; apply/hasP; exists (lookup d a); last exact: lookup_dated.
by rewrite /eatoms /= !atoms_emap -map_cat map_f.
Qed.

Lemma men_shock sl st : (forall q, List.In q st.1 -> men q) ->
  forall q, List.In q (foldl (@expand_shock F) st sl).1 -> men q.
Proof.
elim: sl st => [|[s lag] sl IH] [eqs vars] //= h; apply: IH; rewrite /expand_shock.
case: ifP => // _ /= q /In_map [q' [<- qi]].
apply: men_subs => [x /mapP [i _ ->] //|].
by move: qi => /In_rcons [|<-] //; apply: h.
Qed.

Lemma men_expand eqs0 vars0 shks eqs' vars' : expand eqs0 vars0 shks = Ok (eqs', vars') ->
  (forall q, List.In q eqs0 -> men q) -> forall q, List.In q eqs' -> men q.
Proof.
move=> Ex h; move: Ex; rewrite /expand; case: mapM => [sl|] //=.
case ef: (foldl _ _ _) => [eqs1 vars1]; case ev: mapM => [vd|] //= [<- _] q /In_map [q' [<- qi]].
have h1 : forall q, List.In q eqs1 -> men q by have := @men_shock sl (eqs0, vars0) h; rewrite ef.
apply: men_subs.
  by move=> x /InP /In_map [y [<- /In_flatten [l [/In_map [u [<- _]] /var_stepsP [] [i [_ ->]]]]]].
move: qi => /In_cat [/h1 //|/In_map [y [<- yi]]].
by move: yi => /In_flatten [l [/In_map [u [<- _]] /var_stepsP [] [i [_ ->]]]].
Qed.

Lemma no_clash (m : rawmodel F) p eqs par g : parse m = Ok p -> declared_eqs m = Ok eqs ->
  (forall q, List.In q eqs -> men q) -> get_matrices p par = Ok g -> uniq (p_vars p).
Proof.
move=> Hp He h Hg; have [_ _ [Ex _ _ _]] := pE Hp He; have sz := size_rows Hp He.
have hm := men_expand Ex h.
apply: (proj1 (@dedup_uniq [::] _ _)); apply/eqP; rewrite eqn_leq size_dedup -sz leqNgt; apply/negP=> lt.
move: Hg; rewrite /get_matrices; case: ifP => // _ ; case: coef_row => //= bb; case: coef_row => //= bp.
set k := size (dedup _ _) in lt *.
have kl : (k.-1 < size (p_eqs p))%N.
  have k0 : (0 < k)%N by rewrite /k; case: (p_vars p) sz.
  by move: lt; rewrite ltnS; case: (k) k0.
case e: (drop k.-1 (p_eqs p)) => [|q l] /=; first by have := size_drop k.-1 (p_eqs p); rewrite e => /esym/eqP; rewrite subn_eq0 leqNgt kl.
have : men q by apply: hm; rewrite -(cat_take_drop k.-1 (p_eqs p)) e In_cat; right; left.
rewrite /mentions (eq_has (a2 := fun a => is_var a || is_shk a)) => [->|a] //.
by rewrite /dated /is_var /is_shk; case: (knd a).
Qed.
End P8.
