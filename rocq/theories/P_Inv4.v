(** The matrices of files whose equations are written in another order or with swapped sides. *)
Set Warnings "-all".
From Coq Require Import String.
From mathcomp Require Import all_ssreflect all_fingroup all_algebra.
From Verif Require Import PyBase PyStr M_Parser S_Parser P_Parser P_Parser3 P_Parser5 M_Engine M_GenSys M_Pipe S_Inv P_Inv2 P_Inv3.
Set Implicit Arguments. Unset Strict Implicit. Unset Printing Implicit Defensive.
Import GRing.Theory Num.Theory Order.TTheory.
Local Open Scope ring_scope.
Local Open Scope py_scope.

Section Row.
Variable F : fieldType.
Variables (vars : seq string) (par : string -> F).
Let d0 : sym := (KPar, EmptyString, 0).
Definition val (e : expr F sym) : F := eval (fun a => if knd a == KPar then par (nam a) else 0) e.
Definition evok (e : expr F sym) : bool := all (fun a => (knd a == KPar) || in_subs0 vars a) (atoms e).
Lemma entryE e : entry vars par e = if evok e then Ok (val e) else Err NameError.
Proof. by []. Qed.

Lemma fold_spec cols f e xs row row' : size row = size cols -> foldM (fill_row vars par cols f e) xs row = Ok row' ->
  [/\ size row' = size cols, forall a, a \in xs -> (a \in cols) && evok (diff a e) &
   forall j, (j < size cols)%N -> nth 0 row' j =
     if (index (nth d0 cols j) cols == j) && (nth d0 cols j \in xs) then f (val (diff (nth d0 cols j) e)) else nth 0 row j].
Proof.
elim: xs row => [|a xs IH] row sz /=; first by case=> <-; split=> // j _; rewrite andbF.
rewrite {1}/fill_row /py_index_of; case ac: (a \in cols) => //=; rewrite entryE; case ea: evok => //= E.
have [|s1 s2 s3] := IH _ _ E; first by rewrite size_set_nth sz; apply/maxn_idPr; rewrite index_mem.
split=> // [b|j lt]; first by rewrite inE => /orP [/eqP ->|/s2 //]; rewrite ac.
rewrite s3 // inE nth_set_nth /=; case: (nth d0 cols j =P a) => [->|ne] /=.
  by rewrite andbT (eq_sym j); case: eqP => //= _; case: ifP.
by case: (j =P index a cols) => [ej|//]; case: ne; rewrite ej nth_index.
Qed.

Lemma fold_ok cols f e xs row : (forall a, a \in xs -> (a \in cols) && evok (diff a e)) ->
  exists row', foldM (fill_row vars par cols f e) xs row = Ok row'.
Proof.
elim: xs row => [|a xs IH] row H /=; first by exists row.
have /andP [ac ea] := H a (mem_head _ _); rewrite /fill_row /py_index_of ac /= entryE ea /=.
by apply: IH => b bi; apply: H; rewrite inE bi orbT.
Qed.

Lemma coef_spec cols sel f ats e row : coef_row vars par cols sel f ats e = Ok row ->
  [/\ size row = size cols, forall a, a \in ats -> sel a -> (a \in cols) && evok (diff a e) &
   forall j, (j < size cols)%N -> nth 0 row j =
     if [&& index (nth d0 cols j) cols == j, sel (nth d0 cols j) & nth d0 cols j \in ats] then f (val (diff (nth d0 cols j) e)) else 0].
Proof.
move=> E; have [|s1 s2 s3] := fold_spec _ E; first by rewrite size_nseq.
split=> // [a ai sa|j lt]; first by apply: s2; rewrite mem_filter sa mem_undup.
by rewrite s3 // mem_filter mem_undup nth_nseq lt.
Qed.

Lemma coef_ok cols (sel : pred sym) f ats e : (forall a, a \in ats -> sel a -> (a \in cols) && evok (diff a e)) ->
  exists row, coef_row vars par cols sel f ats e = Ok row.
Proof. by move=> H; apply: fold_ok => a; rewrite mem_filter mem_undup => /andP [h1 h2]; apply: H. Qed.

Lemma coef_rel cols sel f f' ats ats' e e' (g : F -> F) row : coef_row vars par cols sel f ats e = Ok row ->
  ats =i ats' -> (forall a, evok (diff a e') = evok (diff a e)) ->
  (forall a, f' (val (diff a e')) = g (f (val (diff a e)))) -> g 0 = 0 ->
  coef_row vars par cols sel f' ats' e' = Ok (map g row).
Proof.
move=> E ea ed ev g0; have [s1 s2 s3] := coef_spec E.
have [|row' E'] := @coef_ok cols sel f' ats' e'; first by move=> a; rewrite -ea ed; apply: s2.
rewrite E'; have [t1 t2 t3] := coef_spec E'; congr Ok; apply: (@eq_from_nth _ 0); first by rewrite size_map s1 t1.
by move=> j; rewrite t1 => lt; rewrite (nth_map 0) ?s1 // s3 // t3 // -ea; case: ifP.
Qed.

(** additional columns that are not used *)
Lemma coef_cols cv X Y sel f ats e row : coef_row vars par (cv ++ X) sel f ats e = Ok row -> all (fun a => a \notin X) ats ->
  exists2 row', coef_row vars par (cv ++ Y) sel f ats e = Ok row' & take (size cv) row' = take (size cv) row.
Proof.
move=> E /allP nX; have [s1 s2 s3] := coef_spec E.
have [|row' E'] := @coef_ok (cv ++ Y) sel f ats e.
  by move=> a ai sa; have /andP [] := s2 a ai sa; rewrite !mem_cat (negbTE (nX a ai)) orbF => -> ->.
exists row' => //; have [t1 t2 t3] := coef_spec E'.
have sz (r : seq F) (Z : seq sym) : size r = size (cv ++ Z) -> size (take (size cv) r) = size cv.
  by move=> h; rewrite size_takel // h size_cat leq_addr.
apply: (@eq_from_nth _ 0); first by rewrite (sz _ _ t1) (sz _ _ s1).
move=> j; rewrite (sz _ _ t1) => lt; rewrite !nth_take //.
rewrite s3 ?t3 ?size_cat ?ltn_addr // !nth_cat lt.
by rewrite !index_cat mem_nth.
Qed.

Lemma in_sadd (e f : expr F sym) a : (a \in atoms (sadd e f)) = (a \in atoms e ++ atoms f).
Proof.
rewrite /sadd; case z1: (is0 e); first by case: e z1.
by case z2: (is0 f) => //; case: f z2 => //= c _; rewrite cats0.
Qed.
Lemma evok_flip a (x y : expr F sym) : evok (diff a (Sub y x)) = evok (diff a (Sub x y)).
Proof.
rewrite /evok /=; apply: eq_all_r => b; rewrite !in_sadd !mem_cat !atoms_sopp orbC //.
Qed.
Lemma val_flip a (x y : expr F sym) : val (diff a (Sub y x)) = - val (diff a (Sub x y)).
Proof. by rewrite /val /= !eval_sadd !eval_sopp opprB. Qed.

(** the rows of one equation, as in [get_matrices] *)
Definition row4 (shks : seq string) (q : eqn F) : res (seq F * seq F * seq F * seq F) :=
  let e := set_eq_zero q in
  let* a := coef_row vars par (at_date 1 vars) (fun a => is_var a && (0 < dat a)) id (eatoms q) e in
  let* b := coef_row vars par (at_date 0 vars) (fun a => is_var a && (dat a == 0)) id (eatoms q) e in
  let* c := coef_row vars par (at_date (-1) vars) (fun a => is_var a && (dat a < 0)) id (eatoms q) e in
  let* s := coef_row vars par (shk_list shks) is_shk -%R (eatoms q) e in
  Ok (a, b, c, s).
Definition neg4 (r : seq F * seq F * seq F * seq F) := (map -%R r.1.1.1, map -%R r.1.1.2, map -%R r.1.2, map -%R r.2).
Lemma row4_flip shks x y r : row4 shks (x, y) = Ok r -> row4 shks (y, x) = Ok (neg4 r).
Proof.
rewrite /row4.
have ee : eatoms (x, y) =i eatoms (y, x) by move=> a; rewrite !mem_cat orbC.
have fl := fun a => @evok_flip a x y; have vf := fun a => @val_flip a x y.
case E1: coef_row => [a|] //=; rewrite (coef_rel (f' := id) (g := -%R) E1 ee fl vf (oppr0 _)) /=.
case E2: coef_row => [b|] //=; rewrite (coef_rel (f' := id) (g := -%R) E2 ee fl vf (oppr0 _)) /=.
case E3: coef_row => [c|] //=; rewrite (coef_rel (f' := id) (g := -%R) E3 ee fl vf (oppr0 _)) /=.
case E4: coef_row => [s|] //=; rewrite (coef_rel (f' := -%R) (g := -%R) E4 ee fl) /= => [[<-] //|a'|]; first by rewrite vf.
by rewrite oppr0.
Qed.
End Row.

Section Mats.
Variable F : realFieldType.
Variable tol : F.
Notation row := (seq F * seq F * seq F * seq F)%type.

(** combinations of equations that only reorder and change signs *)
Definition signed (k : nat) (G : 'M[F]_k) : Prop :=
  G \in unitmx /\ forall c (A : 'M[F]_(k, c)) j, fast0 tol (G *m A) j = fast0 tol A j.

Lemma signed1 k : signed (1%:M : 'M[F]_k).
Proof. by split=> [|c A j]; rewrite ?unitmx1 ?mul1mx. Qed.
Lemma signedM k (G H : 'M[F]_k) : signed G -> signed H -> signed (G *m H).
Proof. by case=> u1 f1 [u2 f2]; split=> [|c A j]; rewrite ?unitmx_mul ?u1 // -mulmxA f1 f2. Qed.
Lemma signed_block k (s : F) (G : 'M[F]_k) : `|s| = 1 -> signed G -> signed (block_mx s%:M 0 0 G : 'M[F]_(1 + k)).
Proof.
move=> s1 [uG fG]; split=> [|c A j].
  rewrite unitmxE det_ublock det_scalar1 unitrM -unitmxE uG andbT unitfE -normr_eq0 s1; exact: oner_neq0.
rewrite -[A]vsubmxK mul_block_col !mul0mx addr0 add0r mul_scalar_mx !fast0_col fG; congr (_ && _).
by apply: eq_forallb => i; rewrite mxE normrM s1 mul1r.
Qed.
Lemma signed_perm k (s : 'S_k) : signed (perm_mx s : 'M[F]_k).
Proof.
split=> [|c A j]; first exact: unitmx_perm.
rewrite -row_permE; apply/forallP/forallP => h i; last by rewrite mxE.
by have := h (s^-1%g i); rewrite mxE permKV.
Qed.

Definition odd_proj (pr : row -> seq F) := forall r, pr (neg4 r) = map -%R (pr r).

Lemma mx_of_cons k c r rows : mx_of k.+1 c (r :: rows) = col_mx (row_of c r) (mx_of k c rows) :> 'M[F]_(1 + k, c).
Proof.
apply/matrixP=> i j; rewrite !mxE; case: (split_ordP i) => x ->; rewrite ?(unsplitK (inl _)) ?(unsplitK (inr _)) !mxE //.
by rewrite ord1.
Qed.
Lemma mul_cons k c (s : F) (G : 'M[F]_k) r rows :
  (block_mx s%:M 0 0 G : 'M[F]_(1 + k)) *m (mx_of k.+1 c (r :: rows) : 'M_(1 + k, c)) = col_mx (s *: row_of c r) (G *m mx_of k c rows).
Proof. by rewrite mx_of_cons mul_block_col !mul0mx addr0 add0r mul_scalar_mx. Qed.
Lemma row_of_neg c r : row_of c (map -%R r) = - row_of c r :> 'rV[F]_c.
Proof.
apply/matrixP=> i j; rewrite !mxE; case: (ltnP j (size r)) => lt; first by rewrite (nth_map 0).
by rewrite !nth_default ?size_map // oppr0.
Qed.

Lemma rw_rows (vars : seq string) par shks (eqs eqs' : seq (eqn F)) : rewritten eqs eqs' ->
  forall k rows, size eqs = k -> mapM (row4 vars par shks) eqs = Ok rows ->
  exists rows' (G : 'M[F]_k), [/\ mapM (row4 vars par shks) eqs' = Ok rows', signed G &
    forall pr c, odd_proj pr -> mx_of k c (map pr rows') = G *m mx_of k c (map pr rows)].
Proof.
elim=> [|q l1 l2 _ IH|x y l1 l2 _ IH|q r l1|l1 l2 l3 R1 h1 _ h2] k rows /=.
- by move=> <- [<-]; exists [::], 1%:M; split=> // [|pr c _]; [exact: signed1|rewrite mul1mx].
- case: k => // k [sz]; case: row4 => // z; case E: mapM => [zs|] // [<-].
  have [zs' [G [-> sG H]]] := IH _ _ sz E; exists (z :: zs'), (block_mx 1%:M 0 0 G : 'M_(1 + k)); split=> //.
    by apply: signed_block => //; rewrite normr1.
  by move=> pr c op; rewrite /= mul_cons scale1r -H // mx_of_cons.
- case: k => // k [sz]; case E4: row4 => [z|] //; rewrite (row4_flip E4); case E: mapM => [zs|] // [<-].
  have [zs' [G [-> sG H]]] := IH _ _ sz E; exists (neg4 z :: zs'), (block_mx (-1)%:M 0 0 G : 'M_(1 + k)); split=> //.
    by apply: signed_block => //; rewrite normrN1.
  by move=> pr c op; rewrite /= mul_cons scaleN1r -H // mx_of_cons op row_of_neg.
- case: k => [|[|k]] // [sz]; case: row4 => // z1; case: row4 => // z2; case: mapM => // zs [<-].
  exists [:: z2, z1 & zs], (perm_mx (tperm ord0 (inord 1))); split=> //; first exact: signed_perm.
  move=> pr c _; rewrite -row_permE; apply/matrixP=> i j; rewrite !mxE.
  case: tpermP => [->|->|/eqP n1 /eqP n2]; rewrite ?inordK //.
  case: i n1 n2 => -[|[|i]] lt //= _; rewrite -val_eqE /= inordK //.
move=> sz E; have [rows2 [G [E2 sG H]]] := h1 _ _ sz E.
have sz2 : size l2 = k by rewrite (rw_size R1).
have [rows3 [G' [E3 sG' H']]] := h2 _ _ sz2 E2; exists rows3, (G' *m G); split=> //; first exact: signedM.
by move=> pr c op; rewrite H' // H // mulmxA.
Qed.
End Mats.
