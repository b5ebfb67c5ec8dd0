(** Parsing files whose equations are written in another order or with swapped sides. *)
Set Warnings "-all".
From Coq Require Import String.
From mathcomp Require Import all_ssreflect all_algebra.
From Verif Require Import PyBase PyStr M_Parser S_Parser P_Parser P_Parser3 P_Parser5 M_GenSys S_Inv.
Set Implicit Arguments. Unset Strict Implicit. Unset Printing Implicit Defensive.
Import GRing.Theory Num.Theory Order.TTheory.
Local Open Scope ring_scope.
Local Open Scope py_scope.

Section Rw.
Variable A : Type.
Implicit Types l : seq (A * A).
Lemma rw_refl l : rewritten l l. Proof. by elim: l => *; constructor. Qed.
Lemma rw_sym l l' : rewritten l l' -> rewritten l' l.
Proof. by elim=> *; try (by constructor); apply: rw_trans; eassumption. Qed.
Lemma rw_size l l' : rewritten l l' -> size l' = size l.
Proof. by elim=> [|q l1 l2 _ h|x y l1 l2 _ h|q r l1|l1 l2 l3 _ h1 _ h2] //=; rewrite ?h // h2. Qed.
Lemma rw_cat l l' k : rewritten l l' -> rewritten (l ++ k) (l' ++ k).
Proof. elim=> [|q l1 l2 _|x y l1 l2 _|q r l1|l1 l2 l3 _ h1 _ h2] /=; try (by constructor); [exact: rw_refl|exact: rw_trans h1 h2]. Qed.
End Rw.
Lemma rw_map A B (f : A -> B) l l' : rewritten l l' -> rewritten [seq (f q.1, f q.2) | q <- l] [seq (f q.1, f q.2) | q <- l'].
Proof. elim=> [|q l1 l2 _|x y l1 l2 _|q r l1|l1 l2 l3 _ h1 _ h2] /=; try (by constructor); exact: rw_trans h1 h2. Qed.

Section P.
Variable F : fieldType.
Implicit Types (eqs : seq (eqn F)).

Lemma rw_mapM A B (f : A -> res B) l l' ys :
  let g q := let* x := f q.1 in let* y := f q.2 in Ok (x, y) in
  rewritten l l' -> mapM g l = Ok ys -> exists2 ys', mapM g l' = Ok ys' & rewritten ys ys'.
Proof.
move=> g R; elim: R ys => [|q l1 l2 _ IH|x y l1 l2 _ IH|q r l1|l1 l2 l3 _ h1 _ h2] ys /=.
- by case=> <-; exists [::] => //; constructor.
- by case: (g q) => // z; case E: mapM => [zs|] // [<-]; have [zs' -> r] := IH _ E; exists (z :: zs') => //; constructor.
- rewrite /g /=; case: (f x) => //= z1; case: (f y) => //= z2; case E: mapM => [zs|] // [<-]; have [zs' -> r] := IH _ E.
  by exists ((z2, z1) :: zs') => //; constructor.
- case: (g q) => // z1; case: (g r) => // z2; case: mapM => [zs|] // [<-].
  by exists [:: z2, z1 & zs] => //; constructor.
by move/h1 => [ys' /h2 [ys'' e r'] r]; exists ys'' => //; apply: rw_trans r r'.
Qed.

Lemma rw_atoms eqs eqs' : rewritten eqs eqs' -> perm_eq (flatten [seq eatoms q | q <- eqs]) (flatten [seq eatoms q | q <- eqs']).
Proof.
elim=> [|q l1 l2 _ IH|x y l1 l2 _ IH|q r l1|l1 l2 l3 _ h1 _ h2] //=.
- by rewrite perm_cat2l.
- by rewrite /eatoms /=; apply: perm_cat => //; rewrite perm_catC.
- by rewrite perm_catCA.
exact: perm_trans h1 h2.
Qed.

Lemma rw_dates k v eqs eqs' : rewritten eqs eqs' -> perm_eq (dates_of k v eqs) (dates_of k v eqs').
Proof. by move/rw_atoms => h; apply: perm_map; apply: perm_filter. Qed.

Lemma max_in (l : seq int) z : py_max l = Ok z -> z \in l.
Proof.
case: l => // x l [<-]; elim: l x => [|y l IH] x /=; first exact: mem_head.
have := IH (Num.max x y); rewrite !inE => /orP [/eqP ->|->]; last by rewrite !orbT.
by rewrite maxEle; case: ifP => _; rewrite eqxx ?orbT.
Qed.
Lemma min_in (l : seq int) z : py_min l = Ok z -> z \in l.
Proof.
case: l => // x l [<-]; elim: l x => [|y l IH] x /=; first exact: mem_head.
have := IH (Num.min x y); rewrite !inE => /orP [/eqP ->|->]; last by rewrite !orbT.
by rewrite minEle; case: ifP => _; rewrite eqxx ?orbT.
Qed.
Lemma perm_max (l l' : seq int) : perm_eq l l' -> py_max l' = py_max l.
Proof.
move=> pe; have m := perm_mem pe; case E: (py_max l) => [z|x]; case E': (py_max l') => [z'|x'].
- by congr Ok; apply/eqP; rewrite eq_le; apply/andP; split; [apply: (maxP E); rewrite m; exact: max_in E'|apply: (maxP E'); rewrite -m; exact: max_in E].
- by have := perm_size pe; case: (l) (l') E E' => [|? ?] [|? ?].
- by have := perm_size pe; case: (l) (l') E E' => [|? ?] [|? ?].
- by case: (l) (l') E E' => [|? ?] [|? ?] // [<-] [<-].
Qed.
Lemma perm_min (l l' : seq int) : perm_eq l l' -> py_min l' = py_min l.
Proof.
move=> pe; have m := perm_mem pe; case E: (py_min l) => [z|x]; case E': (py_min l') => [z'|x'].
- by congr Ok; apply/eqP; rewrite eq_le; apply/andP; split; [apply: (minP E'); rewrite -m; exact: min_in E|apply: (minP E); rewrite m; exact: min_in E'].
- by have := perm_size pe; case: (l) (l') E E' => [|? ?] [|? ?].
- by have := perm_size pe; case: (l) (l') E E' => [|? ?] [|? ?].
- by case: (l) (l') E E' => [|? ?] [|? ?] // [<-] [<-].
Qed.

Lemma eq_mapM A B (f g : A -> res B) l : (forall x, f x = g x) -> mapM f l = mapM g l.
Proof. by move=> h; elim: l => //= x l ->; rewrite h. Qed.

Lemma rw_shock sl eqs eqs' vars : rewritten eqs eqs' ->
  rewritten (foldl (@expand_shock F) (eqs, vars) sl).1 (foldl (@expand_shock F) (eqs', vars) sl).1 /\
  (foldl (@expand_shock F) (eqs', vars) sl).2 = (foldl (@expand_shock F) (eqs, vars) sl).2.
Proof.
elim: sl eqs eqs' vars => [|[s lag] sl IH] eqs eqs' vars R //=.
by case: ifP => _; apply: IH => //; apply: rw_map; rewrite -!cats1; apply: rw_cat.
Qed.

Lemma rw_expand eqs eqs' vars shks e v : rewritten eqs eqs' -> expand eqs vars shks = Ok (e, v) ->
  exists2 e', expand eqs' vars shks = Ok (e', v) & rewritten e e'.
Proof.
move=> R; rewrite /expand.
have -> : mapM (shock_dates eqs') shks = mapM (shock_dates eqs) shks.
  by apply: eq_mapM => s; rewrite /shock_dates (perm_max (rw_dates _ _ R)) (perm_min (rw_dates _ _ R)).
case: mapM => [sl|] //=; have [] := rw_shock sl vars R.
case: (foldl _ (eqs, vars) sl) => e1 v1; case: (foldl _ (eqs', vars) sl) => e2 v2 /= R' ->.
have -> : mapM (var_dates e2) v1 = mapM (var_dates e1) v1.
  by apply: eq_mapM => s; rewrite /var_dates (perm_max (rw_dates _ _ R')) (perm_min (rw_dates _ _ R')).
case: mapM => [vd|] //= [<- <-]; eexists; first by [].
by apply: rw_map; apply: rw_cat.
Qed.

Lemma rw_parse (m m' : rawmodel F) p : rewritten_file m m' -> parse m = Ok p ->
  exists e', parse m' = Ok (Parsed e' (p_vars p) (p_pars p) (p_oths p) (p_shks p) (p_cvar p) (p_ceq p) (p_obs p)) /\ rewritten (p_eqs p) e'.
Proof.
case=> e1 e2 e3 e4 [R e5 e6 e7]; rewrite /parse.
have -> : context m' = context m by rewrite /context e1 e2 e3 e4.
rewrite e6; case: resolve_eqn => [ceq|] //=; rewrite (rw_size R) e1; case: eqP => //= _.
case E: mapM => [eqs|] //=; have [eqs' -> R'] := rw_mapM R E.
rewrite e3 /=; case E2: expand => [[e v]|] //=; have [e' -> R2] := rw_expand R' E2.
by rewrite /= e7; case: mapM => [obs|] //= [<-] /=; exists e'; rewrite e2 e4 e5.
Qed.
End P.
