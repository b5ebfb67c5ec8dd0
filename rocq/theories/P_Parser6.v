(** Errors raised while parsing. *)
Set Warnings "-all".
From Coq Require Import String.
From mathcomp Require Import all_ssreflect all_algebra.
From Verif Require Import PyBase PyStr M_Parser S_Parser P_Parser P_Parser2 P_Parser3 P_Parser4 P_Parser5.
Set Implicit Arguments. Unset Strict Implicit. Unset Printing Implicit Defensive.
Import GRing.Theory Num.Theory Order.TTheory.
Local Open Scope ring_scope.

Lemma mapM_err A B (f : A -> res B) xs x : (forall a x, f a = Err x -> x = SyntaxErr) -> mapM f xs = Err x -> x = SyntaxErr.
Proof.
move=> H; elim: xs => [|a xs IH] //=; case E: (f a) => [b|y]; last by case=> <-; apply: H E.
by case: (mapM f xs) IH => [//|y] IH [e]; apply: IH; rewrite e.
Qed.
Lemma mapM_some_err A B (f : A -> res B) (xs : seq A) a : (forall a x, f a = Err x -> x = SyntaxErr) ->
  List.In a xs -> f a = Err SyntaxErr -> mapM f xs = Err SyntaxErr.
Proof.
move=> H ai Ea; case E: (mapM f xs) => [ys|x]; last by rewrite (mapM_err H E).
by have [_ [h _]] := mapM_In E; have [y [_]] := h a ai; rewrite Ea.
Qed.

Section P6.
Variable F : fieldType.

Lemma resolve_leaf_err c l x : resolve_leaf c l = Err x -> x = SyntaxErr.
Proof. by rewrite /resolve_leaf; case: ctx_get => [[]|]; case: (l.2) => [d|] //= [<-]. Qed.
Lemma resolve_err c (r : rawexpr F) x : resolve c r = Err x -> x = SyntaxErr.
Proof.
elim: r => [z|l|r1 IH1 r2 IH2|r1 IH1 r2 IH2|r1 IH1 r2 IH2|r IH|r IH] //=.
- by case E: resolve_leaf => [//|y] [<-]; apply: resolve_leaf_err E.
all: try (by case: (resolve c r1) IH1 => [y1 _|y1 IH1] //= ; case: (resolve c r2) IH2).
all: by case: (resolve c r) IH.
Qed.
Lemma resolve_eqn_err c (q : raweqn F) x : resolve_eqn c q = Err x -> x = SyntaxErr.
Proof.
rewrite /resolve_eqn; case e1: resolve => [y1|y1]; last by case=> <-; apply: resolve_err e1.
by rewrite [rbind _ _]/=; case e2: resolve => [y2|y2] // [<-]; apply: resolve_err e2.
Qed.
Lemma shock_dates_err (eqs : seq (eqn F)) s x : shock_dates eqs s = Err x -> x = SyntaxErr.
Proof. by rewrite /shock_dates; case: dates_of => [|d l] //= [<-]. Qed.
Lemma var_dates_err (eqs : seq (eqn F)) s x : var_dates eqs s = Err x -> x = SyntaxErr.
Proof. by rewrite /var_dates; case: dates_of => [|d l] //= [<-]. Qed.
Lemma expand_err (eqs : seq (eqn F)) vars shks x : expand eqs vars shks = Err x -> x = SyntaxErr.
Proof.
rewrite /expand; case E: mapM => [sl|y]; last by case=> <-; apply: mapM_err E => a z; apply: shock_dates_err.
rewrite [rbind _ _]/=; case: (foldl _ _ _) => eqs1 vars1.
by case E1: mapM => [vd|y] // [<-]; apply: mapM_err E1 => a z; apply: var_dates_err.
Qed.

Lemma resolve_names c (r : rawexpr F) ex : resolve c r = Ok ex -> [seq nam a | a <- atoms ex] = [seq l.1 | l <- atoms r].
Proof.
elim: r ex => [z|l|r1 IH1 r2 IH2|r1 IH1 r2 IH2|r1 IH1 r2 IH2|r IH|r IH] ex /=.
- by case=> <-.
- case E: resolve_leaf => [a|] //= [<-] /=; congr [:: _]; move: E; rewrite /resolve_leaf.
  by case: ctx_get => [[]|]; case: (l.2) => [d|] //= [<-].
all: try (by case: (resolve c r1) IH1 => [y1|y1] IH1 //=; case: (resolve c r2) IH2 => [y2|y2] IH2 //= [<-] /=;
  rewrite !map_cat (IH1 _ erefl) (IH2 _ erefl)).
all: by case: (resolve c r) IH => [y|y] IH //= [<-] /=; apply: IH.
Qed.

Lemma atom_names m (eqs : seq (eqn F)) q a : declared_eqs m = Ok eqs -> List.In q eqs -> a \in eatoms q -> nam a \in used_names m.
Proof.
move=> E qi ai; have [_ [_ h]] := mapM_In E; have [r [ri Er]] := h q qi.
apply/InP/In_flatten; exists [seq l.1 | l <- atoms r.1 ++ atoms r.2]; split; first by apply/In_map; exists r.
apply/InP.
move: Er; rewrite /resolve_eqn; case e1: resolve => [x1|] //=; case e2: resolve => [x2|] //= [eq].
rewrite map_cat mem_cat -(resolve_names e1) -(resolve_names e2) -mem_cat -map_cat.
by apply: map_f; move: ai; rewrite -eq.
Qed.

(** ** parse raises SyntaxError *)
Lemma dates_none k n (m : rawmodel F) (eqs : seq (eqn F)) : declared_eqs m = Ok eqs -> n \notin used_names m -> dates_of k n eqs = [::].
Proof.
move=> E nn; apply/eqP; rewrite -size_eq0 size_map size_filter -leqn0 leqNgt -has_count; apply/negP=> /hasP [a /InP /In_flatten [l [/In_map [q [<- qi]] /InP ai]] /andP [_ /eqP e]].
by case/negP: nn; rewrite -e; apply: atom_names E qi ai.
Qed.

Lemma parse_unused_shock (m : rawmodel F) k : k \in r_shks m -> k \notin used_names m -> parse m = Err SyntaxErr.
Proof.
move=> ki kn; rewrite /parse; case ec: resolve_eqn => [ceq|x]; last by rewrite (resolve_eqn_err ec).
rewrite [rbind _ _]/=; case: ifP => // _.
case ee: mapM => [eqs|x]; last by rewrite (mapM_err (fun q y => @resolve_eqn_err _ q y) ee).
rewrite [rbind _ _]/=; rewrite /expand (@mapM_some_err _ _ _ _ k) //; first by move=> a x; apply: shock_dates_err.
  exact/InP.
by rewrite /shock_dates (dates_none _ ee kn).
Qed.

(** dates of a variable that is not an auxiliary one survive the shock stage *)
Lemma shock_stage_dates n eqs vars sl : (forall s, n <> var_s s) ->
  dates_of KVar n eqs = [::] -> dates_of KVar n (foldl (@expand_shock F) (eqs, vars) sl).1 = [::].
Proof.
move=> ns; elim: sl eqs vars => [|[s lag] sl IH] eqs vars //= D.
case: ifP => _; apply: IH => //.
apply/eqP; rewrite -size_eq0 size_map size_filter -leqn0 leqNgt -has_count; apply/negP=> /hasP [a /InP /In_flatten [l [/In_map [q [<- /In_map [q0 [<- /In_rcons q0i]]]] /InP]]].
rewrite eatoms_subs => /mapP [b bi ->] /andP [ka /eqP na]; move: ka na.
set dd := [seq _ | i <- iota 1 _]; case: (lookupP dd b) => [[x /mapP [i _ ->] [_ ->]]|[-> _]].
  by move=> _ /esym /ns.
move=> kb nb; case: q0i => [qi|e].
  by have := dates_ofP qi bi (eqP kb) nb; rewrite D.
by move: bi nb kb; rewrite -e /eatoms /= !inE => /orP [] /eqP -> //= /esym /ns.
Qed.

Lemma parse_unused_var (m : rawmodel F) v : v \in r_vars m -> v \notin used_names m -> (forall s, v <> var_s s) -> parse m = Err SyntaxErr.
Proof.
move=> vi vn vs; rewrite /parse; case ec: resolve_eqn => [ceq|x]; last by rewrite (resolve_eqn_err ec).
rewrite [rbind _ _]/=; case: ifP => // _.
case ee: mapM => [eqs|x]; last by rewrite (mapM_err (fun q y => @resolve_eqn_err _ q y) ee).
rewrite [rbind _ _]/=; rewrite /expand; case es: mapM => [sl|x]; last by rewrite (mapM_err _ es) // => a z; apply: shock_dates_err.
rewrite [rbind _ _]/=; case ef: (foldl _ _ _) => [eqs1 vars1].
have D := shock_stage_dates (r_vars m) sl vs (dates_none KVar ee vn).
rewrite (@mapM_some_err _ _ _ vars1 v) //; first by move=> a x; apply: var_dates_err.
  by apply/InP; have := shock_vars sl eqs (r_vars m); rewrite ef /= => ->; rewrite mem_cat vi.
by rewrite /var_dates; move: D; rewrite ef /= => ->.
Qed.

Lemma parse_bad_leaf (m : rawmodel F) q l : List.In q (r_eqs m) -> List.In l (atoms q.1 ++ atoms q.2) ->
  resolve_leaf (context m) l = Err SyntaxErr -> parse m = Err SyntaxErr.
Proof.
move=> qi li bad; rewrite /parse; case ec: resolve_eqn => [ceq|x]; last by rewrite (resolve_eqn_err ec).
rewrite [rbind _ _]/=; case: ifP => // _.
rewrite (@mapM_some_err _ _ _ _ q) //; first by move=> a x; apply: resolve_eqn_err.
have rb (r : rawexpr F) : List.In l (atoms r) -> resolve (context m) r = Err SyntaxErr.
  elim: r => [z|l'|r1 IH1 r2 IH2|r1 IH1 r2 IH2|r1 IH1 r2 IH2|r IH|r IH] //=.
  - by case=> // ->; rewrite bad.
  - move=> /In_cat [/IH1 h|/IH2 h]; first by rewrite h.
    by case e1: (resolve _ r1) => [y|y] /=; rewrite ?h //; have := resolve_err e1 => ->.
  - move=> /In_cat [/IH1 h|/IH2 h]; first by rewrite h.
    by case e1: (resolve _ r1) => [y|y] /=; rewrite ?h //; have := resolve_err e1 => ->.
  - move=> /In_cat [/IH1 h|/IH2 h]; first by rewrite h.
    by case e1: (resolve _ r1) => [y|y] /=; rewrite ?h //; have := resolve_err e1 => ->.
  - by move=> /IH h; rewrite h.
  - by move=> /IH h; rewrite h.
move: li => /In_cat [li|li]; rewrite /resolve_eqn (rb _ li) //.
by case e1: resolve => [y|y] //; rewrite (resolve_err e1).
Qed.

Lemma parse_undeclared (m : rawmodel F) n : n \in used_names m -> n \notin [seq x.1 | x <- context m] -> parse m = Err SyntaxErr.
Proof.
move=> /InP /In_flatten [l0 [/In_map [q [<- qi]] /InP /mapP [l /InP li en]]] nd; apply: (parse_bad_leaf qi li).
rewrite /resolve_leaf /ctx_get (_ : [seq x <- context m | x.1 == l.1] = [::]) //.
apply/eqP; rewrite -size_eq0 size_filter -leqn0 leqNgt -has_count; apply/negP=> /hasP [x xi /eqP e].
by case/negP: nd; rewrite en -e; apply: map_f.
Qed.

Lemma parse_dated_par (m : rawmodel F) q n d : List.In q (r_eqs m) -> List.In (n, Some d) (atoms q.1 ++ atoms q.2) ->
  n \in r_oths m \/ n \in r_pars m /\ n \notin r_shks m -> parse m = Err SyntaxErr.
Proof.
move=> qi li hn; apply: (parse_bad_leaf qi li); rewrite /resolve_leaf /=.
have fil k (l : seq string) : [seq x.2 | x <- [seq (a, k) | a <- l] & x.1 == n] = nseq (count_mem n l) k.
  by elim: l => //= a l IH; case: eqP => _ /=; rewrite IH.
rewrite /ctx_get /context !filter_cat !map_cat !fil !rev_cat !rev_nseq.
case: hn => [h|[h h']].
  have : (0 < count_mem n (r_oths m))%N by rewrite -has_count has_pred1.
  by case: (count_mem n (r_oths m)).
rewrite (count_memPn h'); have : (0 < count_mem n (r_pars m))%N by rewrite -has_count has_pred1.
by case: (count_mem n (r_oths m)) => //=; case: (count_mem n (r_pars m)).
Qed.

(** ** get_matrices raises *)
Lemma mat_forward (p : parsed F) par a : a \in eatoms (p_ceq p) -> knd a = KVar -> 0 < dat a -> get_matrices p par = Err NotImplementedErr.
Proof.
move=> ai ka da; rewrite /get_matrices (_ : has _ _ = true) //.
by apply/hasP; exists a => //; rewrite /is_var ka.
Qed.

Lemma foldM_mem (S A : Type) (f : S -> A -> res S) (l : seq A) a s0 : List.In a l -> (forall s, exists x, f s a = Err x) -> exists x, foldM f l s0 = Err x.
Proof.
elim: l s0 => [|b l IH] s0 //= [->|ai] H; first by have [x ->] := H s0; exists x.
by case: (f s0 b) => [s1|x]; [apply: IH | exists x].
Qed.
Lemma coef_row_miss vars par cols (sel : pred sym) (f : F -> F) ats ex a : a \in ats -> sel a -> a \notin cols ->
  exists x, coef_row vars par cols sel f ats ex = Err x.
Proof.
move=> ai sa na; apply: (@foldM_mem _ _ _ _ a).
  by apply/InP; rewrite mem_filter sa mem_undup.
by move=> s; exists ValueError; rewrite /fill_row /py_index_of (negbTE na).
Qed.
Lemma mat_lagged (p : parsed F) par a : a \in eatoms (p_ceq p) -> knd a = KVar -> dat a < -1 -> exists x, get_matrices p par = Err x.
Proof.
move=> ai ka da; rewrite /get_matrices; set vars := dedup _ _; case: ifP => [_|]; last by exists NotImplementedErr.
have [||x ->] := @coef_row_miss vars par (at_date 0 vars ++ at_date (-1) vars) (fun a => is_var a && (dat a <= 0)) -%R
  (eatoms (p_ceq p)) (set_eq_zero (p_ceq p)) a ai; last by exists x.
  by rewrite /is_var ka /=; apply: ltW; apply: lt_trans da _.
by rewrite mem_cat; apply/negP=> /orP [] /mapP [v _ e]; move: da; rewrite e.
Qed.
End P6.
