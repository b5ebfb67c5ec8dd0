(** C136: the numbers that describe a model. *)
Set Warnings "-all".
From Coq Require Import String.
From mathcomp Require Import all_ssreflect all_algebra.
From Verif Require Import PyBase PyStr M_Parser S_Parser P_Parser P_Parser2 P_Parser5 P_Parser6 P_Names M_Counts S_Counts.
Set Implicit Arguments. Unset Strict Implicit. Unset Printing Implicit Defensive.
Import Order.Theory GRing.Theory Num.Theory.
Local Open Scope ring_scope.

Section C136.
Variable F : fieldType.
Implicit Types (m : rawmodel F) (p : parsed F).

(** C136: declared numbers, and one equation less than there are variables *)
Theorem C136_counts m p : parse m = Ok p ->
  [/\ neps p = size (r_shks m), nobs p = size (r_obs m), npara p = size (r_pars m), (neq p).+1 = size (p_vars p) & neq_fort p = (neq p + neta p)%N].
Proof.
move=> E; have [eqs [d e1 e2 [ex _ es _ eo]]] := parseP E; split=> //.
- by rewrite /neps es.
- by rewrite /nobs; have [-> _] := mapM_In eo.
- move: E; rewrite /parse; case: resolve_eqn => // c; rewrite [rbind _ _]/=; case: eqP => // _.
  by case: (mapM _ _) => // e0; rewrite [rbind _ _]/=; case: expand => // ev; rewrite [rbind _ _]/=; case: (mapM _ _) => // ob [<-].
by have := expand_size ex (declared_eqsP d); rewrite e1 -e2 /neq addnS -addSn addnC => /addnI.
Qed.

(** the symbol meant by what is written *)
Lemma leaf_atom m l a : resolve_leaf (context m) l = Ok a -> nam a = l.1 /\ (knd a <> KPar -> dat a = date l) /\ ctx_get (context m) l.1 = Some (knd a).
Proof.
by rewrite /resolve_leaf /date; case: ctx_get => [k|] //; case: k; case: (l.2) => [d|] // e; case: e => <-; rewrite /= ?add0r.
Qed.
Lemma atoms_written m (r : rawexpr F) ex : resolve (context m) r = Ok ex ->
  (forall a, a \in atoms ex -> exists2 l, l \in atoms r & resolve_leaf (context m) l = Ok a) /\
  (forall l, l \in atoms r -> exists2 a, a \in atoms ex & resolve_leaf (context m) l = Ok a).
Proof.
have two (r1 r2 : rawexpr F) x1 x2 : 
   (forall a, a \in atoms x1 -> exists2 l, l \in atoms r1 & resolve_leaf (context m) l = Ok a) /\
   (forall l, l \in atoms r1 -> exists2 a, a \in atoms x1 & resolve_leaf (context m) l = Ok a) ->
   (forall a, a \in atoms x2 -> exists2 l, l \in atoms r2 & resolve_leaf (context m) l = Ok a) /\
   (forall l, l \in atoms r2 -> exists2 a, a \in atoms x2 & resolve_leaf (context m) l = Ok a) ->
   (forall a, a \in atoms x1 ++ atoms x2 -> exists2 l, l \in atoms r1 ++ atoms r2 & resolve_leaf (context m) l = Ok a) /\
   (forall l, l \in atoms r1 ++ atoms r2 -> exists2 a, a \in atoms x1 ++ atoms x2 & resolve_leaf (context m) l = Ok a).
  move=> [h1 h2] [h3 h4]; split=> b; rewrite mem_cat.
    by move=> /orP [/h1 [l li e]|/h3 [l li e]]; exists l => //; rewrite mem_cat li ?orbT.
  by move=> /orP [/h2 [l li e]|/h4 [l li e]]; exists l => //; rewrite mem_cat li ?orbT.
elim: r ex => [c|l|r1 IH1 r2 IH2|r1 IH1 r2 IH2|r1 IH1 r2 IH2|r IH|r IH] ex /=.
- by case=> <-.
- case el: resolve_leaf => [a|] //= [<-]; split=> b; rewrite inE => /eqP ->; [exists l | exists a] => //; exact: mem_head.
- by case e1: (resolve _ r1) => [x1|] //=; case e2: (resolve _ r2) => [x2|] //= [<-]; apply: two; [exact: IH1 | exact: IH2].
- by case e1: (resolve _ r1) => [x1|] //=; case e2: (resolve _ r2) => [x2|] //= [<-]; apply: two; [exact: IH1 | exact: IH2].
- by case e1: (resolve _ r1) => [x1|] //=; case e2: (resolve _ r2) => [x2|] //= [<-]; apply: two; [exact: IH1 | exact: IH2].
- by case e1: (resolve _ r) => [x1|] //= [<-]; exact: (IH x1 e1).
- by case e1: (resolve _ r) => [x1|] //= [<-]; exact: (IH x1 e1).
Qed.
Lemma eqs_written m eqs : declared_eqs m = Ok eqs ->
  (forall a, a \in flatten [seq eatoms q | q <- eqs] -> exists2 l, l \in written m & resolve_leaf (context m) l = Ok a) /\
  (forall l, l \in written m -> exists2 a, a \in flatten [seq eatoms q | q <- eqs] & resolve_leaf (context m) l = Ok a).
Proof.
rewrite /declared_eqs /written; elim: (r_eqs m) eqs => [|r rs IH] eqs /=; first by case=> <-.
case e: resolve_eqn => [q|] //=; case e2: (mapM _ rs) => [qs|] //= [<-] /=; have [h1 h2] := IH _ e2.
move: e; rewrite /resolve_eqn; case ea: resolve => [x1|] //=; case eb: resolve => [x2|] //= [<-].
have [a1 a2] := atoms_written ea; have [b1 b2] := atoms_written eb; rewrite /eatoms /=.
split=> b; rewrite !mem_cat => /orP [/orP []|].
- by move=> /a1 [l li e]; exists l => //; rewrite !mem_cat li.
- by move=> /b1 [l li e]; exists l => //; rewrite !mem_cat li orbT.
- by move=> /h1 [l li e]; exists l => //; rewrite !mem_cat li orbT.
- by move=> /a2 [l li e]; exists l => //; rewrite !mem_cat li.
- by move=> /b2 [l li e]; exists l => //; rewrite !mem_cat li orbT.
- by move=> /h2 [l li e]; exists l => //; rewrite !mem_cat li orbT.
Qed.

(** C136: without longer leads and lags nothing is added: the variables are the declared ones, the equations those of the file, and neta
    counts the variables that are written with a lead *)
Lemma ctx_var m n k : distinct m -> n \in r_vars m -> ctx_get (context m) n = Some k -> k = KVar.
Proof.
rewrite /distinct cat_uniq => /and3P [_ dj _] nv; rewrite /ctx_get; set l := [seq x.2 | x <- _ & _] => h.
have : k \in l by rewrite -mem_rev; move: h; case: (rev l) => //= z l' [->]; rewrite mem_head.
move=> /mapP [[n' k'] ]; rewrite mem_filter => /andP [/eqP /= -> xi] ->.
move: xi; rewrite /context mem_cat => /orP [/mapP [z zi [_ ->]] //|xi]; case/hasP: dj; exists n => //.
by move: xi; rewrite !mem_cat => /orP [/mapP [z zi [-> _]]|/orP [/mapP [z zi [-> _]]|/mapP [z zi [-> _]]]]; rewrite zi ?orbT.
Qed.
Lemma py_min_in (l : seq int) x : py_min l = Ok x -> x \in l.
Proof.
case: l => // y l [<-]; elim: l y => [|z l IH] y /=; first by rewrite mem_head.
have := IH (Num.min y z); rewrite !inE => /orP [/eqP ->|->]; last by rewrite !orbT.
by rewrite /Order.min; case: ifP => _; rewrite eqxx ?orbT.
Qed.
Lemma py_max_in (l : seq int) x : py_max l = Ok x -> x \in l.
Proof.
case: l => // y l [<-]; elim: l y => [|z l IH] y /=; first by rewrite mem_head.
have := IH (Num.max y z); rewrite !inE => /orP [/eqP ->|->]; last by rewrite !orbT.
by rewrite /Order.max; case: ifP => _; rewrite eqxx ?orbT.
Qed.
Lemma small (d : int) : -1 <= d <= 1 -> arange2 (absz d) = [::].
Proof. by case: d => [[|[|n]]|[|n]]. Qed.

Theorem C136_plain m p : parse m = Ok p -> plain m ->
  [/\ p_vars p = r_vars m, neq p = size (r_eqs m) & distinct m -> neta p = size (forward_looking m)].
Proof.
move=> E pl; have [eqs [d e1 e2 [ex _ _ _ _]]] := parseP E; have [w1 w2] := eqs_written d.
have vdate a : a \in flatten [seq eatoms q | q <- eqs] -> knd a = KVar -> -1 <= dat a <= 1.
  move=> /w1 [l li el] ka; have [na [da ca]] := leaf_atom el; rewrite da ?ka //; apply: (pl l li).1.
  by have := ctx_getP ca; rewrite ka.
have sdate a : a \in flatten [seq eatoms q | q <- eqs] -> knd a = KShk -> dat a = 0.
  move=> /w1 [l li el] ka; have [na [da ca]] := leaf_atom el; rewrite da ?ka //; apply: (pl l li).2.
  by have := ctx_getP ca; rewrite ka.
have ds k n x : x \in dates_of k n eqs -> exists2 a, a \in flatten [seq eatoms q | q <- eqs] & knd a = k /\ dat a = x.
  by move=> /mapP [a]; rewrite mem_filter => /andP [/andP [/eqP ka _] ai] ->; exists a.
have [es ev] : p_eqs p = eqs /\ p_vars p = r_vars m.
  move: ex; rewrite /expand; case E1: (mapM _ (r_shks m)) => [sl|] //; rewrite [rbind _ _]/=.
  have -> : foldl (@expand_shock F) (eqs, r_vars m) sl = (eqs, r_vars m).
    have : forall x, List.In x sl -> x.2 = 0.
      move=> [s lag] xi; have [_ [_ /(_ _ xi) [s' [_]]]] := mapM_In E1; rewrite /shock_dates.
      case: py_max => //= mx; case Em: py_min => [mn|] //= [_ <-].
      by have [a ai [ka <-]] := ds _ _ _ (py_min_in Em); apply: sdate ka.
    by elim: sl {E1} => //= -[s lag] sl IH h; have /= -> := h (s, lag) (or_introl erefl); rewrite /= IH // => x xi; apply: h; right.
  case E3: (mapM _ (r_vars m)) => [vd|] //; rewrite [rbind _ _]/=.
  have -> : flatten [seq var_steps F x | x <- vd] = [::].
    have : forall x, List.In x vd -> var_steps F x = [::].
      move=> [v [ld lg]] xi; have [_ [_ /(_ _ xi) [v' [_]]]] := mapM_In E3; rewrite /var_dates.
      case Ex: py_max => [mx|] //=; case Em: py_min => [mn|] //= [_ <- <-].
      have [a ai [ka <-]] := ds _ _ _ (py_min_in Em); have [b bi [kb <-]] := ds _ _ _ (py_max_in Ex).
      by rewrite /var_steps /= !small ?vdate.
    by elim: vd {E3} => //= x vd IH h; rewrite (h _ (or_introl erefl)) IH // => y yi; apply: h; right.
  rewrite /= !cats0 => -[<- <-]; split=> //; rewrite -[RHS]map_id; apply: eq_map => q.
  by rewrite /subs [RHS]surjective_pairing; congr (_, _); apply: emap_id.
split=> //; first by rewrite /neq es e1.
move=> dm; have uv : uniq (r_vars m) by move: dm; rewrite /distinct cat_uniq => /and3P [].
rewrite /neta es.
have -> : size (forward_looking m) = size [seq (KVar, v, 1%:Z) | v <- forward_looking m] by rewrite size_map.
apply: perm_size; apply: uniq_perm; first by rewrite filter_uniq // undup_uniq.
  by rewrite map_inj_uniq ?filter_uniq // => x y [].
move=> a; rewrite mem_filter mem_undup; apply/idP/mapP.
  move=> /andP [/andP [ka da] ai]; have [l li el] := w1 a ai; have [na [dl ca]] := leaf_atom el.
  have kv : knd a = KVar.
    by case/orP: ka => /eqP // ks; move: da; rewrite (sdate a ai ks).
  have d1 : dat a = 1 by have := vdate a ai kv; move: da; case: (dat a) => [[|[|n]]|n].
  exists (nam a); last by move: kv d1; clear; case: a => [[k n] x]; rewrite /knd /dat /nam /= => -> ->.
  rewrite mem_filter; have -> : nam a \in r_vars m by have := ctx_getP ca; rewrite kv -na.
  by rewrite andbT; apply/hasP; exists l => //; rewrite na eqxx -dl ?kv // d1.
move=> [v]; rewrite mem_filter => /andP [/hasP [w wi /andP [/eqP ew dw]] vi] -> {a}.
have [a ai el] := w2 w wi; have [na [dl ca]] := leaf_atom el.
have ka : knd a = KVar by apply: ctx_var ca => //; rewrite ew.
have da : dat a = date w by rewrite dl ?ka.
have d1 : dat a = 1 by have := vdate a ai ka; move: dw; rewrite -da; case: (dat a) => [[|[|n]]|n].
have -> : (KVar, v, 1%:Z) = a by rewrite -ew -na; move: ka d1; clear; case: a => [[k n] x]; rewrite /knd /dat /nam /= => -> ->.
by rewrite ai ka d1.
Qed.

Lemma py_max_le (l : seq int) (x y : int) : py_max l = Ok x -> y \in l -> y <= x.
Proof.
case: l => // z l [<-]; rewrite inE => h.
have : (y <= z) || (y \in l).
  by case/orP: h => [/eqP ->|->]; rewrite ?lexx ?orbT.
elim: l z {h} => [|u l IH] z /=; first by rewrite orbF.
by rewrite inE => h; apply: IH; rewrite le_maxr; case/orP: h => [->//|/orP [/eqP ->|->]]; rewrite ?lexx ?orbT.
Qed.
Lemma py_min_le (l : seq int) (x y : int) : py_min l = Ok x -> y \in l -> x <= y.
Proof.
case: l => // z l [<-]; rewrite inE => h.
have : (z <= y) || (y \in l).
  by case/orP: h => [/eqP ->|->]; rewrite ?lexx ?orbT.
elim: l z {h} => [|u l IH] z /=; first by rewrite orbF.
by rewrite inE => h; apply: IH; rewrite le_minl; case/orP: h => [->//|/orP [/eqP ->|->]]; rewrite ?lexx ?orbT.
Qed.
Lemma var_dates_written m eqs v x : declared_eqs m = Ok eqs -> distinct m -> v \in r_vars m ->
  (x \in dates_of KVar v eqs) = has (fun w => (w.1 == v) && (date w == x)) (written m).
Proof.
move=> /eqs_written [w1 w2] dm vv; apply/mapP/hasP.
  move=> [a]; rewrite mem_filter => /andP [/andP [/eqP ka /eqP na] ai] ->; have [l li el] := w1 a ai.
  by have [nl [dl _]] := leaf_atom el; exists l => //; rewrite -nl na dl ?ka // !eqxx.
move=> [w wi /andP [/eqP wv /eqP <-]]; have [a ai el] := w2 w wi; have [nl [dl ca]] := leaf_atom el.
have ka : knd a = KVar by apply: ctx_var ca => //; rewrite wv.
by exists a; [rewrite mem_filter ka nl wv !eqxx | rewrite dl ?ka].
Qed.
Definition A (eqs : seq (eqn F)) : seq sym := flatten [seq eatoms q | q <- eqs].
Lemma dates_ofE k n eqs x : (x \in dates_of k n eqs) = ((k, n, x) \in A eqs).
Proof.
apply/mapP/idP => [[a]|h]; last by exists (k, n, x); rewrite // mem_filter h /knd /nam /= !eqxx.
by rewrite mem_filter => /andP [/andP [/eqP <- /eqP <-] ai] ->; move: ai; case: a => [[]].
Qed.
Lemma absz_min (P : pred (string * option int)) m mn : (forall w, w \in written m -> P w -> mn <= date w) ->
  (exists2 w, w \in written m & P w && (date w == mn)) -> mn <= 0 ->
  absz mn = (\max_(w <- written m | P w && (date w < 0)%R) absz (date w))%N.
Proof.
move=> lo [w wi /andP [pw /eqP ew]] mn0; apply/eqP; rewrite eqn_leq; apply/andP; split.
  case: (ltrP mn 0) => [lt|ge]; last by have /eqP -> : mn == 0 by rewrite eq_le mn0 ge.
  by rewrite -ew; apply: (@leq_bigmax_seq _ (written m) (fun w => P w && (date w < 0)) (fun w => absz (date w))) => //; rewrite pw ew.
apply/bigmax_leqP_seq => u ui /andP [pu du].
by rewrite -lez_nat !abszE (ler0_norm (ltW du)) (ler0_norm mn0) ler_oppl opprK; apply: lo.
Qed.
Lemma absz_max (P : pred (string * option int)) m mx : (forall w, w \in written m -> P w -> date w <= mx) ->
  (exists2 w, w \in written m & P w && (date w == mx)) -> 0 <= mx ->
  absz mx = (\max_(w <- written m | P w && (0 < date w)%R) absz (date w))%N.
Proof.
move=> hi [w wi /andP [pw /eqP ew]] mx0; apply/eqP; rewrite eqn_leq; apply/andP; split.
  case: (ltrP 0 mx) => [lt|ge]; last by have /eqP -> : mx == 0 by rewrite eq_le mx0 ge.
  by rewrite -ew; apply: (@leq_bigmax_seq _ (written m) (fun w => P w && (0 < date w)) (fun w => absz (date w))) => //; rewrite pw ew.
apply/bigmax_leqP_seq => u ui /andP [pu du].
by rewrite -lez_nat !abszE (ger0_norm (ltW du)) (ger0_norm mx0); apply: hi.
Qed.
Lemma size_copies m (eqs : seq (eqn F)) v vd : (forall x, (x \in dates_of KVar v eqs) = has (fun w => (w.1 == v) && (date w == x)) (written m)) ->
  both_sides m v -> var_dates eqs v = Ok vd -> size (var_steps F vd) = ((longest_lag m v).-1 + (longest_lead m v).-1)%N.
Proof.
move=> D /andP [/hasP [w0 wi0 /andP [/eqP e0 d0]] /hasP [w1 wi1 /andP [/eqP e1 d1]]]; rewrite /var_dates.
have i0 : date w0 \in dates_of KVar v eqs by rewrite D; apply/hasP; exists w0; rewrite ?e0 ?eqxx.
have i1 : date w1 \in dates_of KVar v eqs by rewrite D; apply/hasP; exists w1; rewrite ?e1 ?eqxx.
case Ex: py_max => [mx|] //=; case Em: py_min => [mn|] //= [<-]; rewrite /var_steps size_cat !size_map !size_iota /=.
have inD w : w \in written m -> w.1 == v -> date w \in dates_of KVar v eqs by move=> wi wv; rewrite D; apply/hasP; exists w; rewrite // wv eqxx.
congr (_ .-1 + _ .-1)%N; [apply: absz_min|apply: absz_max].
- by move=> w wi wv; apply: (py_min_le Em); apply: inD.
- by have := py_min_in Em; rewrite D => /hasP [w wi h]; exists w.
- exact: le_trans (py_min_le Em i1) d1.
- by move=> w wi wv; apply: (py_max_le Ex); apply: inD.
- by have := py_max_in Ex; rewrite D => /hasP [w wi h]; exists w.
exact: le_trans d0 (py_max_le Ex i0).
Qed.
(** shocks with lags *)
Lemma ctx_shk m n k : distinct m -> n \in r_shks m -> ctx_get (context m) n = Some k -> k = KShk.
Proof.
rewrite /distinct !cat_uniq !has_cat !negb_or => /and3P [_ /and3P [_ d1 _] /and3P [_ /andP [d2 _] /and3P [_ d3 _]]] nv; rewrite /ctx_get; set l := [seq x.2 | x <- _ & _] => h.
have : k \in l by rewrite -mem_rev; move: h; case: (rev l) => //= z l' [->]; rewrite mem_head.
move=> /mapP [[n' k'] ]; rewrite mem_filter => /andP [/eqP /= -> xi] ->.
move: xi; rewrite /context !mem_cat => /orP [/mapP [z zi [e _]]|/orP [/mapP [z zi [e _]]|/orP [/mapP [z zi [_ ->]] //|/mapP [z zi [e _]]]]]; subst z.
- by case/hasP: d1; exists n.
- by case/hasP: d2; exists n.
- by case/hasP: d3; exists n.
Qed.
Lemma shk_dates_written m eqs s x : declared_eqs m = Ok eqs -> distinct m -> s \in r_shks m ->
  (x \in dates_of KShk s eqs) = has (fun w => (w.1 == s) && (date w == x)) (written m).
Proof.
move=> /eqs_written [w1 w2] dm vv; apply/mapP/hasP.
  move=> [a]; rewrite mem_filter => /andP [/andP [/eqP ka /eqP na] ai] ->; have [l li el] := w1 a ai.
  by have [nl [dl _]] := leaf_atom el; exists l => //; rewrite -nl na dl ?ka // !eqxx.
move=> [w wi /andP [/eqP wv /eqP <-]]; have [a ai el] := w2 w wi; have [nl [dl ca]] := leaf_atom el.
have ka : knd a = KShk by apply: ctx_shk ca => //; rewrite wv.
by exists a; [rewrite mem_filter ka nl wv !eqxx | rewrite dl ?ka].
Qed.
Lemma A_subs d eqs : A [seq subs d q | q <- eqs] = [seq lookup d a | a <- A eqs].
Proof. by rewrite /A -map_comp map_flatten -map_comp; congr flatten; apply: eq_map => q /=; rewrite eatoms_subs. Qed.
Lemma A_rcons eqs q : A (rcons eqs q) = A eqs ++ eatoms q.
Proof. by rewrite /A map_rcons flatten_rcons. Qed.
Definition sdict (s : string) (n : nat) : dict := [seq ((KShk, s, - i%:Z), (KVar, var_s s, - i%:Z)) | i <- iota 1 n].
Lemma sdictE s n a : lookup (sdict s n) a = if [&& knd a == KShk, nam a == s & (- n%:Z <= dat a < 0)%R] then (KVar, var_s s, dat a) else a.
Proof.
case: ifP => [/and3P [/eqP ka /eqP na /andP [d1 d2]]|h].
  case: (lookupP (sdict s n) a) => [[x /mapP [i _ ->] /= [e ->]]|[_ no]]; first by rewrite -e.
  have : ((KShk, s, dat a), (KVar, var_s s, dat a)) \in sdict s n.
    apply/mapP; exists (absz (dat a)); last by rewrite abszE ltr0_norm // opprK.
    by rewrite mem_iota add1n ltnS absz_gt0 lt_eqF //= -lez_nat abszE ltr0_norm // ler_oppl.
  by move=> /no; rewrite /= -ka -na; case: a {ka na d1 d2 no} => [[? ?] ?]; rewrite eqxx.
case: (lookupP (sdict s n) a) => [[x /mapP [i ii ->] /= [e _]]|[-> //]].
move: ii h; rewrite -e mem_iota add1n ltnS /knd /nam /dat /= !eqxx /= => /andP [i0 iN].
by rewrite ler_opp2 lez_nat iN oppr_lt0 ltz_nat i0.
Qed.
Lemma shock_step_dates eqs vars s lag eqs' vars' : (0 < absz lag)%N -> (forall x, (KVar, var_s s, x) \notin A eqs) ->
  expand_shock (eqs, vars) (s, lag) = (eqs', vars') ->
  [/\ forall v x, v != var_s s -> ((KVar, v, x) \in A eqs') = ((KVar, v, x) \in A eqs),
      forall u x, u != s -> ((KShk, u, x) \in A eqs') = ((KShk, u, x) \in A eqs) &
      forall x, ((KVar, var_s s, x) \in A eqs') = (x == 0) || ((- (absz lag)%:Z <= x < 0)%R && ((KShk, s, x) \in A eqs))].
Proof.
move=> l0 fr; rewrite /expand_shock l0 -/(sdict s (absz lag)) => -[<- _]; rewrite A_subs A_rcons; set B := _ ++ _.
have BE a : (a \in B) = (a \in A eqs) || ((a == (KVar, var_s s, 0)) || (a == (KShk, s, 0))) by rewrite mem_cat !inE.
split=> [v x nv|u x nu|x].
- apply/mapP/idP => [[a]|h].
    rewrite sdictE BE; case: ifP => _ h1 e2; first by move: nv; case: e2 => ->; rewrite eqxx.
    by move: h1; rewrite -e2 => /orP [//|/orP [/eqP [e]|//]]; move: nv; rewrite e eqxx.
  by exists (KVar, v, x); rewrite ?BE ?h // sdictE.
- apply/mapP/idP => [[a]|h].
    rewrite sdictE BE; case: ifP => _ h1 e2 //.
    by move: h1; rewrite -e2 => /orP [//|/orP [//|/eqP [e]]]; move: nu; rewrite e eqxx.
  by exists (KShk, u, x); rewrite ?BE ?h // sdictE /knd /nam /= (negbTE nu).
apply/mapP/orP => [[a]|[/eqP ->|/andP [h1 h2]]].
- rewrite sdictE BE; case: ifP => [/and3P [/eqP ka /eqP na da] h1 [e]|_ h1 e2].
    right; rewrite e da /=; move: h1 => /orP [|/orP [/eqP ea|/eqP ea]].
    + by rewrite -ka -na; case: (a) => [[]].
    + by move: ka; rewrite ea.
    by move: da; rewrite ea /dat /= ltxx andbF.
  by move: h1; rewrite -e2 (negbTE (fr x)) /= => /orP [/eqP [->]|//]; left.
- by exists (KVar, var_s s, 0); rewrite ?BE ?eqxx ?orbT // sdictE.
by exists (KShk, s, x); rewrite ?BE ?h2 // sdictE /knd /nam /dat /= !eqxx h1.
Qed.
Lemma fold_dates sl : forall eqs vars eqs1 vars1, all (fun x => (0 < absz x.2)%N) sl -> uniq [seq x.1 | x <- sl] ->
  (forall s x, s \in [seq x.1 | x <- sl] -> (KVar, var_s s, x) \notin A eqs) ->
  foldl (@expand_shock F) (eqs, vars) sl = (eqs1, vars1) ->
  (forall v x, v \notin [seq var_s y.1 | y <- sl] -> ((KVar, v, x) \in A eqs1) = ((KVar, v, x) \in A eqs)) /\
  (forall s lag x, (s, lag) \in sl -> ((KVar, var_s s, x) \in A eqs1) = (x == 0) || ((- (absz lag)%:Z <= x < 0)%R && ((KShk, s, x) \in A eqs))).
Proof.
elim: sl => [|[s lag] sl IH] eqs vars eqs1 vars1; first by move=> _ _ _ [<- _]; split.
rewrite [all _ _]/= [uniq _]/= => /andP [l0 al] /andP [sn us] fr.
case E: (expand_shock (eqs, vars) (s, lag)) => [eqs' vars'].
rewrite (_ : foldl _ _ _ = foldl (@expand_shock F) (expand_shock (eqs, vars) (s, lag)) sl) // E => E2.
have [h1 h2 h3] := shock_step_dates l0 (fun x => fr s x (mem_head _ _)) E.
have fr' u x : u \in [seq x.1 | x <- sl] -> (KVar, var_s u, x) \notin A eqs'.
  move=> ui; rewrite h1; first by apply: fr; rewrite inE ui orbT.
  by apply: contra sn => /eqP /var_s_inj <-.
have [g1 g2] := IH _ _ _ _ al us fr' E2; split=> [v x|u lg x].
  by rewrite inE negb_or => /andP [n1 n2]; rewrite g1 // h1.
rewrite inE => /orP [/eqP [-> ->]|ui].
  by rewrite g1 //; apply: contra sn => /mapP [y yi /var_s_inj ->]; apply: map_f.
have us' : u != s by apply: contra sn => /eqP <-; apply/mapP; exists (u, lg).
by rewrite (g2 _ _ _ ui) h2.
Qed.
Lemma fold_filter sl st : foldl (@expand_shock F) st sl = foldl (@expand_shock F) st [seq x <- sl | (0 < absz x.2)%N].
Proof. by elim: sl st => [|[s lag] sl IH] st //=; case: ifP => h; rewrite /= IH //; congr foldl; case: st => e v; rewrite /expand_shock h. Qed.
Lemma size_flatten_steps (vars : seq string) vd (eqs : seq (eqn F)) (f : string -> nat) :
  (forall v x, v \in vars -> var_dates eqs v = Ok x -> size (var_steps F x) = f v) ->
  mapM (var_dates eqs) vars = Ok vd -> size (flatten [seq var_steps F x | x <- vd]) = (\sum_(v <- vars) f v)%N.
Proof.
elim: vars vd => [|v vars IH] vd h /=; first by case=> <-; rewrite big_nil.
case e: var_dates => [x|] //=; case e2: (mapM _ vars) => [xs|] //= [<-]; rewrite big_cons /= size_cat (h v) ?mem_head //; congr addn.
by apply: IH => // u y ui; apply: h; rewrite inE ui orbT.
Qed.
(** C136: with longer leads and lags there is one more variable, and one more equation, for each lead and each lag of a variable beyond
    the first, and for each lag of a shock *)
Theorem C136_copies m p : parse m = Ok p -> distinct m -> no_shock_leads m -> free_names m -> (forall v, v \in r_vars m -> both_sides m v) ->
  let copies := (\sum_(v <- r_vars m) ((longest_lag m v).-1 + (longest_lead m v).-1) + \sum_(s <- r_shks m) longest_lag m s)%N in
  size (p_vars p) = (size (r_vars m) + copies)%N /\ neq p = (size (r_eqs m) + copies)%N.
Proof.
move=> E dm us fn bs copies; have [eqs [d e1 e2 [ex _ _ _ _]]] := parseP E; have [w1 w2] := eqs_written d; have ez := expand_size ex (declared_eqsP d).
suff es : size (p_vars p) = (size (r_vars m) + copies)%N.
  by split=> //; move: ez; rewrite es e1 /neq => h; apply/eqP; rewrite -(eqn_add2r (size (r_vars m))) h; apply/eqP; rewrite -addnA [(size (r_vars m) + _)%N]addnC addnA.
move: ex; rewrite /expand; case E1: (mapM _ (r_shks m)) => [sl|] //; rewrite [rbind _ _]/= fold_filter.
set sl1 := [seq x <- sl | _]; case E2: foldl => [eqs1 vars1].
have slE : sl = [seq (s, - (longest_lag m s)%:Z) | s <- r_shks m].
  have : forall s, s \in r_shks m -> forall x, shock_dates eqs s = Ok x -> x = (s, - (longest_lag m s)%:Z).
    move=> s si x; rewrite /shock_dates; case: py_max => //= _; case Em: py_min => [mn|] //= [<-]; congr pair.
    have D := shk_dates_written _ d dm si.
    have mn0 : mn <= 0 by have := py_min_in Em; rewrite D => /hasP [w wi /andP [/eqP ws /eqP <-]]; apply: us => //; rewrite ws.
    rewrite /longest_lag -(@absz_min (fun w => w.1 == s) m mn) ?abszE ?ler0_norm ?opprK // => [w wi ws|].
      by apply: (py_min_le Em); rewrite D; apply/hasP; exists w; rewrite // ws eqxx.
    by have := py_min_in Em; rewrite D => /hasP [w wi h]; exists w.
  elim: (r_shks m) sl E1 {sl1 E2} => [|s l IH] sl /= E1 h; first by case: E1.
  move: E1; case e: shock_dates => [x|] //=; case e3: (mapM _ l) => [xs|] //= [<-]; congr cons; first by apply: h e; rewrite mem_head.
  by apply: IH => // u ui; apply: h; rewrite inE ui orbT.
have sh : {subset [seq x.1 | x <- sl1] <= r_shks m}.
  by move=> s /mapP [x]; rewrite mem_filter => /andP [_]; rewrite slE => /mapP [s' si ->] ->.
have sl1P s lag : (s, lag) \in sl1 -> [/\ s \in r_shks m, lag = - (longest_lag m s)%:Z & (0 < longest_lag m s)%N].
  by rewrite mem_filter slE => /andP [/= l0 /mapP [s' si [-> e]]]; split=> //; move: l0; rewrite e abszN.
have fr s x : s \in [seq x.1 | x <- sl1] -> (KVar, var_s s, x) \notin A eqs.
  move=> /mapP [[s' lag] si /= ->]; have [ss _ l0] := sl1P _ _ si; apply/negP => /w1 [l li el].
  by have [nl [_ ca]] := leaf_atom el; have := ctx_getP ca; rewrite -nl; apply/negP; apply: fn.
have ush : uniq (r_shks m) by move: dm; rewrite /distinct !cat_uniq => /and3P [_ _ /and3P [_ _ /andP []]].
have us1 : uniq [seq x.1 | x <- sl1].
  apply: (subseq_uniq (map_subseq _ (filter_subseq _ _))); rewrite slE -map_comp (eq_map (f2 := id)) ?map_id //.
have al1 : all (fun x => (0 < absz x.2)%N) sl1 by apply: filter_all.
have [g1 g2] := fold_dates al1 us1 fr E2.
have v1 : vars1 = r_vars m ++ [seq var_s x.1 | x <- sl1].
  by have := shock_vars sl1 eqs (r_vars m); rewrite E2 /= => ->; congr cat; rewrite (all_filterP al1).
have clash v : v \in r_vars m -> v \notin [seq var_s y.1 | y <- sl1].
  move=> vv; apply/mapP => -[[s lag] si /= ev]; have [ss _ l0] := sl1P _ _ si.
  by have := fn s ss l0; rewrite -[String.append _ _]/(var_s s) -ev vv.
case E3: (mapM _ vars1) => [vd|] //; rewrite [rbind _ _]/= => -[_ <-]; rewrite size_cat size_map.
pose f v := if v \in r_vars m then ((longest_lag m v).-1 + (longest_lead m v).-1)%N else
  (\sum_(x <- sl1 | var_s x.1 == v) (longest_lag m x.1).-1)%N.
rewrite (@size_flatten_steps vars1 vd eqs1 f) //; last first.
  move=> v x; rewrite v1 mem_cat /f => /orP [vv|vi]; rewrite ?vv.
    apply: size_copies (bs v vv) => y; rewrite -(var_dates_written y d dm vv) !dates_ofE g1 //; exact: clash.
  have /negbTE -> : v \notin r_vars m by apply: contraL vi; apply: clash.
  move/mapP: vi => [[s lag] si /= ->]; have [ss el l0] := sl1P _ _ si.
  have -> : (\sum_(x <- sl1 | var_s x.1 == var_s s) (longest_lag m x.1).-1 = (longest_lag m s).-1)%N.
    rewrite -big_filter (_ : [seq i <- sl1 | _] = [:: (s, lag)]) ?big_seq1 //.
    rewrite (eq_in_filter (a2 := pred1 (s, lag))); last first.
      move=> [s' lag'] /sl1P [_ el' _] /=; apply/eqP/eqP => [/var_s_inj es|[-> _] //].
      by rewrite el' el es.
    by rewrite filter_pred1_uniq // (map_uniq us1).
  have D y : (y \in dates_of KVar (var_s s) eqs1) = (y == 0) || ((lag <= y < 0)%R && (y \in dates_of KShk s eqs)).
    by rewrite !dates_ofE (g2 _ _ _ si) el abszN abszE ger0_norm.
  rewrite /var_dates; case Ex: py_max => [mx|] //=; case Em: py_min => [mn|] //= [<-]; rewrite /var_steps size_cat !size_map !size_iota /=.
  have z0 : 0 \in dates_of KVar (var_s s) eqs1 by rewrite D eqxx.
  have -> : mx = 0.
    apply/eqP; rewrite eq_le (py_max_le Ex z0) andbT; have := py_max_in Ex; rewrite D => /orP [/eqP -> //|/andP [/andP [_ h] _]]; exact: ltW.
  have lagin : lag \in dates_of KShk s eqs.
    have : (s, lag) \in sl by move: si; rewrite mem_filter => /andP [].
    move=> /InP li; have [_ [_ /(_ _ li) [s' [_]]]] := mapM_In E1; rewrite /shock_dates; case: py_max => //= _; case Em2: py_min => [mn2|] //= [es' <-].
    by rewrite -es'; exact: py_min_in Em2.
  have lt0 : lag < 0 by rewrite el oppr_lt0.
  have -> : mn = lag.
    apply/eqP; rewrite eq_le; apply/andP; split; first by apply: (py_min_le Em); rewrite D lexx lt0 lagin orbT.
    by have := py_min_in Em; rewrite D => /orP [/eqP -> |/andP [/andP [h _] _]] //; apply: ltW.
  by rewrite addn0 el abszN.
rewrite v1 size_cat size_map big_cat /= /copies -addnA; congr addn.
have -> : (\sum_(v <- r_vars m) f v = \sum_(v <- r_vars m) ((longest_lag m v).-1 + (longest_lead m v).-1))%N.
  by rewrite !big_seq; apply: eq_bigr => v vv; rewrite /f vv.
rewrite addnCA; congr addn.
have -> : (\sum_(s <- r_shks m) longest_lag m s = \sum_(x <- sl1) longest_lag m x.1)%N.
  rewrite big_filter slE big_map big_mkcond /= [RHS]big_mkcond; apply: eq_bigr => s _; rewrite abszN /=; by case: (longest_lag m s).
rewrite big_map -sum1_size -big_split /=; rewrite big_seq [RHS]big_seq; apply: eq_bigr => -[s lag] si.
have [ss el l0] := sl1P _ _ si; rewrite /f.
have /negbTE -> : var_s s \notin r_vars m by apply: fn.
have -> : (\sum_(x <- sl1 | var_s x.1 == var_s s) (longest_lag m x.1).-1 = (longest_lag m s).-1)%N.
  rewrite -big_filter (_ : [seq i <- sl1 | _] = [:: (s, lag)]) ?big_seq1 //.
  rewrite (eq_in_filter (a2 := pred1 (s, lag))); last first.
    move=> [s' lag'] /sl1P [_ el' _] /=; apply/eqP/eqP => [/var_s_inj es|[-> _] //].
    by rewrite el' el es.
  by rewrite filter_pred1_uniq // (map_uniq us1).
by rewrite add1n prednK.
Qed.
End C136.
Print Assumptions C136_counts.
Print Assumptions C136_copies.
Print Assumptions C136_plain.

Module Ex.
Notation R := [fieldType of rat].
Definition V (n : string) (d : option int) : rawexpr R := At (n, d).
(** x = a x(+1) + y(-1) + e, y = x, constraint for r; one observable *)
Definition m : rawmodel R := RawModel [:: "x"; "y"; "r"]%string [:: "a"]%string [:: "e"]%string [::]
  [:: (V "x" None, Add (Mul (V "a" None) (V "x" (Some 1%:Z))) (Add (V "y" (Some (-1))) (V "e" None))); (V "y" None, Add (V "x" None) (V "r" None))]
  "r"%string (V "r" None, V "y" None) [:: ("obs"%string, V "x" None); ("obs2"%string, V "y" None)].
Definition numbers (r : res (parsed R)) : seq nat := if r is Ok p then [:: neq p; neta p; neq_fort p; nobs p; neps p; npara p] else [::].
Definition names (r : res (parsed R)) : seq string := if r is Ok p then p_vars p else [::].
Example numbers_ok : numbers (parse m) = [:: 2; 1; 3; 2; 1; 1]%N. Proof. by vm_compute. Qed.
Example distinct_ok : distinct m. Proof. by vm_compute. Qed.
Example plain_ok : plain m.
Proof.
have : all (fun w => ((w.1 \in r_vars m) ==> (-1 <= date w <= 1)) && ((w.1 \in r_shks m) ==> (date w == 0))) (written m) by vm_compute.
by move=> /allP h w /h /andP [/implyP h1 /implyP h2]; split=> // /h2 /eqP.
Qed.
Example forward : forward_looking m = [:: "x"%string]. Proof. by vm_compute. Qed.
(** x = a x(+3) + y(-2) + e(-2), y = x + r: two copies for the leads of x, one for the lag of y and two for the lags of e *)
Definition m3 : rawmodel R := RawModel [:: "x"; "y"; "r"]%string [:: "a"]%string [:: "e"]%string [::]
  [:: (V "x" None, Add (Mul (V "a" None) (V "x" (Some 3%:Z))) (Add (V "y" (Some (-2))) (V "e" (Some (-2))))); (V "y" None, Add (V "x" None) (V "r" None))]
  "r"%string (V "r" None, V "y" None) [::].
Example copies_distinct : distinct m3. Proof. by vm_compute. Qed.
Example copies_sides : all (both_sides m3) (r_vars m3). Proof. by vm_compute. Qed.
Example copies_shocks : no_shock_leads m3.
Proof.
have : all (fun w => (w.1 \in r_shks m3) ==> (date w <= 0)) (written m3) by vm_compute.
by move=> /allP h w /h /implyP h2 /h2.
Qed.
Example copies_free : free_names m3. Proof. by move=> s; rewrite inE => /eqP -> _; vm_compute. Qed.
Example copies_names : names (parse m3) = [:: "x"; "y"; "r"; "e_VAR"; "x_LEAD1"; "x_LEAD2"; "y_LAG1"; "e_VAR_LAG1"]%string. Proof. by vm_compute. Qed.
Example copies_longest : [seq (longest_lag m3 v, longest_lead m3 v) | v <- r_vars m3 ++ r_shks m3] = [:: (0, 3); (2, 0); (0, 0); (2, 0)]%N.
Proof. by rewrite /longest_lag /longest_lead /= !big_mkcond /= !big_cons !big_nil; vm_compute. Qed.
(** y only occurs as y(-2) *)
Definition m2 : rawmodel R := RawModel [:: "x"; "y"; "r"]%string [::] [:: "e"]%string [::]
  [:: (V "x" None, Add (V "y" (Some (-2))) (V "e" None)); (V "x" None, V "r" None)] "r"%string (V "r" None, V "y" None) [::].
End Ex.

(** C136, violated: [neq_fort] is documented as the number of model and measurement equations, but the latter are not counted *)
Theorem C136_refuted : exists (m : rawmodel [fieldType of rat]) p, parse m = Ok p /\ plain m /\ distinct m /\ neq_fort p <> (neq p + nobs p)%N.
Proof.
have h := Ex.numbers_ok; case E: (parse Ex.m) h => [p|] // h; exists Ex.m, p; split=> //; split; [exact: Ex.plain_ok | split=> //].
by case: h => -> _ -> -> _ _.
Qed.
(** C136, violated: a variable written with long lags only gets a copy for leads that nothing uses *)
Theorem C136_useless_copy_refuted : exists (m : rawmodel [fieldType of rat]) p, parse m = Ok p /\
  (forall w, w \in written m -> (date w <= 0)%R) /\ "y_LEAD1"%string \in p_vars p.
Proof.
have h : "y_LEAD1"%string \in Ex.names (parse Ex.m2) by vm_compute.
have hw : all (fun w => (date w <= 0)%R) (written Ex.m2) by vm_compute.
by case E: (parse Ex.m2) h => [p|] // h; exists Ex.m2, p; split=> //; split=> //; apply/allP.
Qed.
Print Assumptions C136_refuted.
Print Assumptions C136_useless_copy_refuted.
