(** Renaming: lemmas. *)
Set Warnings "-all".
From Coq Require Import String Ascii.
From mathcomp Require Import all_ssreflect all_algebra.
From Verif Require Import PyBase PyStr M_Parser M_Engine M_GenSys M_Pipe M_FindLk M_Tools M_Full S_Rename.
Set Implicit Arguments. Unset Strict Implicit. Unset Printing Implicit Defensive.
Import GRing.Theory Num.Theory.
Local Open Scope ring_scope.
Local Open Scope py_scope.

Lemma appA (a b c : string) : append (append a b) c = append a (append b c).
Proof. by elim: a => //= x a ->. Qed.

Lemma mapM_ren (X Y X' Y' : Type) (f : X -> res Y) (f' : X' -> res Y') (g : X -> X') (h : Y -> Y') xs :
  (forall x, f' (g x) = rmap h (f x)) -> mapM f' (map g xs) = rmap (map h) (mapM f xs).
Proof. by move=> H; elim: xs => //= x xs IH; rewrite H; case: (f x) => //= y; rewrite IH; case: (mapM f xs). Qed.
Lemma mapM_same (X X' Y : Type) (f : X -> res Y) (f' : X' -> res Y) (g : X -> X') xs :
  (forall x, f' (g x) = f x) -> mapM f' (map g xs) = mapM f xs.
Proof. by move=> H; elim: xs => //= x xs IH; rewrite H; case: (f x) => //= y; rewrite IH; case: (mapM f xs). Qed.
Lemma mapM_renS (X : eqType) (Y X' Y' : Type) (f : X -> res Y) (f' : X' -> res Y') (g : X -> X') (h : Y -> Y') (xs : seq X) :
  (forall x, x \in xs -> f' (g x) = rmap h (f x)) -> mapM f' (map g xs) = rmap (map h) (mapM f xs).
Proof.
elim: xs => //= x xs IH H; rewrite H ?mem_head //; case: (f x) => //= y.
by rewrite IH; [case: (mapM f xs) | move=> z zi; apply: H; rewrite in_cons zi orbT].
Qed.
Lemma foldM_ren (S X X' : Type) (f : S -> X -> res S) (f' : S -> X' -> res S) (g : X -> X') xs s :
  (forall s x, f' s (g x) = f s x) -> foldM f' (map g xs) s = foldM f xs s.
Proof. by move=> H; elim: xs s => //= x xs IH s; rewrite H; case: (f s x). Qed.

Section Ren.
Variable F : realFieldType.
Variable new : string -> string.
Hypothesis inj : injective new.

Definition R (a : sym) : sym := (a.1.1, new a.1.2, a.2).
Lemma R_inj : injective R.
Proof. by move=> [[k n] d] [[k' n'] d'] /= [-> /inj -> ->]. Qed.
Lemma eqR a b : (R a == R b) = (a == b). Proof. exact: (inj_eq R_inj). Qed.
Lemma eqn' a b : (new a == new b) = (a == b). Proof. exact: (inj_eq inj). Qed.
Lemma memn a l : (new a \in map new l) = (a \in l). Proof. exact: (mem_map inj). Qed.

Notation Re := (emap R).
Definition Rq (q : eqn F) : eqn F := (Re q.1, Re q.2).
Definition good (n : string) := forall e, ending e -> new (append n e) = append (new n) e.
Lemma good_app n e : good n -> ending e -> good (append n e).
Proof. by move=> g h e' h'; rewrite appA g; [rewrite -appA g | exact: end_app]. Qed.

Lemma atoms_emap (A B : Type) (g : A -> B) (e : expr F A) : atoms (emap g e) = map g (atoms e).
Proof. by elim: e => //= a -> b ->; rewrite map_cat. Qed.
Lemma emap_comp (A B C : Type) (g : A -> B) (h : B -> C) (e : expr F A) : emap h (emap g e) = emap (h \o g) e.
Proof. by elim: e => //= [a -> b ->|a -> b ->|a -> b ->|a ->|a ->]. Qed.
Lemma emap_ext (A B : Type) (g h : A -> B) (e : expr F A) : g =1 h -> emap g e = emap h e.
Proof. by move=> E; elim: e => //= [a|a -> b ->|a -> b ->|a -> b ->|a ->|a ->] //; rewrite E. Qed.
Lemma eatomsE (q : eqn F) : eatoms (Rq q) = map R (eatoms q).
Proof. by rewrite /eatoms /= !atoms_emap map_cat. Qed.

(** names resolved in the context *)
Lemma ctxE c n : ctx_get [seq (new x.1, x.2) | x <- c] (new n) = ctx_get c n.
Proof.
rewrite /ctx_get filter_map -map_comp; congr (ohead (rev _)).
by rewrite (eq_filter (a2 := fun x : string * kind => x.1 == n)); [apply: eq_map | move=> [a b] /=; rewrite eqn'].
Qed.
Lemma context_ren (m : rawmodel F) : context (rename_file new m) = [seq (new x.1, x.2) | x <- context m].
Proof. by rewrite /context !map_cat -!map_comp. Qed.
Lemma leafE c n d : resolve_leaf [seq (new x.1, x.2) | x <- c] (new n, d) = rmap R (resolve_leaf c (n, d)).
Proof. by rewrite /resolve_leaf ctxE /=; case: (ctx_get c n) => [[]|] //; case: d. Qed.
Lemma resolveE c (e : rawexpr F) : resolve [seq (new x.1, x.2) | x <- c] (rename_expr new e) = rmap Re (resolve c e).
Proof.
elim: e => //= [[n d]|e -> f ->|e -> f ->|e -> f ->|e ->|e ->]; try by do 2?[case: (resolve _ _) => //= ?].
rewrite [LHS]/(let* a := resolve_leaf _ _ in Ok (At a)) leafE; by case: resolve_leaf.
Qed.
Lemma resolve_eqnE c (q : raweqn F) : resolve_eqn [seq (new x.1, x.2) | x <- c] (rename_eqn new q) = rmap Rq (resolve_eqn c q).
Proof. by rewrite /resolve_eqn /= !resolveE; do 2![case: (resolve _ _) => //= ?]. Qed.

(** expansion of leads and lags *)
Definition RR (x : sym * sym) := (R x.1, R x.2).
Lemma lookupE d a : lookup (map RR d) (R a) = R (lookup d a).
Proof.
rewrite /lookup filter_map -map_comp (eq_filter (a2 := fun x : sym * sym => x.1 == a)); last by move=> x /=; rewrite eqR.
by case: (filter _ d).
Qed.
Lemma subsE d (q : eqn F) : subs (map RR d) (Rq q) = Rq (subs d q).
Proof. by rewrite /subs /Rq /= !emap_comp; congr (_, _); apply: emap_ext => a /=; rewrite lookupE. Qed.
Lemma flat_eatoms (eqs : seq (eqn F)) : flatten [seq eatoms q | q <- map Rq eqs] = map R (flatten [seq eatoms q | q <- eqs]).
Proof. by rewrite map_flatten -!map_comp; congr flatten; apply: eq_map => q /=; rewrite eatomsE. Qed.
Lemma dates_ofE k n (eqs : seq (eqn F)) : dates_of k (new n) (map Rq eqs) = dates_of k n eqs.
Proof.
rewrite /dates_of flat_eatoms filter_map -map_comp; apply/esym; rewrite (eq_filter (a2 := preim R (fun a => (knd a == k) && (nam a == new n)))) //.
by move=> [[k' n'] d] /=; rewrite eqn'.
Qed.
Lemma shock_datesE (eqs : seq (eqn F)) s : shock_dates (map Rq eqs) (new s) = rmap (fun x => (new x.1, x.2)) (shock_dates eqs s).
Proof. by rewrite /shock_dates dates_ofE; case: py_max => //= _; case: py_min. Qed.
Lemma var_datesE (eqs : seq (eqn F)) s : var_dates (map Rq eqs) (new s) = rmap (fun x => (new x.1, x.2)) (var_dates eqs s).
Proof. by rewrite /var_dates dates_ofE; case: py_max => //= ?; case: py_min. Qed.
Definition Rs (st : seq (eqn F) * seq string) := (map Rq st.1, map new st.2).
Lemma expand_shockE st s lag : good s -> expand_shock (Rs st) (new s, lag) = Rs (expand_shock st (s, lag)).
Proof.
move=> g; case: st => eqs vars; rewrite /expand_shock; case: ifP => // _; rewrite /Rs [fst _]/= [snd _]/=.
have vE : var_s (new s) = new (var_s s) by rewrite /var_s /strcat g //; apply: end_VAR.
rewrite vE; congr (_, _); last by rewrite [in RHS]/snd map_rcons.
rewrite [in RHS]/fst.
have -> : rcons (map Rq eqs) (At (KVar, new (var_s s), 0), At (KShk, new s, 0)) = map Rq (rcons eqs (At (KVar, var_s s, 0), At (KShk, s, 0))) by rewrite map_rcons.
by rewrite -!map_comp; apply: eq_map => q /=; rewrite -subsE -map_comp.
Qed.
Lemma fold_shockE st (sl : seq (string * int)) : (forall x, x \in sl -> good x.1) ->
  foldl (@expand_shock F) (Rs st) [seq (new x.1, x.2) | x <- sl] = Rs (foldl (@expand_shock F) st sl).
Proof.
elim: sl st => // -[s lag] sl IH st H.
change (foldl (@expand_shock F) (expand_shock (Rs st) (new s, lag)) [seq (new x.1, x.2) | x <- sl] = Rs (foldl (@expand_shock F) (expand_shock st (s, lag)) sl)).
rewrite expand_shockE; last exact: (H (s, lag) (mem_head _ _)).
by apply: IH => x xi; apply: H; rewrite in_cons xi orbT.
Qed.
Lemma fold_good st (sl : seq (string * int)) : (forall x, x \in sl -> good x.1) -> (forall v, v \in st.2 -> good v) ->
  forall v, v \in (foldl (@expand_shock F) st sl).2 -> good v.
Proof.
elim: sl st => // -[s lag] sl IH [eqs vars] H G.
change (forall v, v \in (foldl (@expand_shock F) (expand_shock (eqs, vars) (s, lag)) sl).2 -> good v).
apply: IH => [x xi|v]; first by apply: H; rewrite in_cons xi orbT.
rewrite /expand_shock; case: ifP => /= _; last exact: G.
rewrite mem_rcons in_cons => /orP[/eqP->|]; last exact: G.
by apply: good_app; [exact: (H (s, lag) (mem_head _ _)) | exact: end_VAR].
Qed.
Definition Rt (x : sym * sym * string * eqn F) := (RR x.1.1, new x.1.2, Rq x.2).
Lemma lag_stepE v i : good v -> lag_step F (new v) i = Rt (lag_step F v i).
Proof.
move=> g; have E j : var_lag (new v) j = new (var_lag v j) by rewrite /var_lag /strcat g //; apply: end_LAG.
by rewrite /lag_step !E /Rt /RR /R /Rq /=; case: (i == 2%N).
Qed.
Lemma lead_stepE v i : good v -> lead_step F (new v) i = Rt (lead_step F v i).
Proof.
move=> g; have E j : var_lead (new v) j = new (var_lead v j) by rewrite /var_lead /strcat g //; apply: end_LEAD.
by rewrite /lead_step !E.
Qed.
Lemma var_stepsE v d : good v -> var_steps F (new v, d) = map Rt (var_steps F (v, d)).
Proof.
move=> g; rewrite /var_steps map_cat -!map_comp; congr (_ ++ _); apply: eq_map => i /=; first exact: lag_stepE.
exact: lead_stepE.
Qed.
Lemma steps_good v d : good v -> forall x, List.In x (var_steps F (v, d)) -> good (step_var x).
Proof.
move=> g x; rewrite /var_steps => /(@List.in_app_or _ _ _ _)[] /List.in_map_iff[i [<- _]]; apply: good_app => //; constructor.
Qed.
Lemma mapM_mem (X Y : Type) (f : X -> res Y) xs ys : mapM f xs = Ok ys -> forall y, List.In y ys -> exists2 x, List.In x xs & f x = Ok y.
Proof.
elim: xs ys => [|x xs IH] ys /=; first by case=> <-.
case e: (f x) => [y|] //; case e': (mapM f xs) => [ys'|] // [<-] z /= [<-|zi]; first by exists x => //; left.
by have [w wi we] := IH _ e' _ zi; exists w => //; right.
Qed.
Lemma InP (T : eqType) (x : T) s : List.In x s <-> x \in s.
Proof.
elim: s => //= y s IH; rewrite in_cons; split=> [[->|/IH ->]|/orP[/eqP->|/IH h]]; rewrite ?eqxx ?orbT //; [by left | by right].
Qed.
Lemma shock_names (eqs : seq (eqn F)) shks sl : mapM (shock_dates eqs) shks = Ok sl -> forall x, x \in sl -> x.1 \in shks.
Proof.
move=> e x /InP xi; have [s /InP si] := mapM_mem e xi.
by rewrite /shock_dates; case: py_max => //= _; case: py_min => //= ? [<-].
Qed.
Lemma var_names (eqs : seq (eqn F)) vs vd : mapM (var_dates eqs) vs = Ok vd -> forall x, x \in vd -> x.1 \in vs.
Proof.
move=> e x /InP xi; have [s /InP si] := mapM_mem e xi.
by rewrite /var_dates; case: py_max => //= ?; case: py_min => //= ? [<-].
Qed.
Lemma expandE eqs vars shks : (forall v, v \in vars -> good v) -> (forall v, v \in shks -> good v) ->
  expand (map Rq eqs) (map new vars) (map new shks) = rmap Rs (expand eqs vars shks) /\
  forall ev, expand eqs vars shks = Ok ev -> forall v, v \in ev.2 -> good v.
Proof.
move=> Gv Gs; rewrite /expand (mapM_ren (f := shock_dates eqs) (h := fun x => (new x.1, x.2))); last exact: shock_datesE.
case e: (mapM (shock_dates eqs) shks) => [sl|] //=.
have Gsl x : x \in sl -> good x.1 by move=> /(shock_names e)/Gs.
rewrite (fold_shockE (eqs, vars) Gsl).
have := @fold_good (eqs, vars) sl Gsl Gv.
case: (foldl _ (eqs, vars) sl) => [eqs1 vars1] /= G1.
rewrite (mapM_ren (f := var_dates eqs1) (h := fun x => (new x.1, x.2))); last exact: var_datesE.
case e2: (mapM (var_dates eqs1) vars1) => [vd|] //=.
have Gvd x : x \in vd -> good x.1 by move=> /(var_names e2)/G1.
have sE : flatten [seq var_steps F x | x <- [seq (new x.1, x.2) | x <- vd]] = map Rt (flatten [seq var_steps F x | x <- vd]).
  rewrite map_flatten -!map_comp; congr flatten; apply/eq_in_map => -[v d] vi /=; exact: var_stepsE (Gvd _ vi).
rewrite sE; split.
  congr Ok; rewrite /Rs /= !map_cat -!map_comp; congr (_ ++ _, _ ++ _).
  - by apply: eq_map => q /=; rewrite -subsE -map_comp.
  - by apply: eq_map => q /=; rewrite -subsE -map_comp.
move=> ev [<-] v /=; rewrite mem_cat => /orP[/G1 //|/InP/List.in_map_iff[x [<-]]].
move=> xi; have [vx vi xv] : exists2 z, z \in vd & List.In x (var_steps F z).
  elim: vd xi {e2 Gvd sE} => //= z vd IH /(@List.in_app_or _ _ _ _)[h|/IH[w wi h]]; first by exists z; rewrite ?mem_head.
  by exists w; rewrite // in_cons wi orbT.
by case: vx vi xv => u d vi; apply: steps_good; exact: (Gvd _ vi).
Qed.

Definition Ro (o : string * expr F sym) := (o.1, Re o.2).
Definition Rp (p : parsed F) : parsed F :=
  Parsed (map Rq (p_eqs p)) (map new (p_vars p)) (map new (p_pars p)) (map new (p_oths p)) (map new (p_shks p)) (new (p_cvar p)) (Rq (p_ceq p))
    (map Ro (p_obs p)).
Lemma parse_ren (m : rawmodel F) : (forall v, v \in r_vars m -> good v) -> (forall v, v \in r_shks m -> good v) ->
  parse (rename_file new m) = rmap Rp (parse m) /\ forall p, parse m = Ok p -> forall v, v \in p_vars p -> good v.
Proof.
move=> Gv Gs; rewrite /parse context_ren /= resolve_eqnE.
case: (resolve_eqn _ _) => [ceq|] //=; rewrite !size_map; case: ifP => // _.
rewrite (mapM_ren (f := resolve_eqn (context m)) (h := Rq)); last exact: resolve_eqnE.
case: (mapM _ _) => [eqs|] //=.
have [-> Ge] := expandE eqs Gv Gs.
case e: (expand _ _ _) => [ev|] //=.
rewrite (mapM_ren (f := resolve_obs (context m)) (h := Ro)); last by move=> [n x]; rewrite /resolve_obs /= resolveE; case: resolve.
case: (mapM _ _) => [obs|] //=; split=> // p [<-] /=; exact: Ge.
Qed.

Lemma is0E (e : expr F sym) : is0 (Re e) = is0 e. Proof. by case: e. Qed.
Lemma diffE a (e : expr F sym) : diff (R a) (Re e) = Re (diff a e).
Proof.
elim: e => [c|b|e IHe f IHf|e IHe f IHf|e IHe f IHf|e IHe|e IHe] /=; rewrite ?IHe ?IHf //.
- by rewrite eqR.
- by rewrite /sadd !is0E; case: ifP => // _; case: ifP.
- have -> : sopp (Re (diff a f)) = Re (sopp (diff a f)) by case: (diff a f).
  by rewrite /sadd !is0E; case: ifP => // _; case: ifP.
- have sm (x y : expr F sym) : smul (Re x) (Re y) = Re (smul x y) by rewrite /smul !is0E; case: ifP.
  by rewrite !sm /sadd !is0E; case: ifP => // _; case: ifP.
- by case: (diff a e).
- have -> : sopp (Re (diff a e)) = Re (sopp (diff a e)) by case: (diff a e).
  rewrite /smul is0E; by case: ifP.
Qed.
Variables par par' : string -> F.
Hypothesis parE : forall n, par' (new n) = par n.
Lemma evalE (v : sym -> F) (e : expr F sym) : eval v (Re e) = eval (v \o R) e.
Proof. by elim: e => //= [e -> f ->|e -> f ->|e -> f ->|e ->|e ->]. Qed.
Lemma eval_ext' (v w : sym -> F) (e : expr F sym) : v =1 w -> eval v e = eval w e.
Proof. by move=> E; elim: e => //= [e -> f ->|e -> f ->|e -> f ->|e ->|e ->]. Qed.
Lemma entryE vars (e : expr F sym) : entry (map new vars) par' (Re e) = entry vars par e.
Proof.
rewrite /entry atoms_emap all_map (eq_all (a2 := fun a => (knd a == KPar) || in_subs0 vars a)); last first.
  by move=> [[k n] d]; rewrite /in_subs0 /= memn.
case: ifP => // _; rewrite evalE; congr Ok; apply: eval_ext' => -[[k n] d] /=; by rewrite /nam /= parE.
Qed.
Lemma py_indexE cols a : py_index_of (map R cols) (R a) = py_index_of cols a.
Proof. by rewrite /py_index_of (mem_map R_inj) (index_map R_inj). Qed.
Lemma coef_rowE vars cols sel f ats (e : expr F sym) : (forall a, sel (R a) = sel a) ->
  coef_row (map new vars) par' (map R cols) sel f (map R ats) (Re e) = coef_row vars par cols sel f ats e.
Proof.
move=> sE; rewrite /coef_row size_map (undup_map_inj R_inj) filter_map (eq_filter (a1 := preim R sel) (a2 := sel)); last by move=> a; exact: sE.
by apply: foldM_ren => row a; rewrite /fill_row py_indexE diffE entryE.
Qed.
Lemma dedupE seen l : dedup (map new seen) (map new l) = map new (dedup seen l).
Proof. by elim: l seen => //= x l IH seen; rewrite memn; case: ifP => // _; rewrite -map_rcons IH. Qed.
Lemma at_dateE d vars : at_date d (map new vars) = map R (at_date d vars).
Proof. by rewrite /at_date -!map_comp. Qed.
Lemma shk_listE s : shk_list (map new s) = map R (shk_list s).
Proof. by rewrite /shk_list -!map_comp. Qed.
Lemma fvarsE (eqs : seq (eqn F)) : fvars (map Rq eqs) = map R (fvars eqs).
Proof. by rewrite /fvars flat_eatoms (undup_map_inj R_inj) filter_map; congr map; apply: eq_filter. Qed.
Lemma hasR (P : pred sym) s : (forall a, P (R a) = P a) -> has P (map R s) = has P s.
Proof. by move=> E; rewrite has_map; apply: eq_has => a /=; rewrite E. Qed.
Lemma matrices_ren (p : parsed F) : get_matrices (Rp p) par' = get_matrices p par.
Proof.
rewrite /get_matrices /= -[[::]]/(map new [::]) dedupE; set vars := dedup _ _; rewrite !at_dateE shk_listE fvarsE -!map_cat !size_map.
rewrite eatomsE hasR //; case: ifP => // _.
rewrite (@coef_rowE vars _ _ _ _ (set_eq_zero (p_ceq p))) //.
case: (coef_row _ _ _ _ _ _ _) => [bb|] //=.
rewrite (@coef_rowE vars _ _ _ _ (set_eq_zero (p_ceq p))) //.
case: (coef_row _ _ _ _ _ _ _) => [bp|] //=.
rewrite -map_drop has_map.
rewrite (eq_has (a2 := fun q : eqn F => has (fun a => is_var a || is_shk a) (eatoms q))); last by move=> q /=; rewrite eatomsE hasR.
case: ifP => // _; rewrite -map_take.
rewrite (mapM_same (f := fun q : eqn F => let e := set_eq_zero q in
    let* a := coef_row vars par (at_date 1 vars) (fun a => is_var a && (0 < dat a)) id (eatoms q) e in
    let* b := coef_row vars par (at_date 0 vars) (fun a => is_var a && (dat a == 0)) id (eatoms q) e in
    let* c := coef_row vars par (at_date (-1) vars) (fun a => is_var a && (dat a < 0)) id (eatoms q) e in
    let* s := coef_row vars par (shk_list (p_shks p)) is_shk -%R (eatoms q) e in
    Ok (a, b, c, s))); last first.
  by move=> q; rewrite /= eatomsE !(@coef_rowE vars _ _ _ _ (set_eq_zero q)).
case: (mapM _ _) => [rows|] //=.
rewrite (mapM_same (f := fun o : string * expr F sym => 
    let* z1 := entry vars par o.2 in
    let* z0 := coef_row vars par (at_date 0 vars ++ fvars (p_eqs p)) (fun a => is_var a && (0 <= dat a)) id (atoms o.2) o.2 in
    assert* all (fun a => a \notin fvars (p_eqs p)) (atoms o.2) else IndexError in
    Ok (take (size vars) z0, z1))) // => o /=.
rewrite entryE atoms_emap coef_rowE // all_map; case: (entry _ _ _) => //= z1; case: (coef_row _ _ _ _ _ _ _) => //= z0.
by rewrite (eq_all (a2 := fun a => a \notin fvars (p_eqs p))) // => a /=; rewrite (mem_map R_inj).
Qed.

(** the solver *)
Section Gen.
Variable tol : F.
Variable rq : forall d, 'M[F]_d -> 'M[F]_d * 'M[F]_d.
Variable klein : forall a b, 'M[F]_(a + b) -> 'M[F]_(a + b) -> res ('M[F]_(b, a) * 'M[F]_a).
Section Names.
Variables (m n e o : nat) (u : usys F m n e) (names : n.-tuple string).
Hypothesis G : forall v, v \in tval names -> good v.
Lemma vv0E : vv0 tol u (map_tuple new names) = map new (vv0 tol u names).
Proof.
rewrite /vv0 map_cat -map_comp; congr (_ ++ _); apply: eq_map => j /=.
by rewrite tnth_map (G (mem_tnth _ _)) //; apply: end_lag.
Qed.
Lemma size_vv0 : size (vv0 tol u names) = (n + na tol u)%N.
Proof. by rewrite /vv0 size_cat size_tuple size_map -cardE. Qed.
Lemma maskedE P : masked (tol := tol) (u := u) (map_tuple new names) P = rmap (map new) (masked (tol := tol) (u := u) names P).
Proof.
rewrite /masked; case: ifP => //= _; congr Ok; rewrite -map_comp; apply: eq_map => j /=.
by rewrite vv0E (nth_map ""%string) // size_vv0.
Qed.
Lemma gen_sysE shks (Z0 : 'M[F]_(o, n)) (Z1 : 'cV[F]_o) lm km :
  gen_sys tol rq klein u (map_tuple new names) (map new shks) Z0 Z1 lm km = rmap (rename_model new) (gen_sys tol rq klein u names shks Z0 Z1 lm km).
Proof.
rewrite /gen_sys /new_vv !maskedE.
case: (masked names (inq (tol:=tol) (u:=u))) => [svv|] //=; case: (masked names _) => [cvv|] //=.
case: (sys_of _ _ _) => [sm|] //=; case: (klein _ _) => [ol|] //=; case: (preprocess _ _ _ _ _ _) => [tb|] //=.
by rewrite /rename_model /= map_cat.
Qed.
End Names.

Definition tail (ne nv ns no : nat) (names : nv.-tuple string) (shks : seq string) (g : matrices F) (cvar : string) (xb : F) (lm km : nat) : res (tmodel F) :=
  match insub (index cvar (tval names)) with
  | Some c => gen_sys tol rq klein (usys_of_yaml (mx_of ne nv (g_AA g)) (mx_of ne nv (g_BB g)) (mx_of ne nv (g_CC g)) (mx_of ne ns (g_PSI g))
                (row_of (nv + nv) (g_bb g)) (row_of ns (g_bbPSI g)) c xb) names shks
                (mx_of no nv (g_ZZ0 g)) (\col_(i < no) nth 0 (g_ZZ1 g) i) lm km
  | None => Err ValueError
  end.
Lemma tail_cast ne nv ns no (vs : seq string) (E : size vs == nv) shks g cvar xb lm km :
  @tail ne (size vs) ns no (in_tuple vs) shks g cvar xb lm km = @tail ne nv ns no (Tuple E) shks g cvar xb lm km.
Proof. by move/eqP: (E) => e; subst nv; congr tail; apply: val_inj. Qed.
Lemma tailE ne nv ns no (names : nv.-tuple string) shks g cvar xb lm km : (forall v, v \in tval names -> good v) ->
  @tail ne nv ns no (map_tuple new names) (map new shks) g (new cvar) xb lm km = rmap (rename_model new) (@tail ne nv ns no names shks g cvar xb lm km).
Proof. by move=> G; rewrite /tail /= (index_map inj); case: insub => //= c; apply: gen_sysE. Qed.
Lemma solve_ren (m : rawmodel F) xb lm km : (forall v, v \in r_vars m -> good v) -> (forall v, v \in r_shks m -> good v) ->
  solve_file tol rq klein (rename_file new m) par' xb lm km = rmap (rename_model new) (solve_file tol rq klein m par xb lm km).
Proof.
move=> Gv Gs; have [pE Gp] := parse_ren Gv Gs; rewrite /solve_file pE.
case e: (parse m) => [p|] //=; case: ifP => // _; rewrite matrices_ren.
case: (get_matrices p par) => [g|] //=.
transitivity (@tail (size (map Rq (p_eqs p))) (size (map new (p_vars p))) (size (map new (p_shks p))) (size (map Ro (p_obs p))) (in_tuple (map new (p_vars p))) (map new (p_shks p)) g (new (r_cvar m)) xb lm km).
  by [].
rewrite !size_map.
have E : size (map new (p_vars p)) == size (p_vars p) by rewrite size_map.
rewrite (tail_cast _ _ _ E).
have -> : Tuple E = map_tuple new (in_tuple (p_vars p)) by apply: val_inj.
by rewrite tailE; [rewrite !size_map | exact: (Gp _ e)].
Qed.
End Gen.
End Ren.
