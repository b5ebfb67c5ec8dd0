(** From the model file to the matrices. *)
Set Warnings "-all".
From Coq Require Import String.
From mathcomp Require Import all_ssreflect all_algebra.
From Verif Require Import PyBase PyStr M_Parser S_Parser P_Parser P_Parser2 P_Parser3 P_Parser4.
Set Implicit Arguments. Unset Strict Implicit. Unset Printing Implicit Defensive.
Import GRing.Theory Num.Theory Order.TTheory.
Local Open Scope ring_scope.

Lemma mapM_ok A B (f : A -> res B) (P : A -> B -> Prop) xs :
  (forall x, List.In x xs -> exists y, f x = Ok y /\ P x y) ->
  exists ys, [/\ mapM f xs = Ok ys, size ys = size xs &
    forall i x0 y0, (i < size xs)%N -> P (nth x0 xs i) (nth y0 ys i)].
Proof.
elim: xs => [|x xs IH] H; first by exists [::].
have [y [Ey Py]] := H x (or_introl (erefl x)).
have [|ys [Eys sz Hys]] := IH; first by move=> z zi; apply: H; right.
exists (y :: ys); split=> /=; rewrite ?Ey ?Eys ?sz //.
by case=> [|i] x0 y0 //= lt; apply: Hys.
Qed.

Section P5.
Variable F : fieldType.
Implicit Types (ex fx : expr F sym) (q : eqn F) (y e : path F).

Lemma ctx_getP (m : rawmodel F) n k : ctx_get (context m) n = Some k ->
  match k with KVar => n \in r_vars m | KShk => n \in r_shks m | KPar => true end.
Proof.
rewrite /ctx_get; set l := [seq x.2 | x <- _ & _] => h.
have : k \in l by rewrite -mem_rev; move: h; case: (rev l) => //= z l' [->]; rewrite mem_head.
move=> /mapP [[n' k'] ]; rewrite mem_filter => /andP [/eqP /= -> xi] ->.
move: xi; rewrite /context !mem_cat => /orP [/mapP [z zi [-> ->]] //|/orP [/mapP [z zi [_ ->]] //|/orP [/mapP [z zi [-> ->]] //|/mapP [z zi [_ ->]] //]]].
Qed.

Lemma resolve_leafP (m : rawmodel F) l a : resolve_leaf (context m) l = Ok a ->
  match knd a with KVar => nam a \in r_vars m | KShk => nam a \in r_shks m | KPar => true end.
Proof.
rewrite /resolve_leaf; case ek: (ctx_get _ _) => [k|] //; have := ctx_getP ek.
by case: k ek => _; case: (l.2) => [d|] // h [<-].
Qed.

Lemma resolveP (m : rawmodel F) (r : rawexpr F) ex : resolve (context m) r = Ok ex -> forall a, a \in atoms ex ->
  match knd a with KVar => nam a \in r_vars m | KShk => nam a \in r_shks m | KPar => true end.
Proof.
elim: r ex => [c|l|r1 IH1 r2 IH2|r1 IH1 r2 IH2|r1 IH1 r2 IH2|r IH|r IH] ex /=.
- by case=> <-.
- by case el: resolve_leaf => [a|] //= [<-] b; rewrite inE => /eqP ->; apply: (resolve_leafP el).
- by case e1: (resolve _ r1) => [x1|] //=; case e2: (resolve _ r2) => [x2|] //= [<-] a; rewrite mem_cat => /orP [/(IH1 _ e1)|/(IH2 _ e2)].
- by case e1: (resolve _ r1) => [x1|] //=; case e2: (resolve _ r2) => [x2|] //= [<-] a; rewrite mem_cat => /orP [/(IH1 _ e1)|/(IH2 _ e2)].
- by case e1: (resolve _ r1) => [x1|] //=; case e2: (resolve _ r2) => [x2|] //= [<-] a; rewrite mem_cat => /orP [/(IH1 _ e1)|/(IH2 _ e2)].
- by case e1: (resolve _ r) => [x1|] //= [<-] a; apply: (IH _ e1).
- by case e1: (resolve _ r) => [x1|] //= [<-] a; apply: (IH _ e1).
Qed.

Lemma resolve_eqnP (m : rawmodel F) (r : raweqn F) q : resolve_eqn (context m) r = Ok q -> forall a, a \in eatoms q ->
  match knd a with KVar => nam a \in r_vars m | KShk => nam a \in r_shks m | KPar => true end.
Proof.
rewrite /resolve_eqn; case e1: resolve => [x1|] //=; case e2: resolve => [x2|] //= [<-] a.
by rewrite mem_cat => /orP [/(resolveP e1)|/(resolveP e2)].
Qed.

Lemma declared_eqsP (m : rawmodel F) eqs : declared_eqs m = Ok eqs -> declared (r_vars m) (r_shks m) eqs.
Proof.
move=> /mapM_In [_ [_ H]] q a qi ai; have [r [_ Er]] := H q qi.
exact: resolve_eqnP Er _ ai.
Qed.

Lemma parseP (m : rawmodel F) p : parse m = Ok p -> exists eqs,
  [/\ declared_eqs m = Ok eqs, size eqs = size (r_eqs m), (size (r_eqs m)).+1 = size (r_vars m) &
   [/\ expand eqs (r_vars m) (r_shks m) = Ok (p_eqs p, p_vars p),
      resolve_eqn (context m) (r_ceq m) = Ok (p_ceq p), p_shks p = r_shks m, p_cvar p = r_cvar m &
      mapM (resolve_obs (context m)) (r_obs m) = Ok (p_obs p)]].
Proof.
rewrite /parse; case ec: resolve_eqn => [ceq|] //=; case: eqP => //= sz.
case ee: mapM => [eqs|] //=; case ex: expand => [[eqs' vars']|] //=; case eo: mapM => [obs|] //= [<-] /=.
exists eqs; split=> //; by have [-> _] := mapM_In ee.
Qed.

(** affine equations stay affine *)
Lemma free_emap (g : sym -> sym) ex : (forall a, dated (g a) = dated a) -> free_of_dated (emap g ex) = free_of_dated ex.
Proof. by move=> H; rewrite /free_of_dated atoms_emap has_map; congr (~~ _); apply: eq_has. Qed.
Lemma affine_emap (g : sym -> sym) ex : (forall a, dated (g a) = dated a) -> affine (emap g ex) = affine ex.
Proof.
move=> H; elim: ex => //= [e1 -> e2 ->|e1 -> e2 ->|e1 -> e2 ->|e1 _] //; by rewrite ?free_emap.
Qed.

Definition dict_ok (d : dict) := forall x, x \in d -> dated x.1 && dated x.2.
Lemma dated_lookup d a : dict_ok d -> dated (lookup d a) = dated a.
Proof.
by move=> H; case: (lookupP d a) => [[x /H /andP [h1 h2] [<- ->]]|[-> _]] //; rewrite h1 h2.
Qed.
Lemma affine_subs d q : dict_ok d -> affine_eqn (subs d q) = affine_eqn q.
Proof. by move=> H; rewrite /affine_eqn /subs /= !affine_emap // => a; apply: dated_lookup. Qed.

Lemma affine_shock sl eqs vars : (forall q, List.In q eqs -> affine_eqn q) ->
  forall q, List.In q (foldl (@expand_shock F) (eqs, vars) sl).1 -> affine_eqn q.
Proof.
elim: sl eqs vars => [|[s lag] sl IH] eqs vars H //=.
case: ifP => _; last exact: IH.
apply: IH => q /In_map [q0 [<- /In_rcons q0i]]; rewrite affine_subs.
  by case: q0i => [/H|<-].
by move=> x /mapP [i _ ->].
Qed.

Lemma affine_expand eqs vars shks eqs' vars' : expand eqs vars shks = Ok (eqs', vars') ->
  (forall q, List.In q eqs -> affine_eqn q) -> forall q, List.In q eqs' -> affine_eqn q.
Proof.
rewrite /expand; case es: mapM => [sl|] //=.
case ef: (foldl _ _ _) => [eqs1 vars1]; case ev: mapM => [vd|] //= [<- _] H q /In_map [q0 [<- /In_cat qi]].
rewrite affine_subs.
  case: qi => [q1|/In_map [x [<- /stepsP [u [_ /var_stepsP [[i [_ ->]]|[i [_ ->]]]]]]]] //.
  by apply: (affine_shock (sl := sl) H (vars := vars)); rewrite ef.
move=> x /dP [u [i [_ [[_ ->]|[_ ->]]]]] //.
Qed.

(** a shock date stays in place or becomes 0 *)
Lemma shock_hi sl eqs vars : (forall q a, List.In q eqs -> a \in eatoms q -> knd a = KShk -> dat a <= 0) ->
  forall q a, List.In q (foldl (@expand_shock F) (eqs, vars) sl).1 -> a \in eatoms q -> knd a = KShk -> dat a <= 0.
Proof.
elim: sl eqs vars => [|[s lag] sl IH] eqs vars H //=.
case: ifP => _; last exact: IH.
apply: IH => q a /In_map [q0 [<- /In_rcons q0i]]; rewrite eatoms_subs => /mapP [b bi ->].
set dd := [seq _ | i <- iota 1 _]; case: (lookupP dd b) => [[x /mapP [i _ ->] [_ ->]]|[-> _]] // kb.
case: q0i => [qi|eq]; first exact: (H _ _ qi bi kb).
by move: bi kb; rewrite -eq /eatoms /= !inE => /orP [] /eqP ->.
Qed.
Lemma expand_shock_hi eqs vars shks eqs' vars' : expand eqs vars shks = Ok (eqs', vars') ->
  (forall q a, List.In q eqs -> a \in eatoms q -> knd a = KShk -> dat a <= 0) ->
  forall q a, List.In q eqs' -> a \in eatoms q -> knd a = KShk -> dat a <= 0.
Proof.
rewrite /expand; case es: mapM => [sl|] //=.
case ef: (foldl _ _ _) => [eqs1 vars1]; case ev: mapM => [vd|] //= [<- _] H q a /In_map [q0 [<- /In_cat qi]].
rewrite eatoms_subs => /mapP [b bi ->].
set dd := [seq step_dict _ | _ <- _]; case: (lookupP dd b) => [[x /dP [u [i [_ [[_ ->]|[_ ->]]]]] [_ ->]]|[-> _]] // kb.
case: qi => [q1|/In_map [x [e0 /stepsP [u [_ /var_stepsP [[i [_ ex]]|[i [_ ex]]]]]]]].
- by apply: (shock_hi (sl := sl) H (vars := vars)) bi kb; rewrite ef.
- by move: bi kb; rewrite -e0 ex /eatoms /= !inE => /orP [] /eqP ->; rewrite //; case: ifP.
- by move: bi kb; rewrite -e0 ex /eatoms /= !inE => /orP [] /eqP ->.
Qed.

(** leads of at most two periods are left alone by [cut_leads] *)
Lemma emap_id (g : sym -> sym) ex : {in atoms ex, g =1 id} -> emap g ex = ex.
Proof.
elim: ex => //= [a h|e1 IH1 e2 IH2 h|e1 IH1 e2 IH2 h|e1 IH1 e2 IH2 h|e1 IH1 h|e1 IH1 h]; try by rewrite ?h ?mem_head ?IH1.
all: by rewrite IH1 ?IH2 // => a ai; rewrite h // mem_cat ai ?orbT.
Qed.
Lemma cut_id eqs : (forall q a, List.In q eqs -> a \in eatoms q -> knd a = KVar -> dat a <= 2) ->
  [seq cut_leads q | q <- eqs] = eqs.
Proof.
elim: eqs => //= q eqs IH H; rewrite IH; last by move=> q' a qi; apply: H; right.
congr (_ :: _); rewrite /cut_leads [RHS]surjective_pairing; congr (_, _); apply: emap_id => a ai; rewrite /cut2; case: ifP => // /andP [/eqP ka].
all: by rewrite ltNge (H q a (or_introl (erefl q))) // /eatoms mem_cat ai ?orbT.
Qed.

Section Mat.
Variables (m : rawmodel F) (p : parsed F) (eqs : seq (eqn F)) (par : string -> F).
Hypothesis Hp : parse m = Ok p.
Hypothesis He : declared_eqs m = Ok eqs.
Hypothesis uv : uniq (p_vars p).
Hypothesis us : uniq (r_shks m).

Lemma pE : [/\ size eqs = size (r_eqs m), (size (r_eqs m)).+1 = size (r_vars m) &
   [/\ expand eqs (r_vars m) (r_shks m) = Ok (p_eqs p, p_vars p),
      resolve_eqn (context m) (r_ceq m) = Ok (p_ceq p), p_shks p = r_shks m &
      mapM (resolve_obs (context m)) (r_obs m) = Ok (p_obs p)]].
Proof. by have [eqs0] := parseP Hp; rewrite He => -[[<-] h1 h2 [h3 h4 h5 _ h6]]; split. Qed.

Lemma vars_sub : {subset r_vars m <= p_vars p}.
Proof.
have [_ _ [Ex _ _ _]] := pE; move: Ex; rewrite /expand; case: mapM => [sl|] //=.
case ef: (foldl _ _ _) => [eqs1 vars1]; case ev: mapM => [vd|] //= [_ <-] v vi.
by have := shock_vars sl eqs (r_vars m); rewrite ef /= => ->; rewrite !mem_cat vi.
Qed.

Lemma size_rows : (size (p_eqs p)).+1 = size (p_vars p).
Proof.
have [s1 s2 [Ex _ _ _]] := pE; have := expand_size Ex (declared_eqsP He).
by rewrite -s2 s1 addnS -addSn [X in _ = X]addnC => /addIn.
Qed.

Hypothesis aff : forall q, List.In q eqs -> affine_eqn q.
Hypothesis nolead : forall q a, List.In q eqs -> a \in eatoms q -> knd a = KShk -> dat a <= 0.
Hypothesis affc : affine_eqn (p_ceq p).
Hypothesis cdat : dates_in (-1) 0 0 0 (set_eq_zero (p_ceq p)).
Hypothesis obsok : forall o, List.In o (p_obs p) -> [/\ affine o.2, no_shocks o.2 & dates_in (-1) 0 0 0 o.2].

Lemma get_matricesP : exists g, [/\ get_matrices p par = Ok g,
  [/\ size (g_AA g) = size (p_eqs p), size (g_BB g) = size (p_eqs p), size (g_CC g) = size (p_eqs p) & size (g_PSI g) = size (p_eqs p)],
  forall i q0 y e t, (i < size (p_eqs p))%N -> gap (value par y e t) (nth q0 (p_eqs p) i) =
    linear_gap (const_of par (nth q0 (p_eqs p) i)) g i (p_vars p) (p_shks p) y e t,
  forall y e t, gap (value par y e t) (p_ceq p) =
    const_of par (p_ceq p) - times (take (size (p_vars p)) (g_bb g)) (p_vars p) y t
      - times (drop (size (p_vars p)) (g_bb g)) (p_vars p) y (t - 1) - times (g_bbPSI g) (p_shks p) e t &
  [/\ size (g_ZZ0 g) = size (p_obs p), size (g_ZZ1 g) = size (p_obs p) &
  forall i o0 y e t, (i < size (p_obs p))%N ->
    nth 0 (g_ZZ1 g) i + times (nth [::] (g_ZZ0 g) i) (p_vars p) y t =
    eval (value par (only_at t y) e t) (nth o0 (p_obs p) i).2]].
Proof.
have [s1 s2 [Ex Ec Es Eo]] := pE; have dec := declared_eqsP He.
have us' : uniq (p_shks p) by rewrite Es.
have rg q : List.In q (p_eqs p) -> in_date (p_vars p) (p_shks p) (-1) 1 (set_eq_zero q).
  move=> qi a ai; have ai' : a \in eatoms q by [].
  have := expand_declared Ex dec qi ai'; case ka: (knd a) => //.
  - by move=> vi; split=> //; apply: (expand_range Ex dec qi ai' ka).
  - rewrite Es => vi; split=> //; apply/eqP; rewrite eq_le (expand_shock_hi Ex nolead qi ai' ka).
    exact: (expand_noshock Ex dec qi ai' ka).
have af q : List.In q (p_eqs p) -> affine_eqn q by apply: affine_expand Ex aff q.
have crg : in_date (p_vars p) (p_shks p) (-1) 0 (set_eq_zero (p_ceq p)).
  move=> a ai; have ai' : a \in eatoms (p_ceq p) by [].
  have := resolve_eqnP Ec ai'; have := cdat ai; case: (knd a) => //.
  - by move=> h /vars_sub.
  - by move=> /andP [h1 h2]; rewrite Es => ->; split=> //; apply/eqP; rewrite eq_le h1 h2.
rewrite /get_matrices dedupE //.
have -> : ~~ has (fun a => is_var a && (0 < dat a)) (eatoms (p_ceq p)).
  apply/hasPn=> a ai; have := crg a ai; rewrite /is_var; case: (knd a) => //= -[_ /andP [_ h]].
  by rewrite -leNgt.
have [bb [bp [-> -> [sb sp Hb]]]] := con_rows par uv us' affc crg.
have sle : (size (p_eqs p) <= (size (p_vars p)).-1)%N by rewrite -size_rows.
rewrite [rbind _ _]/= drop_oversize // take_oversize //=.
set fr := (X in mapM X (p_eqs p)); set fo := (X in mapM X (p_obs p)).
have [|rows [-> sr Hr]] := @mapM_ok _ _ fr (fun q (r : seq F * seq F * seq F * seq F) =>
     forall y e t, gap (value par y e t) q = const_of par q + times r.1.1.1 (p_vars p) y (t + 1) + times r.1.1.2 (p_vars p) y t
       + times r.1.2 (p_vars p) y (t - 1) - times r.2 (p_shks p) e t) (p_eqs p).
  move=> q qi; have [a [b [c [s [Ea Eb Ec0 Es0 [_ _ _ _ H]]]]]] := eq_rows par uv us' (af q qi) (rg q qi).
  by exists (a, b, c, s); rewrite /fr Ea [rbind _ _]/= Eb [rbind _ _]/= Ec0 [rbind _ _]/= Es0 [rbind _ _]/=; split.
have ufv : uniq (at_date 0 (p_vars p) ++ fvars (p_eqs p)).
  rewrite cat_uniq uniq_at // filter_uniq ?undup_uniq // andbT /=.
  apply/hasPn=> z; rewrite mem_filter => /andP [/andP [_ dz] _]; rewrite /= mem_at_date.
  by apply/negP=> /and3P [_ _ /eqP ez]; move: dz; rewrite ez ltxx.
have [|obs [-> so Ho]] := @mapM_ok _ _ fo (fun (o : string * expr F sym) (r : seq F * F) =>
     forall y e t, r.2 + times r.1 (p_vars p) y t = eval (value par (only_at t y) e t) o.2) (p_obs p).
  move=> o oi; have [ao no d_o] := obsok oi.
  have [r [ri Er]] := (mapM_In Eo).2.2 o oi; move: Er; rewrite /resolve_obs; case er: resolve => [ex|] //= [eo].
  have org : in_date (p_vars p) (p_shks p) (-1) 0 o.2.
    move=> a ai; have := d_o a ai; have := no a ai; move: ai; rewrite -eo /= => ai; have := resolveP er ai.
    by case: (knd a) => // /vars_sub.
  have nsh : ~~ has is_shk (atoms o.2) by apply/hasPn=> a ai; apply/negP=> /eqP; apply: no.
  have [z0 [z1 [E1 E0 [sz H]]]] := obs_rows par uv ao org nsh ufv.
  have nfv : all (fun a => a \notin fvars (p_eqs p)) (atoms o.2).
    apply/allP=> a ai; rewrite mem_filter negb_and; apply/orP; left; apply/negP=> /andP [kk da].
    have := org a ai; have := hasPn nsh a ai; rewrite /is_shk; move: kk da; case: (knd a) => //.
    by move=> _ da _ [_ /andP [_]]; rewrite leNgt da.
  by exists (take (size (p_vars p)) z0, z1); rewrite /fo E1 [rbind _ _]/= E0 [rbind _ _]/= nfv.
exists (Mats [seq r.1.1.1 | r <- rows] [seq r.1.1.2 | r <- rows] [seq r.1.2 | r <- rows] [seq r.2 | r <- rows]
        bb bp [seq o.1 | o <- obs] [seq o.2 | o <- obs]); split=> //=; rewrite ?size_map ?sr ?so //; last split=> //.
- move=> i q0 y e t lt; have := Hr i q0 ([::], [::], [::], [::]) lt y e t.
  by rewrite /linear_gap /= !(nth_map ([::], [::], [::], [::])) ?sr.
- move=> i o0 y e t lt; have := Ho i o0 ([::], 0) lt y e t.
  by rewrite !(nth_map ([::], 0 : F)) ?so.
Qed.
End Mat.
End P5.
