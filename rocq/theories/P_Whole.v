(** Proofs about the whole way from the text of a file to reports. *)
Set Warnings "-all".
From Coq Require Import String Ascii ZArith.
From mathcomp Require Import all_ssreflect all_algebra.
From Verif Require Import PyBase PyStr M_ParaFunc S_ParaFunc P_ParaFunc T_ParaFunc M_Parser S_Parser P_Parser5 M_Text S_Text P_Text2 M_Solve M_Engine M_GenSys M_Pipe S_Pipe
  M_Tools M_Full S_Full M_Whole S_Whole.
Set Implicit Arguments. Unset Strict Implicit. Unset Printing Implicit Defensive.
Import GRing.Theory Num.Theory Order.TTheory.
Local Open Scope ring_scope.

Section Calib.
Variable F : realFieldType.
Variable refs : rawfile F -> string -> seq string.
Variable dfun : rawfile F -> string -> seq F -> F.
Variable f : rawfile F.
Hypothesis un : uniq (fpars f ++ f_oths f).
Local Notation defs := (defs_of refs dfun f).

Lemma names_defs : [seq d_name d | d <- defs] = f_oths f.
Proof. by rewrite /defs_of -map_comp map_id_in. Qed.
Lemma names_known : [seq x.1 | x <- known f] = fpars f.
Proof. by rewrite /known -map_comp map_id_in. Qed.
Lemma fresh_f : fresh_names (known f) defs.
Proof. by rewrite /fresh_names names_defs names_known uniq_catC. Qed.
Lemma size_defs : size defs = size (f_oths f).
Proof. by rewrite size_map. Qed.

Lemma in_mapP (A : eqType) (B : Type) (g : A -> B) l b : List.In b (map g l) <-> exists2 a, a \in l & b = g a.
Proof.
elim: l => [|x l IH] /=; first by split=> // -[].
rewrite IH; split=> [[<-|[a al ->]]|[a]]; first by exists x; rewrite ?mem_head.
  by exists a; rewrite // inE al orbT.
by rewrite inE => /orP [/eqP -> ->|al ->]; [left | right; exists a].
Qed.

Lemma psi_ok ps : psi_of refs dfun f = Ok ps -> all_denote (known f) defs /\
  forall n u, n \in f_oths f -> denotes (known f) defs n u -> forall v, nth 0 (ps v) (index n (f_oths f)) = u v.
Proof.
rewrite /psi_of; case E: resolve_defs => [[c|]|] //= -[<-]; rewrite -size_defs in E.
have [al H] := resolve_out fresh_f E; split=> // n u no dn v.
have di : List.In (Defn n (refs f n) (fun us v => dfun f n [seq u v | u <- us])) defs by apply/in_mapP; exists n.
rewrite (nth_map EmptyString) ?index_mem // nth_index //.
by rewrite ((H _ u di).2 dn).
Qed.

Lemma psi_size ps v : psi_of refs dfun f = Ok ps -> size (ps v) = size (f_oths f).
Proof. by rewrite /psi_of; case: resolve_defs => [[c|]|] //= -[<-]; rewrite size_map. Qed.

Lemma den_known_in n u : n \in fpars f -> denotes (known f) defs n u -> u = fun v => nth 0 v (index n (fpars f)).
Proof.
move=> ni dn; apply: (den_fun fresh_f dn); apply: den_known; apply/in_mapP; by exists n.
Qed.

Lemma par_at_known ps v n : psi_of refs dfun f = Ok ps -> size v = size (f_pars f) -> n \in fpars f ->
  par_at f ps v n = nth 0 v (index n (fpars f)).
Proof.
move=> E sz ni; rewrite /par_at index_cat ni nth_cat sz.
by have := index_mem n (fpars f); rewrite ni size_map => ->.
Qed.
Lemma par_at_oth ps v n : psi_of refs dfun f = Ok ps -> size v = size (f_pars f) -> n \in f_oths f ->
  par_at f ps v n = nth 0 (ps v) (index n (f_oths f)).
Proof.
move=> E sz no; have nn : n \notin fpars f.
  by move: un; rewrite cat_uniq => /and3P [_ /hasPn /(_ _ no) h _].
rewrite /par_at index_cat (negbTE nn) nth_cat sz size_map ltnNge leq_addr /=.
by rewrite addKn.
Qed.

Lemma den_names n u : denotes (known f) defs n u -> (n \in fpars f) || (n \in f_oths f).
Proof. by case=> [n' u' /in_mapP [a ai [-> _]]|d vs /in_mapP [a ai ->] _]; rewrite /= ai ?orbT. Qed.

Lemma par_at_den ps v n u : psi_of refs dfun f = Ok ps -> size v = size (f_pars f) -> denotes (known f) defs n u ->
  par_at f ps v n = u v.
Proof.
move=> E sz dn; have [_ H] := psi_ok E; case/orP: (den_names dn) => ni.
  by rewrite (par_at_known E sz ni) (den_known_in ni dn).
by rewrite (par_at_oth E sz ni) (H _ _ ni dn).
Qed.

Lemma par_at_calibrated ps v : psi_of refs dfun f = Ok ps -> size v = size (f_pars f) -> calibrated refs dfun f v (par_at f ps v).
Proof.
move=> E sz; split=> // [|n no].
  have uf : uniq (fpars f) by move: un; rewrite cat_uniq => /and3P [].
  apply: (@eq_from_nth _ 0) => [|i]; rewrite size_map // => li.
  pose p0 : string * F := (EmptyString, 0); rewrite (nth_map p0) //.
  have -> : (nth p0 (f_pars f) i).1 = nth EmptyString (fpars f) i by rewrite /fpars (nth_map p0).
  rewrite (par_at_known E sz) ?mem_nth ?size_map //.
  by rewrite index_uniq ?size_map.
have [al _] := psi_ok E.
have di : List.In (Defn n (refs f n) (fun us v => dfun f n [seq u v | u <- us])) defs by apply/in_mapP; exists n.
have [u dn] := al _ di; rewrite /= in dn.
move: (par_at_den E sz dn) => ->.
have key d : List.In d defs -> d_name d = n -> d = Defn n (refs f n) (fun us v => dfun f n [seq u v | u <- us]).
  by case/in_mapP => a _ -> /= ->.
move: no; case: n u / dn di key => [n u /in_mapP [a ai [ea _]] _ _ no|d vs dI dA _ key no].
  by subst; move: un; rewrite cat_uniq => /and3P [_ /hasPn /(_ _ no) /negP []].
have ed := key d dI erefl; rewrite {1}ed /=.
have : refs f (d_name d) = d_refs d by rewrite [in RHS]ed.
move=> -> {ed key dI no}.
have H (rs : seq string) ws : denote_all (known f) defs rs ws -> [seq w v | w <- ws] = [seq par_at f ps v r | r <- rs] /\
    forall r, r \in rs -> (r \in fpars f) || (r \in f_oths f).
  elim: rs ws => [|r rs IH] ws D; inversion_clear D; first by split.
  have [e h] := IH _ H0; split=> [|r']; first by rewrite /= e (par_at_den E sz H).
  by rewrite inE => /orP [/eqP -> |/h //]; apply: den_names H.
by have [e h] := H _ _ dA; rewrite e.
Qed.

(** any other calibrated assignment agrees on the names of the file *)
Lemma calibrated_one ps v par : psi_of refs dfun f = Ok ps -> calibrated refs dfun f v par ->
  forall n, (n \in fpars f) || (n \in f_oths f) -> par n = par_at f ps v n.
Proof.
move=> E [sz ev eo].
have kn n : n \in fpars f -> par n = nth 0 v (index n (fpars f)).
  move=> ni; pose p0 : string * F := (EmptyString, 0); have li : (index n (fpars f) < size (f_pars f))%N by rewrite -(size_map fst) index_mem.
  by rewrite -ev (nth_map p0) // -[LHS](congr1 par (nth_index EmptyString ni)) {1}/fpars (nth_map p0).
have den n u (dn : denotes (known f) defs n u) : par n = u v.
  move: n u dn; apply: (@denotes_ind2 _ (known f) defs (fun n u _ => par n = u v) (fun ns us _ => [seq par n | n <- ns] = [seq u v | u <- us])).
  - by move=> n u /in_mapP [a ai [-> ->]]; apply: kn.
  - by move=> d vs /in_mapP [a ai ->] /= _ <-; case: (eo a ai).
  - by [].
  - by move=> n u ns us _ /= -> _ ->.
move=> n ni; have [u dn] : exists u, denotes (known f) defs n u.
  case/orP: ni => ni; first by eexists; apply: den_known; apply/in_mapP; exists n.
  have [al _] := psi_ok E.
  have di : List.In (Defn n (refs f n) (fun us v => dfun f n [seq u v | u <- us])) defs by apply/in_mapP; exists n.
  exact: al _ di.
by rewrite (den _ _ dn) (par_at_den E sz dn).
Qed.
End Calib.

Section Lines.
Variable F : realFieldType.
Variable ptree : text -> option (rawexpr F).
Variable f : rawfile F.
Hypothesis un : distinct_names f.

Lemma pick_kind n (ns : seq string) (k : kind) : uniq ns -> [seq x.2 | x <- [seq (a, k) | a <- ns] & x.1 == n] = nseq (n \in ns) k.
Proof.
move=> u; rewrite filter_map -map_comp -(count_uniq_mem n u) -size_filter.
have : all (pred1 n) (filter (pred1 n) ns) by apply: filter_all.
rewrite (@eq_filter _ (preim (fun a : string => (a, k)) (fun x : string * kind => x.1 == n)) (pred1 n)) //.
by elim: (filter _ _) => [|a l IH] //= /andP [_ /IH ->].
Qed.

Lemma ctx_kind n : ctx_get (f_ctx f) n =
  if n \in [seq str v | v <- f_vars f] then Some KVar else if n \in f_shks f then Some KShk
  else if (n \in [seq p.1 | p <- f_pars f]) || (n \in f_oths f) then Some KPar else None.
Proof.
rewrite /ctx_get /f_ctx /context /= !filter_cat !map_cat.
move: un; rewrite /distinct_names !cat_uniq !has_cat !negb_or => /and3P [u1 /and3P [d1 d2 d3] /and3P [u2 /andP [d4 d5] /and3P [u3 d6 u4]]].
rewrite !pick_kind //.
case h1: (n \in _).
  have g (l : seq string) : ~~ has (mem [seq str v | v <- f_vars f]) l -> n \in l = false.
    by move/hasPn => H; apply/negbTE/negP => /H; rewrite /= h1.
  by rewrite (g _ d1) (g _ d2) (g _ d3).
case h2: (n \in f_shks f).
  have -> : n \in [seq p.1 | p <- f_pars f] = false by apply/negbTE; move/hasPn: d4; apply.
  by have -> : n \in f_oths f = false by apply/negbTE/negP => h; move/hasPn: d6 => /(_ _ h) /=; rewrite h2.
case h3: (n \in [seq p.1 | p <- f_pars f]); last by case: (n \in f_oths f).
by have -> : n \in f_oths f = false by apply/negbTE/negP => h; move/hasPn: d5 => /(_ _ h) /=; rewrite h3.
Qed.

Lemma leaf_written par X E t l a : resolve_leaf (f_ctx f) l = Ok a -> value par X E t a = written f par X E t l.
Proof.
rewrite /resolve_leaf ctx_kind /written; case: l => n [d|] /=; case: ifP => _; try (by move=> [<-] /=; rewrite /value /= add0r);
  try (by move=> [<-] /=; rewrite /value /= ?addr0); (case: ifP => _; [by move=> [<-]; rewrite /value /= ?add0r ?addr0|]); case: ifP => // _ -[<-] //.
Qed.
Lemma expr_written par X E t e e' : resolve (f_ctx f) e = Ok e' -> eval (value par X E t) e' = eval (written f par X E t) e.
Proof.
elim: e e' => [c|l|e1 H1 e2 H2|e1 H1 e2 H2|e1 H1 e2 H2|e1 H1|e1 H1] e' /=.
- by move=> [<-].
- by case R: resolve_leaf => [a|] //= [<-] /=; apply: leaf_written.
- by case R: resolve => [x|] //=; case R2: resolve => [y|] //= [<-] /=; rewrite (H1 _ R) (H2 _ R2).
- by case R: resolve => [x|] //=; case R2: resolve => [y|] //= [<-] /=; rewrite (H1 _ R) (H2 _ R2).
- by case R: resolve => [x|] //=; case R2: resolve => [y|] //= [<-] /=; rewrite (H1 _ R) (H2 _ R2).
- by case R: resolve => [x|] //= [<-] /=; rewrite (H1 _ R).
- by case R: resolve => [x|] //= [<-] /=; rewrite (H1 _ R).
Qed.
(** only the values of names of the file matter *)
Lemma expr_ext q q' X E t e e' : (forall n, (n \in [seq p.1 | p <- f_pars f]) || (n \in f_oths f) -> q n = q' n) ->
  resolve (f_ctx f) e = Ok e' -> eval (written f q X E t) e = eval (written f q' X E t) e.
Proof.
move=> Q; elim: e e' => [c|l|e1 H1 e2 H2|e1 H1 e2 H2|e1 H1 e2 H2|e1 H1|e1 H1] e' //=.
- case R: resolve_leaf => [a|] //= _; move: R; rewrite /resolve_leaf ctx_kind /written.
  by case: ifP => // _; case: ifP => // _; case: ifP => // /Q ->.
- by case R: resolve => [x|] //=; case R2: resolve => [y|] //= _; rewrite (H1 _ R) (H2 _ R2).
- by case R: resolve => [x|] //=; case R2: resolve => [y|] //= _; rewrite (H1 _ R) (H2 _ R2).
- by case R: resolve => [x|] //=; case R2: resolve => [y|] //= _; rewrite (H1 _ R) (H2 _ R2).
- by case R: resolve => [x|] //= _; rewrite (H1 _ R).
- by case R: resolve => [x|] //= _; rewrite (H1 _ R).
Qed.
Lemma eqn_written par X E t q q' : resolve_eqn (f_ctx f) q = Ok q' ->
  holds par X E t q' <-> eval (written f par X E t) q.1 = eval (written f par X E t) q.2.
Proof.
rewrite /resolve_eqn; case R: resolve => [x|] //=; case R2: resolve => [y|] //= [<-].
by rewrite /holds /= (expr_written par X E t R) (expr_written par X E t R2).
Qed.
End Lines.

Section Solve.
Variable F : realFieldType.
Variable tol : F.
Variable rq : forall d, 'M[F]_d -> 'M[F]_d * 'M[F]_d.
Variable klein : forall a b, 'M[F]_(a + b) -> 'M[F]_(a + b) -> res ('M[F]_(b, a) * 'M[F]_a).
Variable ptree : text -> option (rawexpr F).
Hypothesis zero : ptree (chars "0") = Some (Cst 0).
Variable yaml : text -> res (rawfile F).
Variable refs : rawfile F -> string -> seq string.
Variable dfun : rawfile F -> string -> seq F -> F.
Variables (t : text) (f : rawfile F).
Hypothesis Y : yaml (normalize t) = Ok f.
Hypothesis un : distinct_names f.
Local Notation solve := (solve_text tol rq klein ptree yaml refs dfun).
Local Notation values par := (odflt [seq p.2 | p <- f_pars f] par).

Lemma un_par : uniq (fpars f ++ f_oths f).
Proof.
move: un; rewrite /distinct_names cat_uniq => /and3P [_ _]; rewrite uniq_catCA cat_uniq => /and3P [_ _].
by [].
Qed.

Lemma xbar_bound ps v : psi_of refs dfun f = Ok ps -> size v = size (f_pars f) -> xbar_of f ps v = bound f (par_at f ps v).
Proof.
move=> E sz; rewrite /xbar_of /bound -/(fpars f); case: ifP => [i|ni] /=; first by rewrite (par_at_known E sz).
by case: ifP => // i; rewrite (par_at_oth un_par E sz).
Qed.

Lemma p_cvarE (m : rawmodel F) p : parse m = Ok p -> p_cvar p = r_cvar m.
Proof.
rewrite /parse; case: resolve_eqn => [q|] //=; case: ifP => //= _; case: mapM => [es|] //=; case: expand => [ev|] //=.
by case: mapM => [o|] //= [<-].
Qed.

Lemma solve_textE par lks lm km mdl : solve t par lks lm km = Ok mdl ->
  exists m p ps lk, [/\ declares ptree f m, parse m = Ok p, psi_of refs dfun f = Ok ps /\ size (values par) = size (f_pars f),
    horizons lks lm km = Ok lk &
    solve_file tol rq klein m (par_at f ps (values par)) (bound f (par_at f ps (values par))) (Z.to_nat lk.1) (Z.to_nat lk.2) = Ok mdl].
Proof.
rewrite /solve_text /read_text Y /=; case Ep: parse_file => [o|] //=; case Es: psi_of => [ps|] //=.
case: eqP => // sz; case: o Ep => [p|] // Ep; case: ifP => // nx; case Eh: horizons => [lk|] //= S.
have [m [d Hp]] := (fileP zero _ _).1 Ep; exists m, p, ps, lk; split=> //.
rewrite /solve_file Hp [rbind _ _]/= -(xbar_bound Es sz) leNgt nx /=; move: S; rewrite /solve_parsed.
case: get_matrices => [g|] //=; case: ifP => // _; by rewrite (p_cvarE Hp).
Qed.

Lemma solve_text_eq par lks lm km m p ps lk : declares ptree f m -> parse m = Ok p -> psi_of refs dfun f = Ok ps ->
  size (values par) = size (f_pars f) -> horizons lks lm km = Ok lk -> Z.leb Z0 lk.1 && Z.leb Z0 lk.2 ->
  solve t par lks lm km =
  solve_file tol rq klein m (par_at f ps (values par)) (bound f (par_at f ps (values par))) (Z.to_nat lk.1) (Z.to_nat lk.2).
Proof.
move=> D Hp E sz Hh nn; rewrite /solve_text /read_text Y [rbind _ _]/=.
have -> : parse_file ptree f = Ok (Some p) by apply/(fileP zero); exists m.
rewrite [rbind _ _]/= E [rbind _ _]/= /solve_read sz eqxx (xbar_bound E sz) Hh /solve_file Hp [in RHS]/= leNgt.
case: ifP => // _; rewrite /solve_parsed [rbind (Ok lk) _]/= (p_cvarE Hp) nn.
by case: get_matrices.
Qed.

Section Text.
Variables (m : rawmodel F) (p : parsed F) (eqs : seq (eqn F)) (par : string -> F).
Hypothesis D : declares ptree f m.
Hypothesis Hp : parse m = Ok p.
Hypothesis He : declared_eqs m = Ok eqs.

Lemma pairwise_in (A : eqType) B (R : A -> B -> Prop) xs ys x : pairwise R xs ys -> x \in xs -> exists2 y, List.In y ys & R x y.
Proof.
elim: xs ys => [|a xs IH] [|b ys] //= [h1 h2]; rewrite inE => /orP [/eqP ->|/(IH _ h2) [y yi h]]; first by exists b; [left|].
by exists y; [right|].
Qed.
Lemma pairwise_in2 (A : eqType) B (R : A -> B -> Prop) xs ys y : pairwise R xs ys -> List.In y ys -> exists2 x, x \in xs & R x y.
Proof.
elim: xs ys => [|a xs IH] [|b ys] //= [h1 h2] [<-|/(IH _ h2) [x xi h]]; first by exists a; rewrite ?mem_head.
by exists x; rewrite // inE xi orbT.
Qed.
Lemma pairwise_trans A B C (R : A -> B -> Prop) (S : B -> C -> Prop) xs ys zs : pairwise R xs ys -> pairwise S ys zs ->
  pairwise (fun x z => exists2 y, R x y & S y z) xs zs.
Proof. by elim: xs ys zs => [|x xs IH] [|y ys] [|z zs] //= [h1 h2] [h3 h4]; split; [exists y | apply: IH h4]. Qed.

Lemma ctxD : context m = f_ctx f. Proof. exact: ctxE D. Qed.

Lemma lines : pairwise (fun s q' => exists2 q, reads ptree s q & resolve_eqn (f_ctx f) q = Ok q') (model_lines f) eqs.
Proof. by apply: pairwise_trans (d_eqs D) _; rewrite -ctxD; apply/mapM_pair. Qed.

Lemma constrains_reads s v q : constrains ptree s v q -> reads ptree s q /\ left_name s v.
Proof. by move=> [l [r [n [e n1 n2 tn [ev _ h1 h2]]]]]; split; [left; exists l, r | exists l, r, n]. Qed.
Lemma left_name_fun s v w : left_name s v -> left_name s w -> v = w.
Proof.
move=> [l [r [n [-> n1 tn ->]]]] [l' [r' [n' [e n2 tn' ->]]]]; congr str; suff el : l = l' by apply: trimmed_fun tn _; rewrite el.
move: n1 n2 e {tn tn'}; move=> n1 n2 e.
elim: l l' n1 n2 e => [|a l IH] [|b l'] //=; rewrite ?inE ?negb_or.
- by move=> _ /andP [ne _] [e]; move: ne; rewrite e eqxx.
- by move=> /andP [ne _] _ [e]; move: ne; rewrite e eqxx.
- by move=> /andP [_ n1] /andP [_ n2] [-> /IH -> ].
Qed.

Lemma line_true s q q' X E (i : int) : reads ptree s q -> resolve_eqn (f_ctx f) q = Ok q' ->
  true_line ptree f par X E i s <-> holds par X E i q'.
Proof.
move=> Rq Rs; rewrite (eqn_written un par X E i Rs); split=> [[q2 [R2]]|h]; last by exists q.
by rewrite (reads_fun R2 Rq).
Qed.

Lemma text_file b X E : solves_text ptree f par b X E <-> solves_file par eqs (p_ceq p) (r_cvar m) (bound f par) b X E.
Proof.
have [_ _ [_ Ec _ _]] := pE Hp He; rewrite ctxD in Ec.
have [s [es cs]] := d_cons D; have [rs ls] := constrains_reads cs.
split=> H i; have [h1 h2] := H i; split.
- move=> q' /(pairwise_in2 lines) [s' si [q Rq Rs]]; apply/(line_true _ _ _ Rq Rs); exact: h1.
- have [s' [v [e1 lv]]] := h2; move: e1; rewrite es => -[e1]; subst s'; rewrite (left_name_fun lv ls); case: (b i) => //.
  by move/(line_true _ _ _ rs Ec).
- move=> s' /(pairwise_in lines) [q' qi [q Rq Rs]]; apply/(line_true _ _ _ Rq Rs); exact: h1.
- exists s, (r_cvar m); split=> //; case: (b i) h2 => //; by move/(line_true _ _ _ rs Ec).
Qed.

Lemma text_ext q q' b X E : (forall n, (n \in [seq p.1 | p <- f_pars f]) || (n \in f_oths f) -> q n = q' n) ->
  solves_text ptree f q b X E -> solves_text ptree f q' b X E.
Proof.
move=> Q; have [_ _ [_ Ec _ _]] := pE Hp He; rewrite ctxD in Ec.
have [s0 [es0 cs0]] := d_cons D; have [rs0 _] := constrains_reads cs0.
have tl s i r r' : reads ptree s r -> resolve_eqn (f_ctx f) r = Ok r' -> true_line ptree f q X E i s -> true_line ptree f q' X E i s.
  move=> Rr; rewrite /resolve_eqn; case R1: resolve => [a|] //=; case R2: resolve => [a'|] //= _ [r2 [Rr2 h]]; exists r; split=> //.
  by rewrite (reads_fun Rr2 Rr) (expr_ext un X E i Q R1) (expr_ext un X E i Q R2) in h.
move=> Hs i; have [h1 [s [v [e1 lv h2]]]] := Hs i; split.
  move=> s' si; have [q1 qi [r Rr Rs]] := pairwise_in lines si; exact: tl Rr Rs (h1 _ si).
have [e2] : Some [:: s0] = Some [:: s] by rewrite -es0 -e1.
exists s, v; split; [exact: e1|exact: lv|]; case: (b i) h2 => [h2|].
  by rewrite h2 /bound; case: ifP => // /Q.
by rewrite -e2; apply: tl rs0 Ec.
Qed.

Lemma text_obs X E i : pairwise (fun (o : string * text) y => has_value ptree f par X E i o.2 y) (observable_lines f)
  [seq eval (value par X E i) o.2 | o <- p_obs p].
Proof.
have [_ _ [_ _ _ Eo]] := pE Hp He; rewrite ctxD in Eo; move/mapM_pair: Eo => Eo.
move: (pairwise_trans (d_obs D) Eo); elim: (observable_lines f) (p_obs p) => [|o os IH] [|q qs] //= [[e [e1 e2] h] h2]; split; last exact: IH.
exists e.2; split=> //; move: h; rewrite /resolve_obs; case R: resolve => [x|] //= [<-] /=.
by rewrite (expr_written un par X E i R).
Qed.
End Text.

(** circular definitions *)
Lemma grounded_den : (forall n, n \in f_oths f -> grounded refs f n) <-> all_denote (known f) (defs_of refs dfun f).
Proof.
split=> H.
  have den n : grounded refs f n -> exists u, denotes (known f) (defs_of refs dfun f) n u.
    elim=> {n} n ni; first by eexists; apply: den_known; apply/in_mapP; exists n.
    move=> _ IH; have [us hu] : exists us, denote_all (known f) (defs_of refs dfun f) (refs f n) us.
      elim: (refs f n) IH => [|r rs IHr] IH; first by exists [::]; constructor.
      have [u hu] := IH r (mem_head _ _); have [us hus] : exists us, denote_all (known f) (defs_of refs dfun f) rs us.
        by apply: IHr => r' ri; apply: IH; rewrite inE ri orbT.
      by exists (u :: us); constructor.
    eexists; apply: (@den_def _ _ _ (Defn n (refs f n) (fun us v => dfun f n [seq u v | u <- us])) us) => //.
    by apply/in_mapP; exists n.
  by move=> d /in_mapP [n ni ->] /=; apply/den/H.
move=> n ni; have di : List.In (Defn n (refs f n) (fun us v => dfun f n [seq u v | u <- us])) (defs_of refs dfun f) by apply/in_mapP; exists n.
have [u] := H _ di; rewrite /= => {di ni}; move: n u.
apply: (@denotes_ind2 _ (known f) (defs_of refs dfun f) (fun n u _ => grounded refs f n) (fun ns us _ => forall r, r \in ns -> grounded refs f r)).
- by move=> n u /in_mapP [a ai [-> _]]; apply: gr_par.
- by move=> d vs /in_mapP [a ai ->] /= _ IH; apply: gr_oth.
- by [].
- by move=> n v ns vs _ h _ IH r; rewrite inE => /orP [/eqP ->|/IH].
Qed.
Lemma psi_grounded : ((exists ps, psi_of refs dfun f = Ok ps) <-> (forall n, n \in f_oths f -> grounded refs f n)) /\
  (psi_of refs dfun f = Err NameError <-> ~ (forall n, n \in f_oths f -> grounded refs f n)).
Proof.
rewrite grounded_den /psi_of -(size_defs refs dfun f).
have [h1 h2] := C39_resolves (fresh_f refs dfun un_par).
have [_ nn] := C39_terminates (known f) (leqnn (size (defs_of refs dfun f)).+1).
case E: resolve_defs nn => [[c|x]|] // _; have := resolve_out (fresh_f refs dfun un_par) E.
  by move=> [al _]; split; split=> // _; eexists.
by move=> [-> na]; split; split=> // -[].
Qed.
End Solve.
