(** Model files: what they declare, what is rejected. *)
Set Warnings "-all".
From Coq Require Import String Ascii.
From mathcomp Require Import all_ssreflect all_algebra.
From Verif Require Import PyBase PyStr M_Parser M_Text S_Text P_Parser P_Parser6 P_Text.
Set Implicit Arguments. Unset Strict Implicit. Unset Printing Implicit Defensive.
Local Open Scope seq_scope.

Lemma split_cons t : exists p ps, split_eq t = p :: ps.
Proof. case: t => [|c t] /=; first by exists [::], [::]. by case: ifP => _; [exists [::], (split_eq t)|case: (split_eq t) => [|p ps]; eexists; eexists]. Qed.
Lemma split_none t : "="%char \notin t -> split_eq t = [:: t].
Proof. by elim: t => //= c t IH; rewrite inE negb_or eq_sym => /andP [/negPf -> /IH ->]. Qed.
Lemma split_at l t : "="%char \notin l -> split_eq (l ++ "="%char :: t) = l :: split_eq t.
Proof. by elim: l => [|c l IH] /=; rewrite ?eqxx // inE negb_or eq_sym => /andP [/negPf -> /IH ->]. Qed.
Lemma split_size t : size (split_eq t) = (count_mem "="%char t).+1.
Proof.
elim: t => //= c t IH; case: eqP => _ /=; rewrite ?IH //=; have [p [ps e]] := split_cons t; by move: IH; rewrite e.
Qed.
Lemma split_one t p : split_eq t = [:: p] -> t = p /\ "="%char \notin t.
Proof.
move=> e; have := split_size t; rewrite e => -[] /esym /eqP; rewrite -leqn0 leqNgt -has_count => /hasPn h.
have ni : "="%char \notin t by apply/negP => /h /eqP.
by split=> //; move: e; rewrite split_none // => -[].
Qed.
Lemma split_two s l r : split_eq s = [:: l; r] <-> [/\ s = l ++ "="%char :: r, "="%char \notin l & "="%char \notin r].
Proof.
split; last by move=> [-> h1 h2]; rewrite split_at // split_none.
elim: s l => //= c s IH l; case: eqP => [->|nc].
  by move=> [<- /split_one [<- ni]].
have [p [ps e]] := split_cons s; rewrite e => -[el eps]; rewrite -el; have [-> np nr] := IH p (etrans e (congr1 _ eps)).
by split=> //; rewrite inE negb_or eq_sym np andbT; apply/eqP.
Qed.

Lemma mapM_pair A B (f : A -> res B) xs ys : mapM f xs = Ok ys <-> pairwise (fun x y => f x = Ok y) xs ys.
Proof.
elim: xs ys => [|x xs IH] [|y ys] //=; try by split.
- by case: (f x) => [a|] //; case: mapM.
- split; last by move=> [-> /IH ->].
  by case: (f x) => [a|] //; case e: mapM => [bs|] // [-> eb]; split=> //; apply/IH; rewrite e eb.
Qed.
Lemma pairwise_imp A B (R R' : A -> B -> Prop) xs ys : (forall x y, R x y -> R' x y) -> pairwise R xs ys -> pairwise R' xs ys.
Proof. by move=> H; elim: xs ys => [|x xs IH] [|y ys] //= [/H h /IH]. Qed.
Lemma pairwise_and A B (R R' : A -> B -> Prop) xs ys : pairwise R xs ys -> pairwise R' xs ys -> pairwise (fun x y => R x y /\ R' x y) xs ys.
Proof. by elim: xs ys => [|x xs IH] [|y ys] //= [h1 h2] [h3 h4]; split=> //; apply: IH. Qed.
Lemma pairwise_size A B (R : A -> B -> Prop) xs ys : pairwise R xs ys -> size xs = size ys.
Proof. by elim: xs ys => [|x xs IH] [|y ys] //= [_ /IH ->]. Qed.
Lemma pairwise_fun A B (R : A -> B -> Prop) xs ys ys' : (forall x y y', R x y -> R x y' -> y = y') ->
  pairwise R xs ys -> pairwise R xs ys' -> ys = ys'.
Proof. by move=> H; elim: xs ys ys' => [|x xs IH] [|y ys] [|y' ys'] //= [h1 h2] [h3 h4]; rewrite (H _ _ _ h1 h3) (IH _ _ h2 h4). Qed.
(** every element has an image *)
Lemma pairwise_r A B C (R : A -> B -> Prop) (g : B -> res C) xs ys zs : pairwise R xs ys -> mapM g ys = Ok zs ->
  pairwise (fun x y => R x y /\ exists z, g y = Ok z) xs ys.
Proof.
elim: xs ys zs => [|x xs IH] [|y ys] zs //= [h1 h2]; case e: (g y) => [z|] //; case e2: mapM => [zs'|] // _.
split; first by split=> //; exists z. exact: IH e2.
Qed.
Lemma mapM_l A B (g : A -> res B) (P : A -> Prop) xs : (forall x, List.In x xs -> exists z, g x = Ok z) -> exists zs, mapM g xs = Ok zs.
Proof.
elim: xs => [|x xs IH] H; first by exists [::].
have [z e] := H x (or_introl (erefl _)); have [zs es] := IH (fun x' h => H x' (or_intror h)).
by exists (z :: zs); rewrite /= e es.
Qed.
Lemma mapM_cat_err A B (g : A -> res B) pre x post ys e : mapM g pre = Ok ys -> g x = Err e -> mapM g (pre ++ x :: post) = Err e.
Proof.
elim: pre ys => [|a pre IH] ys /=; first by move=> _ ->.
by case: (g a) => [b|] //; case em: mapM => [bs|] // _ /(IH _ em) ->.
Qed.
Lemma mapM_cat_ok A B (g : A -> res B) pre post ys : mapM g (pre ++ post) = Ok ys -> exists us, mapM g pre = Ok us.
Proof.
elim: pre ys => [|a pre IH] ys /=; first by move=> _; exists [::].
case: (g a) => [b|] //; case em: mapM => [bs|] // _; have [us ->] := IH _ em; by exists (b :: us).
Qed.

Section Files.
Variable F : fieldType.
Variable ptree : text -> option (rawexpr F).
Hypothesis zero : ptree (chars "0") = Some (Cst 0%R).
Notation equation := (equation ptree).
Notation constraint := (constraint ptree).
Notation observable := (observable ptree).
Notation parse_file := (parse_file ptree).

Lemma sidesP c l r q : sides ptree c l r = Ok q <-> [/\ ptree l = Some q.1, ptree r = Some q.2 & exists e, resolve_eqn c q = Ok e].
Proof.
rewrite /sides; split.
  by case: (ptree l) => [a|] //; case: (ptree r) => [b|] //; case e: resolve_eqn => [x|] //= [<-]; split=> //; exists x.
by case: q => a b [/= -> -> [e ->]].
Qed.
Lemma sides_err c l r x : sides ptree c l r = Err x -> x = SyntaxErr.
Proof. by rewrite /sides; case: (ptree l) => [a|[]] //; case: (ptree r) => [b|[]] //; case e: resolve_eqn => [y|y] //= [<-]; apply: resolve_eqn_err e. Qed.

Lemma equationP c s q : equation c s = Ok q <-> reads ptree s q /\ exists e, resolve_eqn c q = Ok e.
Proof.
rewrite /M_Text.equation /reads; case: ifP => si.
  split.
    case es: (split_eq s) => [|l [|r []]] //= /sidesP [h1 h2 h3]; split=> //; left; exists l, r.
    by have [-> n1 n2] := (split_two s l r).1 es.
  move=> [[[l [r [es n1 n2 h1 h2]]]|[n0 _ _]] h3]; last by [].
  by rewrite ((split_two s l r).2 (And3 es n1 n2)); apply/sidesP.
split.
  move=> /sidesP [h1 h2 h3]; split=> //; right; split; rewrite ?si //.
  by move: h2; rewrite zero => -[].
move=> [[[l [r [es]]]|[_ h1 h2]] h3]; last by apply/sidesP; split; rewrite // zero h2.
by move: si; rewrite es mem_cat inE eqxx orbT.
Qed.
Lemma mlE (f : rawfile F) : model_lines f = equations f. Proof. by case: f => ? ? ? ? [l|[l|] c o k]. Qed.
Lemma clE (f : rawfile F) : constraint_lines f = constraints f. Proof. by case: f => ? ? ? ? []. Qed.
Lemma olE (f : rawfile F) : observable_lines f = observables f. Proof. by case: f => ? ? ? ? []. Qed.
Lemma lstripE t : exists a, [/\ t = a ++ lstrip t, all blank a & forall c w, lstrip t = c :: w -> ~~ blank c].
Proof.
elim: t => [|c t [a [e1 e2 e3]]] /=; first by exists [::].
case: ifP => h; last by exists [::]; split=> // c' w [<- _]; rewrite -[blank c]/(is_ws c) h.
by exists (c :: a); split=> //=; [rewrite -e1 | rewrite e2 andbT].
Qed.
Lemma strip_trimmed t : trimmed t (strip t).
Proof.
have [a [e1 e2 e3]] := lstripE t; have [b [f1 f2 f3]] := lstripE (rev (lstrip t)).
have E : lstrip t = strip t ++ rev b by rewrite -[LHS]revK f1 rev_cat.
exists a, (rev b); split; rewrite ?all_rev // -?E //.
move=> c w [e|e]; first by move: E; rewrite e => E; apply: (e3 c (w ++ rev b)); rewrite E.
by apply: (f3 c (rev w)); rewrite -[LHS]revK -/(strip t) e rev_rcons.
Qed.
Lemma trim_lead a a' u u' : all blank a -> all blank a' -> (forall c w, u = c :: w -> ~~ blank c) -> (forall c w, u' = c :: w -> ~~ blank c) ->
  a ++ u = a' ++ u' -> ~~ nilp u -> ~~ nilp u' -> u = u'.
Proof.
move=> + + hu hu'; elim: a a' => [|c a IH] [|c' a'] //=.
- by move=> _ /andP [h _] e _ _; have := hu _ _ e; rewrite h.
- by move=> /andP [h _] _ e _ _; have := hu' _ _ (esym e); rewrite h.
- by move=> /andP [_ h1] /andP [_ h2] [_ e]; exact: (IH a' h1 h2 e).
Qed.
Lemma trimmed_fun t u u' : trimmed t u -> trimmed t u' -> u = u'.
Proof.
move=> [a [b [e1 e2 e3 e4]]] [a' [b' [f1 f2 f3 f4]]].
have blk x y z x' : t = x ++ y ++ z -> all blank x -> all blank z -> nilp y -> t = x' -> all blank x'.
  by move=> -> h1 h2 /nilP -> <-; rewrite !all_cat h1 h2.
case n1: (nilp u); case n2: (nilp u').
- by rewrite (nilP n1) (nilP n2).
- have := blk _ _ _ _ e1 e2 e3 n1 f1; rewrite !all_cat => /andP [_ /andP [h _]].
  by case: u' h f4 n2 {f1} => [|c w] //= /andP [h _] f4 _; have := f4 c w (or_introl erefl); rewrite h.
- have := blk _ _ _ _ f1 f2 f3 n2 e1; rewrite !all_cat => /andP [_ /andP [h _]].
  by case: u h e4 n1 {e1} => [|c w] //= /andP [h _] e4 _; have := e4 c w (or_introl erefl); rewrite h.
have E : u ++ b = u' ++ b'.
  have hd x y c w : ~~ nilp x -> x ++ y = c :: w -> exists w', x = c :: w' by case: x => [|d x] //= _ [-> _]; exists x.
  apply: (@trim_lead a a'); rewrite -?e1 -?f1 //; try by rewrite /nilp size_cat addn_eq0 negb_and -/(nilp _) ?n1 ?n2.
    by move=> c w /(hd _ _ _ _ _ (negbT n1)) [w' e]; apply: (e4 c w'); left.
  by move=> c w /(hd _ _ _ _ _ (negbT n2)) [w' e]; apply: (f4 c w'); left.
apply: (can_inj revK); apply: (@trim_lead (rev b) (rev b')); rewrite ?all_rev -?rev_cat ?E //.
- by move=> c w e; apply: (e4 c (rev w)); right; rewrite -rev_cons -e revK.
- by move=> c w e; apply: (f4 c (rev w)); right; rewrite -rev_cons -e revK.
- by rewrite /nilp size_rev -/(nilp _) n1.
- by rewrite /nilp size_rev -/(nilp _) n2.
Qed.
Lemma constraintP c s v q : constraint c s = Ok (v, q) <-> constrains ptree s v q /\ exists e, resolve_eqn c q = Ok e.
Proof.
rewrite /M_Text.constraint /constrains; split.
  case es: (split_eq s) => [|l [|r []]] //; case: ifP => // sp; case e: sides => [q'|] //= [<- <-].
  have [h1 h2 h3] := (sidesP _ _ _ _).1 e; split=> //; exists l, r, (strip l); have [-> n1 n2] := (split_two s l r).1 es.
  by split=> //; [exact: strip_trimmed | split=> //; rewrite -[_ \in _]/(has_space _) sp].
move=> [[l [r [n [es n1 n2 /trimmed_fun -/(_ _ (strip_trimmed l)) -> [-> n3 h1 h2]]]]] h3].
rewrite ((split_two s l r).2 (And3 es n1 n2)) /has_space (negPf n3).
by rewrite (_ : sides _ _ _ _ = Ok q) //; apply/sidesP.
Qed.
Lemma constraint_err c s x : constraint c s = Err x -> x = SyntaxErr.
Proof.
rewrite /M_Text.constraint; case: (split_eq s) => [|l [|r []]] //=; try by move=> [<-].
  by case: ifP => // _; [case=> <-|case e: sides => [q'|y] //= [<-]; apply: sides_err e].
by move=> ? ? [<-].
Qed.
Lemma observableP c o e : observable c o = Ok e <-> [/\ e.1 = o.1, ptree o.2 = Some e.2 & exists x, resolve_obs c e = Ok x].
Proof.
rewrite /M_Text.observable /resolve_obs; split.
  by case: (ptree o.2) => [t|] //; case er: resolve => [x|] // [<-]; split; rewrite // er; eexists.
by case: e => n t [/= -> ->] [x]; case: (resolve c t).
Qed.

Lemma ctxE (f : rawfile F) (m : rawmodel F) : declares ptree f m -> context m = f_ctx f.
Proof. by case=> h1 _ h2 h3 h4 _ _ _; rewrite /f_ctx /context /= h1 h2 h3 h4. Qed.

Lemma pairwise_all A B (R : A -> B -> Prop) (S : B -> Prop) xs ys : pairwise (fun x y => R x y /\ S y) xs ys -> forall y, List.In y ys -> S y.
Proof. by elim: xs ys => [|x xs IH] [|y ys] //= [[h1 h2] h3] z [<-|/(IH _ h3)]. Qed.

Lemma fileP f p : parse_file f = Ok (Some p) <-> exists m, declares ptree f m /\ parse m = Ok p.
Proof.
split.
  rewrite /M_Text.parse_file; case: hasP => //= nsp.
  case ec: (constraints f) => [[|s []]|] //=; last first.
    case: eqP => // _; case: mapM => [eqs|] //=; case: mapM => //= es; case: expand => //= ev; by case: mapM.
  case ecs: constraint => [[v q]|] //=; case: eqP => // sz; case ee: mapM => [eqs|] //=.
  case: parse => [p0|] //=; case eo: mapM => [obs|] //=; case ep: parse => [p'|] //= [<-].
  eexists; split; last exact: ep.
  split=> //=.
  - by move=> w wi; apply/negP=> h; apply: nsp; exists w.
  - by rewrite mlE; move/mapM_pair: ee; apply: pairwise_imp => x y /equationP [].
  - by exists s; rewrite clE; split=> //; have [] := (constraintP _ _ _ _).1 ecs.
  - by rewrite olE; move/mapM_pair: eo; apply: pairwise_imp => x y /observableP [].
move=> [m [d ep]]; have ctx := ctxE d; case: m d ep ctx => vs ps sh ot eqs cv cq ob [/= -> dsp -> -> -> de [s [ec ecs]] dob] ep ctx.
rewrite mlE in de; rewrite clE in ec; rewrite olE in dob.
rewrite /M_Text.parse_file (_ : has _ _ = false) /=; last by apply/hasPn => v vi; apply: dsp.
set m0 := fun ob0 => RawModel [seq str v | v <- f_vars f] [seq p.1 | p <- f_pars f] (f_shks f) (f_oths f) eqs cv cq ob0.
have ctx0 ob0 : context (m0 ob0) = f_ctx f by [].
have [ceq [eqs' [ev [obs' [erc sz er ex eo]]]]] : exists ceq eqs' ev obs', [/\ resolve_eqn (f_ctx f) cq = Ok ceq,
   ((size eqs).+1 == size [seq str v | v <- f_vars f])%N, mapM (resolve_eqn (f_ctx f)) eqs = Ok eqs',
   expand eqs' [seq str v | v <- f_vars f] (f_shks f) = Ok ev & mapM (resolve_obs (f_ctx f)) ob = Ok obs'].
  move: ep; rewrite /parse ctx /=; case: resolve_eqn => [ceq|] //=; case: ifP => //= sz.
  case er: mapM => [eqs'|] //=; case ex: expand => [ev|] //=; case eo: mapM => [obs'|] //= _.
  by exists ceq, eqs', ev, obs'.
rewrite ec.
have -> : constraint (f_ctx f) s = Ok (cv, cq) by apply/constraintP; split=> //; exists ceq.
rewrite [rbind (Ok (cv, cq)) _]/= [rbind (Ok _) _]/= (pairwise_size de) -(size_map str) sz.
have -> : mapM (equation (f_ctx f)) (equations f) = Ok eqs.
  by apply/mapM_pair; apply: pairwise_imp (pairwise_r de er) => x y h; apply/equationP.
have -> : mapM (observable (f_ctx f)) (observables f) = Ok ob.
  apply/mapM_pair; apply: pairwise_imp (pairwise_r dob eo) => x y [[h1 h2] h3]; by apply/observableP.
rewrite [rbind (Ok eqs) _]/= -!/(m0 _) (_ : parse (m0 [::]) = Ok (Parsed ev.1 ev.2 [seq p.1 | p <- f_pars f] (f_oths f) (f_shks f) cv ceq [::])).
  by rewrite [rbind (Ok _) _]/= ep.
by rewrite /parse ctx0 /= erc /= sz er /= ex.
Qed.
Lemma reads_fun s q q' : reads ptree s q -> reads ptree s q' -> q = q'.
Proof.
case: q q' => [a b] [a' b'] [[l [r [es n1 n2 /= h1 h2]]]|[n1 /= h1 ->]] [[l' [r' [es' n1' n2' /= h1' h2']]]|[n1' /= h1' ->]].
- have e1 := (split_two s l r).2 (And3 es n1 n2); have e2 := (split_two s l' r').2 (And3 es' n1' n2').
  move: e1; rewrite e2 => -[el er]; by move: h1' h2'; rewrite el er h1 h2 => -[->] [->].
- by move: n1'; rewrite es mem_cat inE eqxx orbT.
- by move: n1; rewrite es' mem_cat inE eqxx orbT.
- by move: h1'; rewrite h1 => -[->].
Qed.
Lemma declares_fun f m m' : declares ptree f m -> declares ptree f m' -> m = m'.
Proof.
case: m m' => vs ps sh ot eqs cv cq ob [vs' ps' sh' ot' eqs' cv' cq' ob'] [/= -> _ -> -> -> de [s [ec ecs]] dob] [/= -> _ -> -> -> de' [s' [ec' ecs']] dob'].
rewrite (pairwise_fun reads_fun de de') (pairwise_fun _ dob dob'); last first.
  by move=> x [n e] [n' e'] [/= -> h] [/= -> h']; move: h'; rewrite h => -[->].
move: ec'; rewrite ec => -[es]; rewrite -es in ecs' => {es}.
have [l [r [n [e1 n1 n2 tn [-> _ h1 h2]]]]] := ecs; have [l' [r' [n' [e1' n1' n2' tn' [-> _ h1' h2']]]]] := ecs'.
have f1 := (split_two s l r).2 (And3 e1 n1 n2); have := (split_two s l' r').2 (And3 e1' n1' n2'); rewrite f1 => -[el er].
rewrite -el in tn'; rewrite (trimmed_fun tn tn').
move: h1' h2'; rewrite -el -er h1 h2 => -[E1] [E2].
by rewrite (surjective_pairing cq) (surjective_pairing cq') E1 E2.
Qed.

(** ** rejected files *)
Lemma file_space f v : v \in f_vars f -> " "%char \in v -> parse_file f = Err SyntaxErr.
Proof. by move=> vi sp; rewrite /M_Text.parse_file (_ : has _ _ = true) //; apply/hasP; exists v. Qed.

(** the steps of an accepted file *)
Lemma fileQ f p : parse_file f = Ok p ->
  [/\ ~~ has has_space (f_vars f),
      constraints f = None \/ (exists s x, constraints f = Some [:: s] /\ constraint (f_ctx f) s = Ok x),
      (size (equations f)).+1 = size (f_vars f) & exists eqs, mapM (equation (f_ctx f)) (equations f) = Ok eqs].
Proof.
rewrite /M_Text.parse_file; case: (has _ _) => //=; case ec: (constraints f) => [[|s []]|] //=.
  case ecs: constraint => [x|] //=; case: eqP => //= sz; case ee: mapM => [eqs|] //= _.
  by split=> //; [right; exists s, x|exists eqs].
by case: eqP => //= sz; case ee: mapM => [eqs|] //= _; split=> //; [left|exists eqs].
Qed.
Lemma weE (f : rawfile F) l : [/\ f_vars (with_equations f l) = f_vars f, f_ctx (with_equations f l) = f_ctx f,
  constraints (with_equations f l) = constraints f & equations (with_equations f l) = l].
Proof. by rewrite /constraints /equations /with_equations /=; case: (f_eqs f). Qed.
Lemma wcE (f : rawfile F) l : [/\ f_vars (with_constraints f l) = f_vars f, f_ctx (with_constraints f l) = f_ctx f,
  constraints (with_constraints f l) = Some l & equations (with_constraints f l) = equations f].
Proof. by rewrite /constraints /equations /with_constraints /=; case: (f_eqs f) => [|[]]. Qed.

Lemma file_eqs_err f p l x : parse_file f = Ok p -> size l = size (equations f) -> mapM (equation (f_ctx f)) l = Err x ->
  parse_file (with_equations f l) = Err x.
Proof.
move=> /fileQ [nsp hc sz _] sl em; have [e1 e2 e3 e4] := weE f l.
rewrite /M_Text.parse_file e1 e2 e3 e4 (negPf nsp) /=.
by case: hc => [->|[s [y [-> /= ->]]]]; rewrite /= sl sz eqxx /= em.
Qed.
Lemma file_bad_eq f p pre s post s' x : parse_file f = Ok p -> equations f = pre ++ s :: post -> equation (f_ctx f) s' = Err x ->
  parse_file (with_equations f (pre ++ s' :: post)) = Err x.
Proof.
move=> ef ee es; apply: (file_eqs_err ef); first by rewrite ee !size_cat.
have [_ _ _ [eqs em]] := fileQ ef; move: em; rewrite ee => /mapM_cat_ok [us eu]; exact: mapM_cat_err eu es.
Qed.
Lemma equation_many c s : (1 < count_mem "="%char s)%N -> equation c s = Err ValueError.
Proof.
move=> h; rewrite /M_Text.equation (_ : _ \in s); last by rewrite -has_pred1 has_count (ltn_trans _ h).
by have := split_size s; case: (split_eq s) => [|a [|b [|d l]]] //= [e]; rewrite -e in h.
Qed.
Lemma equation_bad c s : (count_mem "="%char s <= 1)%N -> (forall q, ~ reads ptree s q) -> equation c s = Err SyntaxErr.
Proof.
move=> h n; case e: (equation c s) => [q|x]; first by have [/n] := (equationP _ _ _).1 e.
move: e; rewrite /M_Text.equation; case: ifP => si; last by move/sides_err ->.
case es: (split_eq s) (split_size s) => [|a [|b [|d l]]] //= [e].
- by have [_] := split_one es; rewrite si.
- by move/sides_err ->.
- by rewrite -e in h.
Qed.
End Files.
