(** C137: printing a model. *)
Set Warnings "-all".
From Coq Require Import String Ascii.
From mathcomp Require Import all_ssreflect.
From Verif Require Import PyBase PyStr M_Dump S_Dump.
Set Implicit Arguments. Unset Strict Implicit. Unset Printing Implicit Defensive.
Notation app := String.append.

(** induction over objects and outlines *)
Fixpoint obj_ind2 (P : obj -> Prop)
  (hd : forall kvs, (forall kv, List.In kv kvs -> P kv.2) -> P (ODict kvs)) (hs : forall b vs, (forall v, List.In v vs -> P v) -> P (OSeq b vs))
  (he : forall l r, P (OEq l r)) (ht : forall s, P (OStr s)) (ho : forall s, P (OOther s)) (o : obj) : P o :=
  let rec := obj_ind2 hd hs he ht ho in
  match o with
  | ODict kvs => hd kvs ((fix f l : forall kv, List.In kv l -> P kv.2 :=
      match l with [::] => fun _ h => False_ind _ h
                 | x :: l' => fun kv h => match h with or_introl e => eq_ind x (fun y => P y.2) (rec x.2) kv e | or_intror h' => f l' kv h' end end) kvs)
  | OSeq b vs => hs b vs ((fix f l : forall v, List.In v l -> P v :=
      match l with [::] => fun _ h => False_ind _ h
                 | x :: l' => fun v h => match h with or_introl e => eq_ind x P (rec x) v e | or_intror h' => f l' v h' end end) vs)
  | OEq l r => he l r | OStr s => ht s | OOther s => ho s
  end.
Fixpoint outline_ind2 (P : outline -> Prop) (he : forall l, P (Entry l))
  (hg : forall l ts c, (forall t, List.In t ts -> P t) -> P (Group l ts c)) (t : outline) : P t :=
  match t with
  | Entry l => he l
  | Group l ts c => hg l ts c ((fix f l : forall t, List.In t l -> P t :=
      match l with [::] => fun _ h => False_ind _ h
                 | x :: l' => fun v h => match h with or_introl e => eq_ind x P (outline_ind2 he hg x) v e | or_intror h' => f l' v h' end end) ts)
  end.

Lemma appA a b c : app a (app b c) = app (app a b) c. Proof. by elim: a => //= x a ->. Qed.
Lemma app0 a : app a ""%string = a. Proof. by elim: a => //= x a ->. Qed.
Lemma blanksD m n : blanks (m + n) = app (blanks m) (blanks n). Proof. by elim: m => //= m ->. Qed.

(** a call that returns prints the layout *)
Lemma name_label k : (if k is KOther then false else true) -> name_and_eq k ":" = Ok (label k). Proof. by case: k. Qed.
Lemma fold_prints T (f : T -> out) (g : T -> seq string) l : (forall x, List.In x l -> f x = (g x, Ok tt)) ->
  foldr (fun x acc => andthen (f x) acc) ([::], Ok tt) l = (flatten [seq g x | x <- l], Ok tt).
Proof.
elim: l => //= x l IH h; rewrite IH; first by rewrite h ?/andthen //=; left.
by move=> y yi; apply: h; right.
Qed.
Lemma flat_in T (p : T -> bool) l x : all p l -> List.In x l -> p x.
Proof. by elim: l => //= y l IH /andP [py al] [<-//|]; apply: IH. Qed.
Lemma move_all cur (ts : seq outline) : flatten [seq [seq app (blanks (cur + 4)) x | x <- layout t] | t <- ts] =
  [seq app (blanks cur) x | x <- [seq move_right x | x <- flatten [seq layout u | u <- ts]]].
Proof.
rewrite -map_comp; elim: ts => //= t ts ->; rewrite map_cat; congr cat.
by apply: eq_map => x /=; rewrite blanksD -appA.
Qed.
Lemma dumper_layout o : forall k eq cur ne, text_keys o -> name_and_eq k eq = Ok ne ->
  dumper o k eq 4 cur = ([seq app (blanks cur) x | x <- layout (view ne o)], Ok tt).
Proof.
elim/obj_ind2: o => [kvs IH|b vs IH|l r|s|s] k eq cur ne /= tk -> //.
  have -> : foldr (fun kv acc => andthen (dumper kv.2 kv.1 ":" 4 (cur + 4)) acc) ([::], Ok tt) kvs =
     (flatten [seq [seq app (blanks (cur + 4)) x | x <- layout (view (label kv.1) kv.2)] | kv <- kvs], Ok tt).
    apply: (fold_prints (g := fun kv => [seq app (blanks (cur + 4)) x | x <- layout (view (label kv.1) kv.2)])) => kv ki.
    by have /andP [t1 t2] := flat_in tk ki; apply: IH => //; apply: name_label.
  have -> : [seq [seq app (blanks (cur + 4)) x | x <- layout (view (label kv.1) kv.2)] | kv <- kvs] =
    [seq [seq app (blanks (cur + 4)) x | x <- layout t] | t <- [seq view (label kv.1) kv.2 | kv <- kvs]] by rewrite -map_comp.
  by rewrite move_all /andthen /= map_cat.
have -> : foldr (fun v acc => andthen (dumper v KNone "=" 4 (cur + 4)) acc) ([::], Ok tt) vs =
   (flatten [seq [seq app (blanks (cur + 4)) x | x <- layout (view ""%string v)] | v <- vs], Ok tt).
  apply: (fold_prints (g := fun v => [seq app (blanks (cur + 4)) x | x <- layout (view ""%string v)])) => v vi.
  by apply: IH => //; apply: flat_in tk vi.
have -> : [seq [seq app (blanks (cur + 4)) x | x <- layout (view ""%string v)] | v <- vs] =
  [seq [seq app (blanks (cur + 4)) x | x <- layout t] | t <- [seq view ""%string v | v <- vs]] by rewrite -map_comp.
by rewrite move_all /andthen; case: b => /=; rewrite map_cat.
Qed.

(** C137: if all keys are texts (or None), the call returns and has printed the outline of the object *)
Theorem C137_layout o : text_keys o -> dump o = (layout (view ""%string o), Ok tt).
Proof. by move=> tk; rewrite /dump (@dumper_layout _ _ _ _ ""%string) //= map_id. Qed.

(** C137: a key that is no text makes it raise TypeError, and nothing else does *)
Lemma fold_err T (f : T -> out) l : (forall x, List.In x l -> (f x).2 = Ok tt \/ (f x).2 = Err TypeError) -> (exists2 x, List.In x l & (f x).2 = Err TypeError) ->
  (foldr (fun x acc => andthen (f x) acc) ([::], Ok tt) l).2 = Err TypeError.
Proof.
elim: l => [|x l IH] h [y /= yi ey] //; rewrite /andthen; have [ex|->] := h x (or_introl erefl); last by [].
rewrite ex; apply: IH; first by move=> z zi; apply: h; right.
by case: yi => [e|yi]; [move: ey; rewrite -e ex | exists y].
Qed.
Lemma not_all T (p : T -> bool) l : ~~ all p l -> exists2 x, List.In x l & ~~ p x.
Proof. by elim: l => //= x l IH; rewrite negb_and => /orP [px|/IH [y yi py]]; [exists x => //; left | exists y => //; right]. Qed.
Lemma dumper_fails o : forall k eq cur ne, ~~ text_keys o -> name_and_eq k eq = Ok ne -> (dumper o k eq 4 cur).2 = Err TypeError.
Proof.
have whole a (b : out) c : b.2 = Err TypeError -> (andthen (say a) (andthen b (say c))).2 = Err TypeError by case: b => x y /= ->.
elim/obj_ind2: o => [kvs IH|b vs IH|l r|s|s] k eq cur ne //= tk ->; apply: (whole).
  apply: (fold_err (f := fun kv => dumper kv.2 kv.1 ":" 4 (cur + 4))) => [kv ki|].
    case ek: (kv.1) => [s||]; last by right; case: (kv.2).
    + case t2: (text_keys kv.2); first by left; rewrite (@dumper_layout _ _ _ _ (label (KText s))).
      by right; apply: (IH kv ki _ _ _ (label (KText s))) => //; rewrite t2.
    case t2: (text_keys kv.2); first by left; rewrite (@dumper_layout _ _ _ _ (label KNone)).
    by right; apply: (IH kv ki _ _ _ (label KNone)) => //; rewrite t2.
  have [kv ki] := not_all tk; case ek: (kv.1) => [s||] /= nb; exists kv => //; rewrite ek; last by case: (kv.2).
  + by apply: (IH kv ki _ _ _ (label (KText s))).
  by apply: (IH kv ki _ _ _ (label KNone)).
apply: (fold_err (f := fun v => dumper v KNone "=" 4 (cur + 4))) => [v vi|].
  case t2: (text_keys v); first by left; rewrite (@dumper_layout _ _ _ _ ""%string).
  by right; apply: (IH v vi _ _ _ ""%string) => //; rewrite t2.
by have [v vi nv] := not_all tk; exists v => //; apply: (IH v vi _ _ _ ""%string).
Qed.
Theorem C137_fails o : (dump o).2 = Err TypeError <-> ~~ text_keys o.
Proof.
split=> [e|h]; last exact: (@dumper_fails _ _ _ _ ""%string).
by apply/negP => h; move: e; rewrite C137_layout.
Qed.

Lemma all_in T (p : T -> bool) l : (forall x, List.In x l -> p x) -> all p l.
Proof. by elim: l => //= x l IH h; rewrite h ?IH //; [move=> y yi; apply: h; right | left]. Qed.
(** C137: what has been printed when it fails is the beginning of the outline *)
Definition starts (a b : out) : Prop := b.2 = Ok tt /\ (a = b \/ exists2 r, b.1 = a.1 ++ r & a.2 = Err TypeError).
Lemma starts_then a b c d : starts a b -> starts c d -> starts (andthen a c) (andthen b d).
Proof.
move: a b c d => [la ra] [lb rb] [lc rc] [ld rd] [/= -> ha] [/= -> hc]; split; first by [].
case: ha => [[-> ->]|[r /= -> ->]]; rewrite /andthen /=; last by right; exists (r ++ ld); rewrite // catA.
by case: hc => [[-> ->]|[r /= -> ->]]; [left | right; exists r; rewrite // catA].
Qed.
Lemma starts_fold T U (f : T -> out) (g : U -> out) (h : T -> U) l : (forall x, List.In x l -> starts (f x) (g (h x))) ->
  starts (foldr (fun x acc => andthen (f x) acc) ([::], Ok tt) l) (foldr (fun x acc => andthen (g x) acc) ([::], Ok tt) [seq h x | x <- l]).
Proof.
elim: l => [|x l IH] H /=; first by split=> //; left.
by apply: starts_then; [apply: H; left | apply: IH => y yi; apply: H; right].
Qed.
Lemma starts_refl t : starts (say t) (say t). Proof. by split=> //; left. Qed.
Lemma dumper_starts o : forall k eq cur ne, name_and_eq k eq = Ok ne -> starts (dumper o k eq 4 cur) (dumper (clean o) k eq 4 cur).
Proof.
elim/obj_ind2: o => [kvs IH|b vs IH|l r|s|s] k eq cur ne /= ->; try exact: starts_refl.
  apply: starts_then; first exact: starts_refl; apply: starts_then; last exact: starts_refl.
  apply: (starts_fold (f := fun kv => dumper kv.2 kv.1 ":" 4 (cur + 4)) (g := fun kv => dumper kv.2 kv.1 ":" 4 (cur + 4))) => kv ki /=.
  case ek: (kv.1) => [s||] /=; [exact: (IH kv ki _ _ _ (label (KText s))) | exact: (IH kv ki _ _ _ (label KNone)) |].
  have [e _] := IH kv ki KNone ":"%string (cur + 4) ""%string erefl; split=> //.
  by right; exists (dumper (clean kv.2) KNone ":" 4 (cur + 4)).1; case: (kv.2).
apply: starts_then; first exact: starts_refl; apply: starts_then; last exact: starts_refl.
by apply: (starts_fold (f := fun v => dumper v KNone "=" 4 (cur + 4)) (g := fun v => dumper v KNone "=" 4 (cur + 4))) => v vi; apply: (IH v vi _ _ _ ""%string).
Qed.
Theorem C137_beginning o : ~~ text_keys o -> exists2 r, layout (view ""%string (clean o)) = (dump o).1 ++ r & (dump o).2 = Err TypeError.
Proof.
move=> nt; have [_ h] := @dumper_starts o KNone "="%string 0 ""%string erefl.
have tc : text_keys (clean o).
  elim/obj_ind2: (o) => [kvs IH|b vs IH|l r|s|s] //=; rewrite all_map; apply/(@all_in _ _ _).
    by move=> kv ki /=; rewrite IH // andbT; case: (kv.1).
  by move=> v vi /=; apply: IH.
have := C137_layout tc; rewrite /dump => e; case: h => [h|[r h1 h2]]; last by exists r; rewrite // -h1 e.
by have /C137_fails := nt; rewrite /dump h e.
Qed.

(** C137: what is printed determines the outline: the nesting, the order and the labels *)
Lemma last_app c s t : last_char c (app s t) = last_char (last_char c s) t. Proof. by elim: s c => //=. Qed.
Fixpoint good (t : outline) : bool :=
  match t with
  | Entry l => ~~ ends_open l
  | Group l ts c => [&& ends_open l, all good ts & if c is String a _ then ~~ Ascii.eqb a " " else false]
  end.
Definition front_ok (f : string) : bool := Ascii.eqb (last_char " " f) " ".
Lemma label_ok k : front_ok (label k). Proof. by case: k => //= s; rewrite /front_ok last_app. Qed.
Lemma ends_app f s : front_ok f -> ends_open (app f s) = ends_open s.
Proof. by rewrite /front_ok /ends_open last_app => /Ascii.eqb_spec ->. Qed.
Lemma view_good o f : plain_texts o -> front_ok f -> good (view f o).
Proof.
elim/obj_ind2: o f => [kvs IH|b vs IH|l r|s|s] f /= pt fo.
- rewrite ends_app //= andbT all_map; apply: all_in => kv ki /=; apply: IH => //; [exact: flat_in pt ki | exact: label_ok].
- by case: b => /=; rewrite ends_app //= andbT all_map; apply: all_in => v vi /=; apply: IH => //; exact: flat_in pt vi.
- by rewrite ends_app // /ends_open last_app.
- by rewrite ends_app // /ends_open /= last_app.
- by rewrite ends_app.
Qed.
Lemma move_inj : injective move_right. Proof. by move=> x y []. Qed.
Lemma split_close a b c1 c2 (r1 r2 : seq string) :
  (if c1 is String x _ then ~~ Ascii.eqb x " " else false) -> (if c2 is String x _ then ~~ Ascii.eqb x " " else false) ->
  [seq move_right x | x <- a] ++ c1 :: r1 = [seq move_right x | x <- b] ++ c2 :: r2 -> [/\ a = b, c1 = c2 & r1 = r2].
Proof.
move=> h1 h2; elim: a b => [|x a IH] [|y b] /=.
- by case=> -> ->.
- by case=> e; move: h1; rewrite e.
- by case=> e; move: h2; rewrite -e.
- by case=> e /IH [-> -> ->]; rewrite e.
Qed.
Lemma layout_prefix t1 : forall t2 r1 r2, good t1 -> good t2 -> layout t1 ++ r1 = layout t2 ++ r2 -> t1 = t2 /\ r1 = r2.
Proof.
elim/outline_ind2: t1 => [l|l ts c IH] [l2|l2 ts2 c2] r1 r2 /=.
- by move=> _ _ [-> ->].
- by move=> h1 /and3P [h2 _ _] [e _]; move: h1; rewrite e h2.
- by move=> /and3P [h2 _ _] h1 [e _]; move: h1; rewrite -e h2.
move=> /and3P [_ g1 b1] /and3P [_ g2 b2] [->]; rewrite -!catA /= => /(split_close b1 b2) [ef -> ->]; split=> //; congr Group.
elim: ts ts2 IH g1 g2 ef => [|t ts IHs] [|u us] IH //=.
- by move=> _ _; case: u.
- by move=> _ _; case: (t).
move=> /andP [gt g1] /andP [gu g2] e; have [-> e2] := IH t (or_introl erefl) u _ _ gt gu e; congr cons.
by apply: IHs => // x xi; apply: IH; right.
Qed.
Theorem C137_readable o1 o2 : text_keys o1 -> text_keys o2 -> plain_texts o1 -> plain_texts o2 ->
  (dump o1).1 = (dump o2).1 -> view ""%string o1 = view ""%string o2.
Proof.
move=> t1 t2 p1 p2; rewrite !C137_layout //= => e.
by have [] := @layout_prefix (view ""%string o1) (view ""%string o2) [::] [::]; rewrite ?cats0 ?view_good.
Qed.
(** C137: so does the text on the screen, if no key and no text has line breaks *)
Lemma one_app a b : one_line (app a b) = one_line a && one_line b. Proof. by elim: a => //= c a ->; rewrite andbA. Qed.
Lemma view_one o f : no_breaks o -> one_line f -> all one_line (layout (view f o)).
Proof.
have mv l : all one_line l -> all one_line [seq move_right x | x <- l] by rewrite all_map; apply: sub_all => x xo; rewrite /= xo.
have fl T (g : T -> seq string) l : (forall x, List.In x l -> all one_line (g x)) -> all one_line (flatten [seq g x | x <- l]).
  by elim: l => //= x l IH h; rewrite all_cat h ?IH //; [move=> y yi; apply: h; right | left].
elim/obj_ind2: o f => [kvs IH|b vs IH|l r|s|s] f /= pt fo.
- rewrite one_app fo /= all_cat andbT -map_comp mv //; apply: fl => kv ki /=; have /andP [ko vo] := flat_in pt ki; apply: IH => //.
  by case: (kv.1) ko => //= s so; rewrite one_app so.
- case: b => /=; rewrite one_app fo /= all_cat andbT -map_comp mv //; apply: fl => v vi /=; apply: IH => //; exact: flat_in pt vi.
- by case/andP: pt => lo ro; rewrite !one_app fo lo /= ro.
- by rewrite one_app fo /= one_app pt.
- by rewrite one_app fo pt.
Qed.
Lemma screen_inj l1 l2 : all one_line l1 -> all one_line l2 -> screen l1 = screen l2 -> l1 = l2.
Proof.
have line a b r1 r2 : one_line a -> one_line b -> app a (String newline r1) = app b (String newline r2) -> a = b /\ r1 = r2.
  elim: a b => [|c a IH] [|c2 b] //=.
  - by move=> _ _ [->].
  - by move=> _ /andP [h _] [e _]; move: h; rewrite -e.
  - by move=> /andP [h _] _ [e _]; move: h; rewrite e.
  by move=> /andP [_ ao] /andP [_ bo] [-> e]; have [-> ->] := IH _ ao bo e.
have full x r : app x (String newline r) <> ""%string by case: x.
elim: l1 l2 => [|x l1 IH] [|y l2] //=.
- by move=> _ _ e; case: (full y (screen l2)).
- by move=> _ _ e; case: (full x (screen l1)).
by move=> /andP [xo o1] /andP [yo o2] e; have [-> e2] := line _ _ _ _ xo yo e; rewrite (IH l2).
Qed.
Theorem C137_text o1 o2 : text_keys o1 -> text_keys o2 -> plain_texts o1 -> plain_texts o2 -> no_breaks o1 -> no_breaks o2 ->
  screen (dump o1).1 = screen (dump o2).1 -> view ""%string o1 = view ""%string o2.
Proof.
move=> t1 t2 p1 p2 n1 n2 e; apply: C137_readable => //; move: e; rewrite !C137_layout //=.
by apply: screen_inj; apply: view_one.
Qed.
Print Assumptions C137_text.
Print Assumptions C137_layout.
Print Assumptions C137_fails.
Print Assumptions C137_beginning.
Print Assumptions C137_readable.

Module Ex.
Local Open Scope string_scope.
Definition model : obj := ODict [:: (KText "var_ordering", OSeq BList [:: OOther "x"; OOther "y"]); (KText "equations", OSeq BList [:: OEq "x" "y(1)"]);
  (KText "info", ODict [:: (KText "nshock", OOther "1")]); (KText "mod_name", OStr "small")].
Example conditions : [&& text_keys model, plain_texts model & no_breaks model]. Proof. by []. Qed.
Example lines : (dump model).1 = [:: "{"; "    var_ordering : ["; "        x"; "        y"; "    ]"; "    equations : ["; "        x = y(1)"; "    ]";
  "    info : {"; "        nshock : 1"; "    }"; "    mod_name : 'small'"; "}"].
Proof. by []. Qed.
(** the YAML key [no] is a boolean *)
Definition bad : obj := ODict [:: (KText "calibration", ODict [:: (KText "a", OOther "1"); (KOther, OOther "2")])].
Example bad_fails : dump bad = ([:: "{"; "    calibration : {"; "        a : 1"], Err TypeError). Proof. by []. Qed.
End Ex.

(** C137, violated: sets and dicts are printed alike *)
Theorem C137_refuted : exists o1 o2, [/\ text_keys o1, text_keys o2, o1 <> o2 & dump o1 = dump o2].
Proof. by exists (ODict [::]), (OSeq BSet [::]); split. Qed.
(** C137, violated: texts are printed as they are, so that the file, which a model contains as a text, can look like entries *)
Theorem C137_breaks_refuted : exists o1 o2, [/\ text_keys o1 && text_keys o2, plain_texts o1 && plain_texts o2, view "" o1 <> view "" o2 &
  screen (dump o1).1 = screen (dump o2).1].
Proof.
pose s := app "a'" (String newline "    'b").
by exists (OSeq BList [:: OStr s]), (OSeq BList [:: OStr "a"; OStr "b"]); split.
Qed.
Print Assumptions C137_refuted.
Print Assumptions C137_breaks_refuted.
