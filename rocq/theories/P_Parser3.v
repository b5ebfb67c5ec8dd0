(** Differentiation and the coefficient matrices. *)
Set Warnings "-all".
From Coq Require Import String.
From mathcomp Require Import all_ssreflect all_algebra.
From Verif Require Import PyBase PyStr M_Parser S_Parser P_Parser.
Set Implicit Arguments. Unset Strict Implicit. Unset Printing Implicit Defensive.
Import GRing.Theory Num.Theory Order.TTheory.
Local Open Scope ring_scope.

Section P3.
Variable F : fieldType.
Implicit Types (ex fx : expr F sym) (q : eqn F).

Lemma is0E v ex : is0 ex -> eval v ex = 0.
Proof. by case: ex => //= c /eqP. Qed.
Lemma eval_sadd v ex fx : eval v (sadd ex fx) = eval v ex + eval v fx.
Proof. by rewrite /sadd; case: ifP => [/(is0E v) -> |_]; rewrite ?add0r //; case: ifP => [/(is0E v) ->|] //; rewrite addr0. Qed.
Lemma eval_sopp v ex : eval v (sopp ex) = - eval v ex.
Proof. by case: ex. Qed.
Lemma eval_smul v ex fx : eval v (smul ex fx) = eval v ex * eval v fx.
Proof. by rewrite /smul; case: ifP => // /orP [] /(is0E v) ->; rewrite ?mul0r ?mulr0. Qed.
Lemma atoms_sadd ex fx a : a \in atoms (sadd ex fx) -> a \in atoms ex ++ atoms fx.
Proof. by rewrite /sadd; case: ifP => [_ h|_]; first (by rewrite mem_cat h orbT); case: ifP => [_ h|//]; rewrite mem_cat h. Qed.
Lemma atoms_sopp ex : atoms (sopp ex) = atoms ex. Proof. by case: ex. Qed.

Lemma diff0 a ex : a \notin atoms ex -> diff a ex = Cst 0.
Proof.
elim: ex => //= [b|e IHe f IHf|e IHe f IHf|e IHe f IHf|e IHe|e IHe].
- by rewrite inE => /negbTE ->.
- by rewrite mem_cat negb_or => /andP [/IHe -> /IHf ->]; rewrite /sadd /= eqxx.
- by rewrite mem_cat negb_or => /andP [/IHe -> /IHf ->]; rewrite /sadd /= eqxx oppr0.
- by rewrite mem_cat negb_or => /andP [/IHe -> /IHf ->]; rewrite /sadd /smul /= eqxx orbT /= eqxx.
- by move/IHe=> -> /=; rewrite oppr0.
- by move/IHe=> -> /=; rewrite /smul /= oppr0 eqxx.
Qed.

Lemma free_notin a ex : free_of_dated ex -> dated a -> a \notin atoms ex.
Proof. by move=> /hasPn H da; apply: contraL da => /H. Qed.

Lemma diff_free a ex : dated a -> free_of_dated ex -> diff a ex = Cst 0.
Proof. by move=> da fe; apply: diff0; apply: free_notin. Qed.

Lemma free_sadd ex fx : free_of_dated ex -> free_of_dated fx -> free_of_dated (sadd ex fx).
Proof. by move=> h1 h2; apply/hasPn=> b /atoms_sadd; rewrite mem_cat => /orP [bi|bi]; [exact: (hasPn h1) | exact: (hasPn h2)]. Qed.
Lemma free_smul ex fx : free_of_dated ex -> free_of_dated fx -> free_of_dated (smul ex fx).
Proof.
move=> h1 h2; rewrite /smul; case: ifP => // _.
by apply/hasPn=> b; rewrite /= mem_cat => /orP [bi|bi]; [exact: (hasPn h1) | exact: (hasPn h2)].
Qed.
Lemma smul0 ex : smul (Cst 0) ex = Cst 0. Proof. by rewrite /smul /= eqxx. Qed.
Lemma mul0s ex : smul ex (Cst 0) = Cst 0. Proof. by rewrite /smul /= eqxx orbT. Qed.

(** the derivative of an affine expression contains parameters only *)
Lemma diff_atoms a ex : dated a -> affine ex -> free_of_dated (diff a ex).
Proof.
move=> da; elim: ex => //= [e IHe f IHf|e IHe f IHf|e IHe f IHf|e IHe|e IHe].
- by move=> /andP [/IHe h1 /IHf h2]; apply: free_sadd.
- by move=> /andP [/IHe h1 /IHf h2]; apply: free_sadd; rewrite // /free_of_dated atoms_sopp.
- case/orP=> /andP [h1 h2].
    by rewrite (diff_free da h1) smul0; apply: free_sadd => //; apply: free_smul => //; apply: IHf.
  by rewrite (diff_free da h2) mul0s; apply: free_sadd => //; apply: free_smul => //; apply: IHe.
- by rewrite /free_of_dated atoms_sopp => /IHe.
- by move=> h; rewrite (diff_free da h) /= oppr0 smul0.
Qed.

Section Val.
Variable par : string -> F.
Definition pv (a : sym) : F := if knd a == KPar then par (nam a) else 0.
Definition coef (a : sym) ex : F := eval pv (diff a ex).

Lemma eval_free v w ex : (forall a, knd a = KPar -> v a = w a) -> free_of_dated ex -> eval v ex = eval w ex.
Proof. by move=> H fe; apply: eval_atoms => a ai; apply: H; move: (hasPn fe a ai); rewrite /dated negbK => /eqP. Qed.

Lemma affine_sum v (S : seq sym) ex : (forall a, knd a = KPar -> v a = par (nam a)) -> affine ex ->
  uniq S -> all dated S -> {subset [seq a <- atoms ex | dated a] <= S} ->
  eval v ex = eval pv ex + \sum_(a <- S) coef a ex * v a.
Proof.
move=> vp af un dS.
have vw a : knd a = KPar -> v a = pv a by move=> e; rewrite vp // /pv e.
have S0 : forall e, free_of_dated e -> \sum_(a <- S) coef a e * v a = 0.
  move=> e fe; rewrite big_seq big1 // => a ai; rewrite /coef diff_free ?mul0r //; exact: (allP dS).
elim: ex af => /= [c _ _|b _ sub|e IHe f IHf|e IHe f IHf|e IHe f IHf|e IHe|e IHe].
- by rewrite S0 ?addr0.
- case kb: (dated b); last first.
    rewrite big_seq big1 ?addr0; first by rewrite vw //; apply/eqP; rewrite -[_ == _]negbK -/(dated b) kb.
    by move=> a ai; rewrite /coef /= (_ : (a == b) = false) ?mul0r //; apply/negP=> /eqP e; move: kb; rewrite -e (allP dS _ ai).
  have bS : b \in S by apply: sub; rewrite /= kb mem_head.
  rewrite (bigD1_seq b) //= big1 => [|a /negbTE ab]; last by rewrite /coef /= ab mul0r.
  by rewrite /coef /= eqxx mul1r addr0 /pv; move: kb; rewrite /dated; case: eqP => // _ _; rewrite add0r.
- move=> /andP [ae af] sub; rewrite IHe // ?IHf //; last 2 first.
  + by move=> a; rewrite mem_filter => /andP [h1 h2]; apply: sub; rewrite mem_filter h1 mem_cat h2 orbT.
  + by move=> a; rewrite mem_filter => /andP [h1 h2]; apply: sub; rewrite mem_filter h1 mem_cat h2.
  by rewrite addrACA -big_split /=; congr (_ + _); apply: eq_bigr => a _; rewrite /coef /= eval_sadd mulrDl.
- move=> /andP [ae af] sub; rewrite IHe // ?IHf //; last 2 first.
  + by move=> a; rewrite mem_filter => /andP [h1 h2]; apply: sub; rewrite mem_filter h1 mem_cat h2 orbT.
  + by move=> a; rewrite mem_filter => /andP [h1 h2]; apply: sub; rewrite mem_filter h1 mem_cat h2.
  rewrite opprD addrACA -sumrB /=; congr (_ + _); apply: eq_bigr => a _.
  by rewrite /coef /= eval_sadd eval_sopp mulrBl.
- move=> h sub; case/orP: h => /andP [h1 h2].
    rewrite (eval_free vw h1) IHf //; last by move=> a; rewrite mem_filter => /andP [h3 h4]; apply: sub; rewrite mem_filter h3 mem_cat h4 orbT.
    rewrite mulrDr; congr (_ + _); rewrite mulr_sumr big_seq [RHS]big_seq; apply: eq_bigr => a ai.
    by rewrite /coef /= eval_sadd !eval_smul (diff_free (allP dS _ ai) h1) /= mul0r add0r mulrA.
  rewrite (eval_free vw h2) IHe //; last by move=> a; rewrite mem_filter => /andP [h3 h4]; apply: sub; rewrite mem_filter h3 mem_cat h4.
  rewrite mulrDl; congr (_ + _); rewrite mulr_suml big_seq [RHS]big_seq; apply: eq_bigr => a ai.
  by rewrite /coef /= eval_sadd !eval_smul (diff_free (allP dS _ ai) h2) /= mulr0 addr0 mulrAC.
- move=> ae sub; rewrite IHe // opprD -sumrN; congr (_ + _); apply: eq_bigr => a _.
  by rewrite /coef /= eval_sopp mulNr.
- move=> fe _; rewrite (eval_free vw fe) big_seq big1 ?addr0 // => a ai.
  by rewrite /coef /= eval_smul eval_sopp (diff_free (allP dS _ ai) fe) /= oppr0 !mul0r.
Qed.

(** ** rows *)
Section Rows.
Variable vars : seq string.

Lemma entry_free ex : free_of_dated ex -> entry vars par ex = Ok (eval pv ex).
Proof.
move=> fe; rewrite /entry (_ : all _ _ = true) //; apply/allP=> a ai.
by have := hasPn fe a ai; rewrite /dated negbK => ->.
Qed.

Lemma fold_rows cols (f : F -> F) ex xs row : all dated xs -> affine ex -> uniq cols -> {subset xs <= cols} -> size row = size cols ->
  exists2 row', foldM (fill_row vars par cols f ex) xs row = Ok row' &
    size row' = size cols /\
    forall j, (j < size cols)%N -> nth 0 row' j = if nth (KPar, EmptyString, 0) cols j \in xs then f (coef (nth (KPar, EmptyString, 0) cols j) ex) else nth 0 row j.
Proof.
move=> dx af un; elim: xs row dx => [|a xs IH] row /= dx sub sz; first by exists row.
case/andP: dx => da dx; have ac : a \in cols by apply: sub; rewrite mem_head.
rewrite /fill_row /py_index_of ac /= entry_free ?diff_atoms //=.
have sz' : size (set_nth 0 row (index a cols) (f (eval pv (diff a ex)))) = size cols.
  by rewrite size_set_nth sz; apply/maxn_idPr; rewrite index_mem.
have [|row' E [s' H]] := IH (set_nth 0 row (index a cols) (f (eval pv (diff a ex)))) dx _ sz'.
  by move=> b bi; apply: sub; rewrite inE bi orbT.
exists row' => //; split=> // j lt; rewrite (H j lt) inE nth_set_nth /=.
have -> : (j == index a cols) = (nth (KPar, EmptyString, 0) cols j == a).
  by apply/eqP/eqP => [->|<-]; rewrite ?nth_index // index_uniq.
by case: eqP => [->|_] //=; case: ifP.
Qed.

Lemma coef_rowP (cols : seq sym) (sel : pred sym) (f : F -> F) (ats : seq sym) ex :
  affine ex -> uniq cols -> (forall a, a \in ats -> sel a -> dated a && (a \in cols)) ->
  exists2 row, coef_row vars par cols sel f ats ex = Ok row &
    size row = size cols /\
    forall j, (j < size cols)%N -> nth 0 row j =
      if (nth (KPar, EmptyString, 0) cols j \in ats) && sel (nth (KPar, EmptyString, 0) cols j)
      then f (coef (nth (KPar, EmptyString, 0) cols j) ex) else 0.
Proof.
move=> af un H; rewrite /coef_row.
have [||row E [sz Hj]] := @fold_rows cols f ex [seq a <- undup ats | sel a] (nseq (size cols) 0) _ af un _ (size_nseq _ _).
- by apply/allP=> a; rewrite mem_filter mem_undup => /andP [h1 h2]; case/andP: (H a h2 h1).
- by move=> a; rewrite mem_filter mem_undup => /andP [h1 h2]; case/andP: (H a h2 h1).
exists row => //; split=> // j lt; rewrite Hj // mem_filter mem_undup andbC nth_nseq lt.
by case: ifP.
Qed.
End Rows.
End Val.

Lemma dedupE seen l : uniq l -> (forall x, x \in l -> x \notin seen) -> dedup seen l = l.
Proof.
elim: l seen => [|x l IH] seen //= /andP [xl un] H.
rewrite (negbTE (H x (mem_head _ _))) IH // => y yi.
rewrite mem_rcons inE negb_or H ?inE ?yi ?orbT // andbT; apply: contraNneq xl => <- //.
Qed.

Lemma sum_names (names : seq string) (g : string -> F) : \sum_(v <- names) g v = \sum_(j < size names) g (nth EmptyString names j).
Proof. by rewrite (big_nth EmptyString) big_mkord. Qed.

End P3.
