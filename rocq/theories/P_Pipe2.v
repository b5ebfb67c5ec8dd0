(** From the matrices back to the file's own equations. *)
Set Warnings "-all".
From Coq Require Import String.
From mathcomp Require Import all_ssreflect all_algebra.
From Verif Require Import PyBase PyStr M_Parser S_Parser P_Parser P_Parser2 P_Parser3 P_Parser4 P_Parser5 M_Engine M_GenSys S_GenSys S_GenSys2 M_Pipe S_Pipe P_Pipe.
Set Implicit Arguments. Unset Strict Implicit. Unset Printing Implicit Defensive.
Import GRing.Theory Num.Theory Order.TTheory.
Local Open Scope ring_scope.

Section P.
Variable F : realFieldType.

(** the path of the named variables given by columns, column [s] belonging to period [s - o]; other names as in [df] *)
Definition path_of (df : path F) (names : seq string) (o : nat) (x : nat -> 'cV[F]_(size names)) : path F := fun v t =>
  if insub (index v names) is Some j then x (absz (t + o%:Z)) j 0 else df v t.
Definition zpath : path F := fun _ _ => 0.

Lemma path_ofE df names o x (j : 'I_(size names)) t : uniq names ->
  @path_of df names o x (nth EmptyString names j) t = x (absz (t + o%:Z)) j 0.
Proof.
move=> un; rewrite /path_of index_uniq //; case: insubP => [j' _ ej|]; last by rewrite ltn_ord.
by congr (x _ _ 0); apply: val_inj.
Qed.

Lemma timesE df names o x row t : uniq names ->
  times row names (@path_of df names o x) t = (row_of (size names) row *m x (absz (t + o%:Z))) 0 0.
Proof. by move=> un; rewrite /times mxE; apply: eq_bigr => j _; rewrite path_ofE // mxE. Qed.

Lemma row_mx_of r c rows (i : 'I_r) : row i (@mx_of F r c rows) = row_of c (nth [::] rows i).
Proof. by apply/rowP => j; rewrite !mxE. Qed.

Lemma mulE r c rows (i : 'I_r) (x : 'cV[F]_c) : (@mx_of F r c rows *m x) i 0 = (row_of c (nth [::] rows i) *m x) 0 0.
Proof. by rewrite !mxE; apply: eq_bigr => j _; rewrite !mxE. Qed.

Section All.
Variables (m : rawmodel F) (p : parsed F) (eqs : seq (eqn F)) (par : string -> F).
Hypothesis Hp : parse m = Ok p.
Hypothesis He : declared_eqs m = Ok eqs.
Hypothesis uv : uniq (p_vars p).
Hypothesis us : uniq (r_shks m).
Hypothesis aff : each (fun q => affine_eqn q) eqs.
Hypothesis nolead : no_shock_lead eqs.
Hypothesis upto2 : leads_upto 2 eqs.
Hypothesis affc : affine_eqn (p_ceq p).
Hypothesis cdat : dates_in (-1) 0 0 0 (set_eq_zero (p_ceq p)).
Hypothesis obsok : forall o, List.In o (p_obs p) -> [/\ affine o.2, no_shocks o.2 & dates_in (-1) 0 0 0 o.2].
Hypothesis c0 : each (fun q => const_of par q = 0) (p_eqs p).
Hypothesis cc0 : const_of par (p_ceq p) = 0.
Variable g : matrices F.
Hypothesis Hg : get_matrices p par = Ok g.
Variables (c : 'I_(size (p_vars p))) (xb : F).
Hypothesis Hc : nth EmptyString (p_vars p) c = r_cvar m.
Let u := usys_of_file g c xb.
Variables (x : nat -> 'cV[F]_(size (p_vars p))) (eps : nat -> 'cV[F]_(size (p_shks p))) (bind : nat -> bool).
Hypothesis sol : solves_user u bind x eps.
Variables df dfe : path F.
Let y := path_of df 1 x.
Let e := path_of dfe 0 eps.

Let us' : uniq (p_shks p). Proof. by have [_ _ [_ _ -> _]] := pE Hp He. Qed.

Lemma file_rows (s : nat) : sats1 (value par y e s%:Z) (p_eqs p).
Proof.
move=> q qi; have [g' [Hg' _ h3 _ _]] := get_matricesP par Hp He uv us aff nolead affc cdat obsok.
have eg : g' = g by move: Hg'; rewrite Hg => -[].
subst g'; have [i lt eq] : exists2 i, (i < size (p_eqs p))%N & nth (Cst 0, Cst 0) (p_eqs p) i = q.
  elim: (p_eqs p) qi => [|q' l IH] //= [->|/IH [i lt eq]]; [by exists 0%N | by exists i.+1].
apply/eqP; rewrite /sat1 -subr_eq0; apply/eqP.
have := h3 i (Cst 0, Cst 0) y e s%:Z lt; rewrite eq /gap c0 // => ->.
rewrite /linear_gap !timesE //.
have -> : (s%:Z + 1 + 1 = s.+2%:Z)%R by rewrite -!PoszD !addn1.
have -> : (s%:Z + 1 = s.+1%:Z)%R by rewrite -!PoszD !addn1.
have -> : (s%:Z - 1 + 1 = s%:Z)%R by rewrite subrK.
rewrite addr0 !absz_nat add0r.
have [] := sol s; rewrite /model_equations => /colP /(_ (Ordinal lt)) + _.
rewrite [RHS]mxE [LHS]mxE [X in X + _]mxE [X in X + _ + _]mxE mulNmx [X in _ + X]mxE !mulE => E0; rewrite -[RHS]E0.
by [].
Qed.

Lemma file_constraint (s : nat) : if bind s then y (r_cvar m) s%:Z = xb else sat1 (value par y e s%:Z) (p_ceq p).
Proof.
have [_] := sol s; case: (bind s).
  by rewrite /bound_equation /y -Hc path_ofE // (_ : absz (s%:Z + 1) = s.+1) // -PoszD addn1.
have [g' [Hg' _ _ h4 _]] := get_matricesP par Hp He uv us aff nolead affc cdat obsok.
have eg : g' = g by move: Hg'; rewrite Hg => -[].
subst g'; rewrite /slack_equation /= => /rowP /(_ 0).
rewrite [LHS]mxE [X in X + _]mxE !mulNmx [X in _ + X]mxE [X in X + _ + _]mxE [X in _ + X + _]mxE [RHS]mxE => E.
apply/eqP; rewrite /sat1 -subr_eq0; apply/eqP.
rewrite (_ : _ - _ = gap (value par y e s%:Z) (p_ceq p)) // h4 cc0 sub0r !timesE //.
have -> : (s%:Z - 1 + 1 = s%:Z)%R by rewrite subrK.
have -> : (s%:Z + 1 = s.+1%:Z)%R by rewrite -!PoszD !addn1.
rewrite addr0 !absz_nat -E; congr (- _ - _ - _).
  by rewrite !mxE; apply: eq_bigr => j _; rewrite !mxE nth_take.
  by rewrite !mxE; apply: eq_bigr => j _; rewrite !mxE nth_drop.
Qed.

Let X := hist y.
Let E := hist_e y e.

Lemma file_solved : solves_file par eqs (p_ceq p) (r_cvar m) xb bind X E.
Proof.
have [_ _ [Ex _ Es _]] := pE Hp He; have dec := declared_eqsP He.
have R t : 0 <= t -> sats1 (value par y e t) (p_eqs p) by case: t => // s _; exact: file_rows.
move=> s; split=> [q qi|].
  have := expand_sound1 Ex dec R (isT : 0 <= s%:Z); rewrite (cut_id upto2); apply; exact: qi.
have := file_constraint s; case: (bind s) => [<-|].
  by rewrite /X hist_now // ler_addl.
move=> H; apply/(sat1_ext (v := value par y e s%:Z)) => // a ai.
have := cdat ai; rewrite /value; case: (knd a) => //.
  case/andP=> l _; rewrite /X hist_now //; rewrite -[X in X <= _]add0r; exact: ler_add.
by case/andP=> l _; rewrite /E /hist_e addr_ge0.
Qed.

Lemma file_columns (s : nat) : column (p_vars p) X (s%:Z - 1) = x s /\ column (p_shks p) E s%:Z = eps s.
Proof.
split; apply/colP => j; rewrite mxE.
  rewrite /X hist_now; last by rewrite -[X in X <= _]add0r ler_add.
  by rewrite /y path_ofE // subrK.
by rewrite /E /hist_e /e path_ofE // addr0.
Qed.

Lemma file_surprise : no_future_shocks eps -> surprise_only (p_shks p) E.
Proof.
move=> H v t vi; rewrite /E /hist_e /= /e /path_of; case: insubP => [j _ _|]; last by rewrite index_mem vi.
by rewrite addr0 absz_nat H mxE.
Qed.
End All.

Lemma times_col names (x : path F) row t : times row names x t = (row_of (size names) row *m column names x t) 0 0.
Proof. by rewrite /times mxE; apply: eq_bigr => j _; rewrite !mxE. Qed.

Section Complete.
Variables (m : rawmodel F) (p : parsed F) (eqs : seq (eqn F)) (par : string -> F).
Hypothesis Hp : parse m = Ok p.
Hypothesis He : declared_eqs m = Ok eqs.
Hypothesis uv : uniq (p_vars p).
Hypothesis us : uniq (r_shks m).
Hypothesis aff : each (fun q => affine_eqn q) eqs.
Hypothesis nolead : no_shock_lead eqs.
Hypothesis upto2 : leads_upto 2 eqs.
Hypothesis affc : affine_eqn (p_ceq p).
Hypothesis cdat : dates_in (-1) 0 0 0 (set_eq_zero (p_ceq p)).
Hypothesis obsok : forall o, List.In o (p_obs p) -> [/\ affine o.2, no_shocks o.2 & dates_in (-1) 0 0 0 o.2].
Hypothesis c0 : each (fun q => const_of par q = 0) (p_eqs p).
Hypothesis cc0 : const_of par (p_ceq p) = 0.
Variable g : matrices F.
Hypothesis Hg : get_matrices p par = Ok g.
Variables (c : 'I_(size (p_vars p))) (xb : F).
Hypothesis Hc : nth EmptyString (p_vars p) c = r_cvar m.
Hypothesis Hv : r_cvar m \in r_vars m.
Let u := usys_of_file g c xb.
Variables (X E : path F) (bind : nat -> bool).
Hypothesis sol : solves_file par eqs (p_ceq p) (r_cvar m) xb bind X E.

Lemma file_complete : exists Y, [/\ agree (r_vars m) Y X, aux_values E (r_vars m) (r_shks m) (p_eqs p) (p_vars p) Y &
  solves_user u bind (fun s => column (p_vars p) Y (s%:Z - 1)) (fun s => column (p_shks p) E s%:Z)].
Proof.
have [_ _ [Ex Ec Es _]] := pE Hp He; have dec := declared_eqsP He.
have [Y [ag ax H]] := expand_complete1 par E Ex dec X uv; exists Y; split=> // s.
have [g' [Hg' _ h3 h4 _]] := get_matricesP par Hp He uv us aff nolead affc cdat obsok.
have eg : g' = g by move: Hg'; rewrite Hg => -[].
subst g'; have [s1 s2] := sol s.
have e2 : s.+2%:Z - 1 = s%:Z + 1 by rewrite -addn2 PoszD -addrA.
have e1 : s.+1%:Z - 1 = s%:Z by rewrite -addn1 PoszD addrK.
split.
  rewrite /model_equations e1 e2; apply/colP => i; rewrite [RHS]mxE [LHS]mxE [X in X + _]mxE [X in X + _ + _]mxE mulNmx [X in _ + X]mxE !mulE -!times_col.
  have qi : List.In (nth (Cst 0, Cst 0) (p_eqs p) i) (p_eqs p).
    by elim: (p_eqs p) (nat_of_ord i) (ltn_ord i) => [|q' l IH] [|k] //= h; [left | right; apply: IH].
  have := h3 i (Cst 0, Cst 0) Y E s%:Z (ltn_ord i); rewrite c0 // /linear_gap add0r => <-.
  apply/eqP; rewrite /gap subr_eq0; apply/eqP; apply: H qi; rewrite (cut_id upto2); exact: s1.
case: (bind s) s2 => [|s2].
  by rewrite /bound_equation e1 mxE /= Hc ag.
rewrite /slack_equation e1; apply/rowP => i; rewrite (ord1 i) /=.
rewrite [LHS]mxE [X in X + _]mxE !mulNmx [X in _ + X]mxE [X in X + _ + _]mxE [X in _ + X + _]mxE [RHS]mxE.
have := h4 Y E s%:Z; rewrite cc0 sub0r !times_col.
have -> : gap (value par Y E s%:Z) (p_ceq p) = 0.
  apply/eqP; rewrite /gap subr_eq0; apply/eqP; apply/(sat1_ext (v := value par X E s%:Z)) => // a ai.
  by have := resolve_eqnP Ec ai; rewrite /value; case: (knd a) => // vi; rewrite ag.
move=> ->; congr (- _ - _ - _).
  by rewrite !mxE; apply: eq_bigr => j _; rewrite !mxE nth_take.
  by rewrite !mxE; apply: eq_bigr => j _; rewrite !mxE nth_drop.
Qed.
End Complete.
End P.
