(** A model file that meets all hypotheses of the property connecting files with stored rules: variables x and r,
    shock e, model equation x + r = x(-2) + e(-1), constraint r = 1.5 x; a parameter b and a derived parameter x_bar. *)
Set Warnings "-all".
From Coq Require Import String.
From mathcomp Require Import all_ssreflect all_algebra.
From Verif Require Import PyBase PyStr M_Parser S_Parser P_Parser P_Parser2 P_Parser3 P_Parser4 P_Parser5
  M_Engine S_Engine M_GenSys S_GenSys S_GenSys2 P_GenSys P_GenSys2 P_GenSys3 P_GenSys4 P_GenSys5 M_Pipe S_Pipe P_Pipe P_Pipe2.
Set Implicit Arguments. Unset Strict Implicit. Unset Printing Implicit Defensive.
Import GRing.Theory Num.Theory Order.TTheory.
Local Open Scope ring_scope.

Section Entries.
Variable F : realFieldType.
(** the path that is one for one variable in one period *)
Definition unit_at (v : string) (d : int) : path F := fun n t => ((n == v) && (t == d))%:R.

Lemma times_unit row names (j : 'I_(size names)) d t : uniq names ->
  times row names (unit_at (nth EmptyString names j) d) t = (t == d)%:R * nth 0 row j.
Proof.
move=> un; rewrite /times (bigD1 j) //= big1 => [|k kj].
  by rewrite addr0 /unit_at eqxx /= mulrC.
by rewrite /unit_at nth_uniq // (negbTE (kj : (k : nat) != j)) mulr0.
Qed.
Lemma times_zero row names t : times row names (@zero_path F) t = 0.
Proof. by rewrite /times big1 // => j _; rewrite mulr0. Qed.

Lemma nthIn (A : Type) (a : A) l i : (i < size l)%N -> List.In (nth a l i) l.
Proof. by elim: l i => [|b l IH] [|i] //= h; [left | right; apply: IH]. Qed.

Section Mat.
Variables (m : rawmodel F) (p : parsed F) (eqs : seq (eqn F)) (par : string -> F).
Hypothesis Hp : parse m = Ok p.
Hypothesis He : declared_eqs m = Ok eqs.
Hypothesis uv : uniq (p_vars p).
Hypothesis us : uniq (r_shks m).
Hypothesis aff : each (fun q => affine_eqn q) eqs.
Hypothesis nolead : no_shock_lead eqs.
Hypothesis affc : affine_eqn (p_ceq p).
Hypothesis cdat : dates_in (-1) 0 0 0 (set_eq_zero (p_ceq p)).
Hypothesis obsok : forall o, List.In o (p_obs p) -> [/\ affine o.2, no_shocks o.2 & dates_in (-1) 0 0 0 o.2].
Hypothesis c0 : each (fun q => const_of par q = 0) (p_eqs p).
Hypothesis cc0 : const_of par (p_ceq p) = 0.
Let q0 : eqn F := (Cst 0, Cst 0).
Let vg v d q := gap (value par (unit_at v d) (@zero_path F) 0) q.
Let sg s q := gap (value par (@zero_path F) (unit_at s 0) 0) q.
Let us' : uniq (p_shks p). Proof. by have [_ _ [_ _ -> _]] := pE Hp He. Qed.

(** the entries of the matrices, read off from the equations *)
Lemma entries : exists g, [/\ get_matrices p par = Ok g,
  [/\ forall i j, mx_of (size (p_eqs p)) (size (p_vars p)) (g_AA g) i j = vg (nth EmptyString (p_vars p) j) 1 (nth q0 (p_eqs p) i),
      forall i j, mx_of (size (p_eqs p)) (size (p_vars p)) (g_BB g) i j = vg (nth EmptyString (p_vars p) j) 0 (nth q0 (p_eqs p) i),
      forall i j, mx_of (size (p_eqs p)) (size (p_vars p)) (g_CC g) i j = vg (nth EmptyString (p_vars p) j) (-1) (nth q0 (p_eqs p) i) &
      forall i j, mx_of (size (p_eqs p)) (size (p_shks p)) (g_PSI g) i j = - sg (nth EmptyString (p_shks p) j) (nth q0 (p_eqs p) i)],
  forall j, lsubmx (row_of (size (p_vars p) + size (p_vars p)) (g_bb g)) 0 j = - vg (nth EmptyString (p_vars p) j) 0 (p_ceq p),
  forall j, rsubmx (row_of (size (p_vars p) + size (p_vars p)) (g_bb g)) 0 j = - vg (nth EmptyString (p_vars p) j) (-1) (p_ceq p) &
  forall j, row_of (size (p_shks p)) (g_bbPSI g) 0 j = - sg (nth EmptyString (p_shks p) j) (p_ceq p)].
Proof.
have [g [h1 _ h3 h4 _]] := get_matricesP par Hp He uv us aff nolead affc cdat obsok.
exists g; split=> //; first split.
- move=> i j; rewrite /vg h3 ?c0; [|exact: nthIn|exact: ltn_ord].
  by rewrite /linear_gap !times_unit // times_zero subr0 mxE /= !mul0r mul1r !addr0 add0r.
- move=> i j; rewrite /vg h3 ?c0; [|exact: nthIn|exact: ltn_ord].
  by rewrite /linear_gap !times_unit // times_zero subr0 mxE /= !mul0r mul1r !addr0 !add0r.
- move=> i j; rewrite /vg h3 ?c0; [|exact: nthIn|exact: ltn_ord].
  by rewrite /linear_gap !times_unit // times_zero subr0 mxE /= !mul0r mul1r !add0r.
- move=> i j; rewrite /sg h3 ?c0; [|exact: nthIn|exact: ltn_ord].
  by rewrite /linear_gap !times_unit // !times_zero mxE /= mul1r !add0r opprK.
- move=> j; rewrite /vg h4 cc0 !times_unit // times_zero subr0 !mxE /= mul0r mul1r subr0 sub0r opprK.
  by rewrite nth_take.
- move=> j; rewrite /vg h4 cc0 !times_unit // times_zero subr0 !mxE /= mul0r mul1r subr0 sub0r opprK.
  by rewrite nth_drop.
- by move=> j; rewrite /sg h4 cc0 !times_zero !times_unit // !mxE /= mul1r !subr0 sub0r opprK.
Qed.
End Mat.
End Entries.

From Verif Require Import P_GenSysEx.
Section Ex.
Variable F : realFieldType.
Let nm (s : string) : rawexpr F := At (s, None).
Let lg (s : string) (d : int) : rawexpr F := At (s, Some d).
Definition pf : rawmodel F := RawModel [:: "x"; "r"]%string [:: "b"]%string [:: "e"]%string [:: "x_bar"]%string
  [:: (Add (nm "x") (nm "r"), Add (lg "x" (-2)) (lg "e" (-1)))]
  "r" (nm "r", Mul (Cst (3%:R / 2%:R)) (nm "x")) [:: ("o"%string, nm "x")].
Let v_ (s : string) (d : int) : expr F sym := At (KVar, s, d).
Let s_ (s : string) (d : int) : expr F sym := At (KShk, s, d).
Definition pf_eqs : seq (eqn F) := [:: (Add (v_ "x" 0) (v_ "r" 0), Add (v_ "x" (-2)) (s_ "e" (-1)))].
Definition pf_p : parsed F := Parsed
  [:: (Add (v_ "x" 0) (v_ "r" 0), Add (v_ "x_LAG1" (-1)) (v_ "e_VAR" (-1)));
      (v_ "e_VAR" 0, s_ "e" 0);
      (v_ "x_LAG1" 0, v_ "x" (-1))]
  [:: "x"; "r"; "e_VAR"; "x_LAG1"]%string [:: "b"]%string [:: "x_bar"]%string [:: "e"]%string
  "r" (v_ "r" 0, Mul (Cst (3%:R / 2%:R)) (v_ "x" 0)) [:: ("o"%string, v_ "x" 0)].
Lemma pf_parse : parse pf = Ok pf_p.
Proof. reflexivity. Qed.
Lemma pf_decl : declared_eqs pf = Ok pf_eqs.
Proof. reflexivity. Qed.

Variable par : string -> F.
Lemma pf_ok : [/\ uniq (p_vars pf_p), uniq (r_shks pf),
  [/\ each (fun q => affine_eqn q) pf_eqs, no_shock_lead pf_eqs & leads_upto 2 pf_eqs],
  [/\ affine_eqn (p_ceq pf_p), dates_in (-1) 0 0 0 (set_eq_zero (p_ceq pf_p)) &
    forall o, List.In o (p_obs pf_p) -> [/\ affine o.2, no_shocks o.2 & dates_in (-1) 0 0 0 o.2]] &
  each (fun q => const_of par q = 0) (p_eqs pf_p) /\ const_of par (p_ceq pf_p) = 0].
Proof.
split=> //.
- split=> [q [<-|[]]|q a [<-|[]]|q a [<-|[]]] //; rewrite !inE.
  + by case/or4P=> /eqP ->.
  + by case/or4P=> /eqP ->.
- split=> //.
  + by move=> a; rewrite !inE => /orP [] /eqP ->.
  + by move=> o [<-|[]]; split=> // a; rewrite !inE => /eqP ->.
- rewrite /const_of /gap /value /zero_path /=; split.
  + by move=> q [<-|[<-|[<-|[]]]] /=; rewrite ?addr0 subrr.
  + by rewrite !mulr0 subrr.
Qed.

Lemma ord3 (P : 'I_3 -> Prop) : (forall h0 h1 h2, [/\ P (Ordinal (h0 : 0 < 3)%N), P (Ordinal (h1 : 1 < 3)%N) & P (Ordinal (h2 : 2 < 3)%N)]) -> forall i, P i.
Proof. by move=> /(_ isT isT isT) [h0 h1 h2] [[|[|[|i]]] lt] //; rewrite (bool_irrelevance lt isT). Qed.
Lemma ord4 (P : 'I_4 -> Prop) : (forall h0 h1 h2 h3, [/\ P (Ordinal (h0 : 0 < 4)%N), P (Ordinal (h1 : 1 < 4)%N), P (Ordinal (h2 : 2 < 4)%N) & P (Ordinal (h3 : 3 < 4)%N)]) -> forall i, P i.
Proof. by move=> /(_ isT isT isT isT) [h0 h1 h2 h3] [[|[|[|[|i]]]] lt] //; rewrite (bool_irrelevance lt isT). Qed.

Definition pf_c : 'I_(size (p_vars pf_p)) := @Ordinal 4 1 isT.

Lemma pf_mat : exists g, [/\ get_matrices pf_p par = Ok g,
  [/\ mx_of 3 4 (g_AA g) = 0,
      mx_of 3 4 (g_BB g) = mx_of 3 4 [:: [:: 1; 1; 0; 0]; [:: 0; 0; 1; 0]; [:: 0; 0; 0; 1]],
      mx_of 3 4 (g_CC g) = mx_of 3 4 [:: [:: 0; 0; -1; -1]; [:: 0; 0; 0; 0]; [:: -1; 0; 0; 0]] &
      mx_of 3 1 (g_PSI g) = mx_of 3 1 [:: [:: 0]; [:: 1]; [:: 0]]],
  lsubmx (row_of (4 + 4) (g_bb g)) = row_of 4 [:: 3%:R / 2%:R; - 1; 0; 0], rsubmx (row_of (4 + 4) (g_bb g)) = 0 &
  row_of 1 (g_bbPSI g) = 0].
Proof.
have [uv us [a1 a2 a3] [a4 a5 a6] [a7 a8]] := pf_ok.
have [g [h0 [hA hB hC hP] hl hr hp]] := entries pf_parse pf_decl uv us a1 a2 a4 a5 a6 a7 a8.
exists g; split=> //; first split.
- apply/matrixP=> i j; rewrite hA [RHS]mxE; move: i j; apply: ord3 => ???; split; apply: ord4 => ????; split; by rewrite /gap /value /unit_at /zero_path /= ?(mulr0, mulr1, addr0, add0r, subr0, sub0r, oppr0, opprK).
- apply/matrixP=> i j; rewrite hB [RHS]mxE; move: i j; apply: ord3 => ???; split; apply: ord4 => ????; split; by rewrite /gap /value /unit_at /zero_path /= ?(mulr0, mulr1, addr0, add0r, subr0, sub0r, oppr0, opprK).
- apply/matrixP=> i j; rewrite hC [RHS]mxE; move: i j; apply: ord3 => ???; split; apply: ord4 => ????; split; by rewrite /gap /value /unit_at /zero_path /= ?(mulr0, mulr1, addr0, add0r, subr0, sub0r, oppr0, opprK).
- apply/matrixP=> i j; rewrite hP [RHS]mxE (ord1 j); move: i; apply: ord3 => ???; split; by rewrite /gap /value /unit_at /zero_path /= ?(mulr0, mulr1, addr0, add0r, subr0, sub0r, oppr0, opprK).
- apply/rowP=> j; rewrite hl [RHS]mxE; move: j; apply: ord4 => ????; split; by rewrite /gap /value /unit_at /zero_path /= ?(mulr0, mulr1, addr0, add0r, subr0, sub0r, oppr0, opprK).
- apply/rowP=> j; rewrite hr [RHS]mxE; move: j; apply: ord4 => ????; split; by rewrite /gap /value /unit_at /zero_path /= ?(mulr0, mulr1, addr0, add0r, subr0, sub0r, oppr0, opprK).
- apply/rowP=> j; rewrite hp [RHS]mxE (ord1 j); by rewrite /gap /value /unit_at /zero_path /= ?(mulr0, mulr1, addr0, add0r, subr0, sub0r, oppr0, opprK).
Qed.

Lemma clean_mx r c rows : all (all (@big F)) rows -> clean (tol F) (mx_of r c rows).
Proof.
have [t0 t1] := andP (tol_ok F) => /allP H i j; rewrite mxE.
have [lt|ge] := ltnP i (size rows); last by left; rewrite (nth_default [::] ge) nth_nil.
have [lt'|ge'] := ltnP j (size (nth [::] rows i)); last by left; rewrite (nth_default 0 ge').
have /allP /(_ _ (mem_nth 0 lt')) := H _ (mem_nth [::] lt).
by rewrite /big => /orP [/eqP ->|h]; [left|right; apply: le_trans h].
Qed.

Lemma row4 (a b c d : F) (v : 'cV[F]_4) : (row_of 4 [:: a; b; c; d] *m v) 0 0 =
  a * v (@Ordinal 4 0 isT) 0 + b * v (@Ordinal 4 1 isT) 0 + c * v (@Ordinal 4 2 isT) 0 + d * v (@Ordinal 4 3 isT) 0.
Proof.
rewrite mxE !big_ord_recl big_ord0 !mxE /= addr0 !addrA.
by congr (_ * v _ _ + _ * v _ _ + _ * v _ _ + _ * v _ _); apply: val_inj.
Qed.

Lemma unit4 a b : b - a != 0 :> F ->
  (col_mx (mx_of 3 4 [:: [:: 1; 1; 0; 0]; [:: 0; 0; 1; 0]; [:: 0; 0; 0; 1]]) (row_of 4 [:: a; b; 0; 0]) : 'M[F]_(3 + 1)) \in unitmx.
Proof.
move=> D; apply: inj_unit => v; rewrite mul_col_mx => /col_mx_eq0P [h1 h2].
have r i := congr1 (fun A : 'cV[F]_3 => A i 0) h1.
have := r (@Ordinal 3 0 isT); have := r (@Ordinal 3 1 isT); have := r (@Ordinal 3 2 isT).
rewrite !mulE ![(0 : 'cV[F]_3) _ _]mxE /= !row4 !mul0r !mul1r !addr0 !add0r => v3 v2 v01.
have := congr1 (fun A : 'cV[F]_1 => A 0 0) h2; rewrite row4 [RHS]mxE !mul0r !addr0 => vab.
have e1 : v (@Ordinal 4 1 isT) 0 = - v (@Ordinal 4 0 isT) 0 by apply/eqP; rewrite -addr_eq0 addrC v01.
have e0 : v (@Ordinal 4 0 isT) 0 = 0.
  move/eqP: vab; rewrite e1 mulrN -mulNr -mulrDl mulf_eq0 -oppr_eq0 opprB (negbTE D) /=; exact: eqP.
apply/matrixP=> i j; rewrite (ord1 j); move: i; apply: ord4 => h3 h4 h5 h6; split; rewrite [RHS]mxE.
- by rewrite (bool_irrelevance h3 isT).
- by rewrite (bool_irrelevance h4 isT) e1 e0 oppr0.
- by rewrite (bool_irrelevance h5 isT).
- by rewrite (bool_irrelevance h6 isT).
Qed.

Lemma pf_u : exists g, get_matrices pf_p par = Ok g /\
  let u := usys_of_file g pf_c (-1) in let t := tol F in
  [/\ well_scaled u t, constraint_connected u /\ no_lead_lag u, encodable u &
    forall (rq : forall d, 'M[F]_d -> 'M[F]_d * 'M[F]_d) l_max k_max, (forall d, is_rq (@rq d)) ->
      exists sm omg lam tb, [/\ sys_of t u rq = Ok sm, linear_solution (mS sm) (mT sm) omg lam &
        preprocess sm (ff t u) omg lam l_max k_max = Ok tb]].
Proof.
have [g [h0 [hA hB hC hP] hl hr hp]] := pf_mat; exists g; split=> //.
move=> u t; have [t0 t1] := andP (tol_ok F).
have N a : big (- a) = big a :> bool by rewrite /big oppr_eq0 normrN.
have bs : [/\ big (0 : F), big (1 : F) & big (-1 : F)] by split; [exact: big0|exact: big1|exact: bigN1].
have [b0 b1 bN1] := bs.
have eA : AA0 u = 0 by exact: hA.
have cB : clean t (BB0 u) by rewrite (hB : BB0 u = _); apply: clean_mx; rewrite /= b0 b1.
have cC : clean t (CC0 u) by rewrite (hC : CC0 u = _); apply: clean_mx; rewrite /= b0 bN1.
have cD : clean t (DD0 u).
  rewrite (_ : DD0 u = mx_of 3 1 [:: [:: 0]; [:: -1]; [:: 0]]); first by apply: clean_mx; rewrite /= b0 bN1.
  rewrite /= hP; apply/matrixP=> i j; rewrite [LHS]mxE [X in - X]mxE [RHS]mxE (ord1 j).
  by move: i; apply: ord3 => ???; split=> /=; rewrite ?oppr0.
have efb : fb0 u = row_of 4 [:: - (3%:R / 2%:R); 1; 0; 0].
  rewrite /= hl; apply/rowP=> j; rewrite [LHS]mxE [X in - X]mxE [RHS]mxE.
  by move: j; apply: ord4 => ????; split=> /=; rewrite ?(oppr0, opprK).
have own : own_coef u = 1 by rewrite /own_coef efb mxE.
have efc : fc0 u = 0 by rewrite /= hr oppr0.
have efd : fd0 u = Some 0 by rewrite /= hp oppr0.
have oc : forall j, occurs (BB0 u) j.
  have o (i : 'I_3) (j : 'I_4) : (mx_of 3 4 [:: [:: 1; 1; 0; 0]; [:: 0; 0; 1; 0]; [:: 0; 0; 0; 1]]) i j = 1 :> F -> occurs (BB0 u) j.
    by move=> h; exists i; rewrite (hB : BB0 u = _) h oner_eq0.
  apply: ord4 => ????; split.
  - by apply: (o (@Ordinal 3 0 isT)); rewrite mxE.
  - by apply: (o (@Ordinal 3 0 isT)); rewrite mxE.
  - by apply: (o (@Ordinal 3 1 isT)); rewrite mxE.
  - by apply: (o (@Ordinal 3 2 isT)); rewrite mxE.
have cl0 r c : clean t (0 : 'M[F]_(r, c)) by move=> i j; left; rewrite mxE.
have ws : well_scaled u t.
  by split; [exact: tol_ok|split; [rewrite eA; exact: cl0|]|split|rewrite efc scaler0; exact: cl0|rewrite efd; exact: cl0].
have cc : constraint_connected u.
  by split; [rewrite own oner_eq0|move=> j _; right; left; exact: oc].
have nl : no_lead_lag u by move=> j _; rewrite efc mxE.
have en : encodable u by rewrite /encodable efd; split=> //; left.
split=> // rq lm km rqP.
have fbnE : fbn u = row_of 4 [:: 3%:R / 2%:R; -1; 0; 0].
  rewrite /fbn -/(own_coef u) own efb; apply/rowP=> j; rewrite [LHS]mxE [X in _ * X]mxE [RHS]mxE.
  move: j; apply: ord4 => ????; split=> /=; by rewrite invr1 ?mulr0 // mulN1r ?opprK.
have [sm [omg [lam [t' [b' [k1 k2 k3]]]]]] : exists sm omg lam t' b', [/\ sys_of t u rq = Ok sm, linear_solution (mS sm) (mT sm) omg lam &
        preprocess sm (ff t u) omg lam lm km = Ok (t', b')].
  apply: (@backward_ok _ t _ _ u) => //.
  - by move=> j _; right; left.
  - rewrite (hB : BB0 u = _) fbnE; apply: unit4.
    have p2 : 0 < 3%:R / 2%:R :> F by rewrite divr_gt0 ?ltr0n.
    by rewrite -opprD oppr_eq0 gt_eqF // addr_gt0 ?ltr01.
  - rewrite (hB : BB0 u = _) (_ : delta_mx 0 _ = row_of 4 [:: 0; 1; 0; 0]); first by apply: unit4; rewrite subr0 oner_eq0.
    by apply/rowP; apply: ord4 => ????; split; rewrite !mxE.
by exists sm, omg, lam, (t', b').
Qed.
End Ex.
