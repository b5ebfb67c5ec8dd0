(** The file of P_PipeEx with its variables declared in the other order and its equation written in another way: variables r and x,
    shock e, model equation r + x - e(-1) = x(-2), constraint r = 3 x - r. *)
Set Warnings "-all".
From Coq Require Import String.
From mathcomp Require Import all_ssreflect all_algebra all_real_closed.
From Verif Require Import PyBase PyStr M_Parser S_Parser P_Parser P_Parser2 P_Parser3 P_Parser4 P_Parser5
  M_Engine S_Engine M_GenSys S_GenSys S_GenSys2 P_GenSys P_GenSys2 P_GenSys3 P_GenSys4 P_GenSys5 M_Pipe S_Pipe P_Pipe P_Pipe2 P_PipeEx P_RQ.
From Verif Require Import M_Tools S_Tools M_Full S_Full P_Full T_GenSys.
From Verif Require Import P_GenSysEx.
Set Implicit Arguments. Unset Strict Implicit. Unset Printing Implicit Defensive.
Import GRing.Theory Num.Theory Order.TTheory.
Local Open Scope ring_scope.

Section Ex.
Variable F : realFieldType.
Let nm (s : string) : rawexpr F := At (s, None).
Let lg (s : string) (d : int) : rawexpr F := At (s, Some d).
Definition pg : rawmodel F := RawModel [:: "r"; "x"]%string [::] [:: "e"]%string [::]
  [:: (Sub (Add (nm "r") (nm "x")) (lg "e" (-1)), lg "x" (-2))]
  "r" (nm "r", Sub (Mul (Cst 3%:R) (nm "x")) (nm "r")) [:: ("o"%string, nm "x")].
Let v_ (s : string) (d : int) : expr F sym := At (KVar, s, d).
Let s_ (s : string) (d : int) : expr F sym := At (KShk, s, d).
Definition pg_eqs : seq (eqn F) := [:: (Sub (Add (v_ "r" 0) (v_ "x" 0)) (s_ "e" (-1)), v_ "x" (-2))].
Definition pg_p : parsed F := Parsed
  [:: (Sub (Add (v_ "r" 0) (v_ "x" 0)) (v_ "e_VAR" (-1)), v_ "x_LAG1" (-1));
      (v_ "e_VAR" 0, s_ "e" 0);
      (v_ "x_LAG1" 0, v_ "x" (-1))]
  [:: "r"; "x"; "e_VAR"; "x_LAG1"]%string [::] [::] [:: "e"]%string
  "r" (v_ "r" 0, Sub (Mul (Cst 3%:R) (v_ "x" 0)) (v_ "r" 0)) [:: ("o"%string, v_ "x" 0)].
Lemma pg_parse : parse pg = Ok pg_p.
Proof. reflexivity. Qed.
Lemma pg_decl : declared_eqs pg = Ok pg_eqs.
Proof. reflexivity. Qed.

Variable par : string -> F.
Lemma pg_ok : [/\ uniq (p_vars pg_p), uniq (r_shks pg),
  [/\ each (fun q => affine_eqn q) pg_eqs, no_shock_lead pg_eqs & leads_upto 2 pg_eqs],
  [/\ affine_eqn (p_ceq pg_p), dates_in (-1) 0 0 0 (set_eq_zero (p_ceq pg_p)) &
    forall o, List.In o (p_obs pg_p) -> [/\ affine o.2, no_shocks o.2 & dates_in (-1) 0 0 0 o.2]] &
  each (fun q => const_of par q = 0) (p_eqs pg_p) /\ const_of par (p_ceq pg_p) = 0].
Proof.
split=> //.
- split=> [q [<-|[]]|q a [<-|[]]|q a [<-|[]]] //; rewrite !inE.
  + by case/or4P=> /eqP ->.
  + by case/or4P=> /eqP ->.
- split=> //.
  + by move=> a; rewrite !inE => /or3P [] /eqP ->.
  + by move=> o [<-|[]]; split=> // a; rewrite !inE => /eqP ->.
- rewrite /const_of /gap /value /zero_path /=; split.
  + by move=> q [<-|[<-|[<-|[]]]] /=; rewrite ?addr0 ?subrr.
  + by rewrite !mulr0 !subrr.
Qed.


Definition pg_c : 'I_(size (p_vars pg_p)) := @Ordinal 4 0 isT.

Lemma pg_mat : exists g, [/\ get_matrices pg_p par = Ok g,
  [/\ mx_of 3 4 (g_AA g) = 0,
      mx_of 3 4 (g_BB g) = mx_of 3 4 [:: [:: 1; 1; 0; 0]; [:: 0; 0; 1; 0]; [:: 0; 0; 0; 1]],
      mx_of 3 4 (g_CC g) = mx_of 3 4 [:: [:: 0; 0; -1; -1]; [:: 0; 0; 0; 0]; [:: 0; -1; 0; 0]] &
      mx_of 3 1 (g_PSI g) = mx_of 3 1 [:: [:: 0]; [:: 1]; [:: 0]]],
  lsubmx (row_of (4 + 4) (g_bb g)) = row_of 4 [:: - 2%:R; 3%:R; 0; 0], rsubmx (row_of (4 + 4) (g_bb g)) = 0 &
  row_of 1 (g_bbPSI g) = 0].
Proof.
have [uv us [a1 a2 a3] [a4 a5 a6] [a7 a8]] := pg_ok.
have [g [h0 [hA hB hC hP] hl hr hp]] := entries pg_parse pg_decl uv us a1 a2 a4 a5 a6 a7 a8.
exists g; split=> //; first split.
- apply/matrixP=> i j; rewrite hA [RHS]mxE; move: i j; apply: ord3 => ???; split; apply: ord4 => ????; split; by rewrite /gap /value /unit_at /zero_path /= ?(mulr0, mulr1, addr0, add0r, subr0, sub0r, oppr0, opprK).
- apply/matrixP=> i j; rewrite hB [RHS]mxE; move: i j; apply: ord3 => ???; split; apply: ord4 => ????; split; by rewrite /gap /value /unit_at /zero_path /= ?(mulr0, mulr1, addr0, add0r, subr0, sub0r, oppr0, opprK).
- apply/matrixP=> i j; rewrite hC [RHS]mxE; move: i j; apply: ord3 => ???; split; apply: ord4 => ????; split; by rewrite /gap /value /unit_at /zero_path /= ?(mulr0, mulr1, addr0, add0r, subr0, sub0r, oppr0, opprK).
- apply/matrixP=> i j; rewrite hP [RHS]mxE (ord1 j); move: i; apply: ord3 => ???; split; by rewrite /gap /value /unit_at /zero_path /= ?(mulr0, mulr1, addr0, add0r, subr0, sub0r, oppr0, opprK).
- apply/rowP=> j; rewrite hl [RHS]mxE; move: j; apply: ord4 => ????; split; by rewrite /gap /value /unit_at /zero_path /= ?(mulr0, mulr1, addr0, add0r, subr0, sub0r, oppr0, opprK).
- apply/rowP=> j; rewrite hr [RHS]mxE; move: j; apply: ord4 => ????; split; by rewrite /gap /value /unit_at /zero_path /= ?(mulr0, mulr1, addr0, add0r, subr0, sub0r, oppr0, opprK).
- apply/rowP=> j; rewrite hp [RHS]mxE (ord1 j); by rewrite /gap /value /unit_at /zero_path /= ?(mulr0, mulr1, addr0, add0r, subr0, sub0r, oppr0, opprK).
Qed.




Lemma pg_u : exists g, get_matrices pg_p par = Ok g /\
  let u := usys_of_file g pg_c (-1) in let t := tol F in
  [/\ well_scaled u t, constraint_connected u /\ no_lead_lag u, encodable u &
    forall (rq : forall d, 'M[F]_d -> 'M[F]_d * 'M[F]_d) l_max k_max, (forall d, is_rq (@rq d)) ->
      exists sm omg lam tb, [/\ sys_of t u rq = Ok sm, linear_solution (mS sm) (mT sm) omg lam &
        preprocess sm (ff t u) omg lam l_max k_max = Ok tb]].
Proof.
have [g [h0 [hA hB hC hP] hl hr hp]] := pg_mat; exists g; split=> //.
move=> u t; have [t0 t1] := andP (tol_ok F).
have N a : big (- a) = big a :> bool by rewrite /big oppr_eq0 normrN.
have bs : [/\ big (0 : F), big (1 : F) & big (-1 : F)] by split; [exact: big0|exact: big1|exact: bigN1].
have [b0 b1 bN1] := bs.
have eA : AA0 u = 0 by exact: hA.
have cB : clean t (BB0 u) by rewrite (hB : BB0 u = _); apply: clean_mx; rewrite /= b0 b1.
have cC : clean t (CC0 u) by rewrite (hC : CC0 u = _); apply: clean_mx; rewrite /= b0 bN1.
have cD : clean t (DD0 u).
  rewrite (_ : DD0 u = mx_of 3 1 [:: [:: 0]; [:: -1]; [:: 0]]); first by apply: clean_mx; rewrite /= b0 bN1.
  rewrite /= hP; apply/matrixP=> i j; rewrite [LHS]mxE [X in - X]mxE [RHS]mxE (ord1 j).
  by move: i; apply: ord3 => ???; split=> /=; rewrite ?oppr0.
have efb : fb0 u = row_of 4 [:: 2%:R; - 3%:R; 0; 0].
  rewrite /= hl; apply/rowP=> j; rewrite [LHS]mxE [X in - X]mxE [RHS]mxE.
  by move: j; apply: ord4 => ????; split=> /=; rewrite ?(oppr0, opprK).
have own : own_coef u = 2%:R by rewrite /own_coef efb mxE.
have efc : fc0 u = 0 by rewrite /= hr oppr0.
have efd : fd0 u = Some 0 by rewrite /= hp oppr0.
have oc : forall j, occurs (BB0 u) j.
  have o (i : 'I_3) (j : 'I_4) : (mx_of 3 4 [:: [:: 1; 1; 0; 0]; [:: 0; 0; 1; 0]; [:: 0; 0; 0; 1]]) i j = 1 :> F -> occurs (BB0 u) j.
    by move=> h; exists i; rewrite (hB : BB0 u = _) h oner_eq0.
  apply: ord4 => ????; split.
  - by apply: (o (@Ordinal 3 0 isT)); rewrite mxE.
  - by apply: (o (@Ordinal 3 0 isT)); rewrite mxE.
  - by apply: (o (@Ordinal 3 1 isT)); rewrite mxE.
  - by apply: (o (@Ordinal 3 2 isT)); rewrite mxE.
have cl0 r c : clean t (0 : 'M[F]_(r, c)) by move=> i j; left; rewrite mxE.
have ws : well_scaled u t.
  by split; [exact: tol_ok|split; [rewrite eA; exact: cl0|]|split|rewrite efc scaler0; exact: cl0|rewrite efd; exact: cl0].
have cc : constraint_connected u.
  by split; [rewrite own pnatr_eq0|move=> j _; right; left; exact: oc].
have nl : no_lead_lag u by move=> j _; rewrite efc mxE.
have en : encodable u by rewrite /encodable efd; split=> //; left.
split=> // rq lm km rqP.
have fbnE : fbn u = row_of 4 [:: -1; 3%:R / 2%:R; 0; 0].
  rewrite /fbn -/(own_coef u) own efb; apply/rowP=> j; rewrite [LHS]mxE [X in _ * X]mxE [RHS]mxE.
  move: j; apply: ord4 => ????; split=> /=; rewrite ?mulr0 // mulNr ?mulVf ?pnatr_eq0 //.
  by rewrite mulrN opprK mulrC.
have [sm [omg [lam [t' [b' [k1 k2 k3]]]]]] : exists sm omg lam t' b', [/\ sys_of t u rq = Ok sm, linear_solution (mS sm) (mT sm) omg lam &
        preprocess sm (ff t u) omg lam lm km = Ok (t', b')].
  apply: (@backward_ok _ t _ _ u) => //.
  - by move=> j _; right; left.
  - rewrite (hB : BB0 u = _) fbnE; apply: unit4.
    have p2 : 0 < 3%:R / 2%:R :> F by rewrite divr_gt0 ?ltr0n.
    by rewrite opprK gt_eqF // addr_gt0 ?ltr01.
  - rewrite (hB : BB0 u = _) (_ : delta_mx 0 _ = row_of 4 [:: 1; 0; 0; 0]); first by apply: unit4; rewrite sub0r oppr_eq0 oner_eq0.
    by apply/rowP; apply: ord4 => ????; split; rewrite !mxE.
by exists sm, omg, lam, (t', b').
Qed.
End Ex.

Lemma pg_all (F : rcfType) (par : string -> F) : let tol := P_GenSysEx.tol F in
  let m := pg F in let p := pg_p F in let eqs := pg_eqs F in let ceq := p_ceq p in let c := pg_c F in
  exists g sm omg lam t b,
  [/\ [/\ parse m = Ok p, declared_eqs m = Ok eqs, resolve_eqn (context m) (r_ceq m) = Ok ceq,
          uniq (p_vars p) /\ uniq (r_shks m) & r_cvar m \in r_vars m],
      [/\ each (fun q => affine_eqn q) eqs, no_shock_lead eqs & leads_upto 2 eqs],
      [/\ affine_eqn ceq, dates_in (-1) 0 0 0 (set_eq_zero ceq),
          forall o, List.In o (p_obs p) -> [/\ affine o.2, no_shocks o.2 & dates_in (-1) 0 0 0 o.2] &
          each (fun q => const_of par q = 0) (p_eqs p) /\ const_of par ceq = 0],
      get_matrices p par = Ok g /\ nth EmptyString (p_vars p) c = r_cvar m &
      let u := usys_of_file g c (-1) in
      [/\ well_scaled u tol, constraint_connected u /\ no_lead_lag u, encodable u, (forall d, is_rq (@some_rq F d)) &
      [/\ sys_of tol u (@some_rq F) = Ok sm, linear_solution (mS sm) (mT sm) omg lam &
          preprocess sm (ff tol u) omg lam 4 17 = Ok (t, b)]]].
Proof.
move=> tol m p eqs ceq c; have [uv us [a1 a2 a3] [a4 a5 a6] [a7 a8]] := @pg_ok F par.
have [g [Hg [ws [cc nl] en H]]] := @pg_u F par.
have [sm [omg [lam [[t b] [h1 h2 h3]]]]] := H (@some_rq F) 4%N 17%N (@some_rqP F).
exists g, sm, omg, lam, t, b; split; [split=> //|by split|by split|by split|].
by move=> u; split=> //; exact: some_rqP.
Qed.

Lemma pg_obs (F : rcfType) (par : string -> F) : let tol := P_GenSysEx.tol F in
  let m := pg F in let p := pg_p F in let eqs := pg_eqs F in let ceq := p_ceq p in let c := pg_c F in
  exists g sm svv cvv vv,
  [/\ [/\ parse m = Ok p, declared_eqs m = Ok eqs, resolve_eqn (context m) (r_ceq m) = Ok ceq &
          uniq (p_vars p) /\ uniq (r_shks m)],
      [/\ each (fun q => affine_eqn q) eqs, no_shock_lead eqs, affine_eqn ceq, dates_in (-1) 0 0 0 (set_eq_zero ceq) &
          forall o, List.In o (p_obs p) -> [/\ affine o.2, no_shocks o.2 & dates_in 0 0 0 0 o.2]],
      get_matrices p par = Ok g /\ 0 < tol <= 1 &
      let u := usys_of_file g c (-1) in
      [/\ sys_of tol u (@some_rq F) = Ok sm, new_vv tol u (in_tuple (p_vars p)) = Ok (svv, cvv, vv) &
          uniq (vv0 tol u (in_tuple (p_vars p)))]].
Proof.
move=> tol m p eqs ceq c; have [uv us [a1 a2 a3] [a4 a5 a6] [a7 a8]] := @pg_ok F par.
have [g [Hg [ws [cc nl] en H]]] := @pg_u F par.
have [g' [Hg' [hA hB _ _] _ _ _]] := @pg_mat F par.
have eg : g' = g by move: Hg'; rewrite Hg => -[].
subst g'; have [sm [omg [lam [[t b] [h1 h2 h3]]]]] := H (@some_rq F) 4%N 17%N (@some_rqP F).
pose u := usys_of_file g c (-1).
case E: (new_vv tol u (in_tuple (p_vars p))) => [[[svv cvv] vv]|]; last by move: E.
have un : uniq (vv0 tol u (in_tuple (p_vars p))).
  rewrite /vv0 (_ : enum _ = [::]) ?cats0 //; apply/eqP; rewrite -size_eq0 -cardE; apply/eqP/eq_card0 => j.
  apply/negbTE/negP;rewrite -topredE /= /inall => /andP [/negP nf _]; apply: nf; apply/forallP => i.
  by rewrite (hA : AA0 u = 0) mxE normr0; have /andP [] := P_GenSysEx.tol_ok F.
exists g, sm, svv, cvv, vv; split; [by split| |by rewrite P_GenSysEx.tol_ok|].
  by split=> // o [<-|[]]; split=> // a; rewrite !inE => /eqP ->.
by split.
Qed.

Lemma pg_solve0 (F : rcfType) (par : string -> F) : let tol := P_GenSysEx.tol F in
  exists g, let u := usys_of_file g (pg_c F) (-1) in exists sm omg lam, [/\ rq_ok (@some_rq F), linear_solution (mS sm) (mT sm) omg lam,
    regular_file tol (pg F) (pg_eqs F) (p_ceq (pg_p F)) par g (pg_c F) (-1), sys_of tol u (@some_rq F) = Ok sm &
    forall klein : (forall a b, 'M[F]_(a + b) -> 'M[F]_(a + b) -> res ('M[F]_(b, a) * 'M[F]_a)), klein (dimq tol u) (dimp tol u) (mS sm) (mT sm) = Ok (omg, lam) ->
      exists2 mdl, solve_file tol (@some_rq F) klein (pg F) par (-1) 4 17 = Ok mdl & (size (shk mdl) < dq mdl)%N].
Proof.
move=> tol.
have [g [sm [svv [cvv [vv [[Hp He Hce [uv us]] [a1 a2 a4 a5 ob] [Hg t01] [so nv un]]]]]]] := @pg_obs F par.
have [_ _ [_ _ a3] _ [a7 a8]] := @pg_ok F par.
have [g' [sm' [omg [lam [t [b [_ _ _ [Hg' Hc] [ws [cc nl] en rqP [so' ls pre]]]]]]]]] := @pg_all F par.
have [g2 [Hg2 [hA hB hC hP] hl hr hp]] := @pg_mat F par.
have eg : g' = g by move: Hg'; rewrite Hg => -[].
have eg2 : g2 = g by move: Hg2; rewrite Hg => -[].
subst g' g2; have esm : sm' = sm by move: so'; rewrite so => -[].
subst sm'; pose u := usys_of_file g (pg_c F) (-1).
have /andP [t0 t1] := t01.
have ld : shocks_loaded tol u.
  move=> k; left; exists (@Ordinal 3 1 isT); rewrite (_ : DD0 u = - mx_of 3 1 (g_PSI g)) // hP (ord1 k) !mxE /= normrN normr1.
  exact: t1.
exists g; rewrite /= -/u; exists sm, omg, lam; split; [exact: rqP|exact: ls|by split|exact: so|] => kl klE.
have E : gen_sys tol (@some_rq F) kl u (in_tuple (p_vars (pg_p F))) (p_shks (pg_p F))
  (mx_of (size (p_obs (pg_p F))) (size (p_vars (pg_p F))) (g_ZZ0 g)) (\col_i nth 0 (g_ZZ1 g) i) 4 17 =
  Ok (@TM F (dimq tol u) (dimp tol u) t b 4 17 (-1) [:: "e"%string] 1 #|dropeps (inq (tol:=tol) (u:=u))|
     (conform_mx 0 (zp tol u (mx_of 1 4 (g_ZZ0 g)))) (zq tol u (mx_of 1 4 (g_ZZ0 g))) (\col_i nth 0 (g_ZZ1 g) i) vv).
  by rewrite /gen_sys nv /= so /= klE /= pre.
have sf mdl : gen_sys tol (@some_rq F) kl u (in_tuple (p_vars (pg_p F))) (p_shks (pg_p F))
  (mx_of (size (p_obs (pg_p F))) (size (p_vars (pg_p F))) (g_ZZ0 g)) (\col_i nth 0 (g_ZZ1 g) i) 4 17 = Ok mdl ->
  solve_file tol (@some_rq F) kl (pg F) par (-1) 4 17 = Ok mdl.
  rewrite /solve_file Hp [rbind (Ok _) _]/=; case: ifP => [_|/negP []]; last by rewrite oppr_le0 ler01.
  rewrite Hg [rbind (Ok _) _]/=.
  by case: insubP => [c' _ ec|] //; have -> : c' = pg_c F by apply: val_inj.
eexists; first by apply: sf; exact: E.
rewrite /=.
have : uniq [:: lshift 1 (lshift (na tol u) (@Ordinal 4 3 isT)); rshift (4 + na tol u) (@Ordinal 1 0 isT)] by rewrite cons_uniq mem_seq1 eq_lrshift.
move/card_uniqP => /= e2; suff h : (#|[:: lshift 1 (lshift (na tol u) (@Ordinal 4 3 isT)); rshift (4 + na tol u) (@Ordinal 1 0 isT)]| <= dimq tol u)%N.
  exact: (leq_trans (eq_leq (esym e2)) h).
apply: subset_leq_card; apply/subsetP => j; rewrite in_cons mem_seq1 => /orP [] /eqP -> {j}.
  rewrite unfold_in; apply: (etrans (inq_var u t0 (@Ordinal 4 3 isT))); apply/orP; left.
  rewrite (_ : AA0 u = mx_of 3 4 (g_AA g)) // hA (_ : CC0 u = mx_of 3 4 (g_CC g)) // hC.
  apply/andP; split; last by apply/forallP => i; rewrite mxE normr0.
  by apply/negP => /forallP /(_ (@Ordinal 3 0 isT)); rewrite mxE /= normrN normr1 ltNge t1.
by rewrite -topredE /=; exact: (shk_q t0 ld).
Qed.
