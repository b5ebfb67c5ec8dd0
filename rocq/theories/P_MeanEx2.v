(** Both example files have a stable solution. *)
Set Warnings "-all".
From Coq Require Import String.
From mathcomp Require Import all_ssreflect all_algebra all_real_closed.
From Verif Require Import PyBase PyStr M_FindLk M_Parser S_Parser P_Parser P_Parser2 P_Parser5 M_Engine S_Engine M_GenSys S_GenSys S_GenSys2 P_Engine P_Engine3 P_Engine4
  P_GenSys P_GenSys2 P_GenSys3 P_GenSys4 P_GenSys5 P_GenSys6 M_Pipe S_Pipe P_Pipe P_Pipe2 P_PipeEx P_Pipe3 M_Tools S_Tools P_Tools P_Tools2 P_Tools3
  M_Full S_Full P_Full P_Full2 P_Full3 P_Full4 P_RQ S_Mean P_Mean P_Mean2 P_MeanEx T_Full.
Set Implicit Arguments. Unset Strict Implicit. Unset Printing Implicit Defensive.
Import GRing.Theory Num.Theory Order.TTheory.
Local Open Scope ring_scope.

(** any linear solution of a system whose paths are determined by the states of period 0, and bounded, is its stable solution *)
Section Strong.
Variables (F : realFieldType) (a b : nat) (S T : 'M[F]_(a + b)).
Definition upath q p := forall s : nat, @unconstrained F a b S T (q s) (q s.+1) (p s) (p s.+1).
Hypothesis det : forall q p q' p', upath q p -> upath q' p' -> q 0%N = q' 0%N -> p 0%N = p' 0%N /\ q 1%N = q' 1%N.
Hypothesis bnd : forall q p, upath q p -> bounded_cols q.

Lemma lin_path omg lam v : linear_solution S T omg lam ->
  upath (fun s => iter s (fun x => lam *m x) v) (fun s => omg *m iter s (fun x => lam *m x) v).
Proof. by move=> ls s; exact: ls. Qed.

Lemma strong_stable omg lam : linear_solution S T omg lam -> stable_solution S T omg lam.
Proof.
move=> ls; split=> // [q E|q p up _ _ s].
  by apply: (bnd (p := fun s => omg *m q s)) => s; rewrite E; exact: ls.
have [] := det (q := fun j => q (j + s)%N) (p := fun j => p (j + s)%N) _ (lin_path (q s) ls) erefl => // j; exact: up.
Qed.

Lemma strong_uniq omg lam omg' lam' : linear_solution S T omg lam -> linear_solution S T omg' lam' -> omg = omg' /\ lam = lam'.
Proof.
move=> l1 l2; have H v := det (lin_path v l1) (lin_path v l2) erefl.
split; apply/matrixP => i j.
  have [/= h _] := H (delta_mx j 0); move/(congr1 (fun A : 'cV_b => A i 0)): h; by rewrite -!colE !mxE.
have [_ /= h] := H (delta_mx j 0); move/(congr1 (fun A : 'cV_a => A i 0)): h; by rewrite -!colE !mxE.
Qed.
End Strong.

Section Seq.
Variable F : realFieldType.
(** x(s+2) = 2/5 x(s) *)
Lemma bnd_rec (f : nat -> F) : (forall s, 5%:R * f s.+2 = 2%:R * f s) -> bounded f.
Proof.
move=> H; pose B := `|f 0%N| + `|f 1%N|; exists B => s.
suff : (`|f s| <= B) && (`|f s.+1| <= B) by case/andP.
elim: s => [|s /andP [i1 i2]]; first by rewrite /B ler_addl ler_addr !normr_ge0.
rewrite i2 /=; have := congr1 Num.norm (H s); rewrite !normrM !normr_nat => e.
rewrite -(ler_pmul2l (x := 5%:R)) ?ltr0n // e; apply: ler_pmul => //.
by rewrite ler_nat.
Qed.
End Seq.

Section File.
Variables (F : rcfType) (m : rawmodel F) (p : parsed F) (eqs : seq (eqn F)) (ceq : eqn F) (par : string -> F) (g : matrices F).
Variables (c : 'I_(size (p_vars p))) (xb : F).
Let tol := P_GenSysEx.tol F.
Hypothesis R : regular_file tol m eqs ceq par g c xb.
Let u := usys_of_file g c xb.
Variable sm : sysmats F (dimq tol u) (dimp tol u).
Hypothesis so : sys_of tol u (@some_rq F) = Ok sm.
Hypothesis names : p_vars p =i [:: "x"; "r"; "e_VAR"; "x_LAG1"]%string.
Hypothesis shks : p_shks p = [:: "e"%string].
(** the equations of the two files *)
Hypothesis law : forall (y e : path F) (t : int), sats1 (value par y e t) (p_eqs p) -> sat1 (value par y e t) (p_ceq p) ->
  [/\ y "x" t + y "r" t = y "x_LAG1" (t - 1) + y "e_VAR" (t - 1), y "e_VAR" t = e "e" t, y "x_LAG1" t = y "x" (t - 1) &
      2%:R * y "r" t = 3%:R * y "x" t]%string.
Hypothesis Hq : forall j : 'I_(size (p_vars p)), nth EmptyString (p_vars p) j != "r"%string -> inq (tol:=tol) (u:=u) (lshift _ (lshift _ j)).

Lemma path_law q p' : upath (mS sm) (mT sm) q p' -> exists y e : path F,
  [/\ forall s : nat, q s = q_of tol u (column (p_vars p) y (s%:Z - 1)) (column (p_shks p) e s%:Z),
      forall s : nat, p' s = p_of tol u (column (p_vars p) y s%:Z) (column (p_shks p) e s.+1%:Z), forall s : nat, e "e"%string s.+1%:Z = 0 &
      forall s : nat, let t := s%:Z in
  [/\ y "x" t + y "r" t = y "x_LAG1" (t - 1) + y "e_VAR" (t - 1), y "e_VAR" t = e "e" t, y "x_LAG1" t = y "x" (t - 1) &
      2%:R * y "r" t = 3%:R * y "x" t]%string].
Proof.
move=> up; case: R => Hp He Hce uv us Hc aff nl2 up2 affc cdat c0 cc0 obs0 Hg ws cc nl en ld un.
have obs1 o : List.In o (p_obs p) -> [/\ affine o.2, no_shocks o.2 & dates_in (-1) 0 0 0 o.2].
  case/obs0 => h1 h2 h3; split=> // a /h3; case: (knd a) => // /andP [a1 a2]; apply/andP; split=> //.
  by apply: le_trans a1.
have [_ _ [_ Ec _ _]] := pE Hp He.
have ece : ceq = p_ceq p by move: Hce; rewrite Ec => -[].
subst ceq.
have ob : obeys_schedule (mS sm) (mT sm) (mV sm) (mW sm) (mh sm) 0 0 q p' by move=> s; rewrite /binds andbF; exact: up.
have [x [eps [nf e1 e2 sol]]] := (c78 ws cc (@some_rqP F) so 0 0 q p' nl en).1 ob.
pose y := path_of (zpath F) 1 x; pose e := path_of (zpath F) 0 eps.
have us' : uniq (p_shks p) by rewrite shks.
have cy (s : nat) : column (p_vars p) y (s%:Z - 1) = x s.
  by apply/matrixP => j i; rewrite mxE (ord1 i) /y path_ofE // subrK.
have ce (s : nat) : column (p_shks p) e s%:Z = eps s.
  by apply/matrixP => j i; rewrite mxE (ord1 i) /e path_ofE // addr0.
exists y, e; split.
- by move=> s; rewrite cy ce.
- by move=> s; rewrite ce (_ : s%:Z = s.+1%:Z - 1 :> int) ?cy // -addn1 PoszD addrK.
- move=> s; have h0 : (0 < size (p_shks p))%N by rewrite shks.
  have := ce s.+1; rewrite nf => /matrixP /(_ (Ordinal h0) 0); rewrite !mxE.
  by rewrite (_ : nth EmptyString (p_shks p) (Ordinal h0) = "e"%string) //= shks.
- move=> s; apply: law.
    exact: (file_rows Hp He uv us aff nl2 affc cdat obs1 c0 Hg sol (zpath F) (zpath F) s).
  exact: (file_constraint Hp He uv us aff nl2 affc cdat obs1 cc0 Hg Hc sol (zpath F) (zpath F) s).
Qed.

Lemma law_x (y : path F) t : (y "x" t + y "r" t = y "x_LAG1" (t - 1) + y "e_VAR" (t - 1) -> 2%:R * y "r" t = 3%:R * y "x" t ->
  5%:R * y "x" t = 2%:R * (y "x_LAG1" (t - 1) + y "e_VAR" (t - 1)))%string.
Proof. by move=> <- h; rewrite mulrDr h -mulrDl -natrD. Qed.

Lemma five0 : 5%:R != 0 :> F. Proof. by rewrite pnatr_eq0. Qed.
Lemma two0 : 2%:R != 0 :> F. Proof. by rewrite pnatr_eq0. Qed.

Lemma path_bnd q p' : upath (mS sm) (mT sm) q p' -> bounded_cols q.
Proof.
case/path_law => y [e [eq _ e0 H]].
have e1 (s : nat) : (s.+1%:Z - 1 = s%:Z :> int) by rewrite -addn1 PoszD addrK.
have be : bounded (fun s : nat => e "e"%string s%:Z).
  by apply: bnd_cons; exists 0 => s; rewrite e0 normr0.
have bx : bounded (fun s : nat => y "x"%string (s%:Z - 1)).
  apply: bnd_cons; apply: bnd_ext (_ : bounded (fun s : nat => y "x"%string s%:Z)) => [s|]; first by rewrite e1.
  apply: bnd_rec => s; have [h1 h2 h3 h4] := H s.+2; have [_ h2' h3' _] := H s.+1.
  by rewrite (law_x h1 h4) !e1 h2' h3' e0 addr0 e1.
have bv v : v \in p_vars p -> bounded (fun s : nat => y v (s%:Z - 1)).
  rewrite names !inE => /or4P [] /eqP ->; first exact: bx.
  - apply: bnd_cons; apply: bnd_ext (_ : bounded (fun s : nat => 2%:R^-1 * 3%:R * y "x"%string (s.+1%:Z - 1))) => [s|].
      have [_ _ _ h4] := H s; by rewrite e1 -mulrA -h4 mulKf // two0.
    by apply: bnd_scale; case: bx => B HB; exists B => s.
  - apply: bnd_cons; apply: bnd_ext be => s; rewrite e1; by have [_ h2 _ _] := H s.
  - apply: bnd_cons; apply: bnd_ext bx => s; rewrite e1; by have [_ _ h3 _] := H s.
move=> i; apply: (bnd_ext (f := fun s : nat => yvec tol u (column (p_vars p) y (s%:Z - 1)) (column (p_shks p) e s%:Z) (enum_val i) 0)) => [s|].
  by rewrite eq !mxE.
rewrite /yvec; case: (split_ordP (enum_val i)) => [j ->|j ->]; last first.
  have [B HB] := be; exists B => s; rewrite col_mxEd mxE.
  have sj : nth EmptyString (p_shks p) j = "e"%string by apply/eqP; rewrite -(mem_seq1 _ "e"%string) -shks mem_nth.
  by rewrite sj; exact: HB.
have bb (j' : 'I_(size (p_vars p))) : bounded (fun s : nat => y (nth EmptyString (p_vars p) j') (s%:Z - 1)) by apply/bv/mem_nth.
case: (split_ordP j) => j' ->; first by have [B HB] := bb j'; exists B => s; rewrite !col_mxEu mxE; exact: HB.
by have [B HB] := bb (enum_val j'); exists B => s; rewrite col_mxEu col_mxEd !mxE; exact: HB.
Qed.

Lemma q_sel x e x' e' j : q_of tol u x e = q_of tol u x' e' -> inq (tol:=tol) (u:=u) j -> yvec tol u x e j 0 = yvec tol u x' e' j 0.
Proof.
move=> h ij; have ij' : j \in inq (tol:=tol) (u:=u) by [].
by have := congr1 (fun A : 'cV_(dimq tol u) => A (enum_rank_in ij' j) 0) h; rewrite !mxE enum_rankK_in.
Qed.

Lemma path_det q p' q2 p2 : upath (mS sm) (mT sm) q p' -> upath (mS sm) (mT sm) q2 p2 -> q 0%N = q2 0%N -> p' 0%N = p2 0%N /\ q 1%N = q2 1%N.
Proof.
case/path_law => y [e [eq ep e0 H]]; case/path_law => y2 [e2 [eq2 ep2 e02 H2]] h.
have Hy v : v \in p_vars p -> v != "r"%string -> y v (-1) = y2 v (-1).
  move=> vi nr; have lt : (index v (p_vars p) < size (p_vars p))%N by rewrite index_mem.
  have := Hq (j := Ordinal lt); rewrite nth_index // => /(_ nr) => iq.
  move: h; rewrite eq eq2 sub0r => /q_sel /(_ iq); rewrite /yvec !col_mxEu !mxE /= nth_index //.
have He0 : e "e"%string 0 = e2 "e"%string 0.
  have h0 : (0 < size (p_shks p))%N by rewrite shks.
  case: R => _ _ _ _ _ _ _ _ _ _ _ _ _ _ _ _ _ _ _ ld _.
  have /andP [t0 _] := P_GenSysEx.tol_ok F.
  have := q_sel _ (shk_q t0 ld (Ordinal h0)) => hh.
  move: h; rewrite eq eq2 => /hh; rewrite /yvec !col_mxEd !mxE.
  by rewrite (_ : nth EmptyString (p_shks p) (Ordinal h0) = "e"%string) //= shks.
have [h1 h2 h3 h4] := H 0%N; have [g1 g2 g3 g4] := H2 0%N; move: h1 h2 h3 g1 g2 g3; rewrite sub0r => h1 h2 h3 g1 g2 g3.
have nv v : v \in [:: "x"; "r"; "e_VAR"; "x_LAG1"]%string -> v \in p_vars p by rewrite names.
have x0 : y "x"%string 0 = y2 "x"%string 0.
  apply: (mulfI five0); rewrite (law_x h1 h4) (law_x g1 g4) sub0r; congr (_ * (_ + _)); by apply: Hy => //; apply: nv.
have yy v : v \in p_vars p -> y v 0 = y2 v 0.
  rewrite names !inE => /or4P [] /eqP ->; first exact: x0.
  - by apply: (mulfI two0); rewrite h4 g4 x0.
  - by rewrite h2 g2.
  - by rewrite h3 g3; apply: Hy => //; apply: nv.
have cy : column (p_vars p) y 0 = column (p_vars p) y2 0.
  by apply/matrixP => i j; rewrite !mxE; apply/yy/mem_nth.
have ce : column (p_shks p) e 1 = column (p_shks p) e2 1.
  apply/matrixP => j i; rewrite !mxE.
  have -> : nth EmptyString (p_shks p) j = "e"%string by apply/eqP; rewrite -(mem_seq1 _ "e"%string) -shks mem_nth.
  by rewrite (e0 0%N) (e02 0%N).
by rewrite ep ep2 eq eq2 subrr cy ce.
Qed.
End File.

Section Two.
Variables (F : rcfType) (par : string -> F).
Let tol := P_GenSysEx.tol F.

Lemma pf_strong g sm : let u := usys_of_file g (pf_c F) (-1) in
  regular_file tol (pf F) (pf_eqs F) (p_ceq (pf_p F)) par g (pf_c F) (-1) -> sys_of tol u (@some_rq F) = Ok sm ->
  (forall q p q' p', upath (mS sm) (mT sm) q p -> upath (mS sm) (mT sm) q' p' -> q 0%N = q' 0%N -> p 0%N = p' 0%N /\ q 1%N = q' 1%N) /\
  (forall q p, upath (mS sm) (mT sm) q p -> bounded_cols q).
Proof.
move=> u R so; have ea : p_vars (pf_p F) =i [:: "x"; "r"; "e_VAR"; "x_LAG1"]%string by [].
have eb : p_shks (pf_p F) = [:: "e"%string] by [].
have law (y e : path F) (t : int) : sats1 (value par y e t) (p_eqs (pf_p F)) -> sat1 (value par y e t) (p_ceq (pf_p F)) ->
  [/\ y "x" t + y "r" t = y "x_LAG1" (t - 1) + y "e_VAR" (t - 1), y "e_VAR" t = e "e" t, y "x_LAG1" t = y "x" (t - 1) &
      2%:R * y "r" t = 3%:R * y "x" t]%string.
  rewrite /sats1 /sat1 /= /value /= => H; rewrite !addr0 => h4.
  have := H _ (or_introl erefl); have := H _ (or_intror (or_introl erefl)); have := H _ (or_intror (or_intror (or_introl erefl))).
  by rewrite /= !addr0 => h3 h2 h1; split=> //; rewrite h4 mulrA mulrCA mulfV ?pnatr_eq0 // mulr1.
have [g' [Hg' [hA _ hC _] _ _ _]] := @pf_mat F par; have [t0 t1] := andP (P_GenSysEx.tol_ok F).
have eg : g' = g by have := rf_mats R; rewrite Hg' => -[].
subst g'.
have Hq (j : 'I_(size (p_vars (pf_p F)))) : nth EmptyString (p_vars (pf_p F)) j != "r"%string -> inq (tol:=tol) (u:=u) (lshift _ (lshift _ j)).
  move=> nr; apply: (etrans (inq_var u t0 j)); apply/orP; left.
  rewrite (_ : AA0 u = mx_of 3 4 (g_AA g)) // hA (_ : CC0 u = mx_of 3 4 (g_CC g)) // hC.
  apply/andP; split; last by apply/forallP => i; rewrite mxE normr0.
  apply/negP => /forallP H; move: j nr H; apply: ord4 => ????; split=> // _ H.
  - by have := H (@Ordinal 3 2 isT); rewrite mxE /= normrN normr1 ltNge t1.
  - by have := H (@Ordinal 3 0 isT); rewrite mxE /= normrN normr1 ltNge t1.
  - by have := H (@Ordinal 3 0 isT); rewrite mxE /= normrN normr1 ltNge t1.
split; first exact: (path_det R so ea eb law Hq).
exact: (path_bnd R so ea eb law).
Qed.

Lemma pg_strong g sm : let u := usys_of_file g (pg_c F) (-1) in
  regular_file tol (pg F) (pg_eqs F) (p_ceq (pg_p F)) par g (pg_c F) (-1) -> sys_of tol u (@some_rq F) = Ok sm ->
  (forall q p q' p', upath (mS sm) (mT sm) q p -> upath (mS sm) (mT sm) q' p' -> q 0%N = q' 0%N -> p 0%N = p' 0%N /\ q 1%N = q' 1%N) /\
  (forall q p, upath (mS sm) (mT sm) q p -> bounded_cols q).
Proof.
move=> u R so; have ea : p_vars (pg_p F) =i [:: "x"; "r"; "e_VAR"; "x_LAG1"]%string by move=> v; rewrite !inE orbCA.
have eb : p_shks (pg_p F) = [:: "e"%string] by [].
have law (y e : path F) (t : int) : sats1 (value par y e t) (p_eqs (pg_p F)) -> sat1 (value par y e t) (p_ceq (pg_p F)) ->
  [/\ y "x" t + y "r" t = y "x_LAG1" (t - 1) + y "e_VAR" (t - 1), y "e_VAR" t = e "e" t, y "x_LAG1" t = y "x" (t - 1) &
      2%:R * y "r" t = 3%:R * y "x" t]%string.
  rewrite /sats1 /sat1 /= /value /= => H; rewrite !addr0 => h4.
  have := H _ (or_introl erefl); have := H _ (or_intror (or_introl erefl)); have := H _ (or_intror (or_intror (or_introl erefl))).
  by rewrite /= !addr0 => h3 h2 h1; split=> //; [rewrite addrC -h1 subrK | rewrite mulr2n mulrDl mul1r {2}h4 addrC subrK].
have [g' [Hg' [hA _ hC _] _ _ _]] := @pg_mat F par; have [t0 t1] := andP (P_GenSysEx.tol_ok F).
have eg : g' = g by have := rf_mats R; rewrite Hg' => -[].
subst g'.
have Hq (j : 'I_(size (p_vars (pg_p F)))) : nth EmptyString (p_vars (pg_p F)) j != "r"%string -> inq (tol:=tol) (u:=u) (lshift _ (lshift _ j)).
  move=> nr; apply: (etrans (inq_var u t0 j)); apply/orP; left.
  rewrite (_ : AA0 u = mx_of 3 4 (g_AA g)) // hA (_ : CC0 u = mx_of 3 4 (g_CC g)) // hC.
  apply/andP; split; last by apply/forallP => i; rewrite mxE normr0.
  apply/negP => /forallP H; move: j nr H; apply: ord4 => ????; split=> // _ H.
  - by have := H (@Ordinal 3 2 isT); rewrite mxE /= normrN normr1 ltNge t1.
  - by have := H (@Ordinal 3 0 isT); rewrite mxE /= normrN normr1 ltNge t1.
  - by have := H (@Ordinal 3 0 isT); rewrite mxE /= normrN normr1 ltNge t1.
split; first exact: (path_det R so ea eb law Hq).
exact: (path_bnd R so ea eb law).
Qed.

End Two.

(** each file with its own parameters *)
Lemma two_files2 (F : rcfType) (par par2 : string -> F) : let tol := P_GenSysEx.tol F in exists g1 g2 klein mdl1 mdl2, [/\ rq_ok (@some_rq F), klein_stable klein,
  regular_file tol (pf F) (pf_eqs F) (p_ceq (pf_p F)) par g1 (pf_c F) (-1) /\ regular_file tol (pg F) (pg_eqs F) (p_ceq (pg_p F)) par2 g2 (pg_c F) (-1),
  solve_file tol (@some_rq F) klein (pf F) par (-1) 4 17 = Ok mdl1 /\ solve_file tol (@some_rq F) klein (pg F) par2 (-1) 4 17 = Ok mdl2 &
  (size (shk mdl1) < dq mdl1)%N /\ (size (shk mdl2) < dq mdl2)%N].
Proof.
move=> tol; have [g1 [sm1 [omg1 [lam1 [rqP ls1 R1 so1 H1]]]]] := @pf_solve0 F par.
have [g2 [sm2 [omg2 [lam2 [_ ls2 R2 so2 H2]]]]] := @pg_solve0 F par2.
have [d1 b1] := pf_strong R1 so1; have [d2 b2] := pg_strong R2 so2.
pose k1 := one_klein (mS sm1) (mT sm1) omg1 lam1; pose k2 := one_klein (mS sm2) (mT sm2) omg2 lam2.
pose kl a b (S T : 'M[F]_(a + b)) := if k1 a b S T is Ok r then Ok r else k2 a b S T.
have e1 : kl _ _ (mS sm1) (mT sm1) = Ok (omg1, lam1) by rewrite /kl /k1 one_kleinE.
have e2 : kl _ _ (mS sm2) (mT sm2) = Ok (omg2, lam2).
  rewrite /kl; case E: (k1 _ _ _ _) => [[o l]|]; last exact: one_kleinE.
  by have [-> ->] := strong_uniq d2 (one_klein_ok ls1 E) ls2.
have [mdl1 s1 n1] := H1 _ e1; have [mdl2 s2 n2] := H2 _ e2.
exists g1, g2, kl, mdl1, mdl2; split=> //.
move=> a b S T omg lam; rewrite /kl; case E: (k1 _ _ _ _) => [[o l]|].
  case=> <- <-; move: E; rewrite /k1 /one_klein; case: eqP => //= ea; case: eqP => //= eb; subst a b.
  rewrite !conform_mx_id; case: eqP => //= ->; case: eqP => //= -> [<- <-]; exact: strong_stable d1 b1 _ _ ls1.
rewrite /k2 /one_klein; case: eqP => //= ea; case: eqP => //= eb; subst a b.
rewrite !conform_mx_id; case: eqP => //= ->; case: eqP => //= -> [<- <-]; exact: strong_stable d2 b2 _ _ ls2.
Qed.


Section Two.
Variables (F : rcfType) (par : string -> F).
Let tol := P_GenSysEx.tol F.
Lemma two_files : exists g1 g2 klein mdl1 mdl2, [/\ rq_ok (@some_rq F), klein_stable klein,
  regular_file tol (pf F) (pf_eqs F) (p_ceq (pf_p F)) par g1 (pf_c F) (-1) /\ regular_file tol (pg F) (pg_eqs F) (p_ceq (pg_p F)) par g2 (pg_c F) (-1),
  solve_file tol (@some_rq F) klein (pf F) par (-1) 4 17 = Ok mdl1 /\ solve_file tol (@some_rq F) klein (pg F) par (-1) 4 17 = Ok mdl2 &
  (size (shk mdl1) < dq mdl1)%N /\ (size (shk mdl2) < dq mdl2)%N].
Proof. exact: (two_files2 par par). Qed.

Lemma two_meaning : same_meaning (pf F) (pg F) (pf_eqs F) (pg_eqs F) (p_ceq (pf_p F)) (p_ceq (pg_p F)) par par.
Proof.
split=> //; first by move=> v; rewrite !inE orbC.
  move=> X E; split=> H s q [<-|[]]; have := H s _ (or_introl erefl); rewrite /holds /value /= !addr0.
    by move=> h; rewrite [X in X - _]addrC h addrK.
  by move=> h; rewrite -h addrC subrK.
have n2 : 2%:R != 0 :> F by rewrite pnatr_eq0.
move=> X E t; rewrite /holds /value /= !addr0; set r := X "r"%string t; set x := X "x"%string t.
have E3 : 2%:R * (3%:R / 2%:R * x) = 3%:R * x by rewrite mulrA mulrCA mulfV // mulr1.
have E2 z : 2%:R * z = z + z :> F by rewrite mulr2n mulrDl mul1r.
by split=> [->|h]; [rewrite -E3 E2 addrK | apply: (mulfI n2); rewrite E3 E2 {2}h addrC subrK].
Qed.
End Two.
