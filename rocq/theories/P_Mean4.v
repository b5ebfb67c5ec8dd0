Set Warnings "-all".
From Coq Require Import String.
From mathcomp Require Import all_ssreflect all_algebra.
From Verif Require Import PyBase PyStr M_FindLk S_FindLk M_Parser S_Parser P_Parser P_Parser2 P_Parser5 M_Engine S_Engine M_GenSys S_GenSys S_GenSys2 P_Engine P_Engine3 P_Engine4
  P_GenSys P_GenSys2 P_GenSys3 P_GenSys4 P_GenSys5 P_GenSys6 M_Pipe S_Pipe P_Pipe P_Pipe2 P_Pipe3 M_Tools S_Tools P_Tools P_Tools2 P_Tools3
  M_Full S_Full P_Full P_Full2 P_Full4 S_Mean P_Mean P_Mean2 P_Mean3 T_Engine T_GenSys T_Full.
Set Implicit Arguments. Unset Strict Implicit. Unset Printing Implicit Defensive.
Import GRing.Theory Num.Theory Order.TTheory.
Local Open Scope ring_scope.

(** the outcome of the search is determined by the notional values *)
Section Det.
Variables (F : realFieldType) (N N' : nat -> nat -> nat -> F) (xb : F) (Lm Km : nat).
Hypothesis NE : forall l k s, (l < Lm)%N -> (k < Km)%N -> N l k s = N' l k s.
Hypothesis L0 : (0 < Lm)%N.
Hypothesis K0 : (0 < Km)%N.

Lemma admissible_eq l k : (l < Lm)%N -> (k < Km)%N -> admissible N xb l k -> admissible N' xb l k.
Proof. by move=> ll kk; rewrite /admissible !(NE _ ll kk). Qed.
Lemma slack_eq : (forall s, (s < Lm)%N -> xb < N 0 0 s) -> forall s, (s < Lm)%N -> xb < N' 0 0 s.
Proof. by move=> h s sl; rewrite -(NE _ L0 K0); apply: h. Qed.

Lemma reexit_lt k k' : (k < Km)%N -> (k' < Km)%N -> first_reexit N xb k -> first_reexit N' xb k' -> ~ (k < k')%N.
Proof.
move=> kK kK' [k0 [/andP [a0 a] [a1 a2] a3 a4]] [k1 [/andP [b0 b] [b1 b2] b3 b4]] lt.
have lk0 : (k0 < Km)%N by apply: ltn_trans kK.
have lk1 : (k1 < Km)%N by apply: ltn_trans kK'.
have e01 : k0 = k1.
  apply/eqP; rewrite eqn_leq; apply/andP; split; rewrite leqNgt; apply/negP => h.
    have /a2 : (1 <= k1 < k0)%N by apply/andP.
    by rewrite (NE _ L0 lk1) leNgt b1.
  have /b2 : (1 <= k0 < k1)%N by apply/andP.
  by rewrite -(NE _ L0 lk0) leNgt a1.
have /b4 : (k1 < k < k')%N by rewrite -e01; apply/andP.
by rewrite -(NE _ L0 kK) leNgt a3.
Qed.

Lemma reexit_eq i : (i < Km)%N -> first_reexit N xb i -> first_reexit N' xb i.
Proof.
move=> iK [k0 [b [b1 b2] b3 b4]]; have /andP [c0 c1] := b; have k0K : (k0 < Km)%N := ltn_trans c1 iK.
exists k0; split; [exact: b | split | by rewrite -(NE _ L0 iK) |].
- by rewrite -(NE _ L0 k0K).
- by move=> j h; have /andP [_ h2] := h; rewrite -(NE _ L0 (ltn_trans h2 k0K)); apply: b2.
- by move=> j h; have /andP [_ h2] := h; rewrite -(NE _ L0 (ltn_trans h2 iK)); apply: b4.
Qed.
End Det.

Lemma search_ext (F : realFieldType) (N N' : nat -> nat -> nat -> F) xb Lm Km l k fl :
  (forall l k s, (l < Lm)%N -> (k < Km)%N -> N l k s = N' l k s) -> (0 < Lm)%N -> (0 < Km)%N ->
  search_outcome N xb Lm Km l k fl -> search_outcome N' xb Lm Km l k fl.
Proof.
move=> NE L0 K0; have NE' a b c : (a < Lm)%N -> (b < Km)%N -> N' a b c = N a b c by move=> h1 h2; rewrite NE.
have s1 := slack_eq (xb := xb) NE L0 K0; have s2 := slack_eq (xb := xb) NE' L0 K0.
have a1 := admissible_eq (xb := xb) NE; have a2 := admissible_eq (xb := xb) NE'.
have r1 i : (i < Km)%N -> first_reexit N xb i -> first_reexit N' xb i by exact: (reexit_eq NE L0).
have r2 i : (i < Km)%N -> first_reexit N' xb i -> first_reexit N xb i by exact: (reexit_eq NE' L0).
case=> [sl|l1 k1 ns [ll kk ad fi]|k1 ns na kK re|ns na nr].
- by apply: so_slack; exact: s1.
- apply: so_found => [/s2 //|]; split=> //; first exact: a1.
  by move=> l' k' h1 h2 lt /(a2 _ _ h1 h2); exact: fi.
- apply: so_approx => [/s2 //|l' k' h1 h2 /(a2 _ _ h1 h2)||]; [exact: na | exact: kK | exact: r1].
- by apply: so_max => [/s2 //|l' k' h1 h2 /(a2 _ _ h1 h2)|i iK /(r2 _ iK)]; [exact: na | exact: nr].
Qed.

Lemma search_det (F : realFieldType) (N N' : nat -> nat -> nat -> F) xb Lm Km l k fl l' k' fl' :
  (forall l k s, (l < Lm)%N -> (k < Km)%N -> N l k s = N' l k s) -> (0 < Lm)%N -> (0 < Km)%N ->
  search_outcome N xb Lm Km l k fl -> search_outcome N' xb Lm Km l' k' fl' -> (l, k, fl) = (l', k', fl').
Proof.
move=> NE L0 K0; have NE' a b c : (a < Lm)%N -> (b < Km)%N -> N' a b c = N a b c by move=> h1 h2; rewrite NE.
have s1 := slack_eq (xb := xb) NE L0 K0; have s2 := slack_eq (xb := xb) NE' L0 K0.
have a1 := admissible_eq (xb := xb) NE; have a2 := admissible_eq (xb := xb) NE'.
have r1 := reexit_lt (xb := xb) NE; have r2 := reexit_lt (xb := xb) NE'.
have req i : (i < Km)%N -> first_reexit N xb i -> first_reexit N' xb i by exact: (reexit_eq NE L0).
have req' i : (i < Km)%N -> first_reexit N' xb i -> first_reexit N xb i by exact: (reexit_eq NE' L0).
case=> [sl|l1 k1 ns [ll kk ad fi]|k1 ns na kK re|ns na nr]; case=> [sl'|l2 k2 ns' [ll' kk' ad' fi']|k2 ns' na' kK' re'|ns' na' nr'] //;
  try by case: ns'; exact: s1.
- by case: ns; exact: s2.
- have tri : [\/ l1 = l2 /\ k1 = k2, lex_lt (l1, k1) (l2, k2) | lex_lt (l2, k2) (l1, k1)].
    rewrite /lex_lt /=; case: (ltngtP l1 l2) => h; [by apply: Or32; left | by apply: Or33; left |].
    by case: (ltngtP k1 k2) => h'; [apply: Or32; right | apply: Or33; right | apply: Or31].
  case: tri => [[-> ->] //|lt|lt]; first by case: (fi' l1 k1 ll kk lt); apply: a1.
  by case: (fi l2 k2 ll' kk' lt); apply: a2.
- by case: (na' _ _ ll kk); apply: a1.
- by case: (na' _ _ ll kk); apply: a1.
- by case: ns; exact: s2.
- by case: (na _ _ ll' kk'); apply: a2.
- have -> // : k1 = k2; apply/eqP; rewrite eqn_leq; apply/andP; split; rewrite leqNgt; apply/negP; [exact: r2 | exact: r1].
- by case: (nr' _ kK); apply: req.
- by case: ns; exact: s2.
- by case: (na _ _ ll' kk'); apply: a2.
- by case: (nr _ kK'); apply: req'.
Qed.

Section File.
Variables (F : realFieldType) (tol : F) (rq : forall d, 'M[F]_d -> 'M[F]_d * 'M[F]_d).
Variable klein : forall a b, 'M[F]_(a + b) -> 'M[F]_(a + b) -> res ('M[F]_(b, a) * 'M[F]_a).
Hypothesis rqP : rq_ok rq.
Hypothesis klP : klein_stable klein.
Variables (m : rawmodel F) (p : parsed F) (eqs : seq (eqn F)) (ceq : eqn F) (par : string -> F) (g : matrices F) (c : 'I_(size (p_vars p))).
Variables (xb : F) (lm km : nat).
Hypothesis R : regular_file tol m eqs ceq par g c xb.
Hypothesis Hv : r_cvar m \in r_vars m.
Variable mdl : tmodel F.
Hypothesis G : solve_file tol rq klein m par xb lm km = Ok mdl.
Hypothesis hl : (0 < lm < 999)%N.
Hypothesis hk : (0 < km)%N.
Hypothesis st0 : (size (shk mdl) < dq mdl)%N.
Notation fpath := (file_path m p eqs ceq par xb mdl).

Lemma starts_ext st sh (X P E : path F) : (forall v t, t < 0 -> X v t = P v t) -> starts_from m p mdl st sh P E -> starts_from m p mdl st sh X E.
Proof.
move=> XP [h1 h2 h3 h4 h5]; split=> //.
- by rewrite -h3; congr drop; apply/eq_map => a; rewrite XP.
- by move=> v i; rewrite !XP // -opprD -PoszD.
- by move=> s t lt; rewrite XP // h5.
Qed.

Lemma file_sub : {subset r_vars m <= vvs mdl} /\ {subset r_vars m <= p_vars p}.
Proof.
have [sm [f [omg [lam [_ _ _ sub _]]]]] := file_core rqP klP R Hv G hl hk st0.
have ss : {subset r_vars m <= p_vars p} by case: R => Hp He *; exact: (vars_sub Hp He).
by split=> // v /ss /sub.
Qed.

(** the bounded solution for given durations is unique, and what is reported are its values *)
Lemma file_uniq st sh l k X E X' E' : (nq mdl <= size st)%N -> (l <= lm)%N -> (k <= km)%N ->
  fpath st sh l k X E -> fpath st sh l k X' E' -> forall v (s : nat), v \in r_vars m -> X v s%:Z = X' v s%:Z.
Proof.
have [sub1 sub2] := file_sub.
have [sm [f [omg [lam [[sd ne] _ [el [ek _]] _ H]]]]] := file_core rqP klP R Hv G hl hk st0.
move=> ge ll kk [h1 h2 h3] [h1' h2' h3'] v s vi.
have [Y [qs [ps [an q0 [ag _] rE _]]]] := H _ _ _ _ _ _ ge h1 h2 h3.
have [Y' [qs' [ps' [an' q0' [ag' _] rE' _]]]] := H _ _ _ _ _ _ ge h1' h2' h3'.
have l0 : (0 < lmx mdl)%N by have /andP [] := sd_l sd.
rewrite -el in ll; rewrite -ek in kk.
have E0 := c02' (sd_pre sd) (sd_T sd) (sd_W sd) (sd_lin sd) l0 ll kk an an' (etrans q0 (esym q0')).
have : path_row (nq mdl) qs ps s = path_row (nq mdl) qs' ps' s by have [_ e1] := E0 s; have [e2 _] := E0 s.+1; rewrite /path_row e1 e2.
rewrite rE rE' => /(congr1 (fun r => nth 0 r (index v (vvs mdl)))).
rewrite /report !(nth_map EmptyString) ?index_mem ?sub1 // nth_index ?sub1 // /original sub2 // ag // ag' //.
Qed.

Lemma file_reported st sh sk lin x (l k : nat) fl X E : (nq mdl <= size st)%N ->
  t_func mdl st (Some sh) sk lin = Ok (x, (l%:Z, k%:Z), fl) -> fpath st sh l k X E ->
  [/\ (l <= lm)%N, (k <= km)%N, forall v, v \in r_vars m -> nth 0 x (index v (vvs mdl)) = X v 0 &
    exists Y, [/\ agree (r_vars m) Y X, aux_values E (r_vars m) (r_shks m) (p_eqs p) (p_vars p) Y & x = report (p_vars p) (vvs mdl) Y 0]].
Proof.
have [sub1 sub2] := file_sub.
have [sm [f [omg [lam [[sd ne] _ [el [ek _]] _ H]]]]] := file_core rqP klP R Hv G hl hk st0.
move=> ge Ht [h1 h2 h3].
have [Y [qs [ps [an q0 [ag ax] rE _]]]] := H _ _ _ _ _ _ ge h1 h2 h3.
have [ll kk [cl Ec ex]] := t_func_row (dims sd) Ht.
have E0 : x = report (p_vars p) (vvs mdl) Y 0.
  rewrite -(rE 0%N) ex -q0; have [c' Ec' <-] := ann_row sd ll kk an 0%N.
  by move: Ec'; rewrite {1 2}/remaining leq0n subn0 => Ec'; have := etrans (esym Ec) Ec' => -[->].
split; rewrite -?el -?ek //; last by exists Y.
by move=> v vi; rewrite E0 /report (nth_map EmptyString) ?index_mem ?sub1 // nth_index ?sub1 // /original sub2 // ag.
Qed.

Lemma file_continue st sh sk lin x (l k : nat) fl (P E : path F) :
  (nq mdl <= size st)%N -> t_func mdl st (Some sh) sk lin = Ok (x, (l%:Z, k%:Z), fl) -> starts_from m p mdl st sh P E ->
  exists X, [/\ forall v t, t < 0 -> X v t = P v t, period_solves m p eqs ceq par xb mdl st sh x l k X E & bounded_path (r_vars m) X].
Proof.
move=> ge Ht sP; have [X [XP sol r0 rs]] := file_past rqP klP R G hl hk st0 ge Ht sP.
have ps : period_solves m p eqs ceq par xb mdl st sh x l k X E.
  split=> //; first exact: starts_ext XP sP.
  case: R => Hp He Hce uv us Hc aff nl2 up2 affc cdat c0 cc0 obs0 Hg ws cc nl en ld un.
  have [_ _ [_ Ec _ _]] := pE Hp He.
  have ece : ceq = p_ceq p by move: Hce; rewrite Ec => -[].
  subst ceq; have t01 : 0 < tol <= 1 by case: ws.
  move=> t; exact: (report_obs Hp He uv us Hg Hc un G aff nl2 affc cdat obs0 t01 ld X E t).
exists X; split=> // v vi; apply: (period_bounded rqP klP R Hv G hl hk st0 ge _ Ht ps); last exact: (file_sub).2.
by case: sP => _ <-; rewrite size_map.
Qed.

(** for every pair of durations there is such a solution *)
Lemma file_exists st sh l k (P E : path F) : (nq mdl <= size st)%N -> (l <= lm)%N -> (k <= km)%N -> starts_from m p mdl st sh P E ->
  exists X, (forall v t, t < 0 -> X v t = P v t) /\ fpath st sh l k X E.
Proof.
have [sm [f [omg [lam [[sd ne] _ [el [ek _]] _ H]]]]] := file_core rqP klP R Hv G hl hk st0.
move=> ge; rewrite -el -ek => ll kk sP.
have [c' Ec'] := c08' (sd_pre sd) ll kk.
have szs : size sh = neps mdl by case: sP => _ <- _ _ _; rewrite size_map /neps (file_shk R G).
have Ht := t_func_forced (dims sd) ge szs ll kk Ec'.
have [X [XP [s1 s2 _ _ _] bd]] := file_continue ge Ht sP.
by exists X.
Qed.

Lemma file_search st sh (P E : path F) : (nq mdl <= size st)%N -> starts_from m p mdl st sh P E ->
  exists x l k fl, t_func mdl st (Some sh) KNone false = Ok (x, (l%:Z, k%:Z), fl) /\
  exists2 N, notional_values m p eqs ceq par xb mdl lm km st sh N & search_outcome N xb lm.+1 km.+1 l k fl.
Proof.
have [sm [f [omg [lam [[sd ne] _ [el [ek ex]] _ H]]]]] := file_core rqP klP R Hv G hl hk st0.
move=> ge sP; have szs : size sh = neps mdl by case: sP => _ <- _ _ _; rewrite size_map /neps (file_shk R G).
have /andP [l0 l9] := sd_l sd.
have [N NE] := notional_ex (sd_pre sd) (sd_T sd) (sd_W sd) (sd_lin sd) (inp_vec mdl st sh) l0.
have [l [k [fl [Es so]]]] := searchP (sd_pre sd) (sd_T sd) (sd_W sd) (sd_lin sd) (M_Tools.xb mdl) NE (sd_k sd) l9.
have [l' [k' [fl' [Es' ll kk]]]] := c08 (sd_pre sd) (sd_T sd) (sd_W sd) (sd_lin sd) (M_Tools.xb mdl) NE (sd_k sd) l9.
move: Es'; rewrite Es => -[el' ek' ef']; subst l' k' fl'.
have [c' Ec'] := c08' (sd_pre sd) ll kk.
exists (cell_row c' (inp_vec mdl st sh)), l, k, fl; split; first exact: t_func_endo (dims sd) ge szs Es ll kk Ec'.
exists N; last by rewrite -el -ek -ex.
move=> l1 k1 X E' ll1 kk1 [h1 h2 h3] s; rewrite -el in ll1; rewrite -ek in kk1.
have [Y [qs [ps [an q0 _ _ nv]]]] := H _ _ _ _ _ _ ge h1 h2 h3.
by rewrite (NE _ _ _ _ ll1 kk1 an q0).
Qed.
End File.
