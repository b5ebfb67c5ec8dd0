Set Warnings "-all".
From Coq Require Import String.
From mathcomp Require Import all_ssreflect all_algebra.
From Verif Require Import PyBase PyStr M_FindLk S_FindLk M_Parser S_Parser P_Parser P_Parser2 P_Parser5 P_Names M_Engine S_Engine M_GenSys S_GenSys S_GenSys2 P_Engine P_Engine3 P_Engine4
  P_GenSys P_GenSys2 P_GenSys3 P_GenSys4 P_GenSys5 P_GenSys6 M_Pipe S_Pipe P_Pipe P_Pipe2 P_Pipe3 M_Tools S_Tools P_Tools P_Tools2 P_Tools3 P_Tools4
  M_Full S_Full P_Full P_Full2 P_Full3 P_Full4 S_Mean P_Mean P_Mean2 P_Mean3 P_Mean4 T_Engine T_GenSys T_Full.
Set Implicit Arguments. Unset Strict Implicit. Unset Printing Implicit Defensive.
Import GRing.Theory Num.Theory Order.TTheory.
Local Open Scope ring_scope.

Lemma t_func_dec (F : realFieldType) (m : tmodel F) st sh sk lin (l k : nat) : decode sk lin = (l%:Z, k%:Z) ->
  t_func m st sh sk lin = t_func m st sh (KTuple l k) false.
Proof. by move=> e; rewrite /t_func /t_func_raw e. Qed.
Lemma t_func_auto (F : realFieldType) (m : tmodel F) st sh sk lin l : decode sk lin = (l, -1) ->
  t_func m st sh sk lin = t_func m st sh KNone false.
Proof. by move=> e; rewrite /t_func /t_func_raw e /t_func_jit. Qed.

(** equal values of the auxiliary variables *)
Section Aux.
Variables (F : realFieldType) (vars1 vars2 shks1 shks2 pv1 pv2 : seq string) (eqs1 eqs2 : seq (eqn F)) (X E Y1 Y2 : path F).
Hypothesis ev : vars1 =i vars2.
Hypothesis ag1 : agree vars1 Y1 X.
Hypothesis ag2 : agree vars2 Y2 X.
Hypothesis ax1 : aux_values E vars1 shks1 eqs1 pv1 Y1.
Hypothesis ax2 : aux_values E vars2 shks2 eqs2 pv2 Y2.

Lemma base_eq n t : base_name E vars1 shks1 Y1 n -> base_name E vars2 shks2 Y2 n -> Y1 n t = Y2 n t.
Proof.
case: (boolP (n \in vars1)) => [n1 _ _|n1]; first by rewrite ag1 // ag2 // -ev.
case=> [n1'|[s [_ e h]]]; first by rewrite n1' in n1.
case=> [n2|[s' [_ e' h']]]; first by rewrite ev n2 in n1.
by rewrite h h'; congr (E _ _); apply: var_s_inj; rewrite -e -e'.
Qed.

Lemma aux_eq n t : n \in pv1 -> n \in pv2 -> Y1 n t = Y2 n t.
Proof.
move=> i1 i2; case: (boolP (n \in vars1)) => [n1|n1]; first by rewrite ag1 // ag2 // -ev.
have n2 : n \notin vars2 by rewrite -ev.
have nb1 v i : base_name E vars1 shks1 Y1 n -> n <> var_lag v i.
  by case=> [h|[s [_ -> _]]] e; [rewrite h in n1 | case: (@lag_s v s i)].
have nd1 v i : base_name E vars1 shks1 Y1 n -> n <> var_lead v i.
  by case=> [h|[s [_ -> _]]] e; [rewrite h in n1 | case: (@lead_s v s i)].
have nb2 v i : base_name E vars2 shks2 Y2 n -> n <> var_lag v i.
  by case=> [h|[s [_ -> _]]] e; [rewrite h in n2 | case: (@lag_s v s i)].
have nd2 v i : base_name E vars2 shks2 Y2 n -> n <> var_lead v i.
  by case=> [h|[s [_ -> _]]] e; [rewrite h in n2 | case: (@lead_s v s i)].
case: (ax1 i1) => [b1|[v [i [e1 b1 h1]]]|[v [i [e1 b1 h1 _]]]]; case: (ax2 i2) => [b2|[w [j [e2 b2 h2]]]|[w [j [e2 b2 h2 _]]]].
- exact: base_eq.
- by case: (nb1 w j.+1).
- by case: (nd1 w j).
- by case: (nb2 v i.+1).
- have [ew ej] := var_lag_inj (etrans (esym e1) e2); subst w; case: ej => ej; subst j.
  by rewrite h1 h2; apply: base_eq.
- by case: (@lag_lead v w i.+1 j); rewrite -e1 -e2.
- by case: (nd2 v i).
- by case: (@lag_lead w v j.+1 i); rewrite -e1 -e2.
- have [ew _] := var_lead_inj (etrans (esym e1) e2); subst w.
  by rewrite h1 h2; apply: base_eq.
Qed.
End Aux.

(** the past that a reported row stands for *)
Section Past.
Variables (F : realFieldType) (val : string -> F) (e : string -> F).
Definition pastP : path F := fun n t => match t with Negz 0 => val n | Negz i.+1 => val (var_lag n i.+1) | _ => 0 end.
Definition pastE : path F := fun s t => match t with Posz 0 => e s | Posz _ => 0 | Negz _ => pastP (var_s s) t end.

Lemma past_starts (m : rawmodel F) (p : parsed F) (mdl : tmodel F) (Y : path F) x : x = report (p_vars p) (vvs mdl) Y 0 ->
  size x = (dp mdl + nq mdl)%N -> (forall a, a \in vvs mdl -> val (original (p_vars p) a) = Y (original (p_vars p) a) 0) ->
  starts_from m p mdl x [seq e s | s <- r_shks m] pastP pastE.
Proof.
move=> ex sx H; split=> //.
- rewrite ex /last_n -ex sx addnK; congr drop.
  by rewrite [in RHS]ex /report; apply/eq_in_map => a ai; rewrite /pastP /= H.
- by move=> s [[|n]|n].
Qed.
End Past.

Section Two.
Variables (F : realFieldType) (tol : F) (rq : forall d, 'M[F]_d -> 'M[F]_d * 'M[F]_d).
Variable klein : forall a b, 'M[F]_(a + b) -> 'M[F]_(a + b) -> res ('M[F]_(b, a) * 'M[F]_a).
Hypothesis rqP : rq_ok rq.
Hypothesis klP : klein_stable klein.
Variables (m1 m2 : rawmodel F) (p1 p2 : parsed F) (eqs1 eqs2 : seq (eqn F)) (ceq1 ceq2 : eqn F) (par1 par2 : string -> F).
Variables (g1 g2 : matrices F) (c1 : 'I_(size (p_vars p1))) (c2 : 'I_(size (p_vars p2))).
Variables (xb : F) (lm km : nat).
Hypothesis R1 : regular_file tol m1 eqs1 ceq1 par1 g1 c1 xb.
Hypothesis R2 : regular_file tol m2 eqs2 ceq2 par2 g2 c2 xb.
Hypothesis SM : same_meaning m1 m2 eqs1 eqs2 ceq1 ceq2 par1 par2.
Hypothesis Hv : r_cvar m1 \in r_vars m1.
Variables mdl1 mdl2 : tmodel F.
Hypothesis G1 : solve_file tol rq klein m1 par1 xb lm km = Ok mdl1.
Hypothesis G2 : solve_file tol rq klein m2 par2 xb lm km = Ok mdl2.
Hypothesis hl : (0 < lm < 999)%N.
Hypothesis hk : (0 < km)%N.
Hypothesis s1 : (size (shk mdl1) < dq mdl1)%N.
Hypothesis s2 : (size (shk mdl2) < dq mdl2)%N.

Lemma Hv2 : r_cvar m2 \in r_vars m2. Proof. by rewrite -(sm_cvar SM) -(sm_vars SM). Qed.

Lemma path12 st1 st2 sh1 sh2 l k X P E : (forall v t, t < 0 -> X v t = P v t) -> starts_from m2 p2 mdl2 st2 sh2 P E ->
  file_path m1 p1 eqs1 ceq1 par1 xb mdl1 st1 sh1 l k X E -> file_path m2 p2 eqs2 ceq2 par2 xb mdl2 st2 sh2 l k X E.
Proof.
move=> XP sP [_ sol bd]; split; first exact: starts_ext XP sP.
  have eq2 : forall s : nat, each (holds par2 X E s%:Z) eqs2 by apply/(sm_eqs SM) => s; exact: (sol s).1.
  move=> s; split; first exact: eq2.
  by have [_] := sol s; rewrite (sm_cvar SM); case: binds => // /(sm_ceq SM).
by move=> v vi; apply: bd; rewrite (sm_vars SM).
Qed.

Lemma two_period st1 st2 sh1 sh2 P E sk lin x1 (l k : nat) fl :
  (nq mdl1 <= size st1)%N -> (nq mdl2 <= size st2)%N -> starts_from m1 p1 mdl1 st1 sh1 P E -> starts_from m2 p2 mdl2 st2 sh2 P E ->
  t_func mdl1 st1 (Some sh1) sk lin = Ok (x1, (l%:Z, k%:Z), fl) ->
  exists x2, t_func mdl2 st2 (Some sh2) sk lin = Ok (x2, (l%:Z, k%:Z), fl) /\ same_values (r_vars m1) (vvs mdl1) (vvs mdl2) x1 x2 /\
    exists X Y1 Y2, [/\ agree (r_vars m1) Y1 X, agree (r_vars m2) Y2 X, x1 = report (p_vars p1) (vvs mdl1) Y1 0 /\ x2 = report (p_vars p2) (vvs mdl2) Y2 0,
      aux_values E (r_vars m1) (r_shks m1) (p_eqs p1) (p_vars p1) Y1 & aux_values E (r_vars m2) (r_shks m2) (p_eqs p2) (p_vars p2) Y2].
Proof.
move=> ge1 ge2 sP1 sP2 Ht.
have [sm [f [omg [lam [[sd2 _] _ [el [ek _]] _ _]]]]] := file_core rqP klP R2 Hv2 G2 hl hk s2.
have [sm1 [f1 [omg1 [lam1 [[sd1 _] _ [el1 [ek1 _]] _ _]]]]] := file_core rqP klP R1 Hv G1 hl hk s1.
have sz2 : size sh2 = neps mdl2 by case: sP2 => _ <- _ _ _; rewrite size_map /neps (file_shk R2 G2).
suff [x2 Ht2] : exists x2, t_func mdl2 st2 (Some sh2) sk lin = Ok (x2, (l%:Z, k%:Z), fl).
  exists x2; split; first exact: Ht2.
  have [X [XP [a1 a2 _ _ _] a3]] := file_continue rqP klP R1 Hv G1 hl hk s1 ge1 Ht sP1.
  have F1 : file_path m1 p1 eqs1 ceq1 par1 xb mdl1 st1 sh1 l k X E by [].
  have F2 := path12 XP sP2 F1.
  have [_ _ v1 [Y1 [b1 b2 b3]]] := file_reported rqP klP R1 Hv G1 hl hk s1 ge1 Ht F1.
  have [_ _ v2 [Y2 [d1 d2 d3]]] := file_reported rqP klP R2 Hv2 G2 hl hk s2 ge2 Ht2 F2.
  split; last by exists X, Y1, Y2.
  by move=> v vi; rewrite v1 // v2 // -(sm_vars SM).
have := t_func_inv Ht; case Ed: (decode sk lin) => [l0 k0] [l' [k' [cc [h1 h2 h3 h4 h5]]]].
move: h1; case: eqP => [ek0 _|_ [[e1 e2] ef]]; last first.
  subst l0 k0; have [ll kk _] := t_func_row (dims sd1) Ht.
  rewrite el1 in ll; rewrite ek1 in kk; rewrite -el in ll; rewrite -ek in kk.
  have [c' Ec'] := c08' (sd_pre sd2) ll kk.
  by eexists; rewrite (t_func_dec _ _ _ Ed) ef; apply: t_func_forced (dims sd2) ge2 sz2 ll kk Ec'.
rewrite ek0 in Ed; rewrite (t_func_auto _ _ _ Ed); rewrite (t_func_auto _ _ _ Ed) in Ht.
have [y1 [a1 [b1 [f1' [T1 [N1 V1 O1]]]]]] := file_search rqP klP R1 Hv G1 hl hk s1 ge1 sP1.
have [y2 [a2 [b2 [f2' [T2 [N2 V2 O2]]]]]] := file_search rqP klP R2 Hv2 G2 hl hk s2 ge2 sP2.
have := etrans (esym Ht) T1 => -[_ ea eb ef]; subst a1 b1 f1'.
exists y2; rewrite T2; suff: (a2, b2, f2') = (l, k, fl) by case=> -> -> ->.
apply: (search_det (N := N2) (N' := N1)) O2 O1 => // a b s ll kk; rewrite ltnS in ll; rewrite ltnS in kk.
have [X [XP F1]] := file_exists rqP klP R1 Hv G1 hl hk s1 ge1 ll kk sP1.
have F2 := path12 XP sP2 F1.
apply: (file_notional_uniq R2 (t := s%:Z) (V2 _ _ _ _ ll kk F2 s)).
by apply/(sm_ceq SM); rewrite -(sm_cvar SM); apply: V1 F1 s.
Qed.

Lemma two_past st1 st2 sh1 sh2 P E sk lin x1 x2 (l k : nat) fl fl' :
  (nq mdl1 <= size st1)%N -> (nq mdl2 <= size st2)%N -> starts_from m1 p1 mdl1 st1 sh1 P E -> starts_from m2 p2 mdl2 st2 sh2 P E ->
  t_func mdl1 st1 (Some sh1) sk lin = Ok (x1, (l%:Z, k%:Z), fl) -> t_func mdl2 st2 (Some sh2) sk lin = Ok (x2, (l%:Z, k%:Z), fl') ->
  same_past m1 m2 p1 p2 mdl1 mdl2 x1 x2.
Proof.
move=> ge1 ge2 sP1 sP2 Ht1 Ht2 e.
have [x2' [Ht2' [_ [X [Y1 [Y2 [b1 d1 [b3 d3] b2 d2]]]]]]] := two_period ge1 ge2 sP1 sP2 Ht1.
have ex2 : x2' = x2 by have := etrans (esym Ht2') Ht2 => -[].
rewrite ex2 in d3.
have [sm [f [omg [lam [[sd2 _] _ _ _ _]]]]] := file_core rqP klP R2 Hv2 G2 hl hk s2.
have [sm1 [f1 [omg1 [lam1 [[sd1 _] _ _ _ _]]]]] := file_core rqP klP R1 Hv G1 hl hk s1.
have sz1 : size x1 = (dp mdl1 + nq mdl1)%N by rewrite (t_func_size (dims sd1) (sd_vv sd1) Ht1) (sd_vv sd1).
have sz2 : size x2 = (dp mdl2 + nq mdl2)%N by rewrite (t_func_size (dims sd2) (sd_vv sd2) Ht2) (sd_vv sd2).
pose val n := if n \in p_vars p1 then Y1 n 0 else Y2 n 0.
exists (pastP val), (pastE val e); split.
  apply: past_starts b3 sz1 _ => a ai; rewrite /val.
  by rewrite (file_orig R1 G1 ai).
apply: past_starts d3 sz2 _ => a ai; rewrite /val; case: ifP => // i1.
by apply: (aux_eq (sm_vars SM) b1 d1 b2 d2) => //; apply: (file_orig R2 G2 ai).
Qed.

Lemma two_sim lin es st1 st2 r : (nq mdl1 <= size st1)%N -> (nq mdl2 <= size st2)%N -> same_past m1 m2 p1 p2 mdl1 mdl2 st1 st2 ->
  sim_loop mdl1 lin st1 [seq [seq e s | s <- r_shks m1] | e <- es] = Ok r ->
  exists r2, sim_loop mdl2 lin st2 [seq [seq e s | s <- r_shks m2] | e <- es] = Ok r2 /\
    [/\ [seq x.2 | x <- r2.1] = [seq x.2 | x <- r.1], r2.2 = r.2 &
     forall t, (t < size es)%N -> same_values (r_vars m1) (vvs mdl1) (vvs mdl2) (nth [::] [seq x.1 | x <- r.1] t) (nth [::] [seq x.1 | x <- r2.1] t)].
Proof.
elim: es st1 st2 r => [|e es IH] st1 st2 r ge1 ge2 SP /=; first by case=> <-; exists ([::], 0%N).
have [P [E [a1 a2]]] := SP e.
case Ht: (t_func mdl1 st1 _ _ _) => [[[x1 lk] fl]|] //=.
have [l [k elk]] := t_func_nat (sk := KNone) isT Ht; subst lk.
have [x2 [Ht2 [sv _]]] := two_period ge1 ge2 a1 a2 Ht.
have SP' := two_past ge1 ge2 a1 a2 Ht Ht2.
have [sm [f [omg [lam [[sd2 _] _ _ _ _]]]]] := file_core rqP klP R2 Hv2 G2 hl hk s2.
have [sm1 [f1 [omg1 [lam1 [[sd1 _] _ _ _ _]]]]] := file_core rqP klP R1 Hv G1 hl hk s1.
have g1' : (nq mdl1 <= size x1)%N by rewrite (t_func_size (dims sd1) (sd_vv sd1) Ht) (sd_vv sd1) leq_addl.
have g2' : (nq mdl2 <= size x2)%N by rewrite (t_func_size (dims sd2) (sd_vv sd2) Ht2) (sd_vv sd2) leq_addl.
case El: (sim_loop _ _ x1 _) => [r1|] //= [<-].
have [r2 [E2 [h1 h2 h3]]] := IH _ _ _ g1' g2' SP' El.
rewrite Ht2 /= E2 /=; eexists; split; first by [].
split=> /=; [by rewrite h1 | by rewrite h2 | by case].
Qed.
End Two.
