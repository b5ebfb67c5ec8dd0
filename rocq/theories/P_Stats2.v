Set Warnings "-all".
From Coq Require Import String.
From mathcomp Require Import all_ssreflect all_algebra.
From Verif Require Import PyBase PyStr P_Loops M_FindLk M_Engine M_Tools S_Tools P_Tools P_Tools4 M_Stats S_Stats.
Set Implicit Arguments. Unset Strict Implicit. Unset Printing Implicit Defensive.
Import GRing.Theory Num.Theory Order.TTheory.
Local Open Scope ring_scope.

Lemma foldM_ind S X (step : S -> X -> res S) (I : S -> Prop) xs st st' :
  (forall s x s', I s -> step s x = Ok s' -> I s') -> I st -> foldM step xs st = Ok st' -> I st'.
Proof. by move=> h; elim: xs st => [|x xs IH] st i /=; [case=> <- | case E: step => [s|] //; apply: IH; apply: h i E]. Qed.
Lemma mapM_size X Y (f : X -> res Y) xs ys : mapM f xs = Ok ys -> size ys = size xs.
Proof. by elim: xs ys => [|x xs IH] ys /=; [case=> <- | case: (f x) => [y|] //; case E: mapM => [l|] // [<-]; rewrite /= (IH _ E)]. Qed.
(** inversion of mapM *)
Lemma mapM_inv X Y (f : X -> res Y) xs ys dx dy : mapM f xs = Ok ys -> size ys = size xs /\ forall i, (i < size xs)%N -> f (nth dx xs i) = Ok (nth dy ys i).
Proof.
elim: xs ys => [|x xs IH] ys /=; first by case=> <-.
case E: f => [y|] //; case E2: mapM => [l|] // [<-]; have [sz h] := IH _ E2; split; first by rewrite /= sz.
by case=> [|i] //= li; apply: h.
Qed.

Section G.
Variable F : realFieldType.
Variables (N M : nat).
(** shape of the table of gains: N shocks, M variables, nonnegative entries *)
Definition tabl (gis : seq (seq F)) : Prop := size gis = N /\ forall e, (e < N)%N -> size (nth [::] gis e) = M /\ forall x, 0 <= nth 0 (nth [::] gis e) x.

Lemma vadd_ok (u v w : seq F) : vadd u v = Ok w -> size u = size v /\ size w = size u /\ forall x, nth 0 w x = nth 0 u x + nth 0 v x.
Proof.
rewrite /vadd; case: eqP => // e [<-]; split=> //; rewrite size_map size1_zip ?e //; split=> // x.
case: (ltnP x (size v)) => l; last by rewrite !nth_default ?addr0 // ?size_map ?size1_zip ?e.
by rewrite (nth_map (0, 0)) ?size1_zip ?e // nth_zip.
Qed.

Lemma call_end (m : tmodel F) h lin st e sz r : gf_call m h lin st e sz = Ok r -> forall x, nth 0 r x = irf_end m h lin st e sz x.
Proof.
rewrite /gf_call /irf_end; case: irfs => [[[|y ys] a b|]|] //= [<-] //.
Qed.

Lemma shock_tabl (m : tmodel F) h lin rs st gis gis' e : tabl gis -> gf_shock m h lin rs st gis e = Ok gis' ->
  tabl gis' /\ exists ei, [/\ e \in shk m, ei = index e (shk m), (ei < N)%N & forall j x, (x < M)%N -> nth 0 (nth [::] gis' j) x =
     nth 0 (nth [::] gis j) x + (if j == ei then (irf_end m h lin st e (nth 0 rs ei) x - irf_end m h lin st e 0 x) ^+ 2 else 0)].
Proof.
move=> [sz tb]; rewrite /gf_shock /py_find; case: ifP => // ein /=; set ei := index _ _.
case: ifP => // /andP [l1 l2]; case Ea: gf_call => [a|] //=; case Eb: gf_call => [b|] //=; case Ev: vadd => [g|] //= [<-].
have [e1 [e2 e3]] := vadd_ok Ev; rewrite sz in l2; have [s1 p1] := tb _ l2.
have sq x : nth 0 [seq (x.1 - x.2) ^+ 2 | x <- zip a b] x = if (x < M)%N then (nth 0 a x - nth 0 b x) ^+ 2 else 0.
  case: ltnP => lx; last by rewrite nth_default // -e1 s1.
  have lz : (x < size (zip a b))%N by rewrite -(size_map (fun x => (x.1 - x.2) ^+ 2)) -e1 s1.
  rewrite (nth_map (0, 0)) //.
  by rewrite nth_zip_cond lz.
split; last first.
  exists ei; split=> // j x lx; rewrite nth_set_nth /=; case: eqP => [->|_]; last by rewrite addr0.
  by rewrite e3 sq lx (call_end Ea) (call_end Eb).
split; first by rewrite size_set_nth sz; apply/maxn_idPr.
move=> j lj; rewrite nth_set_nth /=; case: eqP => [_|_]; last exact: tb.
split; first by rewrite e2 s1.
move=> x; rewrite e3 sq addr_ge0 //; first by case: ifP => // _; rewrite sqr_ge0.
Qed.

Lemma shocks_tabl (m : tmodel F) h lin rs st es gis gis' : tabl gis -> uniq es -> {subset es <= shk m} -> 
  foldM (gf_shock m h lin rs st) es gis = Ok gis' ->
  tabl gis' /\ forall j x, (x < M)%N -> (j < size (shk m))%N -> uniq (shk m) -> nth 0 (nth [::] gis' j) x = nth 0 (nth [::] gis j) x +
    (if nth EmptyString (shk m) j \in es then
       (irf_end m h lin st (nth EmptyString (shk m) j) (nth 0 rs j) x - irf_end m h lin st (nth EmptyString (shk m) j) 0 x) ^+ 2 else 0).
Proof.
elim: es gis => [|e es IH] gis tb /=; first by move=> _ _ [<-]; split=> // j x _ _ _; rewrite addr0.
case/andP => ne ue sub; case E: gf_shock => [g1|] // Ef.
have [tb1 [ei [ein eei lei H1]]] := shock_tabl tb E.
have sub' : {subset es <= shk m} by move=> y ye; apply: sub; rewrite inE ye orbT.
have [tb2 H2] := IH _ tb1 ue sub' Ef.
split=> // j x lx lj us; rewrite H2 // H1 // inE -addrA; congr (_ + _).
have -> : (nth EmptyString (shk m) j == e) = (j == ei).
  by rewrite eei -[e in LHS](nth_index EmptyString ein) nth_uniq // index_mem.
case: (j =P ei) => [ej|_] /=; last by rewrite add0r.
have en : nth EmptyString (shk m) j = e by rewrite ej eei nth_index.
by rewrite en (negbTE ne) ej addr0.
Qed.

Lemma shocks_tabl0 (m : tmodel F) h lin rs st es gis gis' : tabl gis -> foldM (gf_shock m h lin rs st) es gis = Ok gis' -> tabl gis'.
Proof. by move=> tb; apply: (foldM_ind (I := tabl)) => // s x s' ts /(shock_tabl ts) []. Qed.
End G.

Section H.
Variable F : realFieldType.
Variables (P : Type) (setpar : P -> res (tmodel F)) (h : nat) (lin : bool).
Definition sq_of (md : option P -> tmodel F) (names : seq string) (s : seq F * seq F * option P) (j x : nat) : F :=
  (irf_end (md s.2) h lin s.1.2 (nth EmptyString names j) (nth 0 s.1.1 j) x - irf_end (md s.2) h lin s.1.2 (nth EmptyString names j) 0 x) ^+ 2.

Lemma samples_tabl0 N M sample m gis m' gis' : tabl N M gis -> foldM (gf_sample setpar h lin) sample (m, gis) = Ok (m', gis') -> tabl N M gis'.
Proof.
move=> tb E; suff : tabl N M (m', gis').2 by [].
apply: (foldM_ind (I := fun mg : tmodel F * seq (seq F) => tabl N M mg.2) _ _ E) => //.
move=> [m1 g1] [[rs st] par] [m2 g2] /= t1; case: (match par with Some p => setpar p | None => Ok m1 end) => [m3|] //=.
by case E2: foldM => [g3|] //= [_ <-]; apply: shocks_tabl0 t1 E2.
Qed.

Lemma samples_tabl N M names md sample m gis m' gis' : tabl N M gis -> uniq names -> (forall o, shk (md o) = names) -> 
  ((forall s, List.In s sample -> s.2 = None) /\ md None = m \/ 
   (forall s, List.In s sample -> s.2 <> None) /\ (forall p m', setpar p = Ok m' -> md (Some p) = m')) ->
  foldM (gf_sample setpar h lin) sample (m, gis) = Ok (m', gis') -> 
  forall j x, (j < size names)%N -> (x < M)%N -> nth 0 (nth [::] gis' j) x = nth 0 (nth [::] gis j) x + \sum_(s <- sample) sq_of md names s j x.
Proof.
move=> + un hn; elim: sample m gis => [|s sample IH] m gis tb hm.
  by case=> _ <- j x _ _; rewrite big_nil addr0.
have -> : foldM (gf_sample setpar h lin) (s :: sample) (m, gis) =
  match gf_sample setpar h lin (m, gis) s with Ok y => foldM (gf_sample setpar h lin) sample y | Err e => Err e end by [].
case E: (gf_sample setpar h lin (m, gis) s) => [[m1 g1]|] // Ef j x lj lx.
case: s hm E => [[rs st] par] hm; rewrite /gf_sample.
case Em: (match par with Some p => setpar p | None => Ok m end) => [m2|] //=.
case E2: foldM => [g2|] //= [e1 e2]; move: e1 e2 Ef => <- <- Ef {m1 g1}.
have emd : m2 = md par.
  case: hm => [[hN em]|[hS hs]].
    by have := hN _ (or_introl erefl) => /= ep; move: Em; rewrite ep em => -[].
  by case: par Em hS {E2} => [p|] Em hS; [rewrite (hs _ _ Em) | case: (hS _ (or_introl erefl))].
have u2 : uniq (shk m2) by rewrite emd hn.
have [tb2 H2] := shocks_tabl tb u2 (fun _ h => h) E2.
have hm' : (forall s, List.In s sample -> s.2 = None) /\ md None = m2 \/ 
   (forall s, List.In s sample -> s.2 <> None) /\ (forall p m', setpar p = Ok m' -> md (Some p) = m').
  case: hm => [[hN em]|[hS hs]]; [left|right]; split=> //.
  - by move=> s si; apply: hN; right.
  - by have := hN _ (or_introl erefl) => /= ep; rewrite emd ep.
  by move=> s si; apply: hS; right.
by rewrite (IH _ _ tb2 hm' Ef) // H2 ?emd ?hn // big_cons /sq_of /= mem_nth // addrA.
Qed.
End H.
