Set Warnings "-all".
From mathcomp Require Import all_ssreflect all_algebra.
From Verif Require Import PyBase M_Engine S_Engine P_Loops.
Set Implicit Arguments. Unset Strict Implicit. Unset Printing Implicit Defensive.
Import GRing.Theory.
Local Open Scope ring_scope.
Local Open Scope py_scope.

Section Blocks.
Variable F : fieldType.
Variables dimq dimp : nat.
Implicit Types (A B : 'M[F]_(dimq + dimp)) (c : 'cV[F]_(dimq + dimp))
  (q : 'cV[F]_dimq) (p : 'cV[F]_dimp).

Lemma mul_blocks A q p :
  A *m col_mx q p = col_mx (ulsubmx A *m q + ursubmx A *m p) (dlsubmx A *m q + drsubmx A *m p).
Proof. by rewrite -{1}[A]submxK mul_block_col. Qed.

Lemma usub0 : usubmx (0 : 'cV[F]_(dimq + dimp)) = 0.
Proof. by apply/matrixP=> i j; rewrite !mxE. Qed.
Lemma dsub0 : dsubmx (0 : 'cV[F]_(dimq + dimp)) = 0.
Proof. by apply/matrixP=> i j; rewrite !mxE. Qed.

Lemma eqn_blocks A B c q p q' p' :
  A *m col_mx q' p' = B *m col_mx q p + c <->
  ulsubmx A *m q' + ursubmx A *m p' = ulsubmx B *m q + ursubmx B *m p + usubmx c /\
  dlsubmx A *m q' + drsubmx A *m p' = dlsubmx B *m q + drsubmx B *m p + dsubmx c.
Proof.
rewrite !mul_blocks -{1}[c]vsubmxK add_col_mx.
by split=> [/eq_col_mx //|[-> ->]].
Qed.

(** premultiplying the lower rows by an invertible matrix *)
Definition lower (U : 'M[F]_dimp) (n : nat) (A : 'M[F]_(dimq + dimp, n)) : 'M[F]_(dimq + dimp, n) :=
  col_mx (usubmx A) (U *m dsubmx A).

Lemma lower_blocks U A :
  [/\ ulsubmx (lower U A) = ulsubmx A, ursubmx (lower U A) = ursubmx A,
      dlsubmx (lower U A) = U *m dlsubmx A & drsubmx (lower U A) = U *m drsubmx A].
Proof.
have -> : lower U A = block_mx (ulsubmx A) (ursubmx A) (U *m dlsubmx A) (U *m drsubmx A).
  by rewrite /lower /block_mx -mul_mx_row !hsubmxK.
by rewrite block_mxKul block_mxKur block_mxKdl block_mxKdr.
Qed.

Lemma lower_eqn U A B c q p q' p' : U \in unitmx ->
  A *m col_mx q' p' = B *m col_mx q p + c <->
  lower U A *m col_mx q' p' = lower U B *m col_mx q p + lower U c.
Proof.
move=> Uu; rewrite !eqn_blocks.
have [-> -> -> ->] := lower_blocks U A; have [-> -> -> ->] := lower_blocks U B.
rewrite /lower col_mxKu col_mxKd -!mulmxA -!mulmxDr.
split; case=> -> H; split=> //; first by rewrite H.
by move: H => /(congr1 (mulmx (invmx U))); rewrite !mulKmx.
Qed.
End Blocks.

Section Engine.
Variable F : fieldType.
Variables dimq dimp : nat.
Notation sysmats := (sysmats F dimq dimp).
Notation cell := (cell F dimq dimp).
Implicit Types (sm : sysmats) (c : cell).

(** Normalisation preserves the equations. *)
Lemma normaliseP sm0 sm : normalise sm0 = Ok sm ->
  [/\ forall q q' p p', unconstrained (mS sm0) (mT sm0) q q' p p' <-> unconstrained (mS sm) (mT sm) q q' p p',
      forall q q' p p', constrained (mV sm0) (mW sm0) (mh sm0) q q' p p'
                     <-> constrained (mV sm) (mW sm) (mh sm) q q' p p',
      drsubmx (mT sm) = 1%:M /\ drsubmx (mW sm) = 1%:M &
      ursubmx (mT sm) = ursubmx (mT sm0) /\ ursubmx (mW sm) = ursubmx (mW sm0)].
Proof.
rewrite /normalise /nl_inv.
case: ifP => //= Tu; case: ifP => //= Wu [<-] /=.
have Tu' : invmx (drsubmx (mT sm0)) \in unitmx by rewrite unitmx_inv.
have Wu' : invmx (drsubmx (mW sm0)) \in unitmx by rewrite unitmx_inv.
split.
- move=> q q' p p'; rewrite /unconstrained.
  have := @lower_eqn F dimq dimp _ (mS sm0) (mT sm0) 0 q p q' p' Tu'.
  rewrite /lower !addr0 => E.
  have e0 : col_mx (usubmx (0 : 'cV[F]_(dimq + dimp))) (invmx (drsubmx (mT sm0)) *m dsubmx (0 : 'cV[F]_(dimq + dimp))) = 0.
    by rewrite usub0 dsub0 mulmx0 col_mx0.
  by rewrite e0 addr0 in E.
- by move=> q q' p p'; rewrite /constrained; apply: lower_eqn.
- have [_ _ _ E1] := lower_blocks (invmx (drsubmx (mT sm0))) (mT sm0).
  have [_ _ _ E2] := lower_blocks (invmx (drsubmx (mW sm0))) (mW sm0).
  by rewrite /lower in E1 E2; rewrite E1 E2 !mulVmx.
- have [_ E1 _ _] := lower_blocks (invmx (drsubmx (mT sm0))) (mT sm0).
  have [_ E2 _ _] := lower_blocks (invmx (drsubmx (mW sm0))) (mW sm0).
  by rewrite /lower in E1 E2; rewrite E1 E2.
Qed.

(** Reference recursion. *)
Definition next sm (l : nat) (r : res cell) : res cell :=
  let* c := r in
  let* lx := get_lam (pm c) (pt c) sm l in
  let op := get_omg (pm c) (pt c) lx.1 lx.2 sm l in
  Ok (Cell op.1 op.2 lx.1 lx.2).

Fixpoint ref0 sm (c0 : cell) (k : nat) : res cell :=
  match k with 0%N => Ok c0 | k'.+1 => next sm 0 (ref0 sm c0 k') end.
Fixpoint ref sm (c0 : cell) (l k : nat) : res cell :=
  match l with 0%N => ref0 sm c0 k | l'.+1 => next sm l (ref sm c0 l' k) end.

Lemma ref_next sm c0 l k : (k != 0%N) || (l != 0%N) ->
  ref sm c0 l k = next sm l (ref sm c0 l.-1 (if l != 0%N then k else k.-1)).
Proof. by case: l k => [|l] [|k]. Qed.

Section Stage1.
Variables (sm : sysmats) (omg : 'M[F]_(dimp, dimq)) (lam : 'M[F]_dimq).
Let c0 := Cell omg 0 lam 0.
Variables Lm Km : nat.
Hypothesis Km0 : (0 < Km)%N.

Definition done (l k l' k' : nat) : bool :=
  [|| (l' < l)%N, (l' == l) && (k' < k)%N | (l' == 0%N) && (k' == 0%N)] && (k' < Km)%N.

Lemma stage1P' :
  holds (fun t => forall l k, (l < Lm)%N -> (k < Km)%N -> exists2 c, t l k = Some c & ref sm c0 l k = Ok c)
        (fun e => exists l c, get_lam (pm c) (pt c) sm l = Err e) (stage1 sm omg lam Lm Km).
Proof.
pose P l k (t : table cell) := forall l' k', done l k l' k' ->
   exists2 c, t l' k' = Some c & ref sm c0 l' k' = Ok c.
suff : holds (P Lm 0%N) (fun e => exists l c, get_lam (pm c) (pt c) sm l = Err e) (stage1 sm omg lam Lm Km).
  case: (stage1 _ _ _ _ _) => //= t Pt l k lL kK; apply: Pt.
  by rewrite /done lL kK.
apply: foldM_lk.
- move=> l' k'; rewrite /done /= andbF /= => /andP[/andP[/eqP -> /eqP ->] _].
  by exists c0.
- move=> l k t lL kK Pt /=.
  case: ifP => lk; last first.
    move=> /= l' k' D; apply: Pt; move: D; rewrite /done.
    move/negbT: lk; rewrite negb_or !negbK => /andP[/eqP -> /eqP ->].
    by rewrite !ltn0 /= andbF /= ltnS; case: k' => [|k']; case: (l' == 0%N).
  set kl := if _ then k else _.
  have [c Ec Rc] : exists2 c, t l.-1 kl = Some c & ref sm c0 l.-1 kl = Ok c.
    apply: Pt; rewrite /done /kl; case: (l) lk => [|l1] /=; last by rewrite ltnSn /= kK.
    rewrite orbF => k0; case: (k) k0 kK => // k1 _ kK' /=.
    by rewrite ltnS leqnn (ltnW kK').
  rewrite Ec /=.
  have Rn : ref sm c0 l k = next sm l (Ok c).
    by rewrite ref_next // -/kl Rc.
  rewrite /next /= in Rn.
  case G : (get_lam _ _ _ _) Rn => [lx|e] Rn /=; last first.
    by exists l, c.
  move=> /= l' k' D; rewrite /tupd.
  case: ifP => [/andP[/eqP -> /eqP ->]|ne].
    by exists (Cell (get_omg (pm c) (pt c) lx.1 lx.2 sm l).1
                  (get_omg (pm c) (pt c) lx.1 lx.2 sm l).2 lx.1 lx.2).
  apply: Pt; move: D; rewrite /done => /andP[D ->]; rewrite andbT.
  case/or3P: D => [->//| /andP[/eqP e]| ->]; last by rewrite !orbT.
  rewrite ltnS leq_eqVlt => /orP[/eqP e'|->]; last by rewrite e eqxx /= orbT.
  by rewrite e e' !eqxx in ne.
- move=> l t lL Pt l' k' D; apply: Pt; move: D; rewrite /done ltnS => /andP[D kK]; rewrite kK andbT.
  case/or3P: D => [|/andP[_] //| ->]; last by rewrite !orbT.
  by rewrite leq_eqVlt => /orP[/eqP -> |->//]; rewrite eqxx /= orbT.
Qed.

Lemma stage1P :
  holds (fun t => forall l k, (l < Lm)%N -> (k < Km)%N -> exists2 c, t l k = Some c & ref sm c0 l k = Ok c)
        (fun e => e = LinAlgErr) (stage1 sm omg lam Lm Km).
Proof.
have := stage1P'; case: (stage1 _ _ _ _ _) => //= e [l [c]].
by rewrite /get_lam /nl_inv; case: ifP => //= _ [].
Qed.
End Stage1.

(** The one-period step: if the next period is governed by the rule [c], then
    the rule computed from [c] makes this period's equations hold. *)
Definition Asys sm (l : nat) := if l != 0%N then mS sm else mV sm.
Definition Bsys sm (l : nat) := if l != 0%N then mT sm else mW sm.
Definition csys sm (l : nat) : 'cV[F]_(dimq + dimp) := if l != 0%N then 0 else mh sm.

Lemma csysE sm l : (if l != 0%N then 0 else usubmx (mh sm)) = usubmx (csys sm l) /\
                   (if l != 0%N then 0 else dsubmx (mh sm)) = dsubmx (csys sm l).
Proof.
rewrite /csys; case: ifP => // _.
by rewrite usub0 dsub0.
Qed.

Lemma next_solves sm l c c' (q : 'cV[F]_dimq) :
  ursubmx (Bsys sm l) = 0 -> drsubmx (Bsys sm l) = 1%:M ->
  next sm l (Ok c) = Ok c' ->
  Asys sm l *m col_mx (qm c' *m q + qt c') (pm c *m (qm c' *m q + qt c') + pt c)
  = Bsys sm l *m col_mx q (pm c' *m q + pt c') + csys sm l.
Proof.
move=> B12 B22; rewrite /next /= /get_lam.
have [-> _] := csysE sm l; rewrite -/(Asys sm l) -/(Bsys sm l) /nl_inv.
case: ifP => //= Au [<-] /=.
rewrite /get_omg; have [_ ->] := csysE sm l; rewrite -/(Asys sm l) -/(Bsys sm l) /=.
set A := Asys sm l in Au *; set B := Bsys sm l in B12 B22 *; set d := csys sm l.
set J := ulsubmx A + ursubmx A *m pm c in Au *.
set lam := invmx J *m ulsubmx B; set xi := invmx J *m (usubmx d - ursubmx A *m pt c).
have JL : J *m lam = ulsubmx B by rewrite /lam mulKVmx.
have JX : J *m xi = usubmx d - ursubmx A *m pt c by rewrite /xi mulKVmx.
apply/eqn_blocks; rewrite B12 B22 mul0mx mul1mx addr0; split.
- rewrite (mulmxDr (ursubmx A)) addrA mulmxA -mulmxDl -/J mulmxDr mulmxA JL JX.
  by rewrite -addrA subrK.
- set dum := dlsubmx A + drsubmx A *m pm c.
  rewrite (mulmxDr (drsubmx A)) addrA mulmxA -mulmxDl -/dum.
  rewrite [dum *m (lam *m q + xi)]mulmxDr (mulmxA dum) (mulmxBl (dum *m lam)).
  set X := dum *m lam *m q; set Y := dum *m xi; set Z := drsubmx A *m pt c; set D := dsubmx d.
  set U := dlsubmx B *m q.
  by rewrite [U + _]addrA (addrC U) subrK -!addrA addNr addr0 !addrA.
Qed.

Lemma next_unique sm l c c' (q q' : 'cV[F]_dimq) (p : 'cV[F]_dimp) :
  ursubmx (Bsys sm l) = 0 -> drsubmx (Bsys sm l) = 1%:M ->
  next sm l (Ok c) = Ok c' ->
  Asys sm l *m col_mx q' (pm c *m q' + pt c) = Bsys sm l *m col_mx q p + csys sm l ->
  q' = qm c' *m q + qt c' /\ p = pm c' *m q + pt c'.
Proof.
move=> B12 B22 nx H.
have Eq' : q' = qm c' *m q + qt c'.
  move: nx H; rewrite /next /= /get_lam.
  have [-> _] := csysE sm l; rewrite -/(Asys sm l) -/(Bsys sm l) /nl_inv.
  case: ifP => //= Au [<-] /=.
  move/eqn_blocks => []; rewrite B12 mul0mx addr0 mulmxDr addrA mulmxA -mulmxDl => E _.
  rewrite -mulmxA -mulmxDr addrA -E addrK mulKmx //.
split=> //; move: H; rewrite Eq' next_solves // => /addIr.
move/(congr1 dsubmx); rewrite !mul_blocks !col_mxKd B22 !mul1mx.
by move/addrI.
Qed.
End Engine.
