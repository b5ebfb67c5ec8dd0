(** Premultiplying the two systems by invertible matrices does not change what [preprocess] computes. *)
Set Warnings "-all".
From mathcomp Require Import all_ssreflect all_algebra.
From Verif Require Import PyBase M_Engine.
Set Implicit Arguments. Unset Strict Implicit. Unset Printing Implicit Defensive.
Import GRing.Theory.
Local Open Scope ring_scope.
Local Open Scope py_scope.

Section Inv.
Variable F : fieldType.
Variables q p : nat.
Implicit Types (A B G : 'M[F]_(q + p)) (c : 'cV[F]_(q + p)).

Lemma nl_invE n (A : 'M[F]_n) : nl_inv A = if A \in unitmx then Ok (invmx A) else Err LinAlgErr.
Proof. by []. Qed.

(** the shape of [G] *)
Lemma lower_G G B : ursubmx B = 0 -> ursubmx (G *m B) = 0 -> drsubmx B \in unitmx -> ursubmx G = 0.
Proof.
move=> e1 e2 un; rewrite -[G]submxK -[B]submxK e1 mulmx_block block_mxKur !mulmx0 ?add0r in e2.
by rewrite -[ursubmx G](mulmxK un) e2 mul0mx.
Qed.

Lemma dr_unit G B : G \in unitmx -> ursubmx B = 0 -> ursubmx (G *m B) = 0 -> drsubmx B \in unitmx ->
  [/\ ursubmx G = 0, ulsubmx G \in unitmx, drsubmx G \in unitmx & drsubmx (G *m B) \in unitmx].
Proof.
move=> uG e1 e2 un; have G0 := lower_G e1 e2 un.
have [h1 h2] : ulsubmx G \in unitmx /\ drsubmx G \in unitmx.
  move: uG; rewrite !unitmxE -{1}[G]submxK G0 det_lblock !unitfE mulf_eq0 negb_or => /andP [-> ->] //.
split=> //; rewrite -[G]submxK -[B]submxK G0 e1 mulmx_block !block_mxKdr mulmx0 add0r unitmx_mul h2.
by rewrite un.
Qed.

Lemma dr_unitE G B : G \in unitmx -> ursubmx B = 0 -> ursubmx (G *m B) = 0 ->
  (drsubmx (G *m B) \in unitmx) = (drsubmx B \in unitmx).
Proof.
move=> uG e1 e2; apply/idP/idP => h; last by case: (dr_unit uG e1 e2 h).
have eB : B = invmx G *m (G *m B) by rewrite mulKmx.
have uG' : invmx G \in unitmx by rewrite unitmx_inv.
have := dr_unit uG' e2 _ h; rewrite -eB => /(_ e1) [_ _ _ //].
Qed.

(** one pass, with the normalised lower rows *)
Definition pass A B c (omg : 'M[F]_(p, q)) (psi : 'cV[F]_p) : res (@cell F q p) :=
  let* inv := nl_inv (ulsubmx A + ursubmx A *m omg) in
  let lam := inv *m ulsubmx B in
  let xi := inv *m (usubmx c - ursubmx A *m psi) in
  let N := invmx (drsubmx B) in
  let dum := N *m dlsubmx A + N *m drsubmx A *m omg in
  Ok (Cell (dum *m lam - N *m dlsubmx B) (dum *m xi + N *m drsubmx A *m psi - N *m dsubmx c) lam xi).

Lemma pass_inv G A B c omg psi : G \in unitmx -> ursubmx B = 0 -> ursubmx (G *m B) = 0 -> drsubmx B \in unitmx ->
  pass (G *m A) (G *m B) (G *m c) omg psi = pass A B c omg psi.
Proof.
move=> uG e1 e2 un; have [G0 u1 u2 u3] := dr_unit uG e1 e2 un.
rewrite /pass; move: u3.
rewrite -[G]submxK -[A]submxK -[B]submxK -[c]vsubmxK G0 e1 !mulmx_block mul_block_col !(block_mxKul, block_mxKur, block_mxKdl, block_mxKdr, col_mxKu, col_mxKd).
rewrite !mul0mx !mulmx0 !addr0 !add0r.
set G1 := ulsubmx G; set G2 := dlsubmx G; set G3 := drsubmx G.
set A1 := ulsubmx A; set A2 := ursubmx A; set A3 := dlsubmx A; set A4 := drsubmx A.
set B1 := ulsubmx B; set B3 := dlsubmx B; set B4 := drsubmx B; set c1 := usubmx c; set c2 := dsubmx c => u3.
have -> : G1 *m A1 + G1 *m A2 *m omg = G1 *m (A1 + A2 *m omg) by rewrite mulmxDr mulmxA.
rewrite !nl_invE unitmx_mul u1 andTb; case: ifP => // uD /=.
set D := A1 + A2 *m omg in uD *.
have eI : invmx (G1 *m D) = invmx D *m invmx G1.
  apply: (can_inj (mulKmx (_ : G1 *m D \in unitmx))); first by rewrite unitmx_mul u1.
  by rewrite mulmxV ?unitmx_mul ?u1 // -mulmxA mulKVmx // mulmxV.
have el : invmx (G1 *m D) *m (G1 *m B1) = invmx D *m B1 by rewrite eI -mulmxA mulKmx.
have ex : invmx (G1 *m D) *m (G1 *m c1 - G1 *m A2 *m psi) = invmx D *m (c1 - A2 *m psi).
  by rewrite eI -!(mulmxA G1) -mulmxBr -mulmxA mulKmx.
rewrite el ex; set lam := invmx D *m B1; set xi := invmx D *m _.
have eN : invmx (G3 *m B4) = invmx B4 *m invmx G3.
  apply: (can_inj (mulKmx u3)); rewrite mulmxV // -mulmxA mulKVmx ?mulmxV //.
have Dl : D *m lam = B1 by rewrite /lam mulKVmx.
have Dx : D *m xi = c1 - A2 *m psi by rewrite /xi mulKVmx.
have dum : invmx (G3 *m B4) *m (G2 *m A1 + G3 *m A3) + invmx (G3 *m B4) *m (G2 *m A2 + G3 *m A4) *m omg =
   invmx (G3 *m B4) *m G2 *m D + (invmx B4 *m A3 + invmx B4 *m A4 *m omg).
  rewrite -!mulmxA -!mulmxDr mulmxDl addrACA -!mulmxA -!mulmxDr -/D.
  by rewrite mulmxDr !eN -!mulmxA mulKmx // mulmxDr.
rewrite dum; congr (Ok (Cell _ _ _ _)).
  rewrite mulmxDl -!mulmxA Dl mulmxDr eN -!mulmxA mulKmx // opprD addrACA subrr add0r.
  by rewrite !mulmxA.
have e3 k (X : 'M[F]_(p, k)) : invmx (G3 *m B4) *m (G3 *m X) = invmx B4 *m X by rewrite eN -!mulmxA mulKmx.
rewrite mulmxDl -(mulmxA _ D xi) Dx -(mulmxA _ (_ + _) psi) [(_ + _) *m psi]mulmxDl -(mulmxA G2 A2) -(mulmxA G3 A4).
rewrite (mulmxDr (invmx (G3 *m B4)) (G2 *m (A2 *m psi))) (mulmxDr (invmx (G3 *m B4)) (G2 *m c1)) !e3.
rewrite mulmxBr -!(mulmxA _ G2) (mulmxA (invmx B4) A4).
set a := _ *m (G2 *m c1); set b := _ *m (G2 *m _).
by rewrite addrACA subrK opprD addrACA subrr add0r.
Qed.

Definition nsm (sm : sysmats F q p) := SysMats
  (col_mx (usubmx (mS sm)) (invmx (drsubmx (mT sm)) *m dsubmx (mS sm))) (col_mx (usubmx (mT sm)) (invmx (drsubmx (mT sm)) *m dsubmx (mT sm)))
  (col_mx (usubmx (mV sm)) (invmx (drsubmx (mW sm)) *m dsubmx (mV sm))) (col_mx (usubmx (mW sm)) (invmx (drsubmx (mW sm)) *m dsubmx (mW sm)))
  (col_mx (usubmx (mh sm)) (invmx (drsubmx (mW sm)) *m dsubmx (mh sm))).
Lemma normaliseE sm : normalise sm =
  if (drsubmx (mT sm) \in unitmx) && (drsubmx (mW sm) \in unitmx) then Ok (nsm sm) else Err LinAlgErr.
Proof. by rewrite /normalise !nl_invE; case: ifP => //= _; case: ifP. Qed.

Lemma nul (N : 'M[F]_p) A : [/\ ulsubmx (col_mx (usubmx A) (N *m dsubmx A)) = ulsubmx A, ursubmx (col_mx (usubmx A) (N *m dsubmx A)) = ursubmx A,
  dlsubmx (col_mx (usubmx A) (N *m dsubmx A)) = N *m dlsubmx A & drsubmx (col_mx (usubmx A) (N *m dsubmx A)) = N *m drsubmx A].
Proof.
by rewrite /ulsubmx /ursubmx /dlsubmx /drsubmx col_mxKu col_mxKd; split=> //; [rewrite mulmx_lsub|rewrite mulmx_rsub].
Qed.

Lemma bodyE sm omg psi l : (let* lx := get_lam omg psi (nsm sm) l in
    let op := get_omg omg psi lx.1 lx.2 (nsm sm) l in Ok (Cell op.1 op.2 lx.1 lx.2)) =
  pass (if l != 0%N then mS sm else mV sm) (if l != 0%N then mT sm else mW sm) (if l != 0%N then 0 else mh sm) omg psi.
Proof.
rewrite /get_lam /get_omg /pass; case: (l != 0%N) => /=.
  have [a1 a2 a3 a4] := nul (invmx (drsubmx (mT sm))) (mS sm); have [b1 b2 b3 b4] := nul (invmx (drsubmx (mT sm))) (mT sm).
  by rewrite a1 a2; case: nl_inv => //= i; rewrite a3 a4 b1 b3 !linear0.
have [a1 a2 a3 a4] := nul (invmx (drsubmx (mW sm))) (mV sm); have [b1 b2 b3 b4] := nul (invmx (drsubmx (mW sm))) (mW sm).
by rewrite a1 a2; case: nl_inv => //= i; rewrite a3 a4 b1 b3 col_mxKu col_mxKd.
Qed.

Lemma eq_foldM (A B : Type) (f g : A -> B -> res A) l a : (forall a b, f a b = g a b) -> foldM f l a = foldM g l a.
Proof. by move=> h; elim: l a => //= b l IH a; rewrite h; case: (g a b) => /=. Qed.

(** [preprocess] solves equations, and equivalent systems with the same triangular shape have the same solutions *)
Lemma preprocess_inv (G H : 'M[F]_(q + p)) (sm : sysmats F q p) f omg lam lm km :
  G \in unitmx -> H \in unitmx -> ursubmx (mT sm) = 0 -> ursubmx (mW sm) = 0 ->
  ursubmx (G *m mT sm) = 0 -> ursubmx (H *m mW sm) = 0 ->
  preprocess (SysMats (G *m mS sm) (G *m mT sm) (H *m mV sm) (H *m mW sm) (H *m mh sm)) f omg lam lm km =
  preprocess sm f omg lam lm km.
Proof.
move=> uG uH T0 W0 gT hW; rewrite /preprocess !normaliseE /=.
rewrite (dr_unitE uG T0 gT) (dr_unitE uH W0 hW); case: ifP => // /andP [uT uW] /=.
set sm' := SysMats _ _ _ _ _.
suff -> : stage1 (nsm sm') omg lam lm.+1 km.+1 = stage1 (nsm sm) omg lam lm.+1 km.+1 by [].
apply: eq_foldM => t [l k]; rewrite /stage1_body; case: ifP => // _.
case: of_opt => //= c.
have := bodyE sm' (pm c) (pt c) l; have := bodyE sm (pm c) (pt c) l.
have -> : pass (if l != 0%N then mS sm' else mV sm') (if l != 0%N then mT sm' else mW sm')
   (if l != 0%N then 0 else mh sm') (pm c) (pt c) =
   pass (if l != 0%N then mS sm else mV sm) (if l != 0%N then mT sm else mW sm)
   (if l != 0%N then 0 else mh sm) (pm c) (pt c).
  case: (l != 0%N) => /=; last by rewrite pass_inv.
  by have := pass_inv (mS sm) 0 (pm c) (pt c) uG T0 gT uT; rewrite mulmx0.
move=> <-; case: get_lam => [x|ex] /=; case: get_lam => [y|ey] //=.
  by move=> [h1 h2 h3 h4]; rewrite h1 h2 h3 h4.
by case=> ->.
Qed.
End Inv.
