(** [gen_sys] on recombined equations. *)
Set Warnings "-all".
From Coq Require Import String.
From mathcomp Require Import all_ssreflect all_algebra.
From Verif Require Import PyBase PyStr M_Engine S_Engine M_GenSys S_GenSys P_GenSys2 M_Pipe M_Tools M_Full S_Full S_Inv P_Inv.
Set Implicit Arguments. Unset Strict Implicit. Unset Printing Implicit Defensive.
Import GRing.Theory Num.Theory.
Local Open Scope ring_scope.
Local Open Scope py_scope.

Section Gen.
Variable F : realFieldType.
Variable tol : F.
Variables m n e : nat.
Notation usys := (usys F m n e).
Notation klein_t := (forall a b, 'M[F]_(a + b) -> 'M[F]_(a + b) -> res ('M[F]_(b, a) * 'M[F]_a)).
Notation rq_t := (forall d, 'M[F]_d -> 'M[F]_d * 'M[F]_d).

(** the definitions of M_GenSys.v with the masks and the enumerations of selected columns as parameters *)
Section A.
Variables (k : nat) (f : 'I_k -> 'I_n) (a : 'I_n -> bool).
Variable u : usys.
Definition hAA1 : 'M[F]_(m + k, n + k) := block_mx (AA0 u) 0 0 0.
Definition hBB1 : 'M[F]_(m + k, n + k) := block_mx (BB0 u) 0 (- rowsub f 1%:M) 1%:M.
Definition hCC1 : 'M[F]_(m + k, n + k) := block_mx (\matrix_(i, j) (if a j then 0 else CC0 u i j)) (colsub f (CC0 u)) 0 0.
Definition hDD1 : 'M[F]_(m + k, e) := col_mx (DD0 u) 0.
Definition hAA2 : 'M[F]_(m + k + e, n + k + e) := block_mx hAA1 0 0 0.
Definition hBB2 : 'M[F]_(m + k + e, n + k + e) := block_mx hBB1 0 0 1%:M.
Definition hCC2 : 'M[F]_(m + k + e, n + k + e) := block_mx hCC1 hDD1 0 0.
Definition hfb2 : 'rV[F]_(n + k + e) := row_mx (row_mx (fbn u) 0) 0.
Definition hfc2 : 'rV[F]_(n + k + e) :=
  if fd0 u is Some fd then - row_mx (row_mx (fcn u) 0) fd else row_mx (row_mx (fcn u) 0) 0.
Definition hinq (j : 'I_(n + k + e)) : bool := ~~ fast0 tol hCC2 j || ~~ (`|hfc2 0 j| < tol).
Definition hinp (j : 'I_(n + k + e)) : bool := (~~ fast0 tol hAA2 j || ~~ fast0 tol hBB2 j) && ~~ hinq j.
Definition hcv2 : 'I_(n + k + e) := lshift e (lshift k (cv u)).
Definition hAA : 'M[F]_(m + k + e + 1, n + k + e) := col_mx hAA2 0.
Definition hBBU : 'M[F]_(m + k + e + 1, n + k + e) := col_mx hBB2 hfb2.
Definition hCCU : 'M[F]_(m + k + e + 1, n + k + e) := col_mx hCC2 hfc2.
Definition hBBR : 'M[F]_(m + k + e + 1, n + k + e) := col_mx hBB2 (- delta_mx 0 hcv2).
Definition hCCR : 'M[F]_(m + k + e + 1, n + k + e) := col_mx hCC2 0.
Definition hgg : 'cV[F]_(m + k + e + 1) := col_mx 0 (x_bar u)%:M.
Definition hfb2' : 'rV[F]_(n + k + e) := \row_j (if j == hcv2 then 0 else hfb2 0 j).
Section Q.
Variables (q p : nat) (fq : 'I_q -> 'I_(n + k + e)) (fp : 'I_p -> 'I_(n + k + e)).
Definition hPU : 'M[F]_(m + k + e + 1, q + p) := - row_mx (colsub fq hBBU) (colsub fp hAA).
Definition hMU : 'M[F]_(m + k + e + 1, q + p) := row_mx (colsub fq hCCU) (colsub fp hBBU).
Definition hPR : 'M[F]_(m + k + e + 1, q + p) := - row_mx (colsub fq hBBR) (colsub fp hAA).
Definition hMR : 'M[F]_(m + k + e + 1, q + p) := row_mx (colsub fq hCCR) (colsub fp hBBR).
Definition hff : cnst F q p := @Cnst F q p (colsub fq hfb2') (colsub fp hfb2') (colsub fq hfc2).
Definition hsys_of (rq : rq_t) : res (sysmats F q p) :=
  match @eqP _ (m + k + e + 1)%N (q + p)%N with
  | ReflectT pf =>
      let sq (A : 'M[F]_(m + k + e + 1, q + p)) := castmx (pf, erefl) A in
      let: (PU', MU', _) := rotate (rq _) (sq hPU) (sq hMU) 0 in
      let: (PR', MR', gg') := rotate (rq _) (sq hPR) (sq hMR) (castmx (pf, erefl) hgg) in
      Ok (SysMats PU' MU' PR' MR' gg')
  | ReflectF _ => Err ValueError
  end.
Definition hgen_sys (rq : rq_t) (klein : klein_t) (nv : res (seq string * seq string * seq string))
    (z w : nat) (fz : 'I_z -> 'I_(n + k)) (fw : 'I_w -> 'I_(n + k))
    (o : nat) (shks : seq string) (ZZ0 : 'M[F]_(o, n)) (ZZ1 : 'cV[F]_o) (l_max k_max : nat) : res (tmodel F) :=
  let* vv := nv in
  let* sm := hsys_of rq in
  let* ol := klein q p (mS sm) (mT sm) in
  let* tb := preprocess sm hff ol.1 ol.2 l_max k_max in
  Ok (@TM F q p tb.1 tb.2 l_max k_max (x_bar u) shks
        o z (conform_mx 0 (colsub fw (row_mx ZZ0 (0 : 'M_(o, k))))) (colsub fz (row_mx ZZ0 0)) ZZ1 vv.2).
End Q.
End A.

Notation ev P := (@enum_val _ P).
Lemma gen_sysE rq klein o u names shks (ZZ0 : 'M[F]_(o, n)) ZZ1 lm km :
  gen_sys tol rq klein u names shks ZZ0 ZZ1 lm km =
  hgen_sys (ev (inall tol u)) (inall tol u) u (ev (inq (tol:=tol) (u:=u))) (ev (inp (tol:=tol) (u:=u))) rq klein (new_vv tol u names)
    (ev (dropeps (inq (tol:=tol) (u:=u)))) (ev (dropeps (inp (tol:=tol) (u:=u)))) shks ZZ0 ZZ1 lm km.
Proof. by []. Qed.

(** ** the equations are recombined, the masks stay *)
Section G.
Variable G : 'M[F]_m.
Variable u : usys.
Let u' := recombine G u.
Section A.
Variables (k : nat) (f : 'I_k -> 'I_n) (a : 'I_n -> bool).
Definition G1 : 'M[F]_(m + k) := block_mx G 0 0 1%:M.
Definition G2 : 'M[F]_(m + k + e) := block_mx G1 0 0 1%:M.
Definition G3 : 'M[F]_(m + k + e + 1) := block_mx G2 0 0 1%:M.
Lemma G3_unit : G \in unitmx -> G3 \in unitmx.
Proof. by move=> h; rewrite !unitmxE /G3 /G2 /G1 !det_ublock !det1 !mulr1 -unitmxE. Qed.
Let sE := (mulmx_block, mul0mx, mul1mx, mulmx0, addr0, add0r).
Lemma hAA2E : hAA2 k u' = G2 *m hAA2 k u. Proof. by rewrite /hAA2 /hAA1 /G2 /G1 !sE. Qed.
Lemma hBB2E : hBB2 f u' = G2 *m hBB2 f u. Proof. by rewrite /hBB2 /hBB1 /G2 /G1 !sE. Qed.
Lemma hCC2E : hCC2 f a u' = G2 *m hCC2 f a u.
Proof.
rewrite /hCC2 /hCC1 /hDD1 /G2 /G1 !sE mul_block_col !sE; congr (block_mx (block_mx _ _ _ _) _ _ _).
  apply/matrixP=> i j; rewrite !mxE; case aj: (a j); last by apply: eq_bigr => x _; rewrite !mxE aj.
  by rewrite big1 // => x _; rewrite mxE aj mulr0.
by apply/matrixP=> i j; rewrite !mxE; apply: eq_bigr => x _; rewrite !mxE.
Qed.
Let hE := (mul_block_col, mul0mx, mul1mx, mulmx0, addr0, add0r).
Lemma hAAE : hAA k u' = G3 *m hAA k u. Proof. by rewrite /hAA hAA2E /G3 !hE. Qed.
Lemma hBBUE : hBBU f u' = G3 *m hBBU f u. Proof. by rewrite /hBBU hBB2E /G3 !hE. Qed.
Lemma hCCUE : hCCU f a u' = G3 *m hCCU f a u. Proof. by rewrite /hCCU hCC2E /G3 !hE. Qed.
Lemma hBBRE : hBBR f u' = G3 *m hBBR f u. Proof. by rewrite /hBBR hBB2E /G3 !hE. Qed.
Lemma hCCRE : hCCR f a u' = G3 *m hCCR f a u. Proof. by rewrite /hCCR hCC2E /G3 !hE. Qed.
Lemma hggE : hgg k u' = G3 *m hgg k u. Proof. by rewrite /hgg /G3 !hE. Qed.
Lemma colsubM r s c d (g : 'I_d -> 'I_c) (A : 'M[F]_(r, s)) B : colsub g (A *m B) = A *m colsub g B.
Proof. by apply/matrixP=> i j; rewrite !mxE; apply: eq_bigr => x _; rewrite !mxE. Qed.

Section Q.
Variables (q p : nat) (fq : 'I_q -> 'I_(n + k + e)) (fp : 'I_p -> 'I_(n + k + e)).
Lemma hPUE : hPU f u' fq fp = G3 *m hPU f u fq fp. Proof. by rewrite /hPU hBBUE hAAE !colsubM -mul_mx_row mulmxN. Qed.
Lemma hMUE : hMU f a u' fq fp = G3 *m hMU f a u fq fp. Proof. by rewrite /hMU hBBUE hCCUE !colsubM -mul_mx_row. Qed.
Lemma hPRE : hPR f u' fq fp = G3 *m hPR f u fq fp. Proof. by rewrite /hPR hBBRE hAAE !colsubM -mul_mx_row mulmxN. Qed.
Lemma hMRE : hMR f a u' fq fp = G3 *m hMR f a u fq fp. Proof. by rewrite /hMR hBBRE hCCRE !colsubM -mul_mx_row. Qed.

Lemma castM r c d (pf : r = c) (A : 'M[F]_r) (B : 'M[F]_(r, d)) :
  castmx (pf, erefl) (A *m B) = castmx (pf, pf) A *m castmx (pf, erefl) B.
Proof. by case: c / pf. Qed.
Lemma cast_unit r c (pf : r = c) (A : 'M[F]_r) : (castmx (pf, pf) A \in unitmx) = (A \in unitmx).
Proof. by case: c / pf. Qed.

Variables rq rq' : rq_t.
Hypotheses (rqP : rq_ok rq) (rqP' : rq_ok rq') (uG : G \in unitmx).

Lemma rot_inv d (K P M : 'M[F]_d) g : K \in unitmx -> exists L, L \in unitmx /\
  rotate (@rq' d) (K *m P) (K *m M) (K *m g) =
  (L *m (rotate (@rq d) P M g).1.1, L *m (rotate (@rq d) P M g).1.2, L *m (rotate (@rq d) P M g).2).
Proof.
move=> uK; have [Q [uQ -> _]] := rotateE (@rqP d) P M g; have [Q' [uQ' -> _]] := rotateE (@rqP' d) (K *m P) (K *m M) (K *m g).
exists (Q' *m K *m invmx Q); split=> //; first by rewrite !unitmx_mul uQ' uK unitmx_inv.
by rewrite /= -!mulmxA !mulKmx.
Qed.

Lemma hsys_inv : (exists ex, hsys_of f a u fq fp rq = Err ex /\ hsys_of f a u' fq fp rq' = Err ex) \/
  exists sm (K L : 'M[F]_(q + p)), [/\ hsys_of f a u fq fp rq = Ok sm, K \in unitmx, L \in unitmx,
   hsys_of f a u' fq fp rq' = Ok (SysMats (K *m mS sm) (K *m mT sm) (L *m mV sm) (L *m mW sm) (L *m mh sm)) &
   [/\ ursubmx (mT sm) = 0, ursubmx (mW sm) = 0, ursubmx (K *m mT sm) = 0 & ursubmx (L *m mW sm) = 0]].
Proof.
rewrite /hsys_of; case: eqP => pf; last by left; exists ValueError.
right; rewrite hPUE hMUE hPRE hMRE hggE !castM.
set K0 := castmx (pf, pf) G3; set gg := castmx _ (hgg k u).
set P1 := castmx _ (hPU f u fq fp); set M1 := castmx _ (hMU f a u fq fp); set P2 := castmx _ (hPR f u fq fp); set M2 := castmx _ (hMR f a u fq fp).
have uK0 : K0 \in unitmx by rewrite cast_unit G3_unit.
have [K [uK eK]] := rot_inv P1 M1 0 uK0; have [L [uL eL]] := rot_inv P2 M2 gg uK0.
rewrite mulmx0 in eK.
have z1 := rotate_ur P1 M1 0 (@rqP _); have z2 := rotate_ur P2 M2 gg (@rqP _).
have z3 := rotate_ur (K0 *m P1) (K0 *m M1) 0 (@rqP' _); have z4 := rotate_ur (K0 *m P2) (K0 *m M2) (K0 *m gg) (@rqP' _).
rewrite eK in z3 *; rewrite eL in z4 *; move: z1 z2 z3 z4.
case: (rotate _ P1 _ _) => -[X1 Y1] g1; case: (rotate _ P2 _ _) => -[X2 Y2] g2 /= z1 z2 z3 z4.
by exists (SysMats X1 Y1 X2 Y2 g2), K, L.
Qed.

Variable klein : klein_t.
Hypothesis kli : klein_invariant klein.
Lemma hgen_inv nv z w (fz : 'I_z -> 'I_(n + k)) (fw : 'I_w -> 'I_(n + k)) o shks (ZZ0 : 'M[F]_(o, n)) ZZ1 lm km :
  hgen_sys f a u' fq fp rq' klein nv fz fw shks ZZ0 ZZ1 lm km = hgen_sys f a u fq fp rq klein nv fz fw shks ZZ0 ZZ1 lm km.
Proof.
rewrite /hgen_sys; case: nv => //= vv.
case: hsys_inv => [[ex [-> ->]] //|[sm [K [L [-> uK uL -> [z1 z2 z3 z4]]]]]] /=.
rewrite kli //; case: klein => //= -[om la] /=.
by rewrite (preprocess_inv (hff u fq fp) om la lm km uK uL z1 z2 z3 z4).
Qed.
End Q.
End A.
End G.

(** ** only the values of masks and enumerations matter *)
Definition same_fun (x x' y y' : nat) (f : 'I_x -> 'I_y) (f' : 'I_x' -> 'I_y') : Prop :=
  x = x' /\ forall (i : 'I_x) (i' : 'I_x'), i = i' :> nat -> f i = f' i' :> nat.
Lemma same_funE x y (f f' : 'I_x -> 'I_y) : same_fun f f' -> f =1 f'.
Proof. by case=> _ h i; apply: val_inj; apply: h. Qed.
Lemma eq_colsub r c d (g g' : 'I_d -> 'I_c) (A : 'M[F]_(r, c)) : g =1 g' -> colsub g A = colsub g' A.
Proof. by move=> h; apply/matrixP=> i j; rewrite !mxE h. Qed.
Lemma eq_rowsub r c d (g g' : 'I_d -> 'I_r) (A : 'M[F]_(r, c)) : g =1 g' -> rowsub g A = rowsub g' A.
Proof. by move=> h; apply/matrixP=> i j; rewrite !mxE h. Qed.

Section Ext.
Variable u : usys.
Lemma hBB2_ext k (f f' : 'I_k -> 'I_n) : f =1 f' -> hBB2 f u = hBB2 f' u.
Proof. by move=> h; rewrite /hBB2 /hBB1 (eq_rowsub _ h). Qed.
Lemma hCC2_ext k (f f' : 'I_k -> 'I_n) a a' : f =1 f' -> a =1 a' -> hCC2 f a u = hCC2 f' a' u.
Proof.
move=> h h'; rewrite /hCC2 /hCC1 (eq_colsub _ h); congr (block_mx (block_mx _ _ _ _) _ _ _).
by apply/matrixP=> i j; rewrite !mxE h'.
Qed.

Lemma hgen_ext k k' (f : 'I_k -> 'I_n) (f' : 'I_k' -> 'I_n) a a' q p q' p' (fq : 'I_q -> 'I_(n + k + e)) (fp : 'I_p -> 'I_(n + k + e))
    (fq' : 'I_q' -> 'I_(n + k' + e)) (fp' : 'I_p' -> 'I_(n + k' + e)) rq klein nv z w z' w'
    (fz : 'I_z -> 'I_(n + k)) (fw : 'I_w -> 'I_(n + k)) (fz' : 'I_z' -> 'I_(n + k')) (fw' : 'I_w' -> 'I_(n + k'))
    o shks (ZZ0 : 'M[F]_(o, n)) ZZ1 lm km :
  same_fun f f' -> a =1 a' -> same_fun fq fq' -> same_fun fp fp' -> same_fun fz fz' -> same_fun fw fw' ->
  hgen_sys f a u fq fp rq klein nv fz fw shks ZZ0 ZZ1 lm km = hgen_sys f' a' u fq' fp' rq klein nv fz' fw' shks ZZ0 ZZ1 lm km.
Proof.
move=> Hf ea Hq Hp Hz Hw; move: (Hf) (Hq) (Hp) (Hz) (Hw) => [ek _] [eq _] [ep _] [ez _] [ew _].
subst k' q' p' z' w'; move/same_funE: Hf => Hf; move/same_funE: Hq => Hq; move/same_funE: Hp => Hp.
move/same_funE: Hz => Hz; move/same_funE: Hw => Hw.
have eS : hsys_of f a u fq fp rq = hsys_of f' a' u fq' fp' rq.
  rewrite /hsys_of /hPU /hMU /hPR /hMR /hBBU /hCCU /hBBR /hCCR (hBB2_ext Hf) (hCC2_ext Hf ea).
  by rewrite !(eq_colsub _ Hq) !(eq_colsub _ Hp).
rewrite /hgen_sys eS /hff !(eq_colsub _ Hq) !(eq_colsub _ Hp) (eq_colsub _ Hz) (eq_colsub _ Hw) //.
Qed.
End Ext.

Lemma same_enum x x' (P : pred 'I_x) (P' : pred 'I_x') : x = x' -> (forall (j : 'I_x) (j' : 'I_x'), j = j' :> nat -> P j = P' j') -> same_fun (ev P) (ev P').
Proof.
move=> ex; subst x' => h; have eP : P =1 P' by move=> j; apply: h.
split=> [|i i' ei]; first exact: eq_card.
have ee : enum P = enum P' by apply: eq_enum.
by rewrite /enum_val -ee -ei (set_nth_default (enum_default i)) // -cardE.
Qed.

Lemma map_enum x x' (P : pred 'I_x) (P' : pred 'I_x') (T : Type) (g : nat -> T) : x = x' -> (forall (j : 'I_x) (j' : 'I_x'), j = j' :> nat -> P j = P' j') ->
  [seq g (nat_of_ord j) | j <- enum P] = [seq g (nat_of_ord j) | j <- enum P'].
Proof.
by move=> ex; subst x' => h; have -> : enum P = enum P' by apply: eq_enum => j; apply: h.
Qed.

Lemma fast0_col r1 r2 c (A : 'M[F]_(r1, c)) (B : 'M[F]_(r2, c)) j : fast0 tol (col_mx A B) j = fast0 tol A j && fast0 tol B j.
Proof.
apply/forallP/andP => [h|[/forallP h1 /forallP h2] i].
  by split; apply/forallP => i; [have := h (lshift r2 i); rewrite col_mxEu|have := h (rshift r1 i); rewrite col_mxEd].
by case: (split_ordP i) => x ->; rewrite ?col_mxEu ?col_mxEd.
Qed.
Lemma fast0_rowl r c1 c2 (A : 'M[F]_(r, c1)) (B : 'M[F]_(r, c2)) j : fast0 tol (row_mx A B) (lshift c2 j) = fast0 tol A j.
Proof. by apply: eq_forallb => i; rewrite row_mxEl. Qed.
Lemma fast0_rowr r c1 c2 (A : 'M[F]_(r, c1)) (B : 'M[F]_(r, c2)) j : fast0 tol (row_mx A B) (rshift c1 j) = fast0 tol B j.
Proof. by apply: eq_forallb => i; rewrite row_mxEr. Qed.
Lemma fast0_colsub r c d (f : 'I_d -> 'I_c) (A : 'M[F]_(r, c)) j : fast0 tol (colsub f A) j = fast0 tol A (f j).
Proof. by apply: eq_forallb => i; rewrite mxE. Qed.

Section Masks.
Variable G : 'M[F]_m.
Variable u : usys.
Let u' := recombine G u.
Hypothesis sz : same_zeros tol G u.

Lemma masks k (f : 'I_k -> 'I_n) a j : hinq f a u' j = hinq f a u j /\ hinp f a u' j = hinp f a u j.
Proof.
case: sz => zA zB zC zD.
have z2A : fast0 tol (hAA2 k u') j = fast0 tol (hAA2 k u) j.
  rewrite /hAA2 /hAA1 /block_mx !fast0_col; congr (_ && _); case: (split_ordP j) => x ->; rewrite ?fast0_rowl ?fast0_rowr //.
  by rewrite !fast0_col; congr (_ && _); case: (split_ordP x) => i ->; rewrite ?fast0_rowl ?fast0_rowr.
have z2B : fast0 tol (hBB2 f u') j = fast0 tol (hBB2 f u) j.
  rewrite /hBB2 /hBB1 /block_mx !fast0_col; congr (_ && _); case: (split_ordP j) => x ->; rewrite ?fast0_rowl ?fast0_rowr //.
  by rewrite !fast0_col; congr (_ && _); case: (split_ordP x) => i ->; rewrite ?fast0_rowl ?fast0_rowr.
have z2C : fast0 tol (hCC2 f a u') j = fast0 tol (hCC2 f a u) j.
  rewrite /hCC2 /hCC1 /hDD1 /block_mx !fast0_col; congr (_ && _); case: (split_ordP j) => x ->; rewrite ?fast0_rowl ?fast0_rowr //;
    rewrite !fast0_col; congr (_ && _) => //.
  case: (split_ordP x) => i ->; rewrite ?fast0_rowl ?fast0_rowr ?fast0_colsub //.
  case ai: (a i); first by apply: eq_forallb => y; rewrite !mxE ai.
  transitivity (fast0 tol (G *m CC0 u) i); first by apply: eq_forallb => y; rewrite !mxE ai.
  by rewrite zC; apply: eq_forallb => y; rewrite !mxE ai.
by rewrite /hinp /hinq z2A z2B z2C.
Qed.

Lemma inall_inv : inall tol u' =1 inall tol u.
Proof. by case: sz => zA _ zC _ j; rewrite /inall zA zC. Qed.
Lemma na_inv : na tol u' = na tol u. Proof. exact: eq_card inall_inv. Qed.

Lemma hin_ext k k' (f : 'I_k -> 'I_n) (f' : 'I_k' -> 'I_n) a a' (v : usys) (j : 'I_(n + k + e)) (j' : 'I_(n + k' + e)) : same_fun f f' -> a =1 a' -> j = j' :> nat ->
  hinq f a v j = hinq f' a' v j' /\ hinp f a v j = hinp f' a' v j'.
Proof.
move=> sf ea ej; case: (sf) => ek _; subst k'; move/val_inj: ej => <-; move/same_funE: sf => sf.
by rewrite /hinp /hinq (hCC2_ext _ sf ea) (hBB2_ext _ sf).
Qed.

Lemma in_inv (j : 'I_(n + na tol u' + e)) (j' : 'I_(n + na tol u + e)) : j = j' :> nat -> inq (tol:=tol) (u:=u') j = inq (tol:=tol) (u:=u) j' /\ inp (tol:=tol) (u:=u') j = inp (tol:=tol) (u:=u) j'.
Proof.
move=> ej; have [h1 h2] := masks (ev (inall tol u')) (inall tol u') j.
have sf : same_fun (ev (inall tol u')) (ev (inall tol u)) by apply: same_enum => // x x' /val_inj ->; apply: inall_inv.
have [h3 h4] := hin_ext u sf inall_inv ej.
by split; [exact: etrans h1 h3|exact: etrans h2 h4].
Qed.

Lemma gen_sys_inv rq rq' klein o names shks (ZZ0 : 'M[F]_(o, n)) ZZ1 lm km :
  rq_ok rq -> rq_ok rq' -> klein_invariant klein -> G \in unitmx ->
  gen_sys tol rq' klein u' names shks ZZ0 ZZ1 lm km = gen_sys tol rq klein u names shks ZZ0 ZZ1 lm km.
Proof.
move=> rqP rqP' kli uG; rewrite !gen_sysE.
have e1 : (n + na tol u' = n + na tol u)%N by rewrite na_inv.
have e2 : (n + na tol u' + e = n + na tol u + e)%N by rewrite na_inv.
have dq (j : 'I_(n + na tol u')) (j' : 'I_(n + na tol u)) : j = j' :> nat -> dropeps (inq (tol:=tol) (u:=u')) j = dropeps (inq (tol:=tol) (u:=u)) j'.
  by move=> ej; apply: (proj1 (in_inv _)).
have dp (j : 'I_(n + na tol u')) (j' : 'I_(n + na tol u)) : j = j' :> nat -> dropeps (inp (tol:=tol) (u:=u')) j = dropeps (inp (tol:=tol) (u:=u)) j'.
  by move=> ej; apply: (proj2 (in_inv _)).
have -> : new_vv tol u' names = new_vv tol u names.
  rewrite /new_vv /masked; case: ifP => // _ /=.
  have -> : vv0 tol u' names = vv0 tol u names.
    by rewrite /vv0; congr (_ ++ _); congr map; apply: eq_enum; exact: inall_inv.
  by rewrite (map_enum _ e1 dq) (map_enum _ e1 dp).
rewrite (hgen_inv _ _ _ _ _ rqP rqP' uG kli); apply: hgen_ext.
- by apply: same_enum => // x x' /val_inj ->; apply: inall_inv.
- exact: inall_inv.
- by apply: same_enum e2 _ => j j' ej; apply: (proj1 (in_inv ej)).
- by apply: same_enum e2 _ => j j' ej; apply: (proj2 (in_inv ej)).
- exact: same_enum e1 dq.
- exact: same_enum e1 dp.
Qed.
End Masks.
End Gen.
