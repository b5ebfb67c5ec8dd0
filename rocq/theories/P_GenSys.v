Set Warnings "-all".
From mathcomp Require Import all_ssreflect all_algebra.
From Verif Require Import PyBase M_Engine S_Engine M_GenSys S_GenSys.
Set Implicit Arguments. Unset Strict Implicit. Unset Printing Implicit Defensive.
Import GRing.Theory Num.Theory Order.TTheory.
Local Open Scope ring_scope.

Section Sel.
Variable F : realFieldType.
Variables r c : nat.
Implicit Types (A : 'M[F]_(r, c)) (y : 'cV[F]_c) (P : pred 'I_c).

Lemma sel_mul P A y i : (selc P A *m rowsub (@enum_val _ P) y) i 0 = \sum_(j | P j) A i j * y j 0.
Proof.
rewrite !mxE; under eq_bigr do rewrite !mxE.
by rewrite -(big_enum_val (A:=P) (fun j => A i j * y j 0)).
Qed.

Lemma sel_full P A y : (forall i j, ~~ P j -> A i j = 0) -> selc P A *m rowsub (@enum_val _ P) y = A *m y.
Proof.
move=> h; apply/matrixP=> i j; rewrite ord1 sel_mul mxE [RHS](bigID P) /=.
rewrite [X in _ = _ + X]big1 ?addr0 // => k nk; by rewrite h ?mul0r.
Qed.

Lemma sel_two P P' A y : (forall j, ~~ (P j && P' j)) -> (forall i j, ~~ P j -> ~~ P' j -> A i j = 0) ->
  selc P A *m rowsub (@enum_val _ P) y + selc P' A *m rowsub (@enum_val _ P') y = A *m y.
Proof.
move=> d h; apply/matrixP=> i j; rewrite ord1 mxE !sel_mul mxE [RHS](bigID P) /=; congr (_ + _).
rewrite [RHS](bigID P') /= [X in _ = _ + X]big1 ?addr0.
  apply: eq_bigl => k; have := d k; by case: (P k); case: (P' k).
by move=> k /andP [n1 n2]; rewrite h ?mul0r.
Qed.
End Sel.

Section G.
Variable F : realFieldType.
Variable tol : F.
Variables m n e : nat.
Variable u : usys F m n e.
Hypothesis tol0 : 0 < tol.
Hypothesis tol1 : tol <= 1.
Hypothesis cA : clean tol (AA0 u).
Hypothesis cB : clean tol (BB0 u).
Hypothesis cC : clean tol (CC0 u).
Hypothesis cD : clean tol (DD0 u).

Notation na := (na tol u).
Notation inall := (inall tol u).
Notation inq := (inq (tol:=tol) (u:=u)).
Notation inp := (inp (tol:=tol) (u:=u)).

(** encoded constraint row *)
Definition fcE : 'rV[F]_n := if fd0 u is Some _ then - fcn u else fcn u.
Definition fdE : 'rV[F]_e := if fd0 u is Some fd then - fd else 0.

Lemma fc2E : fc2 tol u = row_mx (row_mx fcE 0) fdE.
Proof. by rewrite /fc2 /fcE /fdE; case: (fd0 u) => [fd|] //; rewrite !opp_row_mx oppr0. Qed.

Hypothesis cfc : clean tol fcE.
Hypothesis cfd : clean tol fdE.

Lemma fast0P (r c : nat) (A : 'M[F]_(r, c)) j : clean tol A -> fast0 tol A j = [forall i, A i j == 0].
Proof.
move=> cl; apply: eq_forallb => i; case: (cl i j) => [->|h]; first by rewrite normr0 tol0 eqxx.
rewrite ltNge h; apply/esym/negbTE; rewrite -normr_gt0; exact: lt_le_trans h.
Qed.

Lemma clean0 (r c : nat) : clean tol (0 : 'M[F]_(r, c)).
Proof. by move=> i j; left; rewrite mxE. Qed.

Lemma clean_block (r1 r2 c1 c2 : nat) (A : 'M[F]_(r1, c1)) (B : 'M_(r1, c2)) (C : 'M_(r2, c1)) (D : 'M_(r2, c2)) :
  clean tol A -> clean tol B -> clean tol C -> clean tol D -> clean tol (block_mx A B C D).
Proof.
move=> a b c d i j.
case: (split_ordP i) => i' ->; case: (split_ordP j) => j' ->;
rewrite ?block_mxEul ?block_mxEur ?block_mxEdl ?block_mxEdr //.
Qed.

Lemma clean1 (r : nat) : clean tol (1%:M : 'M[F]_r).
Proof. by move=> i j; rewrite mxE; case: (i == j); [right; rewrite normr1 | left]. Qed.

Lemma clean_lagsel : clean tol (- lagsel tol u).
Proof.
move=> i j; rewrite !mxE; case: (_ == _); [right; rewrite normrN normr1 // | left; by rewrite oppr0].
Qed.

Lemma cA2 : clean tol (AA2 tol u).
Proof. by apply: clean_block; try exact: clean0; apply: clean_block; try exact: clean0. Qed.
Lemma cB2 : clean tol (BB2 tol u).
Proof.
apply: clean_block; try apply: clean0; try apply: clean1.
by apply: clean_block; try apply: clean0; try apply: clean1; try apply: clean_lagsel.
Qed.
Lemma cC2 : clean tol (CC2 tol u).
Proof.
apply: clean_block; try apply: clean0.
  apply: clean_block; try apply: clean0; move=> i j; rewrite !mxE //.
  by case: ifP => _; [left | exact: cC].
move=> i j; case: (split_ordP i) => i' ->; rewrite ?col_mxEu ?col_mxEd //; exact: clean0.
Qed.

Lemma colP (r c : nat) (A : 'M[F]_(r, c)) j : clean tol A -> fast0 tol A j -> forall i, A i j = 0.
Proof. by move=> cl; rewrite fast0P // => /forallP h i; apply/eqP. Qed.

Lemma cfc2 : clean tol (fc2 tol u).
Proof.
rewrite fc2E => i j.
case: (split_ordP j) => j' ->; rewrite ?row_mxEl ?row_mxEr //.
by case: (split_ordP j') => k ->; rewrite ?row_mxEl ?row_mxEr //; left; rewrite mxE.
Qed.

Lemma inq_sup i j : ~~ inq j -> CCU tol u i j = 0.
Proof.
rewrite negb_or !negbK => /andP [h1 h2].
case: (split_ordP i) => i' ->; rewrite ?col_mxEu ?col_mxEd.
  exact: (colP cC2 h1).
rewrite ord1; case: (cfc2 0 j) => // h; by move: h2; rewrite ltNge h.
Qed.

Lemma inqR_sup i j : ~~ inq j -> CCR tol u i j = 0.
Proof.
rewrite negb_or !negbK => /andP [h1 h2].
case: (split_ordP i) => i' ->; rewrite ?col_mxEu ?col_mxEd.
  exact: (colP cC2 h1).
by rewrite mxE.
Qed.

Lemma disj j : ~~ (inq j && inp j).
Proof. by rewrite /inp andbC -andbA andNb andbF. Qed.

(** every variable of the constraint occurs in some equation *)
Hypothesis occ : forall j, j = cv u \/ fbn u 0 j <> 0 -> occurs (AA0 u) j \/ occurs (BB0 u) j \/ occurs (CC0 u) j.

Lemma in_either j : (occurs (AA0 u) j \/ occurs (BB0 u) j \/ occurs (CC0 u) j) ->
  inq (lshift e (lshift na j)) || inp (lshift e (lshift na j)).
Proof.
move=> h; case iq : (inq _) => //=; rewrite /inp iq /= andbT.
have nz (r c : nat) (A : 'M[F]_(r, c)) k : clean tol A -> (exists i, A i k != 0) -> ~~ fast0 tol A k.
  by move=> cl [i hi]; apply/negP => /(colP cl) /(_ i) /eqP; rewrite (negbTE hi).
have lft (X : 'M[F]_(m, n)) (Y : 'M[F]_(m, na)) Z W G1 G2 G3 : occurs X j ->
  exists i, (block_mx (block_mx X Y Z W) G1 G2 G3 : 'M[F]_(m + na + e, n + na + e)) i (lshift e (lshift na j)) != 0.
  by case=> i hi; exists (lshift e (lshift na i)); rewrite !block_mxEul.
case: h => [h|[h|h]].
- by rewrite (nz _ _ _ _ cA2) //; apply: lft.
- by rewrite (nz _ _ _ _ cB2) ?orbT //; apply: lft.
- case ia : (inall j).
    have {ia} [ia _] := andP ia.
    rewrite (nz _ _ _ _ cA2) //; apply: lft.
    by move: ia; rewrite fast0P // negb_forall => /existsP.
  suff : inq (lshift e (lshift na j)) by rewrite iq.
  rewrite /M_GenSys.inq (nz _ _ _ _ cC2) //.
  have [i hi] := h; exists (lshift e (lshift na i)).
  by rewrite !block_mxEul mxE ia.
Qed.

Lemma inB_sup i j : ~~ inq j -> ~~ inp j -> BB2 tol u i j = 0.
Proof.
rewrite /inp => nq; rewrite nq andbT negb_or !negbK => /andP [_ h]; exact: (colP cB2 h).
Qed.

Lemma inBU_sup i j : ~~ inq j -> ~~ inp j -> BBU tol u i j = 0.
Proof.
move=> nq np; case: (split_ordP i) => i' ->; rewrite ?col_mxEu ?col_mxEd; first exact: inB_sup.
rewrite ord1; case: (split_ordP j) nq np => j' -> nq np; rewrite ?row_mxEl ?row_mxEr ?mxE //.
case: (split_ordP j') nq np => k -> nq np; rewrite ?row_mxEl ?row_mxEr ?[(0:'M_(_,_)) _ _]mxE //.
apply/eqP/negPn/negP => nz; have := @in_either k.
rewrite (negbTE nq) (negbTE np) => /(_ _) /=; suff o : occurs (AA0 u) k \/ occurs (BB0 u) k \/ occurs (CC0 u) k by move/(_ o).
by apply: occ; right; apply/eqP.
Qed.

Lemma inBR_sup i j : ~~ inq j -> ~~ inp j -> BBR tol u i j = 0.
Proof.
move=> nq np; case: (split_ordP i) => i' ->; rewrite ?col_mxEu ?col_mxEd; first exact: inB_sup.
rewrite !mxE ord1 /=; case: eqP => [ej|_] /=; last by rewrite mulr0n oppr0.
have := in_either (occ (or_introl (erefl (cv u)))).
by move: nq np; rewrite ej => /negbTE -> /negbTE ->.
Qed.

(** effective leads: those of variables that are lagged in the constraint are lost *)
Definition AAeff : 'M[F]_(m, n) := \matrix_(i, j) if fcE 0 j == 0 then AA0 u i j else 0.
Definition AAy : 'M[F]_(m + na + e + 1, n + na + e) :=
  col_mx (block_mx (block_mx AAeff 0 0 0) 0 0 0) 0.

Lemma AA_inp j : ~~ fast0 tol (AA0 u) j -> inq (lshift e (lshift na j)) = (fcE 0 j != 0).
Proof.
move=> nf; rewrite /M_GenSys.inq fc2E !row_mxEl.
have -> : fast0 tol (CC2 tol u) (lshift e (lshift na j)).
  rewrite fast0P; last exact: cC2.
  apply/forallP=> i'; apply/eqP.
  case: (split_ordP i') => a ->; rewrite ?block_mxEul ?block_mxEdl; last by rewrite mxE.
  case: (split_ordP a) => b ->; rewrite ?block_mxEul ?block_mxEdl; last by rewrite mxE.
  rewrite mxE; case: ifP => // /negbT; rewrite negb_and nf /= negbK => h; exact: (colP cC h).
rewrite /= -leNgt.
case: (cfc 0 j) => [->|h]; first by rewrite normr0 eqxx leNgt tol0.
by rewrite h -normr_gt0 (lt_le_trans tol0 h).
Qed.

Lemma AA_eff (y : 'cV[F]_(n + na + e)) : selc inp (AA tol u) *m rowsub (@enum_val _ inp) y = AAy *m y.
Proof.
apply/matrixP=> i j; rewrite ord1 sel_mul mxE [RHS](bigID inp) /= [X in _ = _ + X]big1 ?addr0; last first.
  move=> k np; apply/eqP; rewrite mulf_eq0; apply/orP; left; apply/eqP.
  case: (split_ordP i) => a ->; rewrite ?col_mxEu ?col_mxEd; last by rewrite mxE.
  case: (split_ordP a) => b ->; case: (split_ordP k) np => c -> np;
    rewrite ?block_mxEul ?block_mxEdl ?block_mxEur ?block_mxEdr ?[(0 : 'M_(_,_)) _ _]mxE //.
  case: (split_ordP b) => d ->; case: (split_ordP c) np => g -> np;
    rewrite ?block_mxEul ?block_mxEdl ?block_mxEur ?block_mxEdr ?[(0 : 'M_(_,_)) _ _]mxE //.
  rewrite mxE; case: eqP => // f0.
  case ff : (fast0 tol (AA0 u) g); first exact: (colP cA ff).
  move: np; rewrite /inp AA_inp ?ff // f0 eqxx andbT negb_or negbK => /andP [h _].
  have := colP cA2 h (lshift e (lshift na d)); by rewrite !block_mxEul.
apply: eq_bigr => k ip; congr (_ * _).
case: (split_ordP i) => a ->; rewrite ?col_mxEu ?col_mxEd //.
case: (split_ordP a) => b ->; case: (split_ordP k) ip => c -> ip;
    rewrite ?block_mxEul ?block_mxEdl ?block_mxEur ?block_mxEdr //.
case: (split_ordP b) => d ->; case: (split_ordP c) ip => g -> ip;
    rewrite ?block_mxEul ?block_mxEdl ?block_mxEur ?block_mxEdr //.
rewrite mxE; case: eqP => // f0.
case ff : (fast0 tol (AA0 u) g); first exact: (colP cA ff).
by move: ip; rewrite /inp AA_inp ?ff // andbC; case: eqP f0.
Qed.

Notation selv P := (rowsub (@enum_val _ P)).

Lemma alg4 (V : zmodType) (a b c d : V) : - (b + a) = d + c <-> a + (b + c) + d = 0.
Proof.
have -> : a + (b + c) + d = (d + c) - (- (b + a)).
  by rewrite opprK [b + a]addrC [RHS]addrC -!addrA; congr (_ + (_ + _)); rewrite addrC.
by split=> [->|/eqP]; rewrite ?subrr // subr_eq0 => /eqP.
Qed.

Lemma alg5 (V : zmodType) (a b c d g : V) : - (b + a) = d + c + g <-> a + (b + c) + d + g = 0.
Proof.
have -> : a + (b + c) + d + g = (d + c + g) - (- (b + a)).
  rewrite opprK [b + a]addrC [d + c + g]addrC [RHS]addrC -!addrA; congr (_ + (_ + _)).
  by rewrite [RHS]addrC -!addrA [RHS]addrCA addrA addrC [c + d]addrC addrC.
by split=> [->|/eqP]; rewrite ?subrr // subr_eq0 => /eqP.
Qed.

Lemma unc_y (y0 y1 y2 : 'cV[F]_(n + na + e)) :
  PU tol u *m col_mx (selv inq y1) (selv inp y2) = MU tol u *m col_mx (selv inq y0) (selv inp y1) <->
  AAy *m y2 + BBU tol u *m y1 + CCU tol u *m y0 = 0.
Proof.
rewrite /PU /MU mulNmx !mul_row_col AA_eff (sel_full _ inq_sup).
by rewrite -(sel_two y1 disj inBU_sup); apply: alg4.
Qed.

Lemma con_y (y0 y1 y2 : 'cV[F]_(n + na + e)) :
  PR tol u *m col_mx (selv inq y1) (selv inp y2) = MR tol u *m col_mx (selv inq y0) (selv inp y1) + gg tol u <->
  AAy *m y2 + BBR tol u *m y1 + CCR tol u *m y0 + gg tol u = 0.
Proof.
rewrite /PR /MR mulNmx !mul_row_col AA_eff (sel_full _ inqR_sup).
by rewrite -(sel_two y1 disj inBR_sup); apply: alg5.
Qed.

(** rows of the y-space system *)
Definition ymodel (x0 x1 x2 : 'cV[F]_n) (xl0 xl1 : 'cV[F]_na) (e0 e1 : 'cV[F]_e) : Prop :=
  [/\ AAeff *m x2 + BB0 u *m x1 +
      ((\matrix_(i, j) (if inall j then 0 else CC0 u i j)) *m x0 + colsub (@enum_val _ inall) (CC0 u) *m xl0 + DD0 u *m e0) = 0,
      xl1 = rowsub (@enum_val _ inall) x1 & e1 = 0].

Notation yy x xl e := (col_mx (col_mx x xl) e).

Lemma lagselE (x : 'cV[F]_n) : lagsel tol u *m x = rowsub (@enum_val _ inall) x.
Proof. by rewrite /lagsel mul_rowsub_mx mul1mx. Qed.

Lemma col_mx_eq0P (r1 r2 c : nat) (A : 'M[F]_(r1, c)) (B : 'M[F]_(r2, c)) : col_mx A B = 0 <-> A = 0 /\ B = 0.
Proof.
split=> [/eqP|[-> ->]]; last by rewrite col_mx0.
by rewrite col_mx_eq0 => /andP [/eqP -> /eqP ->].
Qed.

Lemma y_rows (x0 x1 x2 : 'cV[F]_n) (xl0 xl1 xl2 : 'cV[F]_na) (e0 e1 e2 : 'cV[F]_e) :
  (block_mx (block_mx AAeff 0 0 0) 0 0 0) *m yy x2 xl2 e2 + BB2 tol u *m yy x1 xl1 e1 + CC2 tol u *m yy x0 xl0 e0 = 0 <->
  ymodel x0 x1 x2 xl0 xl1 e0 e1.
Proof.
rewrite /BB2 /CC2 /BB1 /CC1 /DD1 !mul_block_col !mul0mx !add0r !addr0 !mul1mx !mul_col_mx !mul0mx.
rewrite !add_col_mx !addr0 !add0r mulNmx lagselE.
rewrite !col_mx_eq0P /ymodel.
split=> [[[-> h] ->]|[-> -> ->]]; split=> //.
  by apply/eqP; rewrite -subr_eq0 addrC h.
by split=> //; rewrite addrC subrr.
Qed.

Definition fbE : 'rV[F]_n := fbn u.

Lemma split_rows (r1 r2 c : nat) (A B C : 'M[F]_(r1, c)) (b c' : 'M[F]_(r2, c)) (g : 'cV[F]_r2) (y2 y1 y0 : 'cV[F]_c) :
  col_mx A 0 *m y2 + col_mx B b *m y1 + col_mx C c' *m y0 + col_mx 0 g = 0 <->
  A *m y2 + B *m y1 + C *m y0 = 0 /\ b *m y1 + c' *m y0 + g = 0.
Proof. by rewrite !mul_col_mx !add_col_mx col_mx_eq0P !mul0mx addr0 add0r. Qed.

Lemma unc_rows (x0 x1 x2 : 'cV[F]_n) (xl0 xl1 xl2 : 'cV[F]_na) (e0 e1 e2 : 'cV[F]_e) :
  AAy *m yy x2 xl2 e2 + BBU tol u *m yy x1 xl1 e1 + CCU tol u *m yy x0 xl0 e0 = 0 <->
  ymodel x0 x1 x2 xl0 xl1 e0 e1 /\ fbE *m x1 + fcE *m x0 + fdE *m e0 = 0.
Proof.
rewrite -[X in X = 0 <-> _]addr0 -[X in _ + X = 0 <-> _]col_mx0 /AAy /BBU /CCU split_rows.
have -> : fb2 tol u *m yy x1 xl1 e1 + fc2 tol u *m yy x0 xl0 e0 + 0 = fbE *m x1 + fcE *m x0 + fdE *m e0.
  by rewrite fc2E /fb2 !mul_row_col !mul0mx !addr0 addrA.
by split=> -[h1 h2]; split=> //; apply/y_rows; exact: h1.
Qed.

Lemma con_rows (x0 x1 x2 : 'cV[F]_n) (xl0 xl1 xl2 : 'cV[F]_na) (e0 e1 e2 : 'cV[F]_e) :
  AAy *m yy x2 xl2 e2 + BBR tol u *m yy x1 xl1 e1 + CCR tol u *m yy x0 xl0 e0 + gg tol u = 0 <->
  ymodel x0 x1 x2 xl0 xl1 e0 e1 /\ x1 (cv u) 0 = x_bar u.
Proof.
rewrite /AAy /BBR /CCR /gg split_rows.
have -> : - delta_mx 0 (cv2 tol u) *m yy x1 xl1 e1 + 0 *m yy x0 xl0 e0 + (x_bar u)%:M = (x_bar u - x1 (cv u) 0)%:M :> 'M[F]_1.
  rewrite mul0mx addr0 mulNmx -rowE.
  have -> : row (cv2 tol u) (yy x1 xl1 e1) = (x1 (cv u) 0)%:M.
    by apply/matrixP=> i j; rewrite !ord1 mxE /cv2 !col_mxEu [RHS]mxE eqxx mulr1n.
  by rewrite addrC raddfB.
have -> : (x_bar u - x1 (cv u) 0)%:M = 0 :> 'M[F]_1 <-> x1 (cv u) 0 = x_bar u.
  split=> [/matrixP /(_ 0 0)|->]; last by rewrite subrr raddf0.
  by rewrite !mxE eqxx mulr1n => /eqP; rewrite subr_eq0 => /eqP.
by split=> -[h1 h2]; split=> //; apply/y_rows; exact: h1.
Qed.

(** CC x is recovered from the split columns *)
Lemma CC_split (x : 'cV[F]_n) :
  (\matrix_(i, j) (if inall j then 0 else CC0 u i j)) *m x +
  colsub (@enum_val _ inall) (CC0 u) *m rowsub (@enum_val _ inall) x = CC0 u *m x.
Proof.
apply/matrixP=> i j; rewrite ord1 mxE -/(selc inall (CC0 u)) sel_mul !mxE [RHS](bigID inall) /= addrC; congr (_ + _).
rewrite (bigID inall) /= big1 ?add0r; last by move=> k h; rewrite mxE h mul0r.
by apply: eq_bigr => k /negbTE h; rewrite mxE h.
Qed.

Lemma ymodel_user (x0 x1 x2 : 'cV[F]_n) (xl1 : 'cV[F]_na) (e0 e1 : 'cV[F]_e) :
  ymodel x0 x1 x2 (rowsub (@enum_val _ inall) x0) xl1 e0 e1 <->
  [/\ AAeff *m x2 + BB0 u *m x1 + CC0 u *m x0 + DD0 u *m e0 = 0,
      xl1 = rowsub (@enum_val _ inall) x1 & e1 = 0].
Proof. by rewrite /ymodel CC_split addrA. Qed.

(** compressed system, either regime *)
Definition compressed (binding : nat -> bool) (q : nat -> 'cV[F]_(dimq tol u)) (p : nat -> 'cV[F]_(dimp tol u)) : Prop :=
  forall s, if binding s
    then PR tol u *m col_mx (q s.+1) (p s.+1) = MR tol u *m col_mx (q s) (p s) + gg tol u
    else PU tol u *m col_mx (q s.+1) (p s.+1) = MU tol u *m col_mx (q s) (p s).

Lemma compressed_user binding x eps : no_future_shocks eps ->
  compressed binding (fun s => q_of tol u (x s) (eps s)) (fun s => p_of tol u (x s.+1) (eps s.+1)) <->
  solves AAeff (BB0 u) (CC0 u) (DD0 u) fbE fcE fdE (cv u) (x_bar u) binding x eps.
Proof.
move=> ns; split=> H s; have := H s; rewrite /q_of /p_of /yvec; case: (binding s).
- by move/con_y/con_rows => -[/ymodel_user [h _ _] hb].
- by move/unc_y/unc_rows => -[/ymodel_user [h _ _] hb].
- by move=> [h hb]; apply/con_y/con_rows; split=> //; apply/ymodel_user; split.
- by move=> [h hb]; apply/unc_y/unc_rows; split=> //; apply/ymodel_user; split.
Qed.

(** every compressed path comes from a path of the model variables *)
Hypothesis proviso : forall j, occurs (AA0 u) j -> fcE 0 j = 0.

Lemma inall_notq j : inall j -> ~~ inq (lshift e (lshift na j)).
Proof.
move=> /andP [h1 _]; rewrite AA_inp // proviso ?eqxx //.
by move: h1; rewrite fast0P // negb_forall => /existsP.
Qed.

Lemma AAeffE : AAeff = AA0 u.
Proof.
apply/matrixP=> i j; rewrite mxE; case: eqP => // h.
by case: (eqVneq (AA0 u i j) 0) => [->//|nz]; case: h; apply: proviso; exists i.
Qed.

Section Rebuild.
Variables (binding : nat -> bool) (q : nat -> 'cV[F]_(dimq tol u)) (p : nat -> 'cV[F]_(dimp tol u)).
Hypothesis H : compressed binding q p.

Definition unsel (c : nat) (P : pred 'I_c) (v : 'cV[F]_#|P|) (d : 'cV[F]_c) : 'cV[F]_c :=
  \col_j (\sum_(i < #|P|) (enum_val i == j)%:R * v i 0 + (if P j then 0 else d j 0)).

Lemma unselE c (P : pred 'I_c) v d j : unsel v d j 0 = \sum_(i < #|P|) (enum_val i == j)%:R * v i 0 + (if P j then 0 else d j 0).
Proof. by rewrite !mxE. Qed.

Lemma unsel_sel c (P : pred 'I_c) v d : rowsub (@enum_val _ P) (unsel v d) = v.
Proof.
apply/matrixP=> i j; rewrite ord1 mxE unselE (bigD1 i) //= eqxx mul1r big1 ?addr0.
  by have := enum_valP i; rewrite unfold_in => ->; rewrite addr0.
by move=> k nk; rewrite (inj_eq enum_val_inj) (negbTE nk) mul0r.
Qed.

Lemma unsel_out c (P : pred 'I_c) v d j : ~~ P j -> unsel (P:=P) v d j 0 = d j 0.
Proof.
move=> nP; rewrite unselE (negbTE nP) big1 ?add0r // => i _.
case: eqP => [e'|_]; last by rewrite mul0r.
by have := enum_valP i; rewrite e' unfold_in (negbTE nP).
Qed.

Lemma unsel_sel' c (P P' : pred 'I_c) (v : 'cV[F]_#|P|) d : (forall j, ~~ (P j && P' j)) ->
  rowsub (@enum_val _ P') (unsel v d) = rowsub (@enum_val _ P') d.
Proof.
move=> dj; apply/matrixP=> i j; rewrite ord1 mxE [RHS]mxE unsel_out //.
by have := dj (enum_val i); have := enum_valP i; rewrite unfold_in => ->; rewrite andbT.
Qed.

Definition ypath (s : nat) : 'cV[F]_(n + na + e) :=
  if s is s'.+1 then unsel (P:=inq) (q s) (unsel (P:=inp) (p s') 0)
  else unsel (P:=inq) (q 0%N) 0.

Lemma ypath_q s : selv inq (ypath s) = q s.
Proof. by case: s => [|s]; apply: unsel_sel. Qed.
Lemma ypath_p s : selv inp (ypath s.+1) = p s.
Proof. by rewrite /= unsel_sel' ?unsel_sel //; apply: disj. Qed.

Definition xp s : 'cV[F]_n := usubmx (usubmx (ypath s)).
Definition lp s : 'cV[F]_na := dsubmx (usubmx (ypath s)).
Definition ep s : 'cV[F]_e := dsubmx (ypath s).
Lemma ypathE s : ypath s = yy (xp s) (lp s) (ep s).
Proof. by rewrite /xp /lp /ep !vsubmxK. Qed.

Lemma y_eq s : ymodel (xp s) (xp s.+1) (xp s.+2) (lp s) (lp s.+1) (ep s) (ep s.+1).
Proof.
have := H s; rewrite -!ypath_q -!ypath_p; case: (binding s).
  by move/con_y; rewrite !ypathE => /con_rows [].
by move/unc_y; rewrite !ypathE => /unc_rows [].
Qed.

Definition x0p : 'cV[F]_n := unsel (P:=inall) (lp 0) (xp 0).

Definition xu s : 'cV[F]_n := if s is 0%N then x0p else xp s.

Lemma rebuild :
  no_future_shocks ep /\
  (forall s, q s = q_of tol u (xu s) (ep s)) /\ (forall s, p s = p_of tol u (xu s.+1) (ep s.+1)).
Proof.
have nf : no_future_shocks ep by move=> s; have [] := y_eq s.
have ys s : ypath s.+1 = yvec tol u (xu s.+1) (ep s.+1).
  by rewrite ypathE /yvec /=; have [_ -> _] := y_eq s.
split=> //; split; last by move=> s; rewrite /p_of -ys ypath_p.
case=> [|s]; last by rewrite /q_of -ys ypath_q.
rewrite -ypath_q ypathE /q_of /yvec /= /x0p unsel_sel.
apply/matrixP=> i j; rewrite ord1 mxE [RHS]mxE.
have := enum_valP i; rewrite unfold_in; move: (enum_val i) => k.
case: (split_ordP k) => a ->; rewrite ?col_mxEu ?col_mxEd //.
case: (split_ordP a) => b ->; rewrite ?col_mxEu ?col_mxEd // => iq.
rewrite unsel_out //; apply/negP => ia; case/negP: (inall_notq ia); exact: iq.
Qed.
End Rebuild.
End G.
