(** Dated symbols: C77. *)
From Coq Require Import String Ascii ZArith DecimalString DecimalPos DecimalZ.
From Verif Require Import M_Symbols S_Symbols.
Local Open Scope Z_scope.

Lemma py_str_Z_inj a b : py_str_Z a = py_str_Z b -> a = b.
Proof.
  unfold py_str_Z; intros H.
  assert (N : forall z, NilZero.int_of_string (NilZero.string_of_int (Z.to_int z)) = Some (Z.to_int z)).
  { intros z; apply NilZero.isi; destruct z as [|p|p]; simpl; try congruence;
    intros E; injection E as E; exact (DecimalPos.Unsigned.to_uint_nonnil p E). }
  assert (E : Some (Z.to_int a) = Some (Z.to_int b)) by (rewrite <- (N a), <- (N b), H; reflexivity).
  injection E as E; rewrite <- (DecimalZ.of_to a), <- (DecimalZ.of_to b), E; reflexivity.
Qed.

(** Shifting composes, shifting by 0 keeps class, name and date, and shifting always resets the expectation date. *)
Theorem C77_shift : forall v a b,
  sym_eq (call (call v a) b) (call v (a + b)) /\
  ts_cls (call v a) = ts_cls v /\ ts_name (call v a) = ts_name v /\ ts_date (call v a) = ts_date v + a /\
  ts_exp (call v a) = 0 /\
  (sym_eq (call v 0) v <-> ts_exp v = 0).
Proof.
  intros [c n d x] a b; unfold call, mk, sym_eq, hashable; simpl.
  split; [split; [reflexivity | rewrite Z.add_assoc; reflexivity] |].
  do 4 (split; [reflexivity |]); split.
  - intros [_ E]; injection E as E1 E2; symmetry; apply py_str_Z_inj; exact E2.
  - intros ->; rewrite Z.add_0_r; split; reflexivity.
Qed.
Print Assumptions C77_shift.
Example C77_shift_ex : sym_eq (call (call (mk CVariable "x" None None) (-1)) 3) (mk CVariable "x" (Some 2) None)
  /\ ~ sym_eq (call (mk CVariable "x" None (Some 1)) 0) (mk CVariable "x" None (Some 1)).
Proof. split; [split; reflexivity | intros [_ E]; discriminate E]. Qed.

(** Symbols are equal exactly if class, name, date and expectation date agree. *)
Theorem C77_equality : forall v w,
  sym_eq v w <-> ts_cls v = ts_cls w /\ ts_name v = ts_name w /\ ts_date v = ts_date w /\ ts_exp v = ts_exp w.
Proof.
  intros [c n d x] [c' n' d' x']; unfold sym_eq, hashable; simpl; split.
  - intros [-> E]; injection E as -> E1 E2; repeat split; apply py_str_Z_inj; assumption.
  - intros (-> & -> & -> & ->); split; reflexivity.
Qed.
Print Assumptions C77_equality.
Example C77_equality_ex : ~ sym_eq (mk CVariable "x" None None) (mk CShock "x" None None) /\
  ~ sym_eq (mk CVariable "x" (Some 12) None) (mk CVariable "x" (Some 1) (Some 2)).
Proof. split; intros [H E]; [discriminate H | discriminate E]. Qed.

Lemma app_inv_last s : forall t, (s ++ ")" = t ++ ")")%string -> s = t.
Proof.
  induction s as [|a s IH]; intros [|b t]; simpl; intros H; try congruence.
  - injection H as -> H; destruct t; discriminate.
  - injection H as -> H; destruct s; discriminate.
  - injection H as -> H; rewrite (IH t H); reflexivity.
Qed.

Lemma paren_split n : no_paren n -> forall n' r r', no_paren n' ->
  (n ++ "(" ++ r = n' ++ "(" ++ r')%string -> n = n' /\ r = r'.
Proof.
  induction n as [|a n IH]; intros Hn [|b n'] r r' Hn'; simpl; intros E.
  - injection E as ->; auto.
  - injection E as <- _; destruct Hn' as [C _]; contradiction C; reflexivity.
  - injection E as -> _; destruct Hn as [C _]; contradiction C; reflexivity.
  - injection E as -> E; destruct (IH (proj2 Hn) n' r r' (proj2 Hn') E) as [-> ->]; auto.
Qed.
Lemma paren_none n : no_paren n -> forall n' r, n = (n' ++ "(" ++ r)%string -> False.
Proof.
  intros Hn n'; revert n Hn; induction n' as [|b n' IH]; intros n Hn r ->; simpl in Hn.
  - destruct Hn as [C _]; apply C; reflexivity.
  - apply (IH _ (proj2 Hn) r); reflexivity.
Qed.

(** For names that are identifiers and no expectation date, the printed form determines name and date. *)
Theorem C77_printing : forall v w,
  no_paren (ts_name v) -> no_paren (ts_name w) -> ts_exp v = 0 -> ts_exp w = 0 ->
  py_str v = py_str w -> ts_name v = ts_name w /\ ts_date v = ts_date w.
Proof.
  assert (K : forall v w, no_paren (ts_name v) -> no_paren (ts_name w) -> tstr v = tstr w ->
              ts_name v = ts_name w /\ ts_date v = ts_date w).
  { intros v w Hv Hw; unfold tstr.
    destruct (Z.eqb_spec (ts_date v) 0) as [e1|n1]; destruct (Z.eqb_spec (ts_date w) 0) as [e2|n2]; intros E.
    - rewrite e1, e2; auto.
    - destruct (paren_none _ Hv _ _ E).
    - symmetry in E; destruct (paren_none _ Hw _ _ E).
    - destruct (paren_split _ Hv _ _ _ Hw E) as [-> E2]; split; [reflexivity|].
      apply py_str_Z_inj, app_inv_last; exact E2. }
  intros v w Hv Hw xv xw E; apply K; auto.
  unfold py_str in E; rewrite xv, xw in E; destruct (ts_cls v), (ts_cls w); exact E.
Qed.
Print Assumptions C77_printing.
Example C77_printing_ex : py_str (mk CVariable "x" (Some (-2)) None) = "x(-2)"%string /\ no_paren "x".
Proof. split; [reflexivity | split; [discriminate | exact I]]. Qed.
(** Without that condition it does not: a name containing a parenthesis prints like a dated symbol. *)
Example C77_printing_needs_identifiers :
  py_str (mk CVariable "x" (Some 1) None) = py_str (mk CVariable "x(1)" None None).
Proof. reflexivity. Qed.
