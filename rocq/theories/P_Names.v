(** the names of the auxiliary variables can be told apart *)
Set Warnings "-all".
From Coq Require Import String Ascii Decimal DecimalString DecimalNat.
From mathcomp Require Import all_ssreflect.
From Verif Require Import PyBase PyStr M_Parser M_Text.
Set Implicit Arguments. Unset Strict Implicit. Unset Printing Implicit Defensive.

Fixpoint chars (s : string) : seq ascii := if s is String a s' then a :: chars s' else [::].
Lemma chars_cat s t : chars (strcat s t) = chars s ++ chars t.
Proof. by rewrite /strcat; elim: s => //= a s ->. Qed.
Lemma chars_inj : injective chars.
Proof. by elim=> [|a s IH] [|b t] //= [-> /IH ->]. Qed.

Definition code (a : ascii) : nat := nat_of_ascii a.
Definition isd (a : ascii) : bool := (47 < code a < 58)%N.

Lemma digits_nz (d : Decimal.uint) : all isd (chars (NilEmpty.string_of_uint d)).
Proof. by elim: d. Qed.
Lemma digits_nat n : all isd (chars (py_str_nat n)).
Proof. by rewrite /py_str_nat; case: (Nat.to_uint n) => // d; exact: digits_nz. Qed.
Lemma str_nat_inj : injective py_str_nat.
Proof.
move=> i j e; apply: Unsigned.to_uint_inj; have := f_equal NilZero.uint_of_string e.
have nn n : Nat.to_uint n <> Decimal.Nil.
  move=> h; have := DecimalNat.Unsigned.of_to n; rewrite h /= => e0; by move: h; rewrite -e0.
rewrite /py_str_nat !NilZero.usu; [by case | exact: nn | exact: nn].
Qed.

Lemma cut_digits (a b d d' : seq ascii) : all isd d -> all isd d' -> ~~ isd (last Ascii.zero a) -> ~~ isd (last Ascii.zero b) ->
  a != [::] -> b != [::] -> a ++ d = b ++ d' -> a = b /\ d = d'.
Proof.
have F x y : all isd y -> ~~ isd (last Ascii.zero x) -> x != [::] -> find (predC isd) (rev (x ++ y)) = size y.
  case: (lastP x) => // x' z ay; rewrite last_rcons rev_cat rev_rcons => nz _.
  rewrite find_cat has_rev has_predC ay /= nz addn0 size_rev //.
move=> h1 h2 h3 h4 h5 h6 e; have ed : size d = size d' by rewrite -(F a d) // e F.
have ea : size a = size b by have := congr1 size e; rewrite !size_cat ed => /addIn.
by have /eqP := e; rewrite eqseq_cat // => /andP [/eqP -> /eqP ->].
Qed.

Lemma suffix_inj (s t u : string) : strcat s u = strcat t u -> s = t.
Proof.
move=> e; apply: chars_inj; have := congr1 chars e; rewrite !chars_cat => e'.
have es : size (chars s) = size (chars t) by have := congr1 size e'; rewrite !size_cat => /addIn.
by have /eqP := e'; rewrite eqseq_cat // => /andP [/eqP].
Qed.

Lemma var_s_inj : injective var_s. Proof. by move=> s t; apply: suffix_inj. Qed.

Lemma dated_inj (v w a b : string) i j : ~~ isd (last Ascii.zero (chars a)) -> ~~ isd (last Ascii.zero (chars b)) ->
  chars a != [::] -> chars b != [::] ->
  strcat v (strcat a (py_str_nat i)) = strcat w (strcat b (py_str_nat j)) -> strcat v a = strcat w b /\ i = j.
Proof.
move=> na nb a0 b0 /(congr1 chars); rewrite !chars_cat !catA => e.
have nl x y : ~~ isd (last Ascii.zero y) -> y != [::] -> ~~ isd (last Ascii.zero (x ++ y)) /\ x ++ y != [::].
  by case: (lastP y) => // y' z h _; rewrite last_cat last_rcons; split; [move: h; rewrite last_rcons | rewrite -size_eq0 size_cat size_rcons addnS].
have [n1 n2] := nl (chars v) _ na a0; have [n3 n4] := nl (chars w) _ nb b0.
have [e1 e2] := cut_digits (digits_nat i) (digits_nat j) n1 n3 n2 n4 e.
by split; [apply: chars_inj; rewrite !chars_cat | apply/str_nat_inj/chars_inj].
Qed.

Lemma var_lag_inj v w i j : var_lag v i = var_lag w j -> v = w /\ i = j.
Proof. by move=> h; have [//|//|//|//|/suffix_inj] := @dated_inj v w "_LAG" "_LAG" i j _ _ _ _ h. Qed.
Lemma var_lead_inj v w i j : var_lead v i = var_lead w j -> v = w /\ i = j.
Proof. by move=> h; have [//|//|//|//|/suffix_inj] := @dated_inj v w "_LEAD" "_LEAD" i j _ _ _ _ h. Qed.

Lemma last_diff s t a b : chars a != [::] -> chars b != [::] -> last Ascii.zero (chars a) != last Ascii.zero (chars b) ->
  strcat s a <> strcat t b.
Proof.
move=> a0 b0 /eqP ne /(congr1 chars) /(congr1 (last Ascii.zero)); rewrite !chars_cat !last_cat.
by move: a0 b0 ne; case: (chars a) => // x y; case: (chars b) => // x' y' _ _ h /h.
Qed.
Lemma lag_lead v w i j : var_lag v i <> var_lead w j.
Proof. by move=> h; have [//|//|//|//|e _] := @dated_inj v w "_LAG" "_LEAD" i j _ _ _ _ h; apply: last_diff e. Qed.

Lemma dated_last v a i : isd (last Ascii.zero (chars (strcat v (strcat a (py_str_nat i))))).
Proof.
rewrite !chars_cat !last_cat; have := digits_nat i.
have : chars (py_str_nat i) != [::].
  by rewrite /py_str_nat; case: (Nat.to_uint i) => // [] [].
by case: (lastP (chars _)) => // x z _; rewrite all_rcons last_rcons => /andP [].
Qed.
Lemma lag_s v s i : var_lag v i <> var_s s.
Proof. by move=> e; have := dated_last v "_LAG" i; rewrite -/(var_lag v i) e /var_s chars_cat last_cat. Qed.
Lemma lead_s v s i : var_lead v i <> var_s s.
Proof. by move=> e; have := dated_last v "_LEAD" i; rewrite -/(var_lead v i) e /var_s chars_cat last_cat. Qed.
