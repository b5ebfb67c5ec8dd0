Set Warnings "-all".
From mathcomp Require Import all_ssreflect all_algebra.
From Verif Require Import PyBase M_FindLk S_FindLk.
Set Implicit Arguments. Unset Strict Implicit. Unset Printing Implicit Defensive.
Import GRing.Theory Num.Theory Order.TTheory.
Local Open Scope ring_scope.
Local Open Scope py_scope.

Section Search.
Variable F : realFieldType.
Variable chk : nat -> nat -> nat -> res F.
Variable xb : F.
Variables Lm Km : nat.
Variable N : nat -> nat -> nat -> F.

(** the five check points *)
Definition per (i l k : nat) : nat := nth 0%N [:: 0%N; l.-1; l; (l + k).-1; (l + k)%N] i.

Hypothesis chkE : forall i l k, (i < 5)%N -> (l < Lm)%N -> (k < Km)%N ->
  (i == 1%N -> (0 < l)%N) -> (i == 3%N -> (0 < l + k)%N) ->
  chk i l k = Ok (N l k (per i l k)).
Hypothesis linE : forall l, (l < Lm)%N -> N l 0 l = N 0 0 l.
Hypothesis Lm_pos : (0 < Lm)%N.
Hypothesis Km0 : (0 < Km)%N.

Lemma scan_linearP fuel l : (l < Lm)%N -> (Lm - l <= fuel)%N ->
  exists2 l', scan_linear chk xb Lm fuel l = Ok l' &
    ((l' = Lm /\ forall s, (l <= s < Lm)%N -> xb < N 0 0 s)
     \/ [/\ (l' < Lm)%N, (l <= l')%N & ~~ (xb < N 0 0 l')]).
Proof.
elim: fuel l => [|f IH] l ll lf.
  by move: lf; rewrite leqn0 subn_eq0 leqNgt ll.
rewrite /= chkE // /= /per /= linE // subr_gt0.
case: ifP => h; last by exists l => //; right; rewrite ll leqnn h.
case: eqP => [e|ne].
  exists l.+1 => //; left; split=> // s /andP[a b].
  have -> : s = l by apply/eqP; rewrite eqn_leq a andbT -ltnS e.
  by [].
have l1 : (l.+1 < Lm)%N by rewrite ltn_neqAle ll andbT; apply/eqP.
have lf1 : (Lm - l.+1 <= f)%N by rewrite subnS -ltnS prednK ?subn_gt0 //.
have [l' -> [[e H]|[a b c]]] := IH l.+1 l1 lf1; exists l' => //.
- left; split=> // s /andP[]; rewrite leq_eqVlt => /orP[/eqP <- //|a b].
  by apply: H; rewrite a b.
- by right; split=> //; apply: ltnW.
Qed.

Hypothesis Km_pos : (1 < Km)%N.

Definition admb (l k : nat) : bool :=
  [&& (0 < k)%N, ((0 < l)%N ==> ((xb <= N l k 0) && (xb <= N l k l.-1))),
   N l k l <= xb, N l k (l + k).-1 <= xb & xb <= N l k (l + k)].

Lemma admP l k : reflect (admissible N xb l k) (admb l k).
Proof.
apply: (iffP idP).
  case/and5P=> a /implyP b c d e; split=> // l0.
  by move: (b l0) => /andP[].
case=> a b c d e; rewrite /admb a c d e /= !andbT.
by apply/implyP => l0; case: (b l0) => -> ->.
Qed.

Lemma brute_bodyE l k : (l < Lm)%N -> (0 < k < Km)%N -> brute_body chk xb l k = Ok (admb l k).
Proof.
move=> ll /andP[k0 kK]; rewrite /brute_body /admb k0 /=.
have lk0 : (0 < l + k)%N by rewrite addn_gt0 k0 orbT.
have E0 : chk 0 l k = Ok (N l k 0) by rewrite chkE.
have E2 : chk 2 l k = Ok (N l k l) by rewrite chkE.
have E3 : chk 3 l k = Ok (N l k (l + k).-1) by rewrite chkE.
have E4 : chk 4 l k = Ok (N l k (l + k)) by rewrite chkE.
have E1 : (0 < l)%N -> chk 1 l k = Ok (N l k l.-1) by move=> l0; rewrite chkE.
rewrite E0 E2 E3 E4 /=.
have T3 : (if (1 < k)%N then Ok (0 < N l k (l + k).-1 - xb) else Ok false)
          = (Ok ((1 < k)%N && (xb < N l k (l + k).-1)) : res bool).
  by case: (1 < k)%N; rewrite ?subr_gt0.
rewrite T3 /= !subr_lt0 !subr_gt0.
have R3 : (xb < N l k l) = false -> (1 < k)%N && (xb < N l k (l + k).-1) = (xb < N l k (l + k).-1).
  move=> h; case: k k0 {E0 E1 E2 E3 E4 T3 kK lk0} h => [|[|k]] //= _ h.
  by rewrite addn1 /= h.
case: l ll lk0 E0 E1 E2 E3 E4 T3 R3 => [|l] ll lk0 E0 E1 E2 E3 E4 T3 R3 /=.
  case: ltP => h4 /=; first by rewrite !andbF.
  case: ltP => h2 //=.
  rewrite R3; last by apply/negbTE; rewrite -leNgt.
  by case: ltP.
rewrite E1 //= !subr_lt0.
case: ltP => h0 //=.
have -> : (if (1 < l.+1)%N then Ok (N l.+1 k l < xb) else Ok false)
          = (Ok (N l.+1 k l < xb) : res bool).
  case: l h0 {ll lk0 E0 E1 E2 E3 E4 T3 R3} => [|l] //= h0.
  by rewrite ltNge h0.
rewrite /=.
case: ltP => h1 //=.
case: ltP => h4 /=; first by rewrite !andbF.
case: ltP => h2 //=.
rewrite R3; last by apply/negbTE; rewrite -leNgt.
by case: ltP.
Qed.

Lemma brute_kP l a n : (l < Lm)%N -> (0 < a)%N -> (a + n <= Km)%N ->
  (exists2 k, brute_k chk xb l (iota a n) = Ok (Some (l, k)) &
     [/\ (a <= k < a + n)%N, admb l k & forall j, (a <= j < k)%N -> ~~ admb l j])
  \/ (brute_k chk xb l (iota a n) = Ok None /\ forall j, (a <= j < a + n)%N -> ~~ admb l j).
Proof.
move=> ll; elim: n a => [|n IH] a a0 aK.
  by right; split=> // j; rewrite addn0 => /andP[h1 h2]; move: (leq_ltn_trans h1 h2); rewrite ltnn.
have aK' : (a < Km)%N by apply: leq_trans aK; rewrite addnS ltnS leq_addr.
rewrite /= brute_bodyE ?a0 //=.
case: ifP => ad.
  left; exists a => //; split=> //; first by rewrite leqnn addnS ltnS leq_addr.
  by move=> j /andP[h1 h2]; move: (leq_ltn_trans h1 h2); rewrite ltnn.
have [] := IH a.+1 isT; first by rewrite addSnnS.
  case=> k -> [h1 h2 h3]; left; exists k => //; split=> //.
    by case/andP: h1 => x; rewrite addSnnS => ->; rewrite (ltnW x).
  move=> j; rewrite leq_eqVlt => /andP[/orP[/eqP <- _|x y]]; first by rewrite ad.
  by apply: h3; rewrite x y.
case=> -> h; right; split=> // j; rewrite leq_eqVlt => /andP[/orP[/eqP <- _|x y]]; first by rewrite ad.
by apply: h; rewrite x addSnnS.
Qed.

Lemma brute_lP a n : (a + n <= Lm)%N ->
  (exists l k, brute_l chk xb Km (iota a n) = Ok (Some (l, k)) /\
     [/\ (a <= l < a + n)%N, (k < Km)%N, admb l k &
       forall l' k', (a <= l')%N -> (k' < Km)%N -> lex_lt (l', k') (l, k) -> ~~ admb l' k'])
  \/ (brute_l chk xb Km (iota a n) = Ok None /\
      forall l' k', (a <= l' < a + n)%N -> (k' < Km)%N -> ~~ admb l' k').
Proof.
elim: n a => [|n IH] a aL.
  by right; split=> // j j' ; rewrite addn0 => /andP[h1 h2]; move: (leq_ltn_trans h1 h2); rewrite ltnn.
have aL' : (a < Lm)%N by apply: leq_trans aL; rewrite addnS ltnS leq_addr.
have KE : (1 + Km.-1 = Km)%N by rewrite add1n prednK.
have adm0 l : ~~ admb l 0 by rewrite /admb.
rewrite [brute_l _ _ _ _]/=.
have [|||[k -> [h1 h2 h3]]|[-> h]] := @brute_kP a 1 Km.-1; rewrite ?KE //.
  left; exists a, k; split=> //; split=> //.
  - by rewrite leqnn addnS ltnS leq_addr.
  - by move: h1; rewrite KE => /andP[].
  - move=> l' k' al kK [] /=; first by rewrite ltnNge al.
    case=> -> kk; case: (posnP k') => [->|k0]; first exact: adm0.
    by apply: h3; rewrite k0 kk.
have [] := IH a.+1; first by rewrite addSnnS.
  case=> l [k] [E [h1 h2 h3 h4]]; left; exists l, k; split=> //; split=> //.
    by case/andP: h1 => x; rewrite addSnnS => ->; rewrite (ltnW x).
  move=> l' k'; rewrite leq_eqVlt => /orP[/eqP <- kK _|al kK lt]; last exact: h4.
  case: (posnP k') => [->|k0]; first exact: adm0.
  by apply: h; rewrite k0 KE.
case=> E h'; right; split=> // l' k'; rewrite leq_eqVlt => /andP[/orP[/eqP <- _ kK|x y kK]].
  case: (posnP k') => [->|k0]; first exact: adm0.
  by apply: h; rewrite k0 KE.
by apply: h' => //; rewrite x addSnnS.
Qed.

(** approximation loop, once below *)
Lemma approx_true fuel k k0 : (Km - k <= fuel)%N -> (k.+1 < Km)%N -> (1 <= k0 <= k)%N ->
  N 0 k0 k0 < xb -> (forall j, (1 <= j < k0)%N -> xb <= N 0 j j) ->
  (forall j, (k0 < j <= k)%N -> N 0 j j <= xb) ->
  (exists2 k', approx chk xb Km fuel k true = Ok (k', 1%N) & (k' < Km)%N /\ first_reexit N xb k')
  \/ (approx chk xb Km fuel k true = Ok (Km.-1, 2%N) /\ forall j, (k0 < j < Km)%N -> N 0 j j <= xb).
Proof.
elim: fuel k => [|f IH] k fk kK kk0 b0 bb ab.
  by move: fk; rewrite leqn0 subn_eq0 leqNgt (ltnW kK).
rewrite /= chkE //= /per /= add0n subr_gt0.
case: ltP => h.
  left; exists k.+1 => //; split=> //; exists k0; split=> //.
have ab' : forall j, (k0 < j <= k.+1)%N -> N 0 j j <= xb.
  move=> j /andP[x]; rewrite leq_eqVlt => /orP[/eqP ->//|y]; apply: ab; by rewrite x -ltnS.
case: eqP => e.
  right; split; first by rewrite -e.
  by move=> j /andP[x y]; apply: ab'; rewrite x -ltnS e.
apply: IH => //; first by rewrite -ltnS; apply: leq_trans fk; rewrite ltn_sub2l // ltnW.
  by rewrite ltn_neqAle kK andbT; apply/eqP.
case/andP: kk0 => -> /=; exact: leqW.
Qed.

Lemma approx_false fuel k : (Km - k <= fuel)%N -> (k.+1 < Km)%N ->
  (forall j, (1 <= j <= k)%N -> xb <= N 0 j j) ->
  (exists2 k', approx chk xb Km fuel k false = Ok (k', 1%N) & (k' < Km)%N /\ first_reexit N xb k')
  \/ (approx chk xb Km fuel k false = Ok (Km.-1, 2%N) /\ forall k', (k' < Km)%N -> ~ first_reexit N xb k').
Proof.
elim: fuel k => [|f IH] k fk kK bb.
  by move: fk; rewrite leqn0 subn_eq0 leqNgt (ltnW kK).
rewrite /= chkE //= /per /= add0n subr_lt0.
have fk' : (Km - k.+1 <= f)%N by rewrite -ltnS; apply: leq_trans fk; rewrite ltn_sub2l // ltnW.
case: ltP => h.
  (* below: k0 = k.+1 *)
  have bb' : forall j, (1 <= j < k.+1)%N -> xb <= N 0 j j by move=> j; rewrite ltnS; exact: bb.
  case: eqP => e.
    right; split; first by rewrite -e.
    move=> k' kK' [k0 [/andP[a b] [c d] _ _]].
    have : (k0 < k.+1)%N by rewrite (leq_trans b) // -ltnS e.
    by rewrite ltnS => x; move: (bb k0); rewrite a x leNgt c => /(_ isT).
  have kK1 : (k.+2 < Km)%N by rewrite ltn_neqAle kK andbT; apply/eqP.
  have vac : forall j, (k.+1 < j <= k.+1)%N -> N 0 j j <= xb.
    by move=> j /andP[x y]; move: (leq_trans x y); rewrite ltnn.
  have kk : (1 <= k.+1 <= k.+1)%N by rewrite leqnn.
  have [[k' -> ?]|[-> H]] := approx_true fk' kK1 kk h bb' vac.
  - by left; exists k'.
  - right; split=> // k' kK' [k0 [/andP[a b] [c d] g i]].
    have e0 : k0 = k.+1.
      apply/eqP; rewrite eqn_leq; apply/andP; split; rewrite leqNgt; apply/negP => x.
        by move: (d k.+1); rewrite x leNgt h => /(_ isT).
      by move: (bb k0); rewrite a -ltnS x leNgt c => /(_ isT).
    by move: (H k'); rewrite -e0 b kK' leNgt g => /(_ isT).
have bb' : forall j, (1 <= j <= k.+1)%N -> xb <= N 0 j j.
  move=> j /andP[x]; rewrite leq_eqVlt => /orP[/eqP ->//|y]; apply: bb; by rewrite x -ltnS.
case: eqP => e.
  right; split; first by rewrite -e.
  move=> k' kK' [k0 [/andP[a b] [c d] _ _]].
  have : (k0 < k.+2)%N by rewrite e (ltn_trans b).
  by rewrite ltnS => x; move: (bb' k0); rewrite a x leNgt c => /(_ isT).
apply: IH => //; by rewrite ltn_neqAle kK andbT; apply/eqP.
Qed.

Lemma find_lkP : (Lm <= 999)%N ->
  exists l k flag, find_lk chk xb Lm Km = Ok (l, k, flag) /\ search_outcome N xb Lm Km l k flag.
Proof.
move=> L999; rewrite /find_lk; move E : (approx _ _ _ _ _ _) => ap.
have [|l' -> [[-> H]|[lL _ nH]]] := @scan_linearP Lm.+1 0 Lm_pos; first by rewrite subn0.
  rewrite /= ltnn; exists 0%N, 0%N, 0%N; split=> //; constructor=> s sL.
  by apply: H; rewrite sL.
have nslack : ~ (forall s, (s < Lm)%N -> xb < N 0 0 s) by move/(_ _ lL); apply/negP.
rewrite /= lL /bruite_wrapper.
have [|[l [k [-> [h1 h2 h3 h4]]]]|[-> h]] := @brute_lP 0 Lm; first by rewrite add0n.
  rewrite add0n /= in h1.
  have ne : (l == 999%N) = false.
    by apply/negP => /eqP e; move: (leq_trans h1 L999); rewrite e ltnn.
  rewrite /= ne; exists l, k, 0%N; split=> //; constructor=> //; split=> //; first exact/admP.
  by move=> a b aL bK lt /admP; apply/negP; apply: h4.
have na : forall l' k', (l' < Lm)%N -> (k' < Km)%N -> ~ admissible N xb l' k'.
  by move=> a b aL bK /admP; apply/negP; apply: h.
have vac : forall j, (1 <= j <= 0)%N -> xb <= N 0 j j.
  by move=> j /andP[x y]; move: (leq_trans x y); rewrite ltnn.
have fK : (Km - 0 <= Km.+1)%N by rewrite subn0.
have := approx_false fK Km_pos vac; rewrite E => -[[k' -> [? ?]]|[-> H]].
- exists 0%N, k', 1%N; split=> //; exact: so_approx.
- exists 0%N, Km.-1, 2%N; split=> //; exact: so_max.
Qed.
End Search.
