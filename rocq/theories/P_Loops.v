(** Loop-invariant rules for [foldM]. *)
Set Warnings "-all".
From mathcomp Require Import all_ssreflect.
From Verif Require Import PyBase.
Set Implicit Arguments. Unset Strict Implicit. Unset Printing Implicit Defensive.

Section Loops.
Variable S : Type.

Lemma foldM_cat X (step : S -> X -> res S) xs ys st :
  foldM step (xs ++ ys) st = rbind (foldM step xs st) (foldM step ys).
Proof. by elim: xs st => [|x xs IH] st //=; case: (step st x) => //= a; apply: IH. Qed.

Definition holds (P : S -> Prop) (Q : exn -> Prop) (r : res S) : Prop :=
  match r with Ok s => P s | Err e => Q e end.

Lemma foldM_iota (step : S -> nat -> res S) (P : nat -> S -> Prop) (Q : exn -> Prop) n a st :
  P a st ->
  (forall i s, (a <= i < a + n)%N -> P i s -> holds (P i.+1) Q (step s i)) ->
  holds (P (a + n)%N) Q (foldM step (iota a n) st).
Proof.
elim: n a st => [|n IH] a st Pa H /=; first by rewrite addn0.
have := H a st _ Pa; rewrite leqnn addnS ltnS leq_addr => /(_ isT).
case: (step st a) => //= s' Ps'.
rewrite -addSn; apply: IH => // i s /andP[h1 h2]; apply: H.
by rewrite (ltnW h1) -addSnnS.
Qed.

Lemma foldM_lk (step : S -> nat * nat -> res S) (P : nat -> nat -> S -> Prop) (Q : exn -> Prop) Lm Km st :
  P 0 0 st ->
  (forall l k s, (l < Lm)%N -> (k < Km)%N -> P l k s -> holds (P l k.+1) Q (step s (l, k))) ->
  (forall l s, (l < Lm)%N -> P l Km s -> P l.+1 0 s) ->
  holds (P Lm 0) Q (foldM step [seq (l, k) | l <- iota 0 Lm, k <- iota 0 Km] st).
Proof.
move=> P0 Hs Hn.
have row : forall l s, (l < Lm)%N -> P l 0 s ->
    holds (P l Km) Q (foldM step [seq (l, k) | k <- iota 0 Km] s).
  move=> l s lL Pl.
  have E : foldM step [seq (l, k) | k <- iota 0 Km] s
         = foldM (fun s k => step s (l, k)) (iota 0 Km) s.
    elim: (iota 0 Km) s {Pl} => [|k ks IH] s //=.
    by case: (step s (l, k)).
  rewrite E -[X in P l X]add0n; apply: foldM_iota => // i s' /andP[_ iK] Pi.
  by apply: Hs.
suff G : forall n a s, (a + n <= Lm)%N -> P a 0 s ->
    holds (P (a + n)%N 0) Q (foldM step [seq (l, k) | l <- iota a n, k <- iota 0 Km] s).
  by rewrite -[X in P X]add0n; apply: G.
elim=> [|n IH] a s aL Pa /=; first by rewrite addn0.
have aL' : (a < Lm)%N by apply: leq_trans aL; rewrite addnS ltnS leq_addr.
rewrite foldM_cat; have := row a s aL' Pa.
case: (foldM step _ s) => //= s' Ps'.
rewrite -addSnnS; apply: IH; first by rewrite addSnnS.
exact: Hn.
Qed.
End Loops.
