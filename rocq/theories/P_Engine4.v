(** Derivation of the stated forms of the engine properties. *)
Set Warnings "-all".
From mathcomp Require Import all_ssreflect all_algebra.
From Verif Require Import PyBase M_Engine M_FindLk S_Engine S_FindLk P_Loops P_Engine P_Engine2 P_FindLk P_Engine3 P_EngineEx.
Set Implicit Arguments. Unset Strict Implicit. Unset Printing Implicit Defensive.
Import GRing.Theory Num.Theory Order.TTheory.
Local Open Scope ring_scope.
Local Open Scope py_scope.

Section A.
Variable F : fieldType.
Variables dimq dimp : nat.
Variables (sm : sysmats F dimq dimp) (f : cnst F dimq dimp).
Variables (omg : 'M[F]_(dimp, dimq)) (lam : 'M[F]_dimq) (l_max k_max : nat).
Variables (t : table (cell F dimq dimp)) (b : btable F dimq).
Hypothesis pre : preprocess sm f omg lam l_max k_max = Ok (t, b).
Hypothesis T12 : ursubmx (mT sm) = 0.
Hypothesis W12 : ursubmx (mW sm) = 0.
Hypothesis lsol : linear_solution (mS sm) (mT sm) omg lam.

Notation ann := (announced (mS sm) (mT sm) (mV sm) (mW sm) (mh sm) omg).

Lemma follows_announced rules l k q p : stored l_max k_max t rules ->
  (l <= l_max)%N -> (k <= k_max)%N -> follows rules l k q p -> ann l k q p.
Proof.
move=> st ll kk Hf; split; first exact: (announced_obeys pre st T12 W12 lsol ll kk Hf).
move=> s ls; have := Hf s; rewrite /remaining.
have h0 : rules 0%N 0%N = (omg, 0, (lam, 0)).
  have := st 0%N 0%N isT isT; case: (rules 0%N 0%N) => -[P Pt] [Q Qt].
  by rewrite (linear_entries pre st T12 W12 lsol (leq0n _)) => -[<- <- <- <-].
case: leqP => sl.
  have es : s = l by apply/eqP; rewrite eqn_leq sl (leq_trans (leq_addr k l) ls).
  have k0 : k = 0%N by apply/eqP; rewrite -leqn0 -(leq_add2l l) addn0 -{2}es.
  by rewrite es subnn k0 /= h0 addr0 => -[].
have -> : (k - (s - l))%N = 0%N by apply/eqP; rewrite subn_eq0 leq_subRL // ltnW.
by rewrite /= h0 addr0 => -[].
Qed.

Lemma c01 : exists rules, stored l_max k_max t rules /\
  forall l k, (l <= l_max)%N -> (k <= k_max)%N ->
    (forall q0, exists q p, q 0%N = q0 /\ follows rules l k q p) /\
    (forall q p, follows rules l k q p -> ann l k q p).
Proof.
have [rules st] := preprocess_complete pre; exists rules; split=> // l k ll kk; split.
  by move=> q0; exists (gen_q rules l k q0), (gen_p rules l k q0); split => //; apply: gen_follows.
by move=> q p; apply: follows_announced.
Qed.

Lemma c02 rules l k q p : stored l_max k_max t rules -> (0 < l_max)%N ->
  (l <= l_max)%N -> (k <= k_max)%N -> ann l k q p -> follows rules l k q p.
Proof. by move=> st l0 ll kk [Ho He]; apply: (announced_unique pre st T12 W12 lsol). Qed.

Lemma c02' l k q p q' p' : (0 < l_max)%N -> (l <= l_max)%N -> (k <= k_max)%N ->
  ann l k q p -> ann l k q' p' -> q 0%N = q' 0%N -> forall s, q s = q' s /\ p s = p' s.
Proof.
have [rules st] := preprocess_complete pre => l0 ll kk H H'.
exact: (follows_det (c02 st l0 ll kk H) (c02 st l0 ll kk H')).
Qed.

Lemma notional_ex q0 : (0 < l_max)%N -> exists N,
  notional_on (mS sm) (mT sm) (mV sm) (mW sm) (mh sm) omg (fq1 f) (fp1 f) (fq0 f) l_max k_max q0 N.
Proof.
move=> l0; have [rules st] := preprocess_complete pre.
exists (fun l k => notional (fq1 f) (fp1 f) (fq0 f) (gen_q rules l k q0) (gen_p rules l k q0)) => l k q p ll kk An e s.
have h := follows_det (c02 st l0 ll kk An) (gen_follows rules l k q0) e.
by rewrite /notional; have [-> ->] := h s; have [-> _] := h s.+1.
Qed.

Lemma c03 i l k q p : (i < 5)%N -> (0 < l_max)%N -> (l <= l_max)%N -> (k <= k_max)%N ->
  (i = 1%N -> (0 < l)%N) -> (i = 3%N -> (0 < l + k)%N) -> ann l k q p ->
  check_cnst b l_max.+1 k_max.+1 (q 0%N) i l k =
  Ok (notional (fq1 f) (fp1 f) (fq0 f) q p (nth 0%N [:: 0%N; l.-1; l; (l + k).-1; (l + k)%N] i)).
Proof.
have [rules st] := preprocess_complete pre => i5 l0 ll kk h1 h3 An.
exact: (check_notional pre st i5 ll kk h1 h3 (c02 st l0 ll kk An)).
Qed.

Lemma c03t : (0 < l_max)%N -> exists2 tb, preprocess_tmats f t l_max k_max = Ok tb &
  forall s l k q p, (s < l_max + k_max + 2)%N -> (l <= l_max)%N -> (k <= k_max)%N ->
   ann l k q p ->
   exists2 v, tb s l k = Some v & (v.1 *m q 0%N) 0 0 + v.2 = notional (fq1 f) (fp1 f) (fq0 f) q p s.
Proof.
have [rules st] := preprocess_complete pre => l0.
have [tb E H] := tmats_notional pre st; exists tb => // s l k q p sL ll kk An.
exact: H (c02 st l0 ll kk An).
Qed.

Lemma c11 l : (l <= l_max)%N -> t l 0%N = Some (Cell omg 0 lam 0).
Proof. by have [rules st] := preprocess_complete pre; apply: (linear_entries pre st). Qed.
End A.

Section B.
Variable F : realFieldType.
Variables dimq dimp : nat.
Variables (sm : sysmats F dimq dimp) (f : cnst F dimq dimp).
Variables (omg : 'M[F]_(dimp, dimq)) (lam : 'M[F]_dimq) (l_max k_max : nat).
Variables (t : table (cell F dimq dimp)) (b : btable F dimq).
Hypothesis pre : preprocess sm f omg lam l_max k_max = Ok (t, b).
Hypothesis T12 : ursubmx (mT sm) = 0.
Hypothesis W12 : ursubmx (mW sm) = 0.
Hypothesis lsol : linear_solution (mS sm) (mT sm) omg lam.
Variables (q0 : 'cV[F]_dimq) (N : nat -> nat -> nat -> F) (xb : F).
Hypothesis NE : notional_on (mS sm) (mT sm) (mV sm) (mW sm) (mh sm) omg (fq1 f) (fp1 f) (fq0 f) l_max k_max q0 N.
Notation search := (find_lk (check_cnst b l_max.+1 k_max.+1 q0) xb l_max.+1 k_max.+1).
Notation slack := (forall s, (s <= l_max)%N -> xb < N 0 0 s).
Notation hit := (exists s, (s <= l_max)%N /\ N 0 0 s <= xb).
Notation adm := (admissible N xb).

Lemma searchP : (0 < k_max)%N -> (l_max < 999)%N ->
  exists l k flag, search = Ok (l, k, flag) /\ search_outcome N xb l_max.+1 k_max.+1 l k flag.
Proof.
have [rules st] := preprocess_complete pre => k0 l9.
apply: (search_ok pre st T12 W12 lsol _ xb k0 l9) => l k q p ll kk Hf.
exact: NE (follows_announced pre T12 W12 lsol st ll kk Hf).
Qed.

Lemma search0P : k_max = 0%N -> (l_max < 999)%N -> hit -> search = Err OutOfBounds.
Proof.
have [rules st] := preprocess_complete pre => k0 l9 [s [sl h]].
apply: (search_kmax0 pre st T12 W12 lsol _ k0 l9) => [l k q p ll kk Hf|/(_ s sl)].
  exact: NE (follows_announced pre T12 W12 lsol st ll kk Hf).
by rewrite ltNge h.
Qed.

Lemma search0_slack : (l_max < 999)%N -> slack -> search = Ok (0%N, 0%N, 0%N).
Proof.
move=> l9 sl; have [rules st] := preprocess_complete pre.
have NE' : forall l k q p, (l <= l_max)%N -> (k <= k_max)%N -> follows rules l k q p -> q 0%N = q0 ->
  forall s, N l k s = notional (fq1 f) (fp1 f) (fq0 f) q p s.
  by move=> l k q p ll kk Hf; apply: NE (follows_announced pre T12 W12 lsol st ll kk Hf).
rewrite /find_lk.
have [||||l' -> [[-> H]|[lL H nH]]] :=
  @scan_linearP F (check_cnst b l_max.+1 k_max.+1 q0) xb l_max.+1 k_max.+1 N _ _ _ l_max.+2 0 (ltn0Sn _).
- exact: (chk_ok pre st).
- by move=> l ll; apply: (N_linear pre st T12 W12 lsol NE').
- by [].
- by rewrite subn0.
- by rewrite /= ltnn.
- by move: nH; rewrite sl.
Qed.

Lemma hitP : hit \/ slack.
Proof.
case: (boolP (all (fun s => xb < N 0 0 s) (iota 0 l_max.+1))) => [/allP h|/allPn [s]].
  by right=> s sl; apply: h; rewrite mem_iota.
by rewrite mem_iota -leNgt => sl h; left; exists s.
Qed.

Hypothesis k0 : (0 < k_max)%N.
Hypothesis l9 : (l_max < 999)%N.

Lemma c05 l k flag : search = Ok (l, k, flag) ->
  (k = 0%N <-> slack) /\ (slack -> l = 0%N /\ flag = 0%N).
Proof.
move=> E; have [l' [k' [f' []]]] := searchP k0 l9; rewrite E => -[<- <- <-] {l' k' f'}.
have ifs : ~ slack -> (0 < k)%N -> (k = 0%N <-> slack) /\ (slack -> l = 0%N /\ flag = 0%N).
  move=> ns kp; split; last by move/ns.
  by split => [e|/ns //]; rewrite e in kp.
move=> so; case: so ifs => {E l k flag}.
- by move=> sl _; split.
- by move=> l' k' ns [_ _ [kp _ _ _ _] _]; apply.
- move=> k' ns _ _ [j [/andP [j1 jk] _ _ _]]; apply=> //; exact: leq_ltn_trans jk.
- by move=> ns _ _; apply.
Qed.

Lemma slackP : ~ slack -> ~ (forall s, (s < l_max.+1)%N -> xb < N 0 0 s).
Proof. by move=> ns h; apply: ns => s; apply: h. Qed.

Lemma hit_nslack : hit -> ~ slack.
Proof. by case=> s [sl h] /(_ s sl); rewrite ltNge h. Qed.

Lemma c06 : hit -> (exists l k, [/\ (l <= l_max)%N, (k <= k_max)%N & adm l k]) ->
  exists l k, search = Ok (l, k, 0%N) /\ first_admissible N xb l_max.+1 k_max.+1 l k.
Proof.
move=> /hit_nslack ns [l0 [kk0 [ll kk a]]]; have [l [k [fl [-> []]]]] := searchP k0 l9.
- by move/ns.
- by move=> l' k' _ fa; exists l', k'.
- by move=> k' _ /(_ l0 kk0 ll kk a).
- by move=> _ /(_ l0 kk0 ll kk a).
Qed.

Lemma c06' l k : search = Ok (l, k, 0%N) -> (0 < k)%N ->
  first_admissible N xb l_max.+1 k_max.+1 l k.
Proof.
have [l' [k' [fl []]]] := searchP k0 l9; move=> -> so [<- <- e].
by case: so e => // l2 k2 _ fa _ _.
Qed.

Lemma c07 l k flag : search = Ok (l, k, flag) ->
  [/\ (flag <= 2)%N,
      flag <> 0%N <-> hit /\ (forall l' k', (l' <= l_max)%N -> (k' <= k_max)%N -> ~ adm l' k'),
      flag = 1%N -> [/\ l = 0%N, (k <= k_max)%N & first_reexit N xb k] &
      flag = 2%N -> [/\ l = 0%N, k = k_max & forall j, (j <= k_max)%N -> ~ first_reexit N xb j]].
Proof.
have [l' [k' [fl []]]] := searchP k0 l9; move=> -> so [<- <- <-] {l k flag}.
case: so => {l' k' fl}.
- move=> sl; split=> //; split=> // -[[s [ss h]] _].
  by have := sl s ss; rewrite ltNge h.
- move=> l k ns [ll kk a _]; split=> //; split=> // -[_ /(_ l k ll kk)]; by [].
- move=> k ns na kk fr; split=> //; split=> // _; split=> //.
  by case: hitP => // sl; case: ns => s; apply: sl.
- move=> ns na nr; split=> //; split=> // _; split=> //.
  by case: hitP => // sl; case: ns => s; apply: sl.
Qed.

Lemma c08 : exists l k flag, [/\ search = Ok (l, k, flag), (l <= l_max)%N & (k <= k_max)%N].
Proof.
have [l [k [fl [-> so]]]] := searchP k0 l9; exists l, k, fl.
by case: so => [_|l' k' _ [ll kk _ _]|k' _ _ kk _|_ _ _].
Qed.

Lemma c08' : (forall l k, (l <= l_max)%N -> (k <= k_max)%N -> exists c, t l k = Some c).
Proof.
have [rules st] := preprocess_complete pre => l k ll kk; have := st l k ll kk.
by case: (rules l k) => -[P Pt] [Q Qt] ->; eexists.
Qed.
End B.

(** sentinel *)
Definition sent_N (l k s : nat) : rat :=
  if (k == 0%N) then (if s == 999%N then 0 else 1) else
  if (l == 999%N) then 0 else 1.

Lemma sentinel :
  first_admissible sent_N 0 1000 2 999 1 /\
  find_lk (fun i l k => Ok (sent_N l k (per i l k))) 0 1000 2 = Ok (0%N, 1%N, 2%N).
Proof.
split; last by vm_compute.
split; [by []|by []|by split|].
move=> l k ll kk lt ad.
have k1 : k = 1%N by case: ad => + _ _ _ _; case: k kk {lt} => [|[|k]].
have l1 : (l < 999)%N by case: lt => [//|[_ /=]]; rewrite k1.
case: ad; rewrite k1 /sent_N /= (ltn_eqF l1) => _ _ //.
Qed.
