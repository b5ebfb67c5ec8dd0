(** Property theorems C101, C102: longer horizons; equilibria are found and stay equilibria. *)
Set Warnings "-all".
From mathcomp Require Import all_ssreflect all_algebra.
From Verif Require Import PyBase M_Engine M_FindLk S_Engine S_FindLk S_Horizon P_FindLk P_Engine2 P_Engine3 P_EngineEx P_Engine4 P_Horizon.
Set Implicit Arguments. Unset Strict Implicit. Unset Printing Implicit Defensive.
Import GRing.Theory Num.Theory Order.TTheory.
Local Open Scope ring_scope.

(** C101: tables for longer horizons contain those for shorter ones; in particular these exist *)
Theorem C101_tables_agree (F : fieldType) (dimq dimp : nat)
    (sm : sysmats F dimq dimp) (f : cnst F dimq dimp)
    (omg : 'M[F]_(dimp, dimq)) (lam : 'M[F]_dimq) (l_max k_max l_max' k_max' : nat) t' b' :
  (l_max <= l_max')%N -> (k_max <= k_max')%N ->
  preprocess sm f omg lam l_max' k_max' = Ok (t', b') ->
  exists t b, preprocess sm f omg lam l_max k_max = Ok (t, b) /\
    forall l k, (l <= l_max)%N -> (k <= k_max)%N -> t l k = t' l k /\ forall i, b i l k = b' i l k.
Proof. exact: tables_agree. Qed.

(** a pair that was found is found with longer horizons too, unless a pair with a smaller l and a duration that was out of reach
    before is admissible *)
Theorem C101_longer_horizons (F : realFieldType) (dimq dimp : nat)
    (sm : sysmats F dimq dimp) (f : cnst F dimq dimp)
    (omg : 'M[F]_(dimp, dimq)) (lam : 'M[F]_dimq) (l_max k_max l_max' k_max' : nat) t b t' b' q0 N xb l k :
  preprocess sm f omg lam l_max k_max = Ok (t, b) -> preprocess sm f omg lam l_max' k_max' = Ok (t', b') ->
  ursubmx (mT sm) = 0 -> ursubmx (mW sm) = 0 ->
  linear_solution (mS sm) (mT sm) omg lam ->
  notional_on (mS sm) (mT sm) (mV sm) (mW sm) (mh sm) omg (fq1 f) (fp1 f) (fq0 f) l_max' k_max' q0 N ->
  (l_max <= l_max')%N -> (k_max <= k_max')%N -> (0 < k_max)%N -> (l_max' < 999)%N ->
  find_lk (check_cnst b l_max.+1 k_max.+1 q0) xb l_max.+1 k_max.+1 = Ok (l, k, 0%N) -> (0 < k)%N ->
  exists l' k', find_lk (check_cnst b' l_max'.+1 k_max'.+1 q0) xb l_max'.+1 k_max'.+1 = Ok (l', k', 0%N) /\
     ((l', k') = (l, k) \/ (l' < l)%N /\ (k_max < k')%N).
Proof. by move=> pre pre' h1 h2 ls NE hl hk k0 l9 E kp; apply: (longer h1 h2 ls pre pre' hl hk k0 l9 NE E kp). Qed.

(** hence results with l = 0 never change, and no result changes if only l_max is raised *)
Theorem C101_stable (F : realFieldType) (dimq dimp : nat)
    (sm : sysmats F dimq dimp) (f : cnst F dimq dimp)
    (omg : 'M[F]_(dimp, dimq)) (lam : 'M[F]_dimq) (l_max k_max l_max' k_max' : nat) t b t' b' q0 N xb l k :
  preprocess sm f omg lam l_max k_max = Ok (t, b) -> preprocess sm f omg lam l_max' k_max' = Ok (t', b') ->
  ursubmx (mT sm) = 0 -> ursubmx (mW sm) = 0 ->
  linear_solution (mS sm) (mT sm) omg lam ->
  notional_on (mS sm) (mT sm) (mV sm) (mW sm) (mh sm) omg (fq1 f) (fp1 f) (fq0 f) l_max' k_max' q0 N ->
  (l_max <= l_max')%N -> (k_max <= k_max')%N -> (0 < k_max)%N -> (l_max' < 999)%N ->
  find_lk (check_cnst b l_max.+1 k_max.+1 q0) xb l_max.+1 k_max.+1 = Ok (l, k, 0%N) -> (0 < k)%N ->
  l = 0%N \/ k_max' = k_max ->
  find_lk (check_cnst b' l_max'.+1 k_max'.+1 q0) xb l_max'.+1 k_max'.+1 = Ok (l, k, 0%N).
Proof.
move=> pre pre' h1 h2 ls NE hl hk k0 l9 E kp H.
have [l' [k' [E' [[<- <-]|[ll kk]]]]] := longer h1 h2 ls pre pre' hl hk k0 l9 NE E kp => //.
case: H => e; first by rewrite e in ll.
have k0' : (0 < k_max')%N by rewrite e.
have [l1 [k1 [fl [E1 _ kk1]]]] := c08 pre' h1 h2 ls xb NE k0' l9.
by move: E1 kk1 kk; rewrite E' -e => -[_ <- _]; rewrite leqNgt => /negP.
Qed.
(** a path that stays clear of the bound up to l_max is not affected by k_max *)
Theorem C101_slack (F : realFieldType) (dimq dimp : nat)
    (sm : sysmats F dimq dimp) (f : cnst F dimq dimp)
    (omg : 'M[F]_(dimp, dimq)) (lam : 'M[F]_dimq) (l_max k_max k_max' : nat) t b t' b' q0 N xb l flag :
  preprocess sm f omg lam l_max k_max = Ok (t, b) -> preprocess sm f omg lam l_max k_max' = Ok (t', b') ->
  ursubmx (mT sm) = 0 -> ursubmx (mW sm) = 0 ->
  linear_solution (mS sm) (mT sm) omg lam ->
  notional_on (mS sm) (mT sm) (mV sm) (mW sm) (mh sm) omg (fq1 f) (fp1 f) (fq0 f) l_max k_max' q0 N ->
  (k_max <= k_max')%N -> (0 < k_max)%N -> (l_max < 999)%N ->
  find_lk (check_cnst b l_max.+1 k_max.+1 q0) xb l_max.+1 k_max.+1 = Ok (l, 0%N, flag) ->
  [/\ l = 0%N, flag = 0%N & find_lk (check_cnst b' l_max.+1 k_max'.+1 q0) xb l_max.+1 k_max'.+1 = Ok (0%N, 0%N, 0%N)].
Proof. by move=> pre pre' h1 h2 ls NE hk k0 l9 E; apply: (longer_slack h1 h2 ls pre pre' hk k0 l9 NE E). Qed.

Example C101_example : exists t b t' b',
  [/\ preprocess ex2 ex2_f ex2_omg ex2_lam 2 3 = Ok (t, b), preprocess ex2 ex2_f ex2_omg ex2_lam 5 7 = Ok (t', b'),
      notional_on (mS ex2) (mT ex2) (mV ex2) (mW ex2) (mh ex2) ex2_omg (fq1 ex2_f) (fp1 ex2_f) (fq0 ex2_f) 5 7 (20%:Q)%:M ex2_N &
      find_lk (check_cnst b 3 4 (20%:Q)%:M) (-1) 3 4 = Ok (0%N, 1%N, 0%N)].
Proof.
have [t [b e]] := ex2_ok 2 3; have [t' [b' e']] := ex2_ok 5 7; have [h1 h2] := ex2_blocks; exists t, b, t', b'.
have NE := @ex2_notional 2%N 3%N; split=> //; first exact: ex2_notional.
have [l [k [fl [-> so]]]] := searchP e h1 h2 ex2_lsol (-1) NE isT isT.
by rewrite (ex2_outcome so).
Qed.

(** Raising k_max alone can replace a pair: the search is given the constraint values of every announced path. *)
Definition rise_N (l k s : nat) : rat :=
  if k == 0%N then -1 else
  if (l, k) == (0%N, 1%N) then -1 else                                   (* not admissible: below the bound at the end *)
  if (l, k) == (1%N, 1%N) then (if s == 1%N then -1 else 1) else
  if (l, k) == (0%N, 2%N) then (if (s < 2)%N then -1 else 1) else -1.
Theorem C101_k_max_replaces_refuted :
  find_lk (fun i l k => Ok (rise_N l k (per i l k))) 0 3 2 = Ok (1%N, 1%N, 0%N) /\
  find_lk (fun i l k => Ok (rise_N l k (per i l k))) 0 3 3 = Ok (0%N, 2%N, 0%N).
Proof. by split; vm_compute. Qed.

(** C102: if there is an equilibrium within the horizons, the search succeeds; its result comes at the latest with this equilibrium *)
Section C102.
Variable F : realFieldType.
Variables dimq dimp : nat.
Variables (sm : sysmats F dimq dimp) (f : cnst F dimq dimp).
Variables (omg : 'M[F]_(dimp, dimq)) (lam : 'M[F]_dimq) (l_max k_max : nat).

Lemma found t b q0 N xb l k :
  preprocess sm f omg lam l_max k_max = Ok (t, b) -> ursubmx (mT sm) = 0 -> ursubmx (mW sm) = 0 ->
  linear_solution (mS sm) (mT sm) omg lam ->
  notional_on (mS sm) (mT sm) (mV sm) (mW sm) (mh sm) omg (fq1 f) (fp1 f) (fq0 f) l_max k_max q0 N ->
  (0 < k_max)%N -> (l_max < 999)%N -> (l <= l_max)%N -> (k <= k_max)%N -> equilibrium xb (N l k) l k ->
  (k = 0%N -> l = 0%N) ->
  exists l' k', find_lk (check_cnst b l_max.+1 k_max.+1 q0) xb l_max.+1 k_max.+1 = Ok (l', k', 0%N) /\ not_after (l', k') (l, k).
Proof.
move=> pre h1 h2 ls NE k0 l9 ll kk [e1 e2 e3] k0l.
case: (posnP k) => [k00|kp].
  have l0 := k0l k00; subst l k; exists 0%N, 0%N; split; last by right.
  by apply: (search0_slack pre h1 h2 ls NE l9) => s _; exact: e3.
have a : admissible N xb l k.
  split=> //.
  - by move=> lp; split; apply: e1; rewrite ?lp // prednK.
  - by apply: e2; rewrite leqnn -{1}[l]addn0 ltn_add2l.
  - apply: e2; by rewrite -subn1 -addnBA // leq_addr /= ltn_add2l subn1 prednK.
  - by apply: ltW; apply: e3.
case: (hitP l_max N xb) => [ht|sl]; last first.
  exists 0%N, 0%N; split; first exact: (search0_slack pre h1 h2 ls NE).
  by rewrite /not_after /=; case: (l); [right|left].
have [|l' [k' [E [lL kK a' fa]]]] := c06 pre h1 h2 ls NE k0 l9 ht; first by exists l, k.
exists l', k'; split=> //; rewrite /not_after /=.
case: (ltngtP l' l) => hl; [by left| |].
  by case: (fa l k) => //; left.
right; split=> //; rewrite leqNgt; apply/negP => h.
by case: (fa l k) => //; right.
Qed.

Theorem C102_equilibrium_is_found t b q p xb l k :
  preprocess sm f omg lam l_max k_max = Ok (t, b) -> ursubmx (mT sm) = 0 -> ursubmx (mW sm) = 0 ->
  linear_solution (mS sm) (mT sm) omg lam ->
  (0 < k_max)%N -> (0 < l_max < 999)%N -> (l <= l_max)%N -> (k <= k_max)%N -> (k = 0%N -> l = 0%N) ->
  announced (mS sm) (mT sm) (mV sm) (mW sm) (mh sm) omg l k q p ->
  equilibrium xb (notional (fq1 f) (fp1 f) (fq0 f) q p) l k ->
  exists l' k', find_lk (check_cnst b l_max.+1 k_max.+1 (q 0%N)) xb l_max.+1 k_max.+1 = Ok (l', k', 0%N) /\ not_after (l', k') (l, k).
Proof.
move=> pre h1 h2 ls k0 /andP[l0 l9] ll kk k0l A [e1 e2 e3].
have [N NE] := notional_ex pre h1 h2 ls (q 0%N) l0.
apply: (found pre h1 h2 ls NE) => //; have E := NE _ _ _ _ ll kk A erefl.
by split=> s hs; rewrite E; [exact: e1|exact: e2|exact: e3].
Qed.

(** Without further shocks the rest of the equilibrium is an equilibrium in every later period, so that the search succeeds there *)
Theorem C102_stays_solvable t b q p xb l k s :
  preprocess sm f omg lam l_max k_max = Ok (t, b) -> ursubmx (mT sm) = 0 -> ursubmx (mW sm) = 0 ->
  linear_solution (mS sm) (mT sm) omg lam ->
  (0 < k_max)%N -> (0 < l_max < 999)%N -> (l <= l_max)%N -> (0 < k <= k_max)%N ->
  announced (mS sm) (mT sm) (mV sm) (mW sm) (mh sm) omg l k q p ->
  equilibrium xb (notional (fq1 f) (fp1 f) (fq0 f) q p) l k ->
  exists l' k', find_lk (check_cnst b l_max.+1 k_max.+1 (q s)) xb l_max.+1 k_max.+1 = Ok (l', k', 0%N) /\
    not_after (l', k') (remaining l k s).
Proof.
move=> pre h1 h2 ls k0 l9 ll /andP[kp kk] A [e1 e2 e3].
have [r1 r2] := remaining_le l k s; have := @ann_shift F dimq dimp sm omg l k q p s A.
have := r1; have := r2; have : (remaining l k s).2 = 0%N -> (remaining l k s).1 = 0%N.
  by rewrite /remaining; case: ifP => //= _ e; rewrite e in kp.
have eqs : equilibrium xb (fun i => notional (fq1 f) (fp1 f) (fq0 f) q p (s + i)) (remaining l k s).1 (remaining l k s).2.
  rewrite /remaining; case: (leqP s l) => h /=; split=> i.
  - by move=> hi; apply: e1; rewrite -(subnKC h) ltn_add2l.
  - by rewrite leq_subLR addnBAC // => /andP[a b']; apply: e2; rewrite a /=; move: b'; rewrite ltn_subRL.
  - by rewrite addnBAC // leq_subLR => hi; apply: e3.
  - by rewrite ltn0.
  - move=> /= hi; apply: e2; rewrite (leq_trans (ltnW h) (leq_addr _ _)) /=; move: hi; rewrite add0n ltn_subRL => hi.
    by rewrite -(subnKC (ltnW h)) -addnA ltn_add2l.
  - rewrite add0n leq_subLR => hi; apply: e3; rewrite -(subnKC (ltnW h)) -addnA leq_add2l //.
case: (remaining l k s) eqs => l1 k1 /= eqs k10 r2' r1' A'.
have l1m := leq_trans r1' ll; have k1m := leq_trans r2' kk.
have := @C102_equilibrium_is_found t b _ _ xb l1 k1 pre h1 h2 ls k0 l9 l1m k1m k10 A'; rewrite addn0; apply.
move: eqs => [a1 a2 a3].
have E i : notional (fq1 f) (fp1 f) (fq0 f) (fun j => q (s + j)%N) (fun j => p (s + j)%N) i = notional (fq1 f) (fp1 f) (fq0 f) q p (s + i).
  by rewrite /notional addnS.
by split=> i hi; rewrite E; [exact: a1|exact: a2|exact: a3].
Qed.
End C102.

Lemma ex2_tail s : - 3%:Q < ex2_z s.+3 < 3%:Q.
Proof.
elim: s => [|s IH]; first by [].
have -> : ex2_z s.+4 = - (ex2_z s.+3 / 2%:Q) by rewrite /ex2_z exprS -mulrA mulNr mulrC.
move/andP: IH => [a b]; rewrite ltr_oppl opprK ltr_oppl !ltr_pdivr_mulr // ?ltr_pdivl_mulr //.
by rewrite (lt_trans b) //= (lt_trans _ a).
Qed.
(** the path of [ex2] from 20 is an equilibrium of duration (0, 1) for the bound -3 *)
Example C102_example : exists t b q p,
  [/\ preprocess ex2 ex2_f ex2_omg ex2_lam 2 3 = Ok (t, b), linear_solution (mS ex2) (mT ex2) ex2_omg ex2_lam,
      announced (mS ex2) (mT ex2) (mV ex2) (mW ex2) (mh ex2) ex2_omg 0 1 q p &
      equilibrium (- 3%:Q) (notional (fq1 ex2_f) (fp1 ex2_f) (fq0 ex2_f) q p) 0 1].
Proof.
have [t [b e]] := ex2_ok 2 3; have [h1 h2] := ex2_blocks.
have [rules [st h]] := c01 e h1 h2 ex2_lsol; have [|| h3 h4] := h 0%N 1%N => //.
have [q [p [q0 fo]]] := h3 (20%:Q)%:M; exists t, b, q, p; have A := h4 _ _ fo.
have E := @ex2_notional 2%N 3%N 0%N 1%N _ _ isT isT A q0.
split=> //; first exact: ex2_lsol.
split=> s; rewrite ?ltn0 // -E /ex2_N.
  by rewrite addnS ltnS leqn0 => /eqP ->.
by case: s => // -[|s] _ //; have /andP[] := ex2_tail s.
Qed.

Print Assumptions C101_tables_agree.
Print Assumptions C101_longer_horizons.
Print Assumptions C101_stable.
Print Assumptions C101_slack.
Print Assumptions C101_k_max_replaces_refuted.
Print Assumptions C102_equilibrium_is_found.
Print Assumptions C102_stays_solvable.
