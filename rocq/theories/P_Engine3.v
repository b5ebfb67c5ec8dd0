Set Warnings "-all".
From mathcomp Require Import all_ssreflect all_algebra.
From Verif Require Import PyBase M_Engine M_FindLk S_Engine S_FindLk P_Loops P_Engine P_Engine2 P_FindLk.
Set Implicit Arguments. Unset Strict Implicit. Unset Printing Implicit Defensive.
Import GRing.Theory Num.Theory Order.TTheory.
Local Open Scope ring_scope.
Local Open Scope py_scope.

Section Api.
Variable F : fieldType.
Variables dimq dimp : nat.
Variables (sm : sysmats F dimq dimp) (f : cnst F dimq dimp).
Variables (omg : 'M[F]_(dimp, dimq)) (lam : 'M[F]_dimq) (l_max k_max : nat).

(** [rules l k] is what is stored in the transition tables at (l,k) *)
Definition stored (t : table (cell F dimq dimp)) (rules : nat -> nat -> rule F dimq dimp) : Prop :=
  forall l k, (l <= l_max)%N -> (k <= k_max)%N ->
    let: (p, pt, (q, qt)) := rules l k in t l k = Some (Cell p pt q qt).

Lemma preprocess_inv t b : preprocess sm f omg lam l_max k_max = Ok (t, b) ->
  exists sm', [/\ normalise sm = Ok sm', stage1 sm' omg lam l_max.+1 k_max.+1 = Ok t &
                  stage2 f t l_max.+1 k_max.+1 = Ok b].
Proof.
rewrite /preprocess; case: (normalise sm) => //= sm'.
case E1 : (stage1 _ _ _ _ _) => [t'|] //=.
case E2 : (stage2 _ _ _ _) => [b'|] //= [<- <-]; by exists sm'.
Qed.

Lemma stored_ref sm' t rules : stage1 sm' omg lam l_max.+1 k_max.+1 = Ok t -> stored t rules ->
  forall l k, (l <= l_max)%N -> (k <= k_max)%N ->
   t l k = Some (cell_of (rules l k)) /\
   ref sm' (Cell omg 0 lam 0) l k = Ok (cell_of (rules l k)).
Proof.
move=> E st l k ll kk.
have := @stage1P _ _ _ sm' omg lam l_max.+1 k_max.+1; rewrite E /= => /(_ l k).
rewrite !ltnS => /(_ ll kk) [c Ec Rc].
have := st l k ll kk; rewrite /cell_of; case: (rules l k) => -[p pt] [q qt] /= Er.
by move: Ec Rc; rewrite Er => -[<-].
Qed.

Lemma follows_cellsP (rules : nat -> nat -> rule F dimq dimp) l k (q : nat -> 'cV[F]_dimq) (p : nat -> 'cV[F]_dimp) : follows rules l k q p <->
  follows_cells (fun l k => cell_of (rules l k)) l k q p.
Proof.
split=> H s; have := H s; case: (rules _ _) => -[P Pt] [Q Qt]; rewrite /cell_of //=.
Qed.

Lemma preprocess_complete t b : preprocess sm f omg lam l_max k_max = Ok (t, b) ->
  exists rules, stored t rules.
Proof.
case/preprocess_inv=> sm' [_ E _].
have := @stage1P _ _ _ sm' omg lam l_max.+1 k_max.+1; rewrite E /= => H.
exists (fun l k => if t l k is Some c then rule_of c else rule_of (Cell omg 0 lam 0)) => l k ll kk.
have [c Ec _] := H l k ll kk.
by rewrite /rule_of Ec; case: c {Ec}.
Qed.

Lemma preprocess_errors e : preprocess sm f omg lam l_max k_max = Err e -> e = LinAlgErr.
Proof.
rewrite /preprocess.
case E0 : (normalise sm) => [sm'|e0] /=; last first.
  move=> [<-]; move: E0; rewrite /normalise /nl_inv.
  by case: ifP => _ /=; [case: ifP => _ /= // [] | move=> []].
have := @stage1P _ _ _ sm' omg lam l_max.+1 k_max.+1.
case E1 : (stage1 _ _ _ _ _) => [t|e1] /=; last by move=> -> [].
move=> H.
pose C l k := if t l k is Some c then c else Cell omg 0 lam 0.
have [|b -> //] := @stage2P _ _ _ f t l_max.+1 k_max.+1 C.
by move=> l k ll kk; rewrite /C; have [c -> _] := H l k ll kk.
Qed.

Lemma tC_of sm' t rules : stage1 sm' omg lam l_max.+1 k_max.+1 = Ok t -> stored t rules ->
  forall l k, (l < l_max.+1)%N -> (k < k_max.+1)%N -> t l k = Some (cell_of (rules l k)).
Proof. by move=> E st l k ll kk; have [] := stored_ref E st ll kk. Qed.

(** C10 *)
Lemma preprocess_parE sched t b :
  (forall l, (l <= l_max)%N -> all (fun k => (k <= k_max)%N) (sched l)) ->
  (forall l k, (l <= l_max)%N -> (k <= k_max)%N -> (l + k + 1 <= count_mem k (sched l))%N) ->
  preprocess sm f omg lam l_max k_max = Ok (t, b) ->
  exists2 b', preprocess_par sched sm f omg lam l_max k_max = Ok (t, b') &
              forall i l k, b' i l k = b i l k.
Proof.
move=> h1 h2 E; have [rules st] := preprocess_complete E.
move: E => /preprocess_inv [sm' [E0 E1 E2]].
rewrite /preprocess_par E0 /= E1 /=.
have [b' -> H] := @stage2_parP _ _ _ f t _ k_max.+1 _ (tC_of E1 st) sched h1 h2.
exists b' => // i l k; rewrite H.
by have [b2] := stage2P f (tC_of E1 st); rewrite E2 => -[<-] ->.
Qed.

Lemma preprocess_par_err sched e :
  preprocess sm f omg lam l_max k_max = Err e -> preprocess_par sched sm f omg lam l_max k_max = Err e.
Proof.
move=> E; have e1 := preprocess_errors E; move: E.
rewrite /preprocess /preprocess_par; case: (normalise sm) => //= sm'.
have := @stage1P _ _ _ sm' omg lam l_max.+1 k_max.+1.
case E1 : (stage1 _ _ _ _ _) => [t|] //= H.
pose C l k := if t l k is Some c then c else Cell omg 0 lam 0.
have [|b -> //] := @stage2P _ _ _ f t l_max.+1 k_max.+1 C.
by move=> l k ll kk; rewrite /C; have [c -> _] := H l k ll kk.
Qed.

Section WithTables.
Variables (t : table (cell F dimq dimp)) (b : btable F dimq).
Variable rules : nat -> nat -> rule F dimq dimp.
Hypothesis pre : preprocess sm f omg lam l_max k_max = Ok (t, b).
Hypothesis st : stored t rules.

Lemma check_notional i l k q p : (i < 5)%N -> (l <= l_max)%N -> (k <= k_max)%N ->
  (i = 1%N -> (0 < l)%N) -> (i = 3%N -> (0 < l + k)%N) ->
  follows rules l k q p ->
  check_cnst b l_max.+1 k_max.+1 (q 0%N) i l k =
  Ok (notional (fq1 f) (fp1 f) (fq0 f) q p (nth 0%N [:: 0%N; l.-1; l; (l + k).-1; (l + k)%N] i)).
Proof.
move=> i5 ll kk i1 i3 /follows_cellsP Hf.
case: (preprocess_inv pre) => sm' [_ E1 E2].
rewrite /check_cnst i5 !ltnS ll kk /=.
have [b2] := stage2P f (tC_of E1 st); rewrite E2 => -[<-] ->.
rewrite /bfin !ltnS ll kk /= /valid i5.
have -> : (i == 1%N) ==> (0 < l)%N by apply/implyP => /eqP.
have -> : (i == 3%N) ==> (0 < l + k)%N by apply/implyP => /eqP.
by rewrite /= (val_notional _ _ Hf).
Qed.

Lemma tmats_notional : exists2 tb, preprocess_tmats f t l_max k_max = Ok tb &
  forall s l k q p, (s < l_max + k_max + 2)%N -> (l <= l_max)%N -> (k <= k_max)%N ->
   follows rules l k q p ->
   exists2 v, tb s l k = Some v & (v.1 *m q 0%N) 0 0 + v.2 = notional (fq1 f) (fp1 f) (fq0 f) q p s.
Proof.
case: (preprocess_inv pre) => sm' [_ E1 E2].
have [tb E H] := tmatsP f (tC_of E1 st) (l_max.+1 + k_max.+1).
exists tb.
  rewrite -E /preprocess_tmats.
  elim: (lk_range _ _) (empty_btable F dimq) => [|[l k] lks IH] bb //=.
move=> s l k q p sL ll kk /follows_cellsP Hf.
have sL' : (s < l_max.+1 + k_max.+1)%N by rewrite addSn addnS -addn2.
rewrite H sL' !ltnS ll kk.
by eexists; first reflexivity; apply: val_notional.
Qed.

Hypothesis T12 : ursubmx (mT sm) = 0.
Hypothesis W12 : ursubmx (mW sm) = 0.
Hypothesis lsol : linear_solution (mS sm) (mT sm) omg lam.

Lemma announced_obeys l k q p : (l <= l_max)%N -> (k <= k_max)%N ->
  follows rules l k q p -> obeys_schedule (mS sm) (mT sm) (mV sm) (mW sm) (mh sm) l k q p.
Proof.
move=> ll kk /follows_cellsP Hf.
case: (preprocess_inv pre) => sm' [E0 E1 E2].
apply: (follows_obeys E0 T12 W12 lsol _ ll kk Hf) => l' k' ll' kk'.
by have [_] := stored_ref E1 st ll' kk'.
Qed.

Lemma announced_unique l k q p : (0 < l_max)%N -> (l <= l_max)%N -> (k <= k_max)%N ->
  obeys_schedule (mS sm) (mT sm) (mV sm) (mW sm) (mh sm) l k q p ->
  (forall s, (l + k <= s)%N -> p s = omg *m q s) ->
  follows rules l k q p.
Proof.
move=> l0 ll kk Ho He; apply/follows_cellsP.
case: (preprocess_inv pre) => sm' [E0 E1 E2].
apply: (obeys_follows E0 T12 W12 lsol _ l0 ll kk Ho He) => l' k' ll' kk'.
by have [_] := stored_ref E1 st ll' kk'.
Qed.

Lemma linear_entries l : (l <= l_max)%N -> t l 0%N = Some (Cell omg 0 lam 0).
Proof.
move=> ll; case: (preprocess_inv pre) => sm' [E0 E1 E2].
have [-> _] := stored_ref E1 st ll (leq0n k_max); congr Some.
apply: (@linear_cells _ _ _ _ _ _ _ E0 T12 W12 lsol l_max k_max (fun l k => cell_of (rules l k)) _ l ll) => l' k' ll' kk'.
by have [_] := stored_ref E1 st ll' kk'.
Qed.

(** a path that follows the rules exists from every state *)
Definition gen_q (l k : nat) (q0 : 'cV[F]_dimq) : nat -> 'cV[F]_dimq :=
  fix go s := match s with
  | 0%N => q0
  | s'.+1 => let: (_, _, (Q, Qt)) := rules (remaining l k s').1 (remaining l k s').2 in Q *m go s' + Qt
  end.
Definition gen_p (l k : nat) (q0 : 'cV[F]_dimq) (s : nat) : 'cV[F]_dimp :=
  let: (P, Pt, _) := rules (remaining l k s).1 (remaining l k s).2 in P *m gen_q l k q0 s + Pt.

Lemma gen_follows l k q0 : follows rules l k (gen_q l k q0) (gen_p l k q0).
Proof. by move=> s; rewrite /gen_p /=; case: (rules _ _) => -[P Pt] [Q Qt]. Qed.

Lemma follows_det l k q p q' p' : follows rules l k q p -> follows rules l k q' p' -> q 0%N = q' 0%N ->
  forall s, q s = q' s /\ p s = p' s.
Proof.
move=> H H' e.
have Q s : q s = q' s.
  elim: s => [//|s IH]; have := H s; have := H' s; case: (rules _ _) => -[P Pt] [Q Qt].
  by case=> _ -> [_ ->]; rewrite IH.
move=> s; split=> //; have := H s; have := H' s; case: (rules _ _) => -[P Pt] [Q' Qt].
by case=> -> _ [-> _]; rewrite Q.
Qed.
End WithTables.
End Api.

Section Search.
Variable F : realFieldType.
Variables dimq dimp : nat.
Variables (sm : sysmats F dimq dimp) (f : cnst F dimq dimp).
Variables (omg : 'M[F]_(dimp, dimq)) (lam : 'M[F]_dimq) (l_max k_max : nat).
Variables (t : table (cell F dimq dimp)) (b : btable F dimq).
Variable rules : nat -> nat -> rule F dimq dimp.
Hypothesis pre : preprocess sm f omg lam l_max k_max = Ok (t, b).
Hypothesis st : stored l_max k_max t rules.
Hypothesis T12 : ursubmx (mT sm) = 0.
Hypothesis W12 : ursubmx (mW sm) = 0.
Hypothesis lsol : linear_solution (mS sm) (mT sm) omg lam.
Variable q0 : 'cV[F]_dimq.
Variable N : nat -> nat -> nat -> F.
Hypothesis NE : forall l k q p, (l <= l_max)%N -> (k <= k_max)%N -> follows rules l k q p -> q 0%N = q0 ->
  forall s, N l k s = notional (fq1 f) (fp1 f) (fq0 f) q p s.

Lemma N_linear l : (l <= l_max)%N -> forall s, N l 0 s = N 0 0 s.
Proof.
move=> ll s.
have F1 := gen_follows rules l 0 q0; have F2 := gen_follows rules 0 0 q0.
rewrite (NE ll (leq0n _) F1) // (NE (leq0n _) (leq0n _) F2) //.
have rule0 l' : (l' <= l_max)%N -> rules l' 0%N = (omg, 0, (lam, 0)).
  move=> ll'; have := st ll' (leq0n k_max).
  case: (rules l' 0%N) => -[P Pt] [Q Qt].
  by rewrite (linear_entries pre st T12 W12 lsol ll') => -[<- <- <- <-].
have R a s' : (remaining a 0 s').2 = 0%N by rewrite /remaining; case: ifP => // _; rewrite sub0n.
have gq a s' : (a <= l_max)%N -> gen_q rules a 0 q0 s' = iter s' (mulmx lam) q0.
  move=> aa; elim: s' => [//|s' IH] /=; rewrite R rule0 ?IH ?addr0 //.
  by have [h _] := remaining_le a 0 s'; exact: leq_trans aa.
have gp a s' : (a <= l_max)%N -> gen_p rules a 0 q0 s' = omg *m iter s' (mulmx lam) q0.
  move=> aa; rewrite /gen_p R rule0 ?gq ?addr0 //.
  by have [h _] := remaining_le a 0 s'; exact: leq_trans aa.
by rewrite /notional !gp // !gq.
Qed.

Lemma chk_ok i l k : (i < 5)%N -> (l < l_max.+1)%N -> (k < k_max.+1)%N ->
  (i == 1%N -> (0 < l)%N) -> (i == 3%N -> (0 < l + k)%N) ->
  check_cnst b l_max.+1 k_max.+1 q0 i l k = Ok (N l k (per i l k)).
Proof.
move=> i5 ll kk i1 i3.
have FF := gen_follows rules l k q0.
rewrite (NE ll kk FF) // -(check_notional pre st i5 ll kk _ _ FF) //; by move/eqP.
Qed.

Lemma search_ok xb : (0 < k_max)%N -> (l_max < 999)%N ->
  exists l k flag, find_lk (check_cnst b l_max.+1 k_max.+1 q0) xb l_max.+1 k_max.+1 = Ok (l, k, flag) /\
                   search_outcome N xb l_max.+1 k_max.+1 l k flag.
Proof.
move=> k0 l999; apply: find_lkP => //.
  exact: chk_ok.
by move=> l ll; apply: N_linear.
Qed.

Lemma search_kmax0 xb : k_max = 0%N -> (l_max < 999)%N ->
  ~ (forall s, (s <= l_max)%N -> xb < N 0 0 s) ->
  find_lk (check_cnst b l_max.+1 k_max.+1 q0) xb l_max.+1 k_max.+1 = Err OutOfBounds.
Proof.
move=> k0 l999 ns; rewrite /find_lk.
have [||||l' -> [[_ H]|[lL _ nH]]] :=
  @scan_linearP F (check_cnst b l_max.+1 k_max.+1 q0) xb l_max.+1 k_max.+1 N _ _ _ l_max.+2 0 (ltn0Sn _).
- exact: chk_ok.
- by move=> l ll; apply: N_linear.
- by rewrite k0.
- by rewrite subn0.
- by case: ns => s sl; apply: H; rewrite ltnS.
rewrite [rbind (Ok l') _]/= lL /bruite_wrapper.
have -> : brute_l (check_cnst b l_max.+1 k_max.+1 q0) xb k_max.+1 (iota 0 l_max.+1) = Ok None.
  by rewrite k0; elim: (iota 0 l_max.+1) => [//|a ls IH] /=.
by rewrite k0.
Qed.
End Search.
