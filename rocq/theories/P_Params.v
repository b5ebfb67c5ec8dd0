(** Proofs about parameters. *)
Set Warnings "-all".
From Coq Require Import String.
From mathcomp Require Import all_ssreflect all_algebra.
From Verif Require Import PyBase PyStr M_Params S_Params.
Set Implicit Arguments. Unset Strict Implicit. Unset Printing Implicit Defensive.
Import GRing.Theory Num.Theory.
Local Open Scope ring_scope.

Section Vec.
Variable F : realFieldType.
Notation vec := (seq F).

Lemma size_set_nth_in (v : vec) i x : (i < size v)%N -> size (set_nth 0 v i x) = size v.
Proof. by move=> lt; rewrite size_set_nth; apply/maxn_idPr. Qed.

Lemma fold_set (l : seq nat) (cand v : vec) : uniq l -> all (fun i => (i < size v)%N) l -> size cand = size l ->
  let r := foldl (fun b ic => set_nth 0 b ic.1 ic.2) v (zip l cand) in overlays l cand v r.
Proof.
rewrite /overlays; elim: l cand v => [|i l IH] [|x cand] v //= /andP [ni un] /andP [lt al] [es].
have [|s1 n1] := IH cand (set_nth 0 v i x) un _ es; first by rewrite size_set_nth_in.
split; first by rewrite s1 size_set_nth_in.
move=> j; rewrite n1 in_cons; case: (eqVneq j i) => [->|ne] /=.
  by rewrite (negbTE ni) ?eqxx nth_set_nth /= eqxx.
by case: ifP => // _; rewrite nth_set_nth /= (negbTE ne).
Qed.

Lemma put_atP (l : seq nat) (cand v : vec) : uniq l -> all (fun i => (i < size v)%N) l -> size cand = size l ->
  exists2 r, put_at (Some l) cand v = Ok r & overlays l cand v r.
Proof.
move=> un al es; rewrite /put_at al /= es eqxx; eexists; first reflexivity; exact: fold_set.
Qed.

Lemma overlays_uniq l m (v r r' : vec) : overlays l m v r -> overlays l m v r' -> r = r'.
Proof. by move=> [s1 n1] [s2 n2]; apply: (@eq_from_nth _ 0); [rewrite s1 s2 | move=> i _; rewrite n1 n2]. Qed.

Lemma take_atP (l : seq nat) (v : vec) : all (fun i => (i < size v)%N) l -> take_at (Some l) v = Ok [seq nth 0 v i | i <- l].
Proof. by move=> al; rewrite /take_at al. Qed.

Lemma index_iota n i : (i < n)%N -> index i (iota 0 n) = i.
Proof. move=> lt; have e : nth 0%N (iota 0 n) i = i by rewrite nth_iota. by rewrite -{1}e index_uniq ?size_iota ?iota_uniq. Qed.

Lemma overlays_id l (v : vec) : overlays l [seq nth 0 v i | i <- l] v v.
Proof. by split=> // i; case: ifP => // il; rewrite (nth_map 0%N) ?index_mem // nth_index. Qed.
End Vec.

Section Proofs.
Variable F : realFieldType.
Notation vec := (seq F).
Variables H T C : Type.
Variable M : static F.
Variable pffunc : vec -> vec.
Variable hx_of : vec -> res H.
Variable tab_of : vec -> res T.
Variable cov_of : vec -> C.
Variable sq : C -> C.
Variable priors : option (seq (prior F)).
Variable chain : res (seq (seq vec)).
Variable tune : nat.
Variable choices : nat -> nat -> seq nat.
Variable prior_draw : st F H T C -> nat -> st F H T C * res (seq vec).
Notation st := (st F H T C).
Notation get_par := (get_par M pffunc hx_of tab_of cov_of priors chain tune choices prior_draw).
Notation set_par := (set_par M pffunc hx_of tab_of cov_of sq priors chain tune choices prior_draw).
Notation finish := (finish M pffunc hx_of tab_of cov_of sq priors chain tune choices prior_draw).
Notation gen_sys := (gen_sys M hx_of tab_of).

Hypothesis wm : wf_model M.

Hypothesis po : priors_ok M.
(** with or without priors, get_par() is the current vector *)

Lemma assemble_self v : size v = size (c_names M) ->
  rbind (take_at (c_prior_arg M) v) (fun c => assemble C M v (inl c) true) = Ok (OVec C v).
Proof.
move=> sv; rewrite /assemble; move: po; rewrite /priors_ok; case ep: (c_prior_arg M) => [l|].
  move=> [_ [un [al _]]]; have al' : all (fun i => (i < size v)%N) l by rewrite sv.
  rewrite take_atP //=; have [r -> ov] := put_atP un al' (size_map (nth 0 v) l).
  by rewrite /= (overlays_uniq ov (overlays_id l v)).
move=> _ /=; rewrite /put_at.
have al' : all (fun i => (i < size v)%N) (iota 0 (size v)) by apply/allP=> i; rewrite mem_iota.
rewrite al' /= size_iota eqxx /=; congr (Ok (OVec C _)).
have ov := fold_set (iota_uniq 0 (size v)) al' (esym (size_iota 0 (size v))).
apply: (overlays_uniq ov); split=> // i; rewrite mem_iota; case: ifP => //= lt.
by rewrite index_iota.
Qed.

Lemma get_none s v hx : holds M s v -> get_par s (ANone F) None true 1 hx = (s, Ok (OVec C v)).
Proof.
move=> [ep sv]; rewrite /M_Params.get_par ep /= /base_of /cur ep /=; by rewrite (assemble_self sv).
Qed.

Lemma gen_sysP (s : st) v hx : size v = size (c_names M) ->
  match gen_sys s (PV v) hx with
  | (s', Ok _) => holds M s' v /\ (exists2 h, hx_of v = Ok h & s_hx s' = Some h) /\
                  (if hx then s_tab s' = s_tab s else exists2 t, tab_of v = Ok t & s_tab s' = Some t) /\
                  s_filter s' = s_filter s /\ s_mode s' = s_mode s /\ s_init s' = s_init s
  | (s', Err e) => hx_of v = Err e \/ hx = false /\ tab_of v = Err e
  end.
Proof.
move=> sv; rewrite /M_Params.gen_sys sv wm.2 eqxx /=; case eh: hx_of => [h|e] /=; last by left.
case: hx => /=; first by split=> //; split; first by exists h.
case et: tab_of => [t|e] /=; last by right.
split=> //; split; first by exists h.
by split; first by exists t.
Qed.

Lemma finishP (s : st) v hx : size v = size (c_names M) ->
  match finish s (PV v) hx with
  | (s', Ok r) => r = OVec C v /\ holds M s' v /\ (exists2 h, hx_of v = Ok h & s_hx s' = Some h) /\
                  (if hx then s_tab s' = s_tab s else exists2 t, tab_of v = Ok t & s_tab s' = Some t) /\
                  s_filter s' = (if s_filter s is Some _ then Some (Some (sq (cov_of v))) else None) /\
                  s_mode s' = s_mode s /\ s_init s' = s_init s
  | (s', Err e) => hx_of v = Err e \/ hx = false /\ tab_of v = Err e
  end.
Proof.
move=> sv; rewrite /M_Params.finish; have := gen_sysP s hx sv.
case: (gen_sys s (PV v) hx) => s1 [_|e] // [h1 [h2 [h3 [h4 [h5 h6]]]]].
set s2 := St _ _ _ _ _ _; have h2' : holds M s2 v by [].
by rewrite (get_none _ h2') /s2 /= h4 h5 h6.
Qed.
End Proofs.
