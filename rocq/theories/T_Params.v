(** Parameters: C45-C55. *)
Set Warnings "-all".
From Coq Require Import String.
From mathcomp Require Import all_ssreflect all_algebra.
From Verif Require Import PyBase PyStr M_Params S_Params P_Params.
Set Implicit Arguments. Unset Strict Implicit. Unset Printing Implicit Defensive.
Import GRing.Theory Num.Theory.
Local Open Scope ring_scope.

Section Theorems.
Variable F : realFieldType.
Notation vec := (seq F).
Variables H T C : Type.
(** the model and its external functions, arbitrary *)
Variable M : static F.
Variable pffunc : vec -> vec.
Variable hx_of : vec -> res H.
Variable tab_of : vec -> res T.
Variable cov_of : vec -> C.
Variable sq : C -> C.
Variable priors : option (seq (prior F)).
Variable chain : res (seq (seq vec)).
Variable tune : nat.
Variable choices : nat -> nat -> seq nat.
Variable prior_draw : st F H T C -> nat -> st F H T C * res (seq vec).
Notation st := (st F H T C).
Notation get_par := (get_par M pffunc hx_of tab_of cov_of priors chain tune choices prior_draw).
Notation set_par := (set_par M pffunc hx_of tab_of cov_of sq priors chain tune choices prior_draw).
Notation get_cov := (get_cov M pffunc hx_of tab_of cov_of priors chain tune choices prior_draw).

(** C45 *)
Theorem C45_roundtrip : forall (s s' : st) v n x r hx full k,
  wf_model M -> priors_ok M -> holds M s v -> n \in c_names M -> set_par s (AName F n) (Some x) None hx = (s', Ok r) ->
  exists v', r = OVec C v' /\ holds M s' v' /\
    get_par s' (AName F n) None full k hx = (s', Ok (ONum C x)) /\
    forall m, m \in c_names M -> m != n ->
      (get_par s' (AName F m) None full k hx).2 = (get_par s (AName F m) None full k hx).2.
Proof.
move=> s s' v n x r hx full k wm po hs ni; case: (hs) => ep sv.
have il : (index n (c_names M) < size v)%N by rewrite sv index_mem.
set v' := set_nth 0 v (index n (c_names M)) x.
have sv' : size v' = size (c_names M) by rewrite size_set_nth_in.
have getn s0 w m : s_par s0 = Some (PV w) -> m \in c_names M -> get_par s0 (AName F m) None full k hx = (s0, Ok (ONum C (value M w m))).
  by move=> e mi; rewrite /M_Params.get_par e /= /base_of /cur e /= mi.
rewrite /M_Params.set_par /cur ep ni -/v'; have := finishP pffunc hx_of tab_of cov_of sq priors chain tune choices prior_draw wm po s hx sv'.
case: finish => s1 [r1|e] // [-> [h' _]] [<- <-]; exists v'; split=> //; split=> //; split.
  by rewrite (getn _ _ _ h'.1 ni) /value nth_set_nth /= eqxx.
move=> m mi mn; rewrite (getn _ _ _ h'.1 mi) (getn _ _ _ ep mi) /= /value nth_set_nth /=; case: eqP => // e.
by case/eqP: mn; rewrite -(nth_index ""%string mi) e nth_index.
Qed.

(** after any successful sequence of assignments every parameter has the value last assigned to it *)
Fixpoint set_all (s : st) (al : seq (string * F)) hx : st * res unit :=
  match al with
  | [::] => (s, Ok tt)
  | (n, x) :: al' => let: (s1, r) := set_par s (AName F n) (Some x) None hx in
                     match r with Err e => (s1, Err e) | Ok _ => set_all s1 al' hx end
  end.
Theorem C45_histories : forall (al : seq (string * F)) (s s' : st) v hx, wf_model M -> priors_ok M -> holds M s v ->
  set_all s al hx = (s', Ok tt) ->
  exists2 v', holds M s' v' & forall n, n \in c_names M -> value M v' n = assigned al n (value M v n).
Proof.
elim=> [|[n x] al IH] s s' v hx wm po hs /=; first by case=> <-; exists v.
case E: M_Params.set_par => [s1 [r|]] // E2.
have ni : n \in c_names M by move: E; rewrite /M_Params.set_par; case: cur => // ?; case: (n \in _).
have [v1 [_ [h1 [g1 gm]]]] := C45_roundtrip true 1 wm po hs ni E.
have [v' h' ev] := IH _ _ _ _ wm po h1 E2; exists v' => // m mi; rewrite ev //; congr assigned.
have getm s0 w : s_par s0 = Some (PV w) -> get_par s0 (AName F m) None true 1 hx = (s0, Ok (ONum C (value M w m))).
  by move=> e; rewrite /M_Params.get_par e /= /base_of /cur e /= mi.
case: eqP => [en|ne]; last by have := gm m mi; rewrite eq_sym (introF eqP ne) (getm _ _ h1.1) (getm _ _ hs.1) /= => /(_ isT) [].
by move: g1; rewrite en (getm _ _ h1.1) => -[].
Qed.

(** assignments to two parameters commute *)
Theorem C45_commute : forall (s s1 s2 : st) v n m x y hx, wf_model M -> priors_ok M -> holds M s v -> n != m ->
  set_all s [:: (n, x); (m, y)] hx = (s1, Ok tt) -> set_all s [:: (m, y); (n, x)] hx = (s2, Ok tt) -> s_par s1 = s_par s2.
Proof.
move=> s s1 s2 v n m x y hx wm po hs nm E1 E2.
have [v1 [h1 z1] e1] := C45_histories wm po hs E1; have [v2 [h2 z2] e2] := C45_histories wm po hs E2.
rewrite h1 h2; congr (Some (PV _)); apply: (@eq_from_nth _ 0); first by rewrite z1 z2.
move=> i lt; rewrite z1 in lt; have mi := mem_nth ""%string lt; have := e1 _ mi; have := e2 _ mi.
rewrite /value index_uniq ?wm.1 // => -> -> /=; case: eqP => [a1|_]; case: eqP => // a2; by case/eqP: nm; rewrite a1 a2.
Qed.

(** unknown and derived names are rejected and nothing changes *)
Theorem C45_unknown : forall (s : st) v n x npar hx, holds M s v -> n \notin c_names M ->
  set_par s (AName F n) (Some x) npar hx = (s, Err SyntaxErr).
Proof. by move=> s v n x npar hx [ep _] ni; rewrite /M_Params.set_par /cur ep (negbTE ni). Qed.

(** C46: a named set is selected if the length of its name is neither the number of parameters nor of priors *)
Theorem C46_selects : forall (s s1 : st) v w n l hx, wf_model M -> has_priors M l -> holds M s v ->
  String.length n <> size (c_names M) -> String.length n <> size l ->
  get_par s (AName F n) None true 1 hx = (s1, Ok (OVec C w)) -> size w = size (c_names M) ->
  match set_par s (AName F n) None None hx with
  | (s2, Ok r) => r = OVec C w /\ holds M s2 w
  | (s2, Err e) => hx_of w = Err e \/ tab_of w = Err e
  end.
Proof.
move=> s s1 v w n l hx wm hp [ep sv] /eqP n1 /eqP n2 E sw; have po : priors_ok M by rewrite /priors_ok hp.1.
rewrite /M_Params.set_par /cur ep wm.2 (negbTE n1) hp.1 (negbTE n2) E /=.
have := finishP pffunc hx_of tab_of cov_of sq priors chain tune choices prior_draw wm po s1 hx sw.
by case: finish => s2 [r [-> [h _]]|e [->|[_ ->]]]; [|left|right].
Qed.
Theorem C46_mistaken : forall (s : st) v n l hx, wf_model M -> has_priors M l -> holds M s v ->
  String.length n = size (c_names M) \/ String.length n = size l ->
  exists e, (set_par s (AName F n) None None hx).2 = Err e.
Proof.
move=> s v n l hx wm hp [ep sv] H0; rewrite /M_Params.set_par /cur ep wm.2 hp.1.
case: eqP => [_|ne]; first by eexists; rewrite /finish /=; reflexivity.
by case: H0 => [/ne //|->]; rewrite eqxx; eexists.
Qed.

(** C47 *)
Theorem C47_read_only : forall (s : st) v n npar full k hx, holds M s v ->
  (get_par s (ANone F) npar full k hx).1 = s /\
  (n \in c_names M \/ n \in c_pfnames M -> (get_par s (AName F n) npar full k hx).1 = s).
Proof.
move=> s v n npar full k hx [ep sv]; rewrite /M_Params.get_par ep; case: base_of => [b|e] //=; split=> //.
by case: ifP => // _ [//|->].
Qed.
Theorem C47_sets_reset : forall (s : st) v n npar full k hx, wf_model M -> priors_ok M -> holds M s v ->
  n \notin c_names M -> n \notin c_pfnames M -> n \in set_names \/ n = "best"%string -> is_ok (base_of M s npar) ->
  n != "prior"%string \/ (forall s1 j, (prior_draw s1 j).1 = s1) ->
  let s' := (get_par s (AName F n) npar full k hx).1 in
  holds M s' (c_fix M) /\ s_tab s' = s_tab s /\ s_hx s' = s_hx s /\
  get_par s' (ANone F) None true 1 hx = (s', Ok (OVec C (c_fix M))).
Proof.
move=> s v n npar full k hx wm po [ep sv] n1 n2 hn ob hpr s'.
have named (s0 : st) m f : (m \in set_names) -> m != "prior"%string \/ (forall s1 j, (prior_draw s1 j).1 = s1) -> let s1 := (get_named M priors chain tune choices prior_draw s0 m f k).1 in
     s_par s1 = Some (PV (c_fix M)) /\ s_tab s1 = s_tab s0 /\ s_hx s1 = s_hx s0.
  move=> mi mp; rewrite /get_named mi /= /named_set; case: ifP => [/eqP em|_].
    case: mp => [|mp]; first by rewrite em eqxx.
    by have := mp (set_parv s0 (PV (c_fix M))) k; case: prior_draw => s1 r /= ->.
  do 6!(case: ifP => // _); case: ifP => // _.
  by case: (s_init _) => [l|] //=; case: take_at.
suff Hs : s_par s' = Some (PV (c_fix M)) /\ s_tab s' = s_tab s /\ s_hx s' = s_hx s.
  have [h1 [h2 h3]] := Hs; have hh : holds M s' (c_fix M) by split=> //; rewrite wm.2.
  by do 3!split=> //; apply: get_none.
rewrite /s' /M_Params.get_par ep; case: base_of ob => [b|] // _; rewrite (negbTE n1) (negbTE n2).
case: ifP => [/eqP ec|_]; first by case: hn; rewrite ec.
case: ifP => [/eqP _|nb]; last by case: hn => [hn|/eqP]; [exact: named | rewrite nb].
have init (s1 : st) : s_tab s1 = s_tab s -> s_hx s1 = s_hx s ->
    let s2 := (get_named M priors chain tune choices prior_draw s1 "init" false k).1 in
    s_par s2 = Some (PV (c_fix M)) /\ s_tab s2 = s_tab s /\ s_hx s2 = s_hx s.
  by move=> e1 e2; have := named s1 "init"%string false isT (or_introl isT); rewrite e1 e2.
rewrite /=; set q := rbind _ _; have := init (set_parv s (PV (c_fix M))) erefl erefl.
by case: q => [[x|w|c|rr]|e] //=; case: get_named => s2 r2 /=.
Qed.

(** C48 *)
Theorem C48_best_and_mode : forall (s : st) v m l hx k, wf_model M -> has_priors M l -> holds M s v ->
  "best"%string \notin c_names M ++ c_pfnames M -> "mode"%string \notin c_names M ++ c_pfnames M ->
  s_mode s = Some m -> size m = size l ->
  exists b w, (get_par s (AName F "best") None true k hx).2 = Ok (OVec C b) /\ overlays l m v b /\
              (get_par s (AName F "mode") None true k hx).2 = Ok (OVec C w) /\ overlays l m (c_fix M) w.
Proof.
move=> s v m l hx k wm hp [ep sv]; rewrite !mem_cat => /norP [b1 b2] /norP [m1 m2] em sm.
have [ea [un [al _]]] := hp.
have al1 : all (fun i => (i < size v)%N) l by rewrite sv.
have al2 : all (fun i => (i < size (c_fix M))%N) l by rewrite wm.2.
have [b eb ob] := put_atP un al1 sm; have [w ew ow] := put_atP un al2 sm.
exists b, w; rewrite /M_Params.get_par ep /= /base_of /cur ep /= (negbTE b1) (negbTE b2) (negbTE m1) (negbTE m2) /=.
by rewrite /get_named /= /named_set /= em /= /assemble /= ea eb ew.
Qed.

(** C49 *)
Theorem C49_pure : forall (s : st) v w n x l hx, wf_model M -> has_priors M l -> holds M s v -> n \in c_names M ->
  let pn := [seq nth ""%string (c_names M) i | i <- l] in
  (size w = size l -> n \in pn -> exists w', set_par s (AName F n) (Some x) (Some w) hx = (s, Ok (OVec C w')) /\
     size w' = size w /\ forall i, nth 0 w' i = if i == index n pn then x else nth 0 w i) /\
  (size w = size l -> n \notin pn -> set_par s (AName F n) (Some x) (Some w) hx = (s, Err ValueError)) /\
  (size w <> size l -> size w = size (c_names M) ->
     exists w', set_par s (AName F n) (Some x) (Some w) hx = (s, Ok (OVec C w')) /\
       size w' = size w /\ forall i, nth 0 w' i = if i == index n (c_names M) then x else nth 0 w i).
Proof.
move=> s v w n x l hx wm [ea [un [al en]]] [ep sv] ni pn; rewrite /M_Params.set_par /cur ep ni ea en -/pn.
split; [|split].
- move=> sw np; rewrite sw eqxx np; eexists; split; first reflexivity.
  have lt : (index n pn < size w)%N by rewrite sw -(size_map (nth ""%string (c_names M))) index_mem.
  by rewrite size_set_nth_in //; split=> // i; rewrite nth_set_nth.
- by move=> sw np; rewrite sw eqxx (negbTE np).
- move=> /eqP/negbTE -> sw; have lt : (index n (c_names M) < size w)%N by rewrite sw index_mem.
  rewrite lt; eexists; split; first reflexivity.
  by rewrite size_set_nth_in //; split=> // i; rewrite nth_set_nth.
Qed.

(** C50 *)
Theorem C50_get_vector : forall (s : st) v w l hx k, wf_model M -> has_priors M l -> holds M s v -> size w = size (c_names M) ->
  exists r, get_par s (AVec w) None true k hx = (s, Ok (OVec C r)) /\ size r = size w /\
    (forall i, nth 0 r i = if i \in l then nth 0 w i else nth 0 v i) /\
    (r = w <-> forall i, i \notin l -> nth 0 w i = nth 0 v i).
Proof.
move=> s v w l hx k wm [ea [un [al _]]] [ep sv] sw.
have al1 : all (fun i => (i < size v)%N) l by rewrite sv.
have al2 : all (fun i => (i < size w)%N) l by rewrite sw.
have [r er [sr nr]] := put_atP un al1 (size_map (nth 0 w) l).
have nr' i : nth 0 r i = if i \in l then nth 0 w i else nth 0 v i.
  by rewrite nr; case: ifP => // il; rewrite (nth_map 0%N) ?index_mem // nth_index.
exists r; rewrite /M_Params.get_par ep /= /base_of /cur ep /= sw wm.2 eqxx ea take_atP //= /assemble ea er.
split=> //; split; first by rewrite sr sv.
split=> //; split=> [<- i il|eq]; first by rewrite nr' (negbTE il).
apply: (@eq_from_nth _ 0); first by rewrite sr sv sw.
by move=> i _; rewrite nr'; case: ifP => // /negbT /eq.
Qed.
Theorem C50_set_vector : forall (s s' : st) v w r hx, wf_model M -> priors_ok M -> holds M s v -> size w = size (c_names M) ->
  set_par s (AVec w) None None hx = (s', Ok r) -> r = OVec C w /\ holds M s' w.
Proof.
move=> s s' v w r hx wm po [ep sv] sw; rewrite /M_Params.set_par /cur ep sw wm.2 eqxx.
have := finishP pffunc hx_of tab_of cov_of sq priors chain tune choices prior_draw wm po s hx sw.
by case: finish => s2 [r2|e] // [-> [h _]] [<- <-].
Qed.

(** C51 *)
Theorem C51_no_priors : forall (s : st) v n hx, holds M s v -> c_prior_arg M = None -> String.length n <> size (c_fix M) ->
  set_par s (AName F n) None None hx = (s, Err TypeError).
Proof. by move=> s v n hx [ep _] en /eqP ne; rewrite /M_Params.set_par /cur ep (negbTE ne) en. Qed.

(** C52 *)
Theorem C52_get_cov : forall (s : st) v w, wf_model M -> holds M s v -> size w = size (c_names M) ->
  "cov_mat"%string \notin c_names M ++ c_pfnames M ->
  match get_cov s (Some w) false with
  | (s', Ok r) => r = OCov F (cov_of w) /\ holds M s' w /\ exists2 t, tab_of w = Ok t & s_tab s' = Some t
  | (s', Err e) => (hx_of w = Err e \/ tab_of w = Err e) /\ s_par s' = Some (PV w)
  end.
Proof.
move=> s v w wm [ep sv] sw; rewrite mem_cat => /norP [n1 n2].
rewrite /M_Params.get_cov /M_Params.get_par ep /base_of /cur ep /= sw wm.2 eqxx /= (negbTE n1) (negbTE n2) /=.
rewrite sw eqxx /=; case eh: (hx_of w) => [h|e] /=; last by split=> //; left.
case et: (tab_of w) => [t|e] /=; last by split=> //; right.
by split=> //; split=> //; exists t.
Qed.

(** C53 *)
Theorem C53_box_check : forall (s : st) v np lb ub, (np <= size v)%N -> (np <= size lb)%N -> (np <= size ub)%N ->
  exists l, box_check M s (Some v) np lb ub = Ok l /\ sorted leq (map rpos l) /\
    forall i, (List.In (Lower i) l <-> (i < np)%N /\ nth 0 v i < nth 0 lb i) /\
              (List.In (Higher i) l <-> (i < np)%N /\ nth 0 v i > nth 0 ub i).
Proof.
move=> s v np lb ub h1 h2 h3; rewrite /box_check /=.
set f := (X in foldM X _ _).
pose viol i := (if nth 0 v i < nth 0 lb i then [:: Lower i] else [::]) ++ (if nth 0 ub i < nth 0 v i then [:: Higher i] else [::]).
have run k acc j : (j + k <= np)%N -> foldM f (iota j k) acc = Ok (acc ++ flatten [seq viol i | i <- iota j k]).
  elim: k j acc => [|k IH] j acc le /=; first by rewrite cats0.
  have lt : (j < np)%N by apply: leq_trans le; rewrite addnS ltnS leq_addr.
  rewrite /f !(leq_trans lt) //=; rewrite IH ?addSnnS //; by rewrite -!catA.
rewrite run //; eexists; split; first reflexivity; rewrite cat0s.
have pv i : map rpos (viol i) = nseq (size (viol i)) i by rewrite /viol; case: ifP; case: ifP.
split.
  have ge k j : all (leq j) (map rpos (flatten [seq viol i | i <- iota j k])) /\ sorted leq (map rpos (flatten [seq viol i | i <- iota j k])).
    elim: k j => [|k IH] j //=; have [a1 s1] := IH j.+1; rewrite map_cat pv.
    have a1' : all (leq j) (map rpos (flatten [seq viol i | i <- iota j.+1 k])) by apply: sub_all a1 => x; apply: ltnW.
    rewrite all_cat a1' all_nseq leqnn orbT; split=> //.
    by elim: (size _) => [|n IHn] //=; rewrite path_min_sorted // all_cat a1' all_nseq leqnn orbT.
  by have [] := ge np 0%N.
have inf (r : report) k : List.In r (flatten [seq viol i | i <- iota 0 k]) <-> exists2 i, (i < k)%N & List.In r (viol i).
  have gen kk j : List.In r (flatten [seq viol i | i <- iota j kk]) <-> exists2 i, (j <= i < j + kk)%N & List.In r (viol i).
    elim: kk j => [|kk IH] j /=.
      by split=> // -[i]; rewrite addn0 => /andP [a b]; move: (leq_trans b a); rewrite ltnn.
    split=> [/(List.in_app_or _ _ _) [h|/IH [i /andP [a b] h]]|[i /andP [a b] h]].
    - by exists j => //; rewrite leqnn addnS ltnS leq_addr.
    - by exists i => //; rewrite (ltnW a) -addSnnS.
    apply: List.in_or_app; move: a; rewrite leq_eqVlt => /orP [/eqP ->|a]; first by left.
    by right; apply/IH; exists i => //; rewrite a addSnnS.
  by rewrite gen; split=> -[i]; [move=> /andP [_ b] h | move=> b h]; exists i.
have vL i j : List.In (Lower i) (viol j) <-> i = j /\ nth 0 v i < nth 0 lb i.
  rewrite /viol; split=> [/(List.in_app_or _ _ _) []|[-> ->]]; last by left.
    by case: ifP => // c [[<-]|[]].
  by case: ifP => // _ [|[]].
have vH i j : List.In (Higher i) (viol j) <-> i = j /\ nth 0 ub i < nth 0 v i.
  rewrite /viol; split=> [/(List.in_app_or _ _ _) []|[-> ->]]; last by apply: List.in_or_app; right; left.
    by case: ifP => // _ [|[]].
  by case: ifP => // c [[<-]|[]].
move=> i; split; rewrite inf; split=> [[j lt h]|[lt h]].
- by have [-> h'] := (vL i j).1 h; split=> //; have [<-] := (vL i j).1 h.
- by exists i => //; apply/vL.
- by have [-> h'] := (vH i j).1 h; split=> //; have [<-] := (vH i j).1 h.
- by exists i => //; apply/vH.
Qed.

(** without an argument the i-th bound is applied to the i-th of all parameters: right if the priors come first *)
Theorem C53_default : forall (s : st) v np lb ub, holds M s v -> (np <= size v)%N ->
  box_check M s None np lb ub = box_check M s (Some [seq nth 0 v i | i <- iota 0 np]) np lb ub.
Proof.
move=> s v np lb ub [ep sv] le; rewrite /box_check /cur ep /=.
have gen k j acc : (j + k <= np)%N -> forall f g, (forall a i, (i < np)%N -> f a i = g a i :> res (seq report)) -> foldM f (iota j k) acc = foldM g (iota j k) acc.
  elim: k j acc => [|k IH] j acc le' f g fg //=; have lt : (j < np)%N by apply: leq_trans le'; rewrite addnS ltnS leq_addr.
  by rewrite fg //; case: (g acc j) => // a; apply: IH => //; rewrite addSnnS.
apply: gen => // a i lt; rewrite size_map size_iota lt (leq_trans lt le) (nth_map 0%N) ?size_iota // nth_iota //.
Qed.

(** C54 *)
Theorem C54_blocks : forall (X O : Type) (observe : H -> X -> O) (xs : seq (X * vec)) (s s' : st) v l os,
  wf_model M -> has_priors M l -> holds M s v ->
  o_func_pars M pffunc hx_of tab_of cov_of sq priors chain tune choices prior_draw observe s xs = (s', Ok os) ->
  exists2 vlast, blocks M hx_of observe l v xs os vlast & holds M s' vlast /\ s_tab s' = s_tab s.
Proof.
move=> X O observe xs s s' v l os wm hp; have po : priors_ok M by rewrite /priors_ok hp.1.
have [ea [un [al _]]] := hp.
elim: xs s v os => [|[x p] xs IH] s v os hs /=; first by case=> <- <-; exists v.
case: (hs) => ep sv; rewrite /M_Params.set_par /cur ep.
set fw := M_Params.get_par _ _ _ _ _ _ _ _ _ _ _ _ _ _ _ _.
set B := (X in let: (_, _) := X in _).
pose post (r : st * res (M_Params.out F C)) := match r.2 with Ok _ => exists2 v', completes M l p v v' & holds M r.1 v' /\ s_tab r.1 = s_tab s /\ exists2 h, hx_of v' = Ok h & s_hx r.1 = Some h | Err e => True end.
suff : post B.
  rewrite /post; case: B => s1 [r|e] // [v' cv [h1 [h2 [h eh sh]]]]; rewrite sh.
  case E: o_func_pars => [s2 [os'|e]] //= [e2 <-]; rewrite e2 in E.
  have [vl b1 [b2 b3]] := IH _ _ _ h1 E; exists vl; last by split=> //; rewrite b3.
  by exists v', h.
have fin s0 w : s_tab s0 = s_tab s -> size w = size (c_names M) -> completes M l p v w ->
  post (finish M pffunc hx_of tab_of cov_of sq priors chain tune choices prior_draw s0 (PV w) true).
  move=> e0 sw cw; have := finishP pffunc hx_of tab_of cov_of sq priors chain tune choices prior_draw wm po s0 true sw; rewrite /post.
  by case: finish => s1 [r|e] // [_ [h1 [[h eh sh] [t1 _]]]]; exists w => //; split=> //; rewrite t1 e0; split=> //; exists h.
rewrite /B wm.2; case: eqP => [sp|/eqP sp]; first by refine (fin s p erefl sp _); rewrite /completes sp eqxx.
rewrite ea; case: eqP => [sl|/eqP sl].
  have al1 : all (fun i => (i < size v)%N) l by rewrite sv.
  have [w -> ow] := put_atP un al1 sl; refine (fin s w erefl _ _); first by rewrite ow.1.
  by rewrite /completes (negbTE sp).
by rewrite /fw /M_Params.get_par ep /= /base_of /cur ep /= wm.2 (negbTE sp) ea (negbTE sl).
Qed.

(** C55: [choices n k] draws [k] positions below [n] *)
Theorem C55_posterior : forall (s : st) v l c n k hx, wf_model M -> has_priors M l -> holds M s v ->
  n \in [:: "post"; "posterior"]%string -> n \notin c_names M ++ c_pfnames M ->
  chain = Ok c -> (forall step row, step \in c -> row \in step -> size row = size l) ->
  (forall m j, (0 < m)%N -> size (choices m j) = j /\ forall i, i \in choices m j -> (i < m)%N) ->
  (exists step row, step \in last_rows tune c /\ row \in step) ->
  exists rows, (get_par s (AName F n) None true k hx).2 = Ok (ORows C rows) /\ size rows = k /\
    forall r, r \in rows -> exists step row, step \in last_rows tune c /\ row \in step /\ overlays l row (c_fix M) r.
Proof.
move=> s v l c n k hx wm [ea [un [al _]]] [ep sv] ni nn ec sz ch [st0 [row0 [i1 i2]]].
have nm : n \notin c_names M /\ n \notin c_pfnames M by move: nn; rewrite mem_cat => /norP [].
rewrite /M_Params.get_par ep /= /base_of /cur ep /= (negbTE nm.1) (negbTE nm.2).
have [e1 e2 e3 e4] : [/\ (n == "cov_mat"%string) = false, (n == "best"%string) = false, n \in set_names & (n == "prior"%string) = false].
  by move: ni; rewrite !inE => /orP [] /eqP ->.
rewrite e1 e2 /get_named e3 /= /named_set e4 ni /= /posterior_sampler ec /=.
set pop := flatten _.
have ipop r : r \in pop -> exists2 step, step \in last_rows tune c & r \in step by move/flattenP.
have row0p : row0 \in pop by apply/flattenP; exists st0.
have sp : size pop == 0%N = false by move: row0p; case: (pop).
rewrite sp /= /assemble /=; have [|sk lt] := ch (size pop) k; first by rewrite lt0n sp.
have szp r : r \in pop -> size r = size l.
  by case/ipop=> step i3 i4; apply: (sz step) => //; move: i3; rewrite /last_rows; case: ifP => // _; apply: mem_drop.
have run idx : (forall i, i \in idx -> (i < size pop)%N) ->
   exists rows, mapM (fun v0 : seq F => put_at (c_prior_arg M) v0 (c_fix M)) [seq nth [::] pop i | i <- idx] = Ok rows /\ size rows = size idx /\
     forall r, r \in rows -> exists step row, step \in last_rows tune c /\ row \in step /\ overlays l row (c_fix M) r.
  elim: idx => [|i idx IH] li /=; first by exists [::].
  have [|rows [er [sr hr]]] := IH; first by move=> j ji; apply: li; rewrite in_cons ji orbT.
  have ip : nth [::] pop i \in pop by apply: mem_nth; apply: li; rewrite mem_head.
  have al2 : all (fun i => (i < size (c_fix M))%N) l by rewrite wm.2.
  have [w ew ow] := put_atP un al2 (szp _ ip); rewrite ea ew /= -ea er /=; exists (w :: rows); split=> //; rewrite /= sr; split=> //.
  move=> r; rewrite in_cons => /orP [/eqP ->|/hr //]; have [step i3 i4] := ipop _ ip; by exists step, (nth [::] pop i).
by have [rows [er [sr hr]]] := run _ lt; exists rows; rewrite er /= sr sk.
Qed.

(** C83: draws from the prior or posterior come as a list of vectors, which [set_par] hands to the model as if it were one *)
Theorem C83_draws_not_settable : forall (s : st) v l n hx, wf_model M -> has_priors M l -> holds M s v ->
  n \in [:: "prior"; "post"; "posterior"]%string -> n \notin c_names M ++ c_pfnames M ->
  exists s' e, set_par s (AName F n) None None hx = (s', Err e).
Proof.
move=> s v l n hx wm hp [ep sv] ni nn; have [ea [un [al _]]] := hp.
have nm : n \notin c_names M /\ n \notin c_pfnames M by move: nn; rewrite mem_cat => /norP [].
rewrite /M_Params.set_par /cur ep; case: (String.length n == _); first by rewrite /finish /=; do 2!eexists.
rewrite ea; case: (String.length n == _); first by do 2!eexists.
rewrite /M_Params.get_par ep /= /base_of /cur ep /= (negbTE nm.1) (negbTE nm.2).
have [e1 e2 e3] : [/\ (n == "cov_mat"%string) = false, (n == "best"%string) = false & n \in set_names].
  by move: ni; rewrite !inE => /or3P [] /eqP ->.
rewrite e1 e2 /get_named e3 /=.
suff [r] : exists r : res (seq vec), exists s1, named_set M priors chain tune choices prior_draw (set_parv s (PV (c_fix M))) n 1 = (s1, rmap inr r).
  case=> s1 ->.
  case: r => [rows|e] /=; last by do 2!eexists.
  rewrite /assemble /=; case: mapM => [rr|e] /=; last by do 2!eexists.
  by rewrite /finish /=; do 2!eexists.
rewrite /named_set; move: ni; rewrite !inE => /or3P [] /eqP -> /=; last 2 first.
- by do 2!eexists.
- by do 2!eexists.
by case: prior_draw => s1 r; exists r, s1.
Qed.
End Theorems.

(** A concrete model: three parameters, the third and the first are estimated, one derived parameter; setting beta to zero has no
    solution. *)
Module Ex.
Definition M : static [realFieldType of rat] :=
  Static [:: "alpha"; "beta"; "gamma"]%string [:: "kappa"]%string [:: 1; 2%:R; 3%:R] (Some [:: 2; 0]%N) (Some [:: "gamma"; "alpha"]%string).
Definition pf (v : seq rat) : seq rat := [:: nth 0 v 0 + nth 0 v 1].
Definition hx (v : seq rat) : res (seq rat) := Ok v.
Definition tab (v : seq rat) : res rat := if nth 0 v 1 == 0 then Err ValueError else Ok (nth 0 v 0 / nth 0 v 1).
Definition cov (v : seq rat) : rat := nth 0 v 2.
Definition chain : res (seq (seq (seq rat))) := Ok [:: [:: [:: 5%:R; 6%:R]; [:: 7%:R; 8%:R]]; [:: [:: 9%:R; 10%:R]; [:: 11%:R; 12%:R]]].
Definition ch (m k : nat) : seq nat := nseq k m.-1.
Definition pd (s : st [realFieldType of rat] (seq rat) rat rat) (k : nat) : st [realFieldType of rat] (seq rat) rat rat * res (seq (seq rat)) :=
  (s, Ok (nseq k [:: 4%:R; 5%:R])).
Definition s0 : st [realFieldType of rat] (seq rat) rat rat :=
  St (Some (PV ([:: 1; 1; 1] : seq [realFieldType of rat]))) None None None (Some [:: 30%:R; 10%:R]) None.
Notation get := (get_par M pf hx tab cov None chain 1 ch pd).
Notation set := (set_par M pf hx tab cov (fun x => x) None chain 1 ch pd).

Definition vec_is (r : res (out [realFieldType of rat] rat)) (v : seq rat) : bool := if r is Ok (OVec w) then w == v else false.
Definition rows_are (r : res (out [realFieldType of rat] rat)) (v : seq (seq rat)) : bool := if r is Ok (ORows w) then w == v else false.
Definition cov_is (r : res (out [realFieldType of rat] rat)) (x : rat) : bool := if r is Ok (OCov w) then w == x else false.
Definition fails (r : res (out [realFieldType of rat] rat)) (e : exn) : bool := if r is Err e' then match e, e' with ValueError, ValueError => true | _, _ => false end else false.
Definition all_are (r : res (seq rat)) (v : seq rat) : bool := if r is Ok w then w == v else false.

(** the hypotheses of the theorems hold *)
Example wf : wf_model M. Proof. by []. Qed.
Example pr : has_priors M [:: 2; 0]%N. Proof. by []. Qed.
Example po : priors_ok M. Proof. exact: pr. Qed.
Example h0 : holds M s0 [:: 1; 1; 1]. Proof. by []. Qed.
Example solvable : vec_is (set s0 (AName _ "gamma") (Some 7%:R) None false).2 [:: 1; 1; 7%:R].
Proof. by vm_compute. Qed.
Example unsolvable : fails (set s0 (AName _ "beta") (Some 0) None false).2 ValueError.
Proof. by vm_compute. Qed.
Example roundtrip := C45_roundtrip (sq := fun x => x) (n := "gamma"%string) true 1 wf po h0 isT (surjective_pairing (set s0 (AName _ "gamma"%string) (Some 7%:R) None false)).
Example two_assignments : (set_all M pf hx tab cov (fun x => x) None chain 1 ch pd s0 [:: ("gamma", 7%:R); ("alpha", 4%:R)]%string false).2 = Ok tt.
Proof. by vm_compute. Qed.
(** 'mode' and 'calib': five letters for 'calib', four for 'mode'; neither 3 nor 2 *)
Example mode_selected : vec_is (set s0 (AName _ "mode") None None false).2 [:: 10%:R; 2%:R; 30%:R].
Proof. by vm_compute. Qed.
(** C47 and C48: asking for the mode also resets the current parameters, here (1,1,1), to the calibration (1,2,3) *)
Example mode_resets : vec_is (get (get s0 (AName _ "mode") None true 1 false).1 (ANone _) None true 1 false).2 [:: 1; 2%:R; 3%:R].
Proof. by vm_compute. Qed.
Example best_vs_mode :
  vec_is (get s0 (AName _ "best") None true 1 false).2 [:: 10%:R; 1; 30%:R] /\
  vec_is (get s0 (AName _ "mode") None true 1 false).2 [:: 10%:R; 2%:R; 30%:R].
Proof. by split; vm_compute. Qed.
Example cov_ok : cov_is (get_cov M pf hx tab cov None chain 1 ch pd s0 (Some ([:: 4%:R; 5%:R; 6%:R] : seq [realFieldType of rat])) false).2 6%:R.
Proof. by vm_compute. Qed.
Example two_blocks : all_are (o_func_pars M pf hx tab cov (fun x => x) None chain 1 ch pd (fun h (x : rat) => x + nth 0 h 2) s0
   [:: (1, [:: 1; 1; 5%:R]); (2%:R, [:: 7%:R; 8%:R])]).2 [:: 6%:R; 9%:R].
Proof. by vm_compute. Qed.
Example choices_ok : forall m j, (0 < m)%N -> size (ch m j) = j /\ forall i, i \in ch m j -> (i < m)%N.
Proof. by move=> m j lt; rewrite /ch size_nseq; split=> // i; rewrite mem_nseq => /andP [_ /eqP ->]; rewrite prednK. Qed.
Example two_draws : rows_are (get s0 (AName _ "posterior") None true 2 false).2 [:: [:: 12%:R; 2%:R; 11%:R]; [:: 12%:R; 2%:R; 11%:R]].
Proof. by vm_compute. Qed.
Example checks : box_check M s0 (Some ([:: 1; 5%:R] : seq [realFieldType of rat])) 2 [:: 2%:R; 0] [:: 3%:R; 4%:R] = Ok [:: Lower 0; Higher 1].
Proof. by vm_compute. Qed.
(** a model without priors *)
Definition M0 : static [realFieldType of rat] := Static [:: "alpha"; "beta"; "gamma"]%string [::] [:: 1; 2%:R; 3%:R] None None.
Example no_priors : c_prior_arg M0 = None /\ String.length "calib" <> size (c_fix M0). Proof. by []. Qed.
End Ex.

(** C47, violated: reading a named set changes the parameters the model holds *)
Theorem C47_refuted : exists (M : static [realFieldType of rat]) (s : st [realFieldType of rat] (seq rat) rat rat) v,
  wf_model M /\ has_priors M [:: 2; 0]%N /\ holds M s v /\
  let g := get_par M Ex.pf Ex.hx Ex.tab Ex.cov None Ex.chain 1 Ex.ch Ex.pd in
  is_ok (g s (AName _ "mode"%string) None true 1%N false).2 /\
  s_par (g s (AName _ "mode"%string) None true 1%N false).1 <> s_par s.
Proof. by exists Ex.M, Ex.s0, [:: 1; 1; 1]; do 3!split=> //. Qed.

(** C46, violated: 'calib' cannot be selected in a model with five parameters *)
Theorem C46_refuted : exists (M : static [realFieldType of rat]) (s : st [realFieldType of rat] (seq rat) rat rat) v l,
  wf_model M /\ has_priors M l /\ holds M s v /\
  is_ok (get_par M Ex.pf Ex.hx Ex.tab Ex.cov None Ex.chain 1 Ex.ch Ex.pd s (AName _ "calib"%string) None true 1 false).2 /\
  ~~ is_ok (set_par M Ex.pf Ex.hx Ex.tab Ex.cov (fun x => x) None Ex.chain 1 Ex.ch Ex.pd s (AName _ "calib"%string) None None false).2.
Proof.
exists (Static [:: "a"; "b"; "c"; "d"; "e"]%string [::] (nseq 5 1) (Some [:: 0]%N) (Some [:: "a"]%string)),
  (St (Some (PV (nseq 5 (1 : rat)))) None None None None None), (nseq 5 1), [:: 0%N].
by do 3!split=> //; split; vm_compute.
Qed.

(** C53, violated: with the current parameters (default) the bounds are compared with the wrong parameters unless the estimated
    parameters are declared first *)
Theorem C53_default_refuted : exists (M : static [realFieldType of rat]) (s : st [realFieldType of rat] (seq rat) rat rat) v l lb ub,
  wf_model M /\ has_priors M l /\ holds M s v /\ size lb = size l /\ size ub = size l /\
  box_check M s None (size l) lb ub <> box_check M s (Some [seq nth 0 v i | i <- l]) (size l) lb ub.
Proof.
pose v : seq [realFieldType of rat] := [:: 1; 1; 9%:R].
exists Ex.M, (St (Some (PV v)) None None None None None), v, [:: 2; 0]%N, [:: 0; 0], [:: 3%:R; 3%:R].
by do 5!split=> //; vm_compute.
Qed.

Print Assumptions C45_roundtrip.
Print Assumptions C45_histories.
Print Assumptions C45_commute.
Print Assumptions C45_unknown.
Print Assumptions C46_selects.
Print Assumptions C46_mistaken.
Print Assumptions C47_read_only.
Print Assumptions C47_sets_reset.
Print Assumptions C48_best_and_mode.
Print Assumptions C49_pure.
Print Assumptions C50_get_vector.
Print Assumptions C50_set_vector.
Print Assumptions C51_no_priors.
Print Assumptions C52_get_cov.
Print Assumptions C53_box_check.
Print Assumptions C53_default.
Print Assumptions C54_blocks.
Print Assumptions C55_posterior.
Print Assumptions C83_draws_not_settable.
Print Assumptions C47_refuted.
Print Assumptions C46_refuted.
Print Assumptions C53_default_refuted.
