(** Property theorems C105, C106, and C91 for histories with extractions: several parameter vectors in one call, and what is left behind. *)
Set Warnings "-all".
From Coq Require Import String.
From mathcomp Require Import all_ssreflect all_algebra.
From Verif Require Import PyBase PyStr M_FindLk M_Engine M_Tools M_Params S_Params P_Params M_Batch S_Batch S_Engine S_Tools P_ToolsEx T_Tools.
Set Implicit Arguments. Unset Strict Implicit. Unset Printing Implicit Defensive.
Import GRing.Theory Num.Theory.
Local Open Scope ring_scope.

Lemma mapM_nth A B (f : A -> res B) a0 b0 xs ys : mapM f xs = Ok ys ->
  size ys = size xs /\ forall i, (i < size xs)%N -> f (nth a0 xs i) = Ok (nth b0 ys i).
Proof.
elim: xs ys => [|x xs IH] ys /=; first by case=> <-.
case E: (f x) => [y|] //=; case E': (mapM f xs) => [ys'|] //= [<-] /=.
have [-> h] := IH _ E'; by split=> // -[|i] // lt; apply: h.
Qed.
Lemma mapM_ext A B (f g : A -> res B) xs : f =1 g -> mapM f xs = mapM g xs.
Proof. by move=> h; elim: xs => //= x xs ->; rewrite h. Qed.
Lemma mapM_err (A : eqType) B (f : A -> res B) xs e : mapM f xs = Err e -> exists2 x, x \in xs & f x = Err e.
Proof.
elim: xs => [|x xs IH] //=; case E: (f x) => [y|e'] /=; last by case=> <-; exists x; rewrite ?mem_head.
case E': (mapM f xs) => [//|e'] /= [ee]; rewrite ee in E'; have [z zi fz] := IH E'.
by exists z => //; rewrite in_cons zi orbT.
Qed.

Section C105.
Variable F : realFieldType.
Notation vec := (seq F).
Variables H C : Type.
Variable M : static F.
Variable pffunc : vec -> vec.
Variable hx_of : vec -> res H.
Variable tab_of : vec -> res (tmodel F).
Variable cov_of : vec -> C.
Variable sq : C -> C.
Variable priors : option (seq (prior F)).
Variable chain : res (seq (seq vec)).
Variable tune : nat.
Variable choices : nat -> nat -> seq nat.
Variable prior_draw : st F H (tmodel F) C -> nat -> st F H (tmodel F) C * res (seq vec).
Notation obj := (st F H (tmodel F) C).
Notation set_vec := (set_vec M pffunc hx_of tab_of cov_of sq priors chain tune choices prior_draw).
Notation on_copy := (on_copy M pffunc hx_of tab_of cov_of sq priors chain tune choices prior_draw).
Notation irfs_pars := (irfs_pars M pffunc hx_of tab_of cov_of sq priors chain tune choices prior_draw).
Notation irfs_current := (irfs_current M pffunc hx_of tab_of cov_of sq priors chain tune choices prior_draw).
Notation simulate_obj := (simulate_obj M pffunc hx_of tab_of cov_of sq priors chain tune choices prior_draw).
Notation finish := (finish M pffunc hx_of tab_of cov_of sq priors chain tune choices prior_draw).
Hypothesis wm : wf_model M.
Variable l : seq nat.
Hypothesis hp : has_priors M l.
Let po : priors_ok M. Proof. by rewrite /priors_ok hp.1. Qed.

(** [full v p]: the full vector meant by [p] *)
Definition full (v p : vec) : vec :=
  if size p == size (c_names M) then p else match put_at (Some l) p v with Ok w => w | Err _ => v end.

Lemma set_vecE (s : obj) v p : holds M s v ->
  (size p == size (c_names M)) || (size p == size l) ->
  set_vec s p = finish s (PV (full v p)) false /\ size (full v p) = size (c_names M) /\ completes M l p v (full v p).
Proof.
move=> [ep sv] sp; have [ea [un [al _]]] := hp.
rewrite /M_Batch.set_vec /M_Params.set_par /cur ep /full /completes wm.2 ea.
move: sp; case: eqP => [e _|/eqP ne /= /eqP e]; first by [].
have al' : all (fun i => (i < size v)%N) l by rewrite sv.
have [w -> ow] := put_atP un al' e; rewrite e eqxx; split=> //; split=> //.
by rewrite ow.1.
Qed.

(** any other length is rejected, and the model is unchanged *)
Lemma set_vec_bad (s : obj) v p : holds M s v -> size p != size (c_names M) -> size p != size l ->
  set_vec s p = (s, Err ValueError).
Proof.
move=> [ep sv] n1 n2; have [ea _] := hp.
by rewrite /M_Batch.set_vec /M_Params.set_par /cur ep wm.2 (negbTE n1) ea (negbTE n2) /get_par ep /base_of /cur ep /= wm.2 (negbTE n1) ea (negbTE n2).
Qed.

Lemma set_vec_ok (s s1 : obj) v p o : holds M s v -> set_vec s p = (s1, Ok o) -> exists w, holds M s1 w /\ completes M l p v w.
Proof.
move=> hs E; case n1: ((size p == size (c_names M)) || (size p == size l)).
  have [e1 [sw cw]] := set_vecE hs n1; rewrite e1 in E; exists (full v p).
  have := finishP pffunc hx_of tab_of cov_of sq priors chain tune choices prior_draw wm po s false sw; rewrite E.
  by move=> [_ [h _]].
by move/negbT: n1; rewrite negb_or => /andP [a b]; rewrite (set_vec_bad hs a b) in E.
Qed.

(** C105 *)
Theorem C105_same_as_setting (s : obj) v m pars sl state T linear sk fo :
  holds M s v -> s_tab s = Some m ->
  let res_of ps := irfs_pars s ps sl state T linear sk fo in
  (res_of pars).1 = s /\
  match (res_of pars).2 with
  | Ok rs =>
      size rs = size pars /\
      forall i, (i < size pars)%N -> let p := nth [::] pars i in let r := nth (INan F) rs i in
        (* the other vectors do not matter *)
        (res_of [:: p]).2 = Ok [:: r] /\
        (* r is the response of the model after set_par(p) *)
        (has (fun x => x != 0) p ->
         match set_vec s p with
         | (s1, Ok _) => forall m1, s_tab s1 = Some m1 -> same_shape m m1 -> (irfs_current s1 sl state T linear sk fo).2 = Ok r
         | (_, Err ValueError) => r = INan F
         | (_, Err _) => False
         end)
  | Err e => exists2 p, p \in pars & (res_of [:: p]).2 = Err e
  end.
Proof.
move=> hs tm res_of; have [ep sv] := hs.
have E ps : res_of ps = (s, mapM (fun p => irfs m (on_copy s) (@np_any F) sl (Some p) state T linear sk fo) ps).
  by rewrite /res_of /M_Batch.irfs_pars /ensure ep tm.
rewrite {1 2}E [(_, _).1]/= [(_, _).2]/=; split; first by [].
case E1: (mapM _ pars) => [rs|e]; last first.
  by have [p pin e1] := mapM_err E1; exists p => //; rewrite E /= e1.
have [sz h] := mapM_nth [::] (INan F) E1; split=> // i lt p r.
have hi := h i lt; split; first by rewrite E /= hi.
move=> np; move: hi; rewrite -/p -/r /irfs /np_any np /M_Batch.on_copy.
case Es: (set_vec s p) => [s1 [o|e]] /=; last by case: e {Es} => // -[].
move=> + m1 t1 [e1 e2 e3]; rewrite t1 /= /M_Batch.irfs_current /ensure.
have [w [[-> _] _]] := set_vec_ok hs Es.
by rewrite /= t1 /= /irfs e1 e2 e3.
Qed.

(** a vector of zeros is ignored: the responses are those of the current parameters *)
Theorem C105_zero_vector_is_ignored (s : obj) v m p sl state T linear sk fo :
  holds M s v -> s_tab s = Some m -> all (fun x => x == 0) p ->
  (irfs_pars s [:: p] sl state T linear sk fo).2 = rmap (fun r => [:: r]) (irfs_current s sl state T linear sk fo).2.
Proof.
move=> [ep sv] tm a0; rewrite /M_Batch.irfs_pars /M_Batch.irfs_current /ensure ep tm /= /irfs.
have -> : np_any p = false by apply/negbTE; rewrite /np_any -all_predC; apply: sub_all a0 => x /= ->.
by case: (irf_run _ _ _ _ _ _ _ _ _ _).
Qed.

(** The first call solves the model at the calibrated parameters, and then gives what the solved model gives. *)
Theorem C105_first_call (s : obj) h m pars sl state T linear sk fo :
  s_par s = None -> hx_of (c_fix M) = Ok h -> tab_of (c_fix M) = Ok m ->
  exists s1, [/\ holds M s1 (c_fix M), s_tab s1 = Some m, s_hx s1 = Some h,
    irfs_pars s pars sl state T linear sk fo = irfs_pars s1 pars sl state T linear sk fo &
    irfs_current s sl state T linear sk fo = irfs_current s1 sl state T linear sk fo].
Proof.
move=> ep eh et; exists (St (Some (PV (c_fix M))) (Some h) (Some m) (s_filter s) (s_mode s) (s_init s)).
split=> //; first by split=> //; case: wm.
  by rewrite /M_Batch.irfs_pars /ensure ep /= eqxx /= eh et.
by rewrite /M_Batch.irfs_current /ensure ep /= eqxx /= eh et.
Qed.

(** If that fails, the error is passed on; later calls do not try again, but fail with AttributeError. *)
Theorem C105_failed_first_call (s : obj) e pars sl state T linear sk fo :
  s_par s = None -> s_tab s = None -> (match hx_of (c_fix M) with Ok _ => rmap (fun _ => tt) (tab_of (c_fix M)) | Err e => Err e end) = Err e ->
  exists s1, [/\ irfs_pars s pars sl state T linear sk fo = (s1, Err e), holds M s1 (c_fix M) &
    forall pars' sl' state' T' linear' sk' fo', irfs_pars s1 pars' sl' state' T' linear' sk' fo' = (s1, Err AttributeError)].
Proof.
move=> ep et; case eh: (hx_of _) => [h|e'].
  case eT: (tab_of _) => [//|e'] [<-]; exists (St (Some (PV (c_fix M))) (Some h) None (s_filter s) (s_mode s) (s_init s)).
  split=> [||pars' sl' state' T' lin' sk' fo']; [|by split=> //; case: wm|by []].
  by rewrite /M_Batch.irfs_pars /ensure ep /= eqxx /= eh eT /= et.
move=> [<-]; exists (St (Some (PV (c_fix M))) (s_hx s) None (s_filter s) (s_mode s) (s_init s)).
split=> [||pars' sl' state' T' lin' sk' fo']; [|by split=> //; case: wm|by []].
by rewrite /M_Batch.irfs_pars /ensure ep /= eqxx /= eh /set_parv /= et.
Qed.

(** simulate: each sample with its own parameters, the model is unchanged *)
Theorem C105_simulate (s : obj) v src mask op linear : holds M s v ->
  (simulate_obj s src mask op linear).1 = s /\
  forall rs, (simulate_obj s src mask op linear).2 = Ok rs ->
  let samples := zip (s_pars src) (zip (s_resid src) (M_Tools.s_init src)) in
  size rs = size samples /\
  forall i, (i < size samples)%N -> let x := nth ([::], ([::], [::])) samples i in
    exists s1 o m1 w, [/\ set_vec s x.1 = (s1, Ok o), s_tab s1 = Some m1, holds M s1 w, completes M l x.1 v w &
      sim_run (fun _ : unit => Ok m1) op mask linear tt x.2.1 x.2.2 = Ok (nth ([::], [::], 0%N) rs i)].
Proof.
move=> hs; split; first by [].
move=> rs E samples; rewrite /M_Batch.simulate_obj /simulate /= -/samples in E.
have [sz h] := mapM_nth ([::], ([::], [::])) ([::], [::], 0%N) E; split=> // i lt x.
have := h i lt; rewrite -/samples -/x /sim_run /M_Batch.on_copy.
case: (match mask with Some _ => _ | None => _ end) => [eps|] //=.
case Es: (set_vec s x.1) => [s1 [o|e]] //=; case t1: (s_tab s1) => [m1|] //= e1.
have [w [hw cw]] := set_vec_ok hs Es.
by exists s1, o, m1, w.
Qed.

(** * Extraction with the linear filter *)
Variables P R : Type.
Variable to_states : tmodel F -> C -> C.
Variable smooth : H -> tmodel F -> C -> option P -> res R.
Notation run_kf := (@run_kf F H C P R to_states smooth).
Notation extract := (extract M pffunc hx_of tab_of cov_of sq priors chain tune choices prior_draw to_states smooth).
Notation extract_one := (extract_one M pffunc hx_of tab_of cov_of sq priors chain tune choices prior_draw to_states smooth).
Notation extract_current := (extract_current M pffunc hx_of tab_of cov_of sq priors chain tune choices prior_draw to_states smooth).
Notation frun := (frun M pffunc hx_of tab_of cov_of sq priors chain tune choices prior_draw to_states smooth).
Notation fstep := (fstep M pffunc hx_of tab_of cov_of sq priors chain tune choices prior_draw to_states smooth).

Definition with_ic (ic0 ic : option P) := if ic is Some _ then ic else ic0.

(** the result of extracting at a full vector *)
Lemma extract_oneE (s : obj) ic0 ic v p : holds M s v -> s_filter s -> (size p == size (c_names M)) || (size p == size l) ->
  let w := full v p in
  match hx_of w, tab_of w with
  | Ok h, Ok m =>
      extract_one (s, ic0) ic p =
        ((St (Some (PV w)) (Some h) (Some m) (Some (Some (to_states m (sq (cov_of w))))) (s_mode s) (s_init s), with_ic ic0 ic),
         smooth h m (to_states m (sq (cov_of w))) (with_ic ic0 ic))
  | Err e, _ => (extract_one (s, ic0) ic p).2 = Err e
  | _, Err e => (extract_one (s, ic0) ic p).2 = Err e
  end.
Proof.
move=> hs fs sp w; have [e1 [sw _]] := set_vecE hs sp; rewrite -/w in e1 sw.
rewrite /M_Batch.extract_one [(s, ic0).1]/= [(s, ic0).2]/= e1.
have Q : finish s (PV w) false = match hx_of w, tab_of w with
  | Ok h, Ok m => (St (Some (PV w)) (Some h) (Some m) (Some (Some (sq (cov_of w)))) (s_mode s) (s_init s), Ok (OVec C w))
  | Err e, _ => (set_parv s (PV w), Err e)
  | Ok h, Err e => (St (Some (PV w)) (Some h) (s_tab s) (s_filter s) (s_mode s) (s_init s), Err e)
  end.
  rewrite /M_Params.finish /gen_sys sw wm.2 eqxx /=.
  case: (hx_of w) => [h|] //=; case: (tab_of w) => [m|] //=.
  case: (s_filter s) fs => // q _.
  by rewrite (get_none pffunc hx_of tab_of cov_of priors chain tune choices prior_draw po (v := w)).
rewrite Q; case: (hx_of w) => [h|] //; by case: (tab_of w) => [m|].
Qed.


Lemma full_twice v p q : size v = size (c_names M) ->
  (size p == size (c_names M)) || (size p == size l) -> size q = size p -> full (full v p) q = full v q.
Proof.
move=> sv sp sq'; rewrite /full sq'; case: eqP sp => //= _ /eqP sp.
have [ea [un [al _]]] := hp.
have al' : all (fun i => (i < size v)%N) l by rewrite sv.
have [w E [sw ow]] := put_atP un al' sp; rewrite E.
have al2 : all (fun i => (i < size w)%N) l by rewrite sw.
have sq2 : size q = size l by rewrite sq'.
have [w1 E1 o1] := put_atP un al2 sq2; have [w2 E2 o2] := put_atP un al' sq2; rewrite E1 E2.
apply: (overlays_uniq (l := l) (m := q) (v := v) _ o2); case: o1 => s1 n1; split; first by rewrite s1.
by move=> i; rewrite n1 ow; case: (i \in l).
Qed.

Lemma extract_one_same (s s1 : obj) ic0 ic1 ic v v1 p : holds M s v -> holds M s1 v1 -> s_filter s -> s_filter s1 ->
  s_mode s1 = s_mode s -> s_init s1 = s_init s -> with_ic ic1 ic = with_ic ic0 ic ->
  (size p == size (c_names M)) || (size p == size l) -> full v1 p = full v p ->
  (extract_one (s1, ic1) ic p).2 = (extract_one (s, ic0) ic p).2 /\
  forall r, (extract_one (s, ic0) ic p).2 = Ok r ->
    (extract_one (s1, ic1) ic p).1 = (extract_one (s, ic0) ic p).1 /\
    [/\ holds M (extract_one (s, ic0) ic p).1.1 (full v p), s_filter (extract_one (s, ic0) ic p).1.1,
        s_mode (extract_one (s, ic0) ic p).1.1 = s_mode s, s_init (extract_one (s, ic0) ic p).1.1 = s_init s &
        (extract_one (s, ic0) ic p).1.2 = with_ic ic0 ic].
Proof.
move=> hs hs1 f f1 em ei ew sp ef.
have := extract_oneE ic0 ic hs f sp; have := extract_oneE ic1 ic hs1 f1 sp.
have [_ [sw _]] := set_vecE hs sp; rewrite /= ef ew em ei.
case: (hx_of (full v p)) => [h|e] /=; last by move=> -> ->.
case: (tab_of (full v p)) => [m|e] /=; last by move=> -> ->.
by move=> -> -> /=; split=> // r _; split.
Qed.

(** C106 *)
Theorem C106_each_vector (s : obj) ic0 ic v n ps : holds M s v -> s_filter s ->
  n = size (c_names M) \/ n = size l -> all (fun p => size p == n) ps ->
  let fs := (s, ic0) in
  (extract fs ic ps).2 = rmap flatten (mapM (fun p => (extract fs ic [:: p]).2) ps) /\
  forall rs p0, (extract fs ic ps).2 = Ok rs -> ps <> [::] ->
    (extract fs ic ps).1 = (extract fs ic [:: last p0 ps]).1 /\
    exists w, holds M (extract fs ic ps).1.1 w /\ completes M l (last p0 ps) v w.
Proof.
move=> hs f hn; have [ea [un [al _]]] := hp.
have one p : extract (s, ic0) ic [:: p] = ((extract_one (s, ic0) ic p).1, rmap (fun r => [:: r]) (extract_one (s, ic0) ic p).2).
  by rewrite /=; case: extract_one => fs1 [].
have sp (p : vec) : size p == n -> (size p == size (c_names M)) || (size p == size l).
  by move=> /eqP ->; case: hn => ->; rewrite eqxx ?orbT.
move=> ap fs.
suff G s1 ic1 v1 : holds M s1 v1 -> s_filter s1 -> s_mode s1 = s_mode s -> s_init s1 = s_init s -> with_ic ic1 ic = with_ic ic0 ic ->
  (forall q, size q = n -> full v1 q = full v q) ->
  (extract (s1, ic1) ic ps).2 = mapM (fun p => (extract_one fs ic p).2) ps /\
  forall rs p0, (extract (s1, ic1) ic ps).2 = Ok rs -> ps <> [::] ->
    (extract (s1, ic1) ic ps).1 = (extract_one fs ic (last p0 ps)).1 /\ holds M (extract (s1, ic1) ic ps).1.1 (full v (last p0 ps)).
  have [h1 h2] := G s ic0 v hs f erefl erefl erefl (fun _ _ => erefl).
  split.
    rewrite h1 (mapM_ext (g := fun p => rmap (fun r => [:: r]) (extract_one fs ic p).2)) => [|p]; last by rewrite one.
    elim: (ps) => [|p ps' IH] //=.
    case: (extract_one fs ic p).2 => [r|] //=; rewrite IH.
    by case: (mapM _ ps') => [rs|] //=; case: (mapM _ ps').
  move=> rs p0 er np; have [e1 e2] := h2 rs p0 er np; rewrite one; split=> //.
  exists (full v (last p0 ps)); split=> //.
  have lp : last p0 ps \in ps by move: np; case: (ps) => [|a b] //= _; apply: mem_last.
  by have [] := set_vecE hs (sp _ (allP ap _ lp)); move=> _ [].
elim: ps ap s1 ic1 v1 => [|p ps IH] /= ap s1 ic1 v1 hs1 f1 em ei ew ef //.
case/andP: ap => pn ap; have [e1 e2] := extract_one_same hs hs1 f f1 em ei ew (sp _ pn) (ef _ (eqP pn)).
case E: (extract_one (s1, ic1) ic p) => [fs1 r]; rewrite E in e1 e2; rewrite /= in e1 e2; rewrite -/fs -e1.
case: r E e1 => [r|e] E e1 //=.
have [e3 [g1 g2 g3 g4 g5]] := e2 r (esym e1); rewrite -e3 in g1 g2 g3 g4 g5.
have [] := IH ap fs1.1 fs1.2 (full v p) g1 g2 g3 g4.
- by rewrite g5; case: (ic) => //; case: (ic0).
- by move=> q sq'; apply: full_twice; [case: hs|exact: sp|rewrite sq' (eqP pn)].
rewrite -surjective_pairing; case E2: (extract fs1 ic ps) => [fs2 rs2] /= k1 k2.
split; first by rewrite -k1; case: (rs2).
move=> rs p0; case: rs2 E2 k1 k2 => [rs2|] //= E2 k1 k2 _ _.
case: ps IH ap E2 k1 k2 => [|q ps] IH ap E2 k1 k2; first by move: E2 => /= [<- _]; split; [rewrite e3|].
by have [] := k2 rs2 p0 erefl.
Qed.

(** a covariance assigned by the user is not used by extract: set_par recomputes it *)
Theorem C106_assigned_covariance_is_ignored (s : obj) ic0 ic v q : holds M s v -> s_filter s ->
  (extract_current (with_Q s q, ic0) ic).2 = (extract_current (s, ic0) ic).2.
Proof.
move=> hs f; have [ep sv] := hs; rewrite /M_Batch.extract_current /= ep /=.
have sp : (size v == size (c_names M)) || (size v == size l) by rewrite sv eqxx.
have hq : holds M (with_Q s q) v by [].
have [] := extract_one_same hs hq f (erefl : is_true true) erefl erefl (erefl : with_ic ic0 ic = _) sp erefl.
by case: extract_one => a [x|e]; case: extract_one => b [y|e'] //= [->].
Qed.

(** operations without a covariance leave the stored one *)
Lemma frun_keeps (g : fobj F H C P) (ic : P) (os : seq (fop F P)) : all (@passes_none F P) os -> g.2 = Some ic -> (frun g os).2 = Some ic.
Proof.
have R0 g' : (run_kf g' None).1.2 = g'.2.
  by case: g' => a b; rewrite /M_Batch.run_kf; case: (s_filter a) => [[x|]|] //; case: (s_tab a) => // y; case: (s_hx a).
have X0 g' p : (extract_one g' None p).1.2 = g'.2.
  by rewrite /M_Batch.extract_one; case: (set_vec _ _) => s1 [o|e] //; rewrite R0.
have Y0 g' ps : (extract g' None ps).1.2 = g'.2.
  elim: ps g' => [|p ps IH] g' //=; have := X0 g' p; case: (extract_one g' None p) => g1 [x|] //= e.
  by have := IH g1; case: (extract g1 None ps) => g2 rs /= ->.
have S0 g' o : passes_none o -> (fstep g' o).2 = g'.2.
  by case: o => [p|[x|] ps|[x|]] //= _; rewrite ?Y0 ?R0.
by elim: os g => [|o os IH] g //= /andP [po1 an] g2; apply: IH => //; rewrite S0.
Qed.
(** C91, with extractions and changes of parameters *)
Theorem C91_init_cov_is_permanent (fs : fobj F H C P) (ic : P) (os : seq (fop F P)) q m h :
  all (@passes_none F P) os ->
  let fs' := frun (run_kf fs (Some ic)).1 os in
  s_filter fs'.1 = Some (Some q) -> s_tab fs'.1 = Some m -> s_hx fs'.1 = Some h ->
  (run_kf fs' None).2 = smooth h m (to_states m q) (Some ic).
Proof.
move=> an fs' e1 e2 e3.
suff E : fs'.2 = Some ic by rewrite /M_Batch.run_kf; case: (fs') e1 e2 e3 E => a b /= -> -> -> ->.
rewrite /fs' {e1 e2 e3 fs'}; apply: frun_keeps an _.
by case: (fs) => a b; rewrite /M_Batch.run_kf; case: (s_filter a) => [[x|]|] //; case: (s_tab a) => // y; case: (s_hx a).
Qed.
(** C91: an initial covariance passed to a successful extract stays as well *)
Theorem C91_extract_init_cov_is_permanent (fs : fobj F H C P) (ic : P) p ps (os : seq (fop F P)) rs q m h :
  (extract fs (Some ic) (p :: ps)).2 = Ok rs -> all (@passes_none F P) os ->
  let fs' := frun fs (DoExtract (Some ic) (p :: ps) :: os) in
  s_filter fs'.1 = Some (Some q) -> s_tab fs'.1 = Some m -> s_hx fs'.1 = Some h ->
  (run_kf fs' None).2 = smooth h m (to_states m q) (Some ic).
Proof.
move=> er an fs' e1 e2 e3.
suff E : fs'.2 = Some ic by rewrite /M_Batch.run_kf; case: (fs') e1 e2 e3 E => a b /= -> -> -> ->.
rewrite /fs' {e1 e2 e3 fs'} /=; apply: frun_keeps an _.
have X1 g x : (extract_one g (Some ic) p).2 = Ok x -> (extract_one g (Some ic) p).1.2 = Some ic.
  rewrite /M_Batch.extract_one; case: (set_vec _ _) => s1 [o|e] //.
  by rewrite /M_Batch.run_kf; case: (s_filter _) => [[y|]|] //; case: (s_tab _) => // z; case: (s_hx _).
have Y1 g qs : g.2 = Some ic -> (extract g (Some ic) qs).1.2 = Some ic.
  elim: qs g => [|b qs IH] g //= g2.
  have : (extract_one g (Some ic) b).1.2 = Some ic.
    rewrite /M_Batch.extract_one; case: (set_vec _ _) => s1 [o|e] //.
    by rewrite /M_Batch.run_kf; case: (s_filter _) => [[y|]|] //; case: (s_tab _) => // z; case: (s_hx _).
  case: (extract_one _ _ _) => g1 [x|] //= h1; have := IH g1 h1; by case: (extract g1 _ _).
move: er; rewrite /=; have := X1 fs; case: (extract_one _ _ _) => g1 [x|] //= hx'; have h1 := hx' x erefl.
by have := Y1 g1 ps h1; case: (extract g1 _ _).
Qed.
End C105.
Print Assumptions C105_same_as_setting.
Print Assumptions C105_zero_vector_is_ignored.
Print Assumptions C105_first_call.
Print Assumptions C105_failed_first_call.
Print Assumptions C105_simulate.
Print Assumptions C106_each_vector.
Print Assumptions C106_assigned_covariance_is_ignored.
Print Assumptions C91_init_cov_is_permanent.
Print Assumptions C91_extract_init_cov_is_permanent.

(** A model with two parameters, the second of which is estimated; it has no solution if the second is zero. *)
Section Ex.
Notation Q := [realFieldType of rat].
Let M : static Q := Static [:: "a"; "b"]%string [::] [:: 1; 2%:Q] (Some [:: 1%N]) (Some [:: "b"%string]).
Let hx (v : seq Q) : res unit := if nth 0 v 1 == 0 then Err ValueError else Ok tt.
Let s0 (m : tmodel Q) (c : option (option nat)) : st Q unit (tmodel Q) nat :=
  St (Some (PV [:: 1; 2%:Q])) (Some tt) (Some m) c None None.
Let pf (v : seq Q) : seq Q := [::].
Let ch (a b : nat) : seq nat := [::].
Let dr (s : st Q unit (tmodel Q) nat) (n : nat) : st Q unit (tmodel Q) nat * res (seq (seq Q)) := (s, Err GenericException).
Let chn : res (seq (seq (seq Q))) := Err GenericException.

Example C105_met m c : wf_model M /\ has_priors M [:: 1%N] /\ holds M (s0 m c) [:: 1; 2%:Q] /\ s_tab (s0 m c) = Some m.
Proof. by []. Qed.

(** a new object: solved at the calibration; with a calibration of zero it has no solution *)
Example C105_first_met (m : tmodel Q) : let s : st Q unit (tmodel Q) nat := St None None None None None None in
  s_par s = None /\ s_tab s = None /\ hx (c_fix M) = Ok tt /\ hx [:: 1; 0] = Err ValueError.
Proof. by []. Qed.

(** irfs reports thirty periods for a vector of zeros although the model has no solution there *)
Theorem C105_zero_vector_refuted : exists m : tmodel Q, let tab (v : seq Q) := Ok m in
  let set := set_vec M pf hx tab (fun _ => 0%N) id None chn 0 ch dr in
  let irf := irfs_pars M pf hx tab (fun _ => 0%N) id None chn 0 ch dr in
  (set (s0 m None) [:: 0]).2 = Err ValueError /\
  exists rows err mult,
    (irf (s0 m None) [:: [:: 0]] [:: SName Q "e"%string] None 30%N false (KBool false) None).2 = Ok [:: IRows rows err mult] /\ size rows = 30%N.
Proof.
have [t [b sd]] := ex3_solved ex3_f; exists (ex3_m t b) => tab set irf; split; first by [].
have [|rows [err [mult [E sz]]]] := (C80_irfs_total (P := seq Q) (fun _ => Ok (ex3_m t b)) (fun _ => false) [:: SName Q "e"%string] (st0 := None) 30%N (sk := KBool false) None sd isT isT isT).1.
  by move=> i _; rewrite /known_at /= implybT.
exists rows, err, mult; split=> //.
have Z := C105_zero_vector_is_ignored pf hx tab (fun _ => 0%N) id None chn 0 ch dr [:: SName Q "e"%string] None 30%N false (KBool false) None
  (conj erefl erefl : holds M (s0 (ex3_m t b) None) [:: 1; 2%:Q]).
rewrite /irf (Z (ex3_m t b) [:: 0] erefl isT) -[Ok [:: _]]/(rmap (fun r => [:: r]) (Ok (IRows rows err mult))) -E.
by [].
Qed.
Print Assumptions C105_zero_vector_refuted.

(** three extractions in one call *)
Example C106_met m : let tab (v : seq Q) := Ok m in
  let s := s0 m (Some None) in
  let ext := extract M pf hx tab (fun v => size v) id None chn 0 ch dr (fun _ c => (c + 3)%N) (fun _ _ c (p : option nat) => Ok (c, p)) in
  [/\ holds M s [:: 1; 2%:Q], s_filter s, all (fun p => size p == 1%N) [:: [:: 5%:Q]; [:: 7%:Q]; [:: 1]] &
      (ext (s, None) (Some 4%N) [:: [:: 5%:Q]; [:: 7%:Q]; [:: 1]]).2 = Ok [:: (5%N, Some 4%N); (5%N, Some 4%N); (5%N, Some 4%N)]].
Proof. by split. Qed.

(** passed to extract, it is used by the filter after a further change of parameters *)
Example C91_extract_met m : let tab (v : seq Q) := Ok m in
  let sm := fun (_ : unit) (_ : tmodel Q) (c : nat) (p : option nat) => Ok (c, p) in
  let f0 := (s0 m (Some (Some 1%N)), None) in
  let ext := extract M pf hx tab (fun v => size v) id None chn 0 ch dr (fun _ c => (c + 3)%N) sm f0 (Some 9%N) [:: [:: 5%:Q]; [:: 7%:Q]] in
  let fs := frun M pf hx tab (fun v => size v) id None chn 0 ch dr (fun _ c => (c + 3)%N) sm f0
    [:: DoExtract (Some 9%N) [:: [:: 5%:Q]; [:: 7%:Q]]; DoSet nat [:: 3%:Q]] in
  [/\ ext.2 = Ok [:: (5%N, Some 9%N); (5%N, Some 9%N)], s_filter fs.1 = Some (Some 2%N), s_tab fs.1 = Some m, s_hx fs.1 = Some tt &
      (run_kf (fun _ c => (c + 3)%N) sm fs None).2 = Ok (5%N, Some 9%N)].
Proof. by split. Qed.

(** an initial covariance passed once is used after three further operations *)
Example C91_histories_met m : let tab (v : seq Q) := Ok m in
  let sm := fun (_ : unit) (_ : tmodel Q) (c : nat) (p : option nat) => Ok (c, p) in
  let os : seq (fop Q nat) := [:: DoSet nat [:: 3%:Q]; DoExtract None [:: [:: 5%:Q]]; DoFilter Q None] in
  let fs := frun M pf hx tab (fun v => size v) id None chn 0 ch dr (fun _ c => (c + 3)%N) sm
    (run_kf (fun _ c => (c + 3)%N) sm (s0 m (Some (Some 1%N)), None) (Some 9%N)).1 os in
  [/\ all (@passes_none Q nat) os, s_filter fs.1 = Some (Some 8%N), s_tab fs.1 = Some m & s_hx fs.1 = Some tt].
Proof. by split. Qed.
End Ex.
