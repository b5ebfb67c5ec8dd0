(** C134: draws from the prior. *)
Set Warnings "-all".
From Coq Require Import String.
From mathcomp Require Import all_ssreflect all_algebra.
From Verif Require Import PyBase PyStr M_Params S_Params P_Params M_Prior S_Prior.
Set Implicit Arguments. Unset Strict Implicit. Unset Printing Implicit Defensive.
Import GRing.Theory Num.Theory.
Local Open Scope ring_scope.

Section C134.
Variable F : realFieldType.
Notation vec := (seq F).
Variables H T C : Type.
Variable M : static F.
Variable pffunc : vec -> vec.
Variable hx_of : vec -> res H.
Variable tab_of : vec -> res T.
Variable cov_of : vec -> C.
Variable sq : C -> C.
Variable priors : option (seq (prior F)).
Variable chain : res (seq (seq vec)).
Variable tune : nat.
Variable choices : nat -> nat -> seq nat.
Notation st := (st F H T C).
Notation sampler := (@prior_sampler F H T C M pffunc hx_of tab_of cov_of sq priors chain tune choices).
Notation set_par := (@set_par F H T C M pffunc hx_of tab_of cov_of sq priors chain tune choices (@no_draw F H T C)).
Notation check := (@check F H T C M pffunc hx_of tab_of cov_of sq priors chain tune choices).
Notation draw_one := (@draw_one F H T C M pffunc hx_of tab_of cov_of sq priors chain tune choices).
Notation draw_all := (@draw_all F H T C M pffunc hx_of tab_of cov_of sq priors chain tune choices).
Notation soluble := (soluble hx_of tab_of).
Notation solved_at := (@solved_at F H T C M hx_of tab_of).
Notation first_soluble := (first_soluble M hx_of tab_of).

Variable l : seq nat.
Hypothesis wm : wf_model M.
Hypothesis hp : has_priors M l.

Lemma po : priors_ok M. Proof. by rewrite /priors_ok hp.1. Qed.

Lemma completes_ex p v : size v = size (c_names M) -> size p = size l -> exists2 w, completes M l p v w & size w = size (c_names M).
Proof.
move=> sv sp; rewrite /completes; case: eqP => [e|_]; first by exists p.
have [_ [un [al _]]] := hp; have al' : all (fun i => (i < size v)%N) l by rewrite sv.
by have [w _ ov] := put_atP un al' sp; exists w; rewrite ?ov.1.
Qed.
Lemma completes_fun p v w w' : completes M l p v w -> completes M l p v w' -> w = w'.
Proof. by rewrite /completes; case: eqP => [_ -> ->|_ [_ h] [_ h']] //; apply: overlays_uniq h h'. Qed.

(** two vectors that complete alike *)
Definition alike (u v : vec) : Prop := size u = size v /\ (size l = size (c_names M) \/ forall i, i \notin l -> nth 0 u i = nth 0 v i).
Lemma alike_completes u v p w : size p = size l -> alike u v -> completes M l p u w -> completes M l p v w.
Proof.
move=> sp [suv h]; rewrite /completes; case: eqP => // ne [_ [sw nw]]; split=> //; split; first by rewrite sw.
by case: h => [e|h i]; [case: ne; rewrite sp | rewrite nw; case: ifP => // /negbT /h].
Qed.
Lemma completes_alike u p w : size u = size (c_names M) -> size p = size l -> completes M l p u w -> alike w u.
Proof.
move=> su sp; rewrite /completes; case: eqP => [e ->|ne [_ [sw nw]]]; first by split; [rewrite e | left; rewrite -sp].
by split=> //; right=> i ni; rewrite nw (negbTE ni).
Qed.
Lemma alike_sym u v : alike u v -> alike v u.
Proof. by move=> [e h]; split=> //; case: h => [|h]; [left | right=> i /h]. Qed.
Lemma alike_trans u v w : alike u v -> alike v w -> alike u w.
Proof. by move=> [e h] [e' h']; split; [rewrite e | case: h => [|h]; [left | case: h' => [|h']; [left | right=> i ni; rewrite h ?h']]]. Qed.

(** what set_par does with a candidate *)
Lemma set_par_cand (s : st) u p : holds M s u -> size p = size l -> exists2 w, completes M l p u w /\ size w = size (c_names M) &
  match set_par s (AVec p) None None false with
  | (s', Ok _) => soluble w /\ solved_at s' w
  | (s', Err _) => ~ soluble w /\ holds M s' w
  end.
Proof.
move=> [ep su] sp; have [w cw sw] := completes_ex su sp; exists w => //.
suff -> : set_par s (AVec p) None None false = finish M pffunc hx_of tab_of cov_of sq priors chain tune choices (@no_draw F H T C) s (PV w) false.
  have := finishP pffunc hx_of tab_of cov_of sq priors chain tune choices (@no_draw F H T C) wm po s false sw.
  case E: finish => [s' [r|e]].
    move=> [_ [h1 [h2 [h3 _]]]]; split=> //; rewrite /S_Prior.soluble; by case: h2 => h -> _; case: h3 => t -> _.
  move=> h; split; first by case: h => [|[_]]; rewrite /S_Prior.soluble => -> //; rewrite andbF.
  move: E; rewrite /finish /gen_sys sw wm.2 eqxx /=; case: (hx_of w) => [h0|e0]; last by move=> [<- _].
  case: (tab_of w) => [t0|e0] /=; last by move=> [<- _].
  set s2 := St _ _ _ _ _ _; have h2' : holds M s2 w by [].
  by rewrite (get_none _ _ _ _ _ _ _ _ _ po _ h2').
move: cw; rewrite /M_Params.set_par /cur ep /completes wm.2; case: eqP => [_ ->|_ [_ ov]] //.
rewrite hp.1 sp eqxx; have [_ [un [al _]]] := hp; have al' : all (fun i => (i < size u)%N) l by rewrite su.
by have [r -> ov'] := put_atP un al' sp; rewrite (overlays_uniq ov ov').
Qed.

Lemma draw_oneP pool (s s' : st) v u cs p : holds M s u -> alike u v -> all (fun c => size c == size l) cs ->
  draw_one true pool s cs = (s', Ok p) ->
  [/\ first_soluble l v cs p, size p = size l & if pool then s' = s else exists w, [/\ completes M l p v w, alike w v & solved_at s' w]].
Proof.
elim: cs s u => [|c cs IH] s u hs al //= /andP [/eqP sc ac].
have [w [cw sw] ] := set_par_cand hs sc; rewrite /check /=; case: set_par => s1 [r|e] /= [h1 h2].
  have cv := alike_completes sc al cw; have aw := alike_trans (completes_alike hs.2 sc cw) al.
  move=> [<- <-]; split=> //; first by exists [::], cs; split=> //; exists w.
  by case: (pool) => //; exists w.
have cv := alike_completes sc al cw.
have step pre post q : cs = pre ++ q :: post -> (exists2 w, completes M l q v w & soluble w) ->
    (forall p' w', p' \in pre -> completes M l p' v w' -> ~ soluble w') -> first_soluble l v (c :: cs) q.
  move=> ec eq npre; exists (c :: pre), post; split=> //; first by rewrite ec.
  move=> p' w'; rewrite inE => /orP [/eqP ->|/npre h]; last exact: h.
  by move=> /(completes_fun cv) <-.
case: pool IH => IH E.
  by have [[pre [post [ec eq npre]]] sp ->] := IH s u hs al ac E; split=> //; exact: (step pre post).
have [[pre [post [ec eq npre]]] sp ex] := IH s1 w h2 (alike_trans (completes_alike hs.2 sc cw) al) ac E.
by split=> //; exact: (step pre post).
Qed.

Lemma draw_allP pool (s s' : st) v u cands rows : holds M s u -> alike u v -> all (all (fun c => size c == size l)) cands ->
  draw_all true pool s cands = (s', Ok rows) ->
  [/\ size rows = size cands, forall i, (i < size cands)%N -> first_soluble l v (nth [::] cands i) (nth [::] rows i),
      all (fun c => size c == size l) rows &
      if pool || nilp cands then s' = s else exists2 w, completes M l (last [::] rows) v w & solved_at s' w].
Proof.
elim: cands s u rows => [|cs cands IH] s u rows hs al /=; first by move=> _ [<- <-]; rewrite orbT.
move=> /andP [ac ad]; case E: draw_one => [s1 [p|e]] //; have [fs sp st1] := draw_oneP hs al ac E.
case E2: draw_all => [s2 [vs|e]] //= [es <-]; subst s2; rewrite orbF.
have [u1 hs1 al1] : exists2 u1, holds M s1 u1 & alike u1 v.
  by case: pool st1 {E E2 IH} => [->|[w [_ aw [hw _ _]]]]; [exists u | exists w].
have [sz nt al2 fin] := IH s1 u1 vs hs1 al1 ad E2.
split=> /=; rewrite ?sz ?sp ?eqxx //; first by case=> [|i] //=; apply: nt.
case: pool st1 fin {E E2 IH} => /= [->|] //; case: cands sz {nt ad} => [|cs2 cands] sz /=.
  by case: vs sz {al2} => // _ [w [cw _ sw]] ->; exists w.
by case: vs sz {al2} => // q vs.
Qed.

(** C134: as many vectors as wanted, each the first candidate with a solution (the other parameters being the current ones) *)
Theorem C134_draws pool cands (s s' : st) v n rows : holds M s v ->
  (forall i c, (i < n)%N -> c \in cands i -> size c = size l) ->
  sampler true pool cands s n = (s', Ok rows) ->
  size rows = n /\ forall i, (i < n)%N -> first_soluble l v (cands i) (nth [::] rows i).
Proof.
move=> hs sz E; have al : alike v v by split=> //; right.
have ad : all (all (fun c => size c == size l)) [seq cands i | i <- iota 0 n].
  by apply/allP=> cs /mapP [i]; rewrite mem_iota => /andP [_ li] ->; apply/allP=> c /(sz i c li) ->.
have [e nt _ _] := draw_allP hs al ad E; split; first by rewrite e size_map size_iota.
by move=> i li; have := nt i; rewrite size_map size_iota (nth_map 0%N) ?size_iota // nth_iota //; apply.
Qed.

(** C134: without a pool this changes the model: it ends solved at the last draw ... *)
Theorem C134_model_changes cands (s s' : st) v n rows : holds M s v ->
  (forall i c, (i < n.+1)%N -> c \in cands i -> size c = size l) ->
  sampler true false cands s n.+1 = (s', Ok rows) ->
  exists2 w, completes M l (last [::] rows) v w & solved_at s' w.
Proof.
move=> hs sz E; have al : alike v v by split=> //; right.
have ad : all (all (fun c => size c == size l)) [seq cands i | i <- iota 0 n.+1].
  by apply/allP=> cs /mapP [i]; rewrite mem_iota => /andP [_ li] ->; apply/allP=> c /(sz i c li) ->.
by have [_ _ _] := draw_allP hs al ad E.
Qed.

(** ... while it stays as it was with a pool, or if the draws are not tried *)
Lemma keep_one (try_parameter pool : bool) (s : st) cs : ~~ try_parameter || pool -> (draw_one try_parameter pool s cs).1 = s.
Proof.
move=> h; elim: cs => //= c cs IH; rewrite /check; case: (try_parameter) h IH => //= ->.
by case: set_par => s1 [r|e] /=.
Qed.
Theorem C134_model_stays (try_parameter pool : bool) cands (s : st) n : ~~ try_parameter || pool -> (sampler try_parameter pool cands s n).1 = s.
Proof.
move=> h; rewrite /prior_sampler; elim: [seq _ | _ <- _] => //= cs cl IH.
by have := keep_one s cs h; case: draw_one => s1 [p|e] /= -> //; move: IH; case: draw_all.
Qed.
(** draws that are not tried are the first candidates *)
Theorem C134_not_tried pool cands (s : st) n : (forall i, (i < n)%N -> cands i <> [::]) ->
  sampler false pool cands s n = (s, Ok [seq head [::] (cands i) | i <- iota 0 n]).
Proof.
rewrite /prior_sampler.
have gen k : (forall i, (k <= i < k + n)%N -> cands i <> [::]) ->
   draw_all false pool s [seq cands i | i <- iota k n] = (s, Ok [seq head [::] (cands i) | i <- iota k n]).
  elim: n k => //= n IH k ne; case E: (cands k) => [|c cs].
    by case: (ne k) => //; rewrite leqnn addnS ltnS leq_addr.
  by rewrite /= IH // => i; rewrite addSnnS => /andP [h1 h2]; apply: ne; rewrite h2 ltnW.
by move=> ne; apply: gen => i /andP [_ li]; apply: ne.
Qed.

(** C134: the draws are the same with and without a pool *)
Lemma pool_one (s s2 : st) u u2 cs : holds M s u -> holds M s2 u2 -> alike u u2 -> all (fun c => size c == size l) cs ->
  (draw_one true true s cs).2 = (draw_one true false s2 cs).2.
Proof.
elim: cs s2 u2 => [|c cs IH] s2 u2 hs hs2 al //= /andP [/eqP sc ac].
have [w [cw sw] hw] := set_par_cand hs sc; have [w2 [cw2 sw2] hw2] := set_par_cand hs2 sc.
have e : w = w2 := completes_fun (alike_completes sc al cw) cw2; subst w2.
rewrite /check /=; case: (set_par s) hw => s3 [r|e] [h1 h2]; case: (set_par s2) hw2 => s4 [r2|e2] [h3 h4] //=.
by apply: (IH s4 w) => //; apply: alike_sym; apply: (completes_alike hs.2 sc cw).
Qed.
Theorem C134_pool cands (s : st) v n : holds M s v -> (forall i c, (i < n)%N -> c \in cands i -> size c = size l) ->
  (sampler true true cands s n).2 = (sampler true false cands s n).2.
Proof.
move=> hs sz; rewrite /prior_sampler.
have ad : all (all (fun c => size c == size l)) [seq cands i | i <- iota 0 n].
  by apply/allP=> cs /mapP [i]; rewrite mem_iota => /andP [_ li] ->; apply/allP=> c /(sz i c li) ->.
have : alike v v by split=> //; right.
move: (hs); elim: [seq _ | _ <- _] ad {1 3}s {1 2}v => [|cs cl IH] //= /andP [ac ad] s2 u2 hs2 al2; have al := alike_sym al2; have e := pool_one hs hs2 al ac; have k := keep_one s cs (isT : ~~ true || true).
case E: (draw_one true true s cs) e k => [s3 r3]; case E2: (draw_one true false s2 cs) => [s4 r4] /= -> e3; subst s3.
case: r4 E E2 => [p|x] // E E2; have [_ _ [w [cw aw [hw _ _]]]] := draw_oneP hs2 al2 ac E2.
have := IH ad s4 w hw aw.
by case: (draw_all true true) => a1 a2; case: (draw_all true false) => b1 b2 /= ->.
Qed.

(** C134: the draws end if every sample has a candidate with a solution: exceptions only reject a candidate *)
Lemma one_total pool (s : st) v u cs : holds M s u -> alike u v -> all (fun c => size c == size l) cs ->
  (exists p w, [/\ p \in cs, completes M l p v w & soluble w]) -> exists s' p, draw_one true pool s cs = (s', Ok p).
Proof.
elim: cs s u => [|c cs IH] s u hs al /=; first by move=> _ [p [w []]].
move=> /andP [/eqP sc ac] [p [w [pi cw sw]]]; have [w1 [cw1 sw1]] := set_par_cand hs sc.
rewrite /check /=; case: set_par => s1 [r|e] /= [h1 h2]; first by exists (if pool then s else s1), c.
have cv := alike_completes sc al cw1; have aw := alike_trans (completes_alike hs.2 sc cw1) al.
have pi' : p \in cs.
  by move: pi; rewrite inE => /orP [/eqP ep|//]; subst p; case: h1; rewrite (completes_fun cv cw).
have ex : exists p w, [/\ p \in cs, completes M l p v w & soluble w] by exists p, w.
by case: (pool) IH => IH; [exact: (IH s u hs al ac ex) | exact: (IH s1 w1 h2 aw ac ex)].
Qed.
Theorem C134_total pool cands (s : st) v n : holds M s v ->
  (forall i c, (i < n)%N -> c \in cands i -> size c = size l) ->
  (forall i, (i < n)%N -> exists p w, [/\ p \in cands i, completes M l p v w & soluble w]) ->
  exists s' rows, sampler true pool cands s n = (s', Ok rows).
Proof.
move=> hs sz ex; rewrite /prior_sampler.
have ad : all (all (fun c => size c == size l)) [seq cands i | i <- iota 0 n].
  by apply/allP=> cs /mapP [i]; rewrite mem_iota => /andP [_ li] ->; apply/allP=> c /(sz i c li) ->.
have ae cs : cs \in [seq cands i | i <- iota 0 n] -> exists p w, [/\ p \in cs, completes M l p v w & soluble w].
  by move=> /mapP [i]; rewrite mem_iota => /andP [_ li] ->; apply: ex.
have : alike v v by split=> //; right.
move: hs; elim: [seq _ | _ <- _] ad ae s {1 2}v => [|cs cl IH] /=; first by move=> _ _ s u hs al; exists s, [::].
move=> /andP [ac ad] ae s u hs al; have [|s1 [p E]] := one_total pool hs al ac; first by apply: ae; rewrite mem_head.
rewrite E; have [_ _ fin] := draw_oneP hs al ac E.
have [u1 hs1 al1] : exists2 u1, holds M s1 u1 & alike u1 v.
  by case: pool fin {E IH} => [->|[w [_ aw [hw _ _]]]]; [exists u | exists w].
have [|s2 [vs E2]] := IH ad _ s1 u1 hs1 al1; first by move=> c ci; apply: ae; rewrite inE ci orbT.
by rewrite E2; exists s2, (p :: vs).
Qed.

(** C134: [get_par('prior')] without a pool returns the calibration with the draws put in, and leaves the model solved at the last one *)
Notation get_par draw := (@get_par F H T C M pffunc hx_of tab_of cov_of priors chain tune choices draw).
Theorem C134_get_par cands (s s' : st) v n rows : holds M s v -> size l <> size (c_names M) ->
  "prior"%string \notin c_names M -> "prior"%string \notin c_pfnames M ->
  (forall i c, (i < n.+1)%N -> c \in cands i -> size c = size l) ->
  get_par (sampler true false cands) s (AName F "prior"%string) None true n.+1 false = (s', Ok (ORows C rows)) ->
  [/\ size rows = n.+1,
      forall i, (i < n.+1)%N -> exists2 p, first_soluble l (c_fix M) (cands i) p & overlays l p (c_fix M) (nth [::] rows i),
      solved_at s' (last [::] rows) &
      get_par (sampler true false cands) s' (ANone F) None true 1 false = (s', Ok (OVec C (last [::] rows)))].
Proof.
move=> hs nl n1 n2 sz; rewrite {1}/M_Params.get_par hs.1 /base_of /cur hs.1 /= (negbTE n1) (negbTE n2) /get_named /= /named_set /=.
set s1 := set_parv s _; have hs1 : holds M s1 (c_fix M) by split=> //; rewrite wm.2.
case E: prior_sampler => [s2 [ps|e]] //=.
have [sp fs] := C134_draws hs1 sz E; have [w cw sw] := C134_model_changes hs1 sz E.
rewrite /assemble /= hp.1; case Em: mapM => [rs|e] //= [<- <-].
have al : all (fun i => (i < size (c_fix M))%N) l by rewrite wm.2; case: hp.2 => _ [].
have un : uniq l by case: hp.2.
have szs p : p \in ps -> size p = size l.
  move=> /(nthP [::]) [i]; rewrite sp => li <-; have [pre [post [ec _ _]]] := fs i li.
  by apply: (sz i) => //; rewrite ec mem_cat mem_head orbT.
have rel : size rs = size ps /\ forall i, (i < size ps)%N -> overlays l (nth [::] ps i) (c_fix M) (nth [::] rs i).
  elim: ps rs szs Em {sp fs cw E} => [|p ps IH] rs szs /=; first by move=> [<-].
  have [r er ov] := put_atP un al (szs p (mem_head _ _)); rewrite er /=; case Er: mapM => [rs'|e] //= [<-].
  have [|e nt] := IH rs' _ Er; first by move=> q qi; apply: szs; rewrite inE qi orbT.
  by rewrite /= e; split=> // -[|i] //=; apply: nt.
have [es nt] := rel; have lt : (n < n.+1)%N by [].
have ew : w = last [::] rs.
  have -> : last [::] rs = nth [::] rs n by rewrite -nth_last es sp.
  have sl : size (last [::] ps) = size l by apply: szs; rewrite -nth_last mem_nth // sp.
  move: cw; rewrite /completes sl; case: eqP => // _ [_ ov].
  have ov2 := nt n; rewrite sp in ov2; move: (ov2 lt); rewrite -[n in nth _ ps n]/(n.+1.-1) -sp nth_last => ov3.
  exact: overlays_uniq ov ov3.
split; first by rewrite es.
- by move=> i li; exists (nth [::] ps i); [exact: fs | apply: nt; rewrite sp].
- by rewrite -ew.
by rewrite -ew; apply: (get_none _ _ _ _ _ _ _ _ _ po); case: sw.
Qed.
End C134.
Print Assumptions C134_draws.
Print Assumptions C134_model_changes.
Print Assumptions C134_model_stays.
Print Assumptions C134_not_tried.
Print Assumptions C134_pool.
Print Assumptions C134_total.
Print Assumptions C134_get_par.

Module Ex.
Notation R := [realFieldType of rat].
Definition M : static R :=
  Static [:: "alpha"; "beta"; "gamma"]%string [::] [:: 1; 2%:R; 3%:R] (Some [:: 1; 0]%N) (Some [:: "beta"; "alpha"]%string).
Definition pf (v : seq rat) : seq rat := [::].
Definition hx (v : seq rat) : res (seq rat) := Ok v.
(** there is no solution if beta is zero *)
Definition tab (v : seq rat) : res rat := if nth 0 v 1 == 0 then Err ValueError else Ok (nth 0 v 0 / nth 0 v 1).
Definition cov (v : seq rat) : rat := nth 0 v 2.
Definition chain : res (seq (seq (seq rat))) := Err AttributeError.
Definition ch (m k : nat) : seq nat := [::].
Notation ST := (st R (seq rat) rat rat).
Definition s0 : ST := St (Some (PV ([:: 1; 1; 1] : seq R))) None None None None None.
(** the first sample needs two candidates, the second one *)
Definition cands (i : nat) : seq (seq R) := if i == 0%N then [:: [:: 0; 5%:R]; [:: 4%:R; 5%:R]] else [:: [:: 6%:R; 7%:R]].
Notation sampler := (@prior_sampler R (seq rat) rat rat M pf hx tab cov (fun x => x) None chain 0 ch).
Definition rows_are (r : res (seq (seq rat))) (v : seq (seq rat)) : bool := if r is Ok w then w == v else false.
Definition par_is (s : ST) (v : seq rat) : bool := if s_par s is Some (PV w) then w == v else false.
Example wf : wf_model M. Proof. by []. Qed.
Example pr : has_priors M [:: 1; 0]%N. Proof. by []. Qed.
Example h0 : holds M s0 [:: 1; 1; 1]. Proof. by []. Qed.
Example sizes : forall i c, (i < 2)%N -> c \in cands i -> size c = size [:: 1; 0]%N.
Proof. by move=> [|i] c _; rewrite /cands /= !inE; [move=> /orP [] /eqP -> | move=> /eqP ->]. Qed.
Example soluble_candidates : forall i, (i < 2)%N -> exists p w, [/\ p \in cands i, completes M [:: 1; 0]%N p [:: 1; 1; 1] w & soluble hx tab w].
Proof.
have ov (a b : rat) : completes M [:: 1; 0]%N [:: a; b] ([:: 1; 1; 1] : seq R) [:: b; a; 1] by split=> //; split=> // -[|[|[|i]]] //=; rewrite ?nth_nil.
case=> [|i] _; [exists [:: 4%:R; 5%:R], [:: 5%:R; 4%:R; 1] | exists [:: 6%:R; 7%:R], [:: 7%:R; 6%:R; 1]].
  by split; [rewrite /cands /= !inE eqxx orbT | exact: ov | by vm_compute].
by split; [rewrite /cands /= inE eqxx | exact: ov | by vm_compute].
Qed.
Example serial : rows_are (sampler true false cands s0 2).2 [:: [:: 4%:R; 5%:R]; [:: 6%:R; 7%:R]] /\
  par_is (sampler true false cands s0 2).1 [:: 7%:R; 6%:R; 1].
Proof. by split; vm_compute. Qed.
Example parallel : rows_are (sampler true true cands s0 2).2 [:: [:: 4%:R; 5%:R]; [:: 6%:R; 7%:R]] /\
  par_is (sampler true true cands s0 2).1 [:: 1; 1; 1].
Proof. by split; vm_compute. Qed.
Example untried : rows_are (sampler false false cands s0 2).2 [:: [:: 0; 5%:R]; [:: 6%:R; 7%:R]].
Proof. by vm_compute. Qed.
Definition got (r : res (out R rat)) (v : seq (seq rat)) : bool := if r is Ok (ORows w) then w == v else false.
Example got_prior : got (get_par M pf hx tab cov None chain 0 ch (sampler true false cands) s0 (AName _ "prior"%string) None true 2 false).2
  [:: [:: 5%:R; 4%:R; 3%:R]; [:: 7%:R; 6%:R; 3%:R]].
Proof. by vm_compute. Qed.

(** every parameter is estimated, and the prior section lists them in another order *)
Definition M2 : static R := Static [:: "alpha"; "beta"]%string [::] [:: 1; 2%:R] (Some [:: 1; 0]%N) (Some [:: "beta"; "alpha"]%string).
Definition s2 : ST := St (Some (PV ([:: 1; 2%:R] : seq R))) None None None None None.
Definition cands2 (i : nat) : seq (seq R) := [:: [:: 3%:R; 0]; [:: 0; 3%:R]].
Notation sampler2 := (@prior_sampler R (seq rat) rat rat M2 pf hx tab cov (fun x => x) None chain 0 ch).
End Ex.

(** C134, violated: if all parameters are estimated and the prior lists them in another order than the model, a draw without a solution is
    returned, and an earlier candidate with a solution is thrown away *)
Theorem C134_refuted : exists (M : static [realFieldType of rat]) (s : st [realFieldType of rat] (seq rat) rat rat) v (cands : nat -> seq (seq rat)),
  [/\ wf_model M, has_priors M [:: 1; 0]%N, holds M s v &
  exists row good bad, [/\
    Ex.got (get_par M Ex.pf Ex.hx Ex.tab Ex.cov None Ex.chain 0 Ex.ch
      (@prior_sampler _ _ _ _ M Ex.pf Ex.hx Ex.tab Ex.cov (fun x => x) None Ex.chain 0 Ex.ch true false cands) s (AName _ "prior"%string) None true 1%N false).2 [:: row],
    ~ soluble Ex.hx Ex.tab row,
    cands 0%N = [:: good; bad], overlays [:: 1; 0]%N bad (c_fix M) row &
    exists2 w, overlays [:: 1; 0]%N good (c_fix M) w & soluble Ex.hx Ex.tab w]].
Proof.
exists Ex.M2, Ex.s2, [:: 1; 2%:R], Ex.cands2; split=> //.
exists [:: 3%:R; 0], [:: 3%:R; 0], [:: 0; 3%:R]; split.
- by vm_compute.
- by vm_compute.
- by [].
- by split=> // -[|[|i]] /=; rewrite ?nth_nil.
exists [:: 0; 3%:R]; last by vm_compute.
by split=> // -[|[|i]] /=; rewrite ?nth_nil.
Qed.
Print Assumptions C134_refuted.
