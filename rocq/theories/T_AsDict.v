(** C135: parameters as dicts, and jittered vectors. *)
Set Warnings "-all".
From Coq Require Import String.
From mathcomp Require Import all_ssreflect all_algebra.
From Verif Require Import PyBase PyStr M_Params S_Params P_Params M_AsDict.
Set Implicit Arguments. Unset Strict Implicit. Unset Printing Implicit Defensive.
Import GRing.Theory Num.Theory.
Local Open Scope ring_scope.

Section C135.
Variable F : realFieldType.
Notation vec := (seq F).
Variables H T C : Type.
Variable M : static F.
Variable pffunc : vec -> vec.
Variable hx_of : vec -> res H.
Variable tab_of : vec -> res T.
Variable cov_of : vec -> C.
Variable priors : option (seq (prior F)).
Variable chain : res (seq (seq vec)).
Variable tune : nat.
Variable choices : nat -> nat -> seq nat.
Variable prior_draw : st F H T C -> nat -> st F H T C * res (seq vec).
Variable rnd : F -> F.
Variable z : nat -> nat -> F.
Notation st := (st F H T C).
Notation get_par := (@get_par F H T C M pffunc hx_of tab_of cov_of priors chain tune choices prior_draw).
Notation call := (@get_par_call F H T C M pffunc hx_of tab_of cov_of priors chain tune choices prior_draw rnd z).
Notation DNum := (@DNum F).

Lemma filter_out (ks : seq string) (vs : seq (dval F)) n : n \notin ks -> [seq x <- zip ks vs | x.1 == n] = [::].
Proof.
elim: ks vs => [|k ks IH] [|v vs] //=; rewrite inE negb_or => /andP [ne ni].
by rewrite eq_sym (negbTE ne) IH.
Qed.
Lemma lookup_out (ks : seq string) (vs : seq (dval F)) n : n \notin ks -> lookup (zip ks vs) n = None.
Proof. by move=> h; rewrite /lookup filter_out. Qed.
Lemma lookup_zip (ks : seq string) (vs : seq (dval F)) n : uniq ks -> (index n ks < size vs)%N -> n \in ks ->
  lookup (zip ks vs) n = Some (nth (DNum 0) vs (index n ks)).
Proof.
rewrite /lookup; elim: ks vs => [|k ks IH] [|v vs] //= /andP [nk un]; case: eqP => [e|ne]; last first.
  move=> lt; rewrite inE => /orP [/eqP e|ni]; first by case: ne.
  by rewrite IH.
by move=> _ _ /=; rewrite -e filter_out.
Qed.

(** the full vectors that get_par returns have one entry per parameter *)
Lemma put_size idx (c b r : vec) : put_at idx c b = Ok r -> size r = size b.
Proof.
rewrite /put_at; case: ifP => // /negbT; rewrite negbK => al.
have fold (X : Type) (f : X -> nat) (g : X -> F) (xs : seq X) (b0 : vec) : all (fun x => (f x < size b0)%N) xs ->
    size (foldl (fun b x => set_nth 0 b (f x) (g x)) b0 xs) = size b0.
  elim: xs b0 => //= x xs IH b0 /andP [lt a]; have e : size (set_nth 0 b0 (f x) (g x)) = size b0 by rewrite size_set_nth; apply/maxn_idPr.
  by rewrite IH e.
case: ifP => [_ [<-]|_].
  apply: (fold _ (fun x => x.1) (fun x => x.2)); apply/allP=> -[i y] /= iy; apply: (allP al).
  have sub (l0 : seq nat) (c0 : vec) : (i, y) \in zip l0 c0 -> i \in l0.
    by elim: l0 c0 => [|a l0 IH] [|c1 c0] //=; rewrite !inE => /orP [/eqP [-> _]|/IH ->]; rewrite ?eqxx ?orbT.
  exact: sub iy.
by case: ifP => // _ [<-]; apply: (fold _ id (fun=> head 0 c)).
Qed.
Lemma assemble_size (b v : vec) c : assemble C M b c true = Ok (OVec C v) -> size v = size b.
Proof. by rewrite /assemble /=; case: c => [x|x]; [case E: put_at => [r|e] //= [<-]; exact: put_size E | case: mapM]. Qed.
Lemma get_size s u a npar k hx s' v : wf_model M -> holds M s u -> get_par s a npar true k hx = (s', Ok (OVec C v)) -> size v = size (c_names M).
Proof.
move=> wm [ep su]; rewrite /M_Params.get_par ep; case Eb: base_of => [b|e] //.
have sb : size b = size (c_names M).
  move: Eb; rewrite /base_of /cur ep /=; case: npar => [w|[<-]] //.
  by case: ifP => [_ /put_size ->|/negbFE /eqP sw [<-]] //; rewrite sw wm.2.
case: a => [|n|w].
- by case: (@take_at F (c_prior_arg M) _) => // c [_ /assemble_size ->].
- move: (get_named M priors chain tune choices prior_draw s "mode" false k) => gm.
  case: ifP => // _; case: ifP => // _; case: ifP => [_|_]; first by case: gen_sys => s1 [].
  case: ifP => _.
    case: gm => s1 r1.
    have second s2 : (let: (s2, r2) := get_named M priors chain tune choices prior_draw s1 "init" false k in
      (s2, rbind r2 (fun o => match o with OVec v => assemble C M b (inl v) true | _ => Err TypeError end))) = (s2, Ok (OVec C v)) -> size v = size (c_names M).
      by case: get_named => s3 [[x|x|x|x]|e] //= [_ /assemble_size ->].
    case: r1 => [[x|x|x|x]|e]; [exact: second | | exact: second | exact: second | exact: second].
    by move=> [_ /assemble_size ->].
  rewrite /get_named; case: ifP => // _; case: named_set => s1 [c|e] //= [_ /assemble_size ->]; exact: wm.2.
case: ifP => _; first by case: (@take_at F (c_prior_arg M) _) => // c [_ /assemble_size ->].
by case: (c_prior_arg M) => // l; case: ifP => // _ [_ /assemble_size ->].
Qed.

(** C135: a dict says the same as the vector, with rounded numbers *)
Theorem C135_dict : forall (s s' : st) u a npar k hx v, wf_model M -> holds M s u -> uniq (c_pfnames M) -> size (pffunc v) = size (c_pfnames M) ->
  get_par s a npar true k hx = (s', Ok (OVec C v)) ->
  exists pd pf, call s a npar true true k hx = (s', Ok (GFull C pd pf)) /\
    (forall n, lookup pd n = if n \in c_names M then Some (DNum (rnd (value M v n))) else None) /\
    (forall n, lookup pf n = if n \in c_pfnames M then Some (DNum (rnd (nth 0 (pffunc v) (index n (c_pfnames M))))) else None).
Proof.
move=> s s' u a npar k hx v wm hs up sp E; have sv := get_size wm hs E.
rewrite /get_par_call E /=; do 2!eexists; split; [reflexivity | split=> n].
  case: ifP => [ni|/negbT /lookup_out ->] //; have lt : (index n (c_names M) < size v)%N by rewrite sv index_mem.
  by rewrite lookup_zip ?size_map ?lt ?wm.1 // (nth_map 0).
case: ifP => [ni|/negbT /lookup_out ->] //; have lt : (index n (c_pfnames M) < size (pffunc v))%N by rewrite sp index_mem.
by rewrite lookup_zip ?size_map ?lt // (nth_map 0).
Qed.
Theorem C135_estimated : forall (s s' : st) a npar k hx p l, wf_model M -> has_priors M l -> size p = size l ->
  get_par s a npar false k hx = (s', Ok (OVec C p)) ->
  exists d, call s a npar true false k hx = (s', Ok (GCand C d)) /\
    (forall i, (i < size l)%N -> lookup d (nth ""%string (c_names M) (nth 0%N l i)) = Some (DNum (rnd (nth 0 p i)))) /\
    (forall n, n \notin [seq nth ""%string (c_names M) i | i <- l] -> lookup d n = None).
Proof.
move=> s s' a npar k hx p l wm [ea [ul [al _]]] sp E; rewrite /get_par_call E /= ea; eexists; split; [reflexivity | split].
  move=> i li; set ks := [seq _ | _ <- l]; have un : uniq ks.
    rewrite map_inj_in_uniq // => x y xl yl /eqP; rewrite nth_uniq ?wm.1 ?(allP al x xl) ?(allP al y yl) // => /eqP //.
  have en : nth ""%string (c_names M) (nth 0%N l i) = nth ""%string ks i by rewrite (nth_map 0%N).
  have ei : index (nth ""%string ks i) ks = i by rewrite index_uniq ?size_map.
  by rewrite en lookup_zip ?ei ?size_map ?sp ?mem_nth ?size_map // (nth_map 0) ?sp.
by move=> n; exact: lookup_out.
Qed.
(** a single parameter or the covariance is returned as it is *)
Theorem C135_single : forall (s s' : st) a npar full k hx o asdict, get_par s a npar full k hx = (s', Ok o) ->
  (match o with ONum _ | OCov _ => True | _ => False end) -> call s a npar asdict full k hx = (s', Ok (GOut o)).
Proof. by move=> s s' a npar full k hx o asdict E ho; rewrite /get_par_call E /=; case: asdict; case: o ho {E} => //= *; case: ifP. Qed.
(** the model changes as without the dict *)
Theorem C135_state : forall (s : st) a npar asdict full k hx, (call s a npar asdict full k hx).1 = (get_par s a npar full k hx).1.
Proof. by move=> s a npar asdict full k hx; rewrite /get_par_call; case: M_Params.get_par. Qed.

(** C135, draws: unless there are as many draws as parameters, a dict of them raises; otherwise the i-th name belongs to the i-th draw *)
Theorem C135_draws : forall (s s' : st) a npar k hx rows, uniq (c_names M) -> get_par s a npar true k hx = (s', Ok (ORows C rows)) ->
  (size rows <> size (c_names M) -> call s a npar true true k hx = (s', Err ValueError)) /\
  (size rows = size (c_names M) -> exists pd pf, call s a npar true true k hx = (s', Ok (GFull C pd pf)) /\
     forall i, (i < size rows)%N -> lookup pd (nth ""%string (c_names M) i) = Some (DRow [seq rnd x | x <- nth [::] rows i])).
Proof.
move=> s s' a npar k hx rows un E; rewrite /get_par_call E /= /pf_rows; split; first by move/eqP ->.
move=> e; rewrite e eqxx /=; do 2!eexists; split; [reflexivity|] => i li.
have lr : (i < size rows)%N by rewrite e.
by rewrite lookup_zip ?(index_uniq _ li un) ?size_map ?mem_nth // (nth_map [::]).
Qed.
Theorem C135_draws_estimated : forall (s s' : st) a npar k hx rows l, wf_model M -> has_priors M l ->
  get_par s a npar false k hx = (s', Ok (ORows C rows)) ->
  exists d, call s a npar true false k hx = (s', Ok (GCand C d)) /\
    forall i, (i < size l)%N -> (i < size rows)%N ->
      lookup d (nth ""%string (c_names M) (nth 0%N l i)) = Some (DRow [seq rnd x | x <- nth [::] rows i]).
Proof.
move=> s s' a npar k hx rows l wm [ea [ul [al _]]] E; rewrite /get_par_call E /= ea; eexists; split; [reflexivity|].
move=> i li lr; set ks := [seq _ | _ <- l]; have un : uniq ks.
  rewrite map_inj_in_uniq // => x y xl yl /eqP; rewrite nth_uniq ?wm.1 ?(allP al x xl) ?(allP al y yl) // => /eqP //.
have en : nth ""%string (c_names M) (nth 0%N l i) = nth ""%string ks i by rewrite (nth_map 0%N).
have ei : index (nth ""%string ks i) ks = i by rewrite index_uniq ?size_map.
by rewrite en lookup_zip ?ei ?size_map ?mem_nth ?size_map // (nth_map [::]).
Qed.

(** C135, several samples of one vector: only with full=False, each entry multiplied by 1 + 0.001 z *)
Theorem C135_jitter : forall (s s' : st) a npar k hx p, get_par s a npar false k hx = (s', Ok (OVec C p)) -> (1 < k)%N ->
  exists rows, [/\ call s a npar false false k hx = (s', Ok (GOut (ORows C rows))), size rows = k,
    forall i, (i < k)%N -> size (nth [::] rows i) = size p &
    forall i j, (i < k)%N -> (j < size p)%N -> nth 0 (nth [::] rows i) j = nth 0 p j * (1 + 1000%:R^-1 * z i j)].
Proof.
move=> s s' a npar k hx p E lk; rewrite /get_par_call E /= lk; eexists; split; [reflexivity | by rewrite size_map size_iota | |].
  by move=> i li; rewrite (nth_map 0%N) ?size_iota // size_map size_iota.
by move=> i j li lj; rewrite (nth_map 0%N) ?size_iota // (nth_map 0%N) ?size_iota // !nth_iota.
Qed.
(** a zero entry is never moved, an entry never changes its sign while |z| < 1000 *)
Theorem C135_jitter_zero : forall (s s' : st) a npar k hx p rows i j, get_par s a npar false k hx = (s', Ok (OVec C p)) -> (1 < k)%N ->
  call s a npar false false k hx = (s', Ok (GOut (ORows C rows))) -> (i < k)%N -> (j < size p)%N ->
  (nth 0 p j = 0 -> nth 0 (nth [::] rows i) j = 0) /\
  (`|z i j| < 1000%:R -> Num.sg (nth 0 (nth [::] rows i) j) = Num.sg (nth 0 p j)).
Proof.
move=> s s' a npar k hx p rows i j E lk E2 li lj; have [rows' [E3 _ _ h]] := C135_jitter E lk.
move: E3; rewrite E2 => -[er]; subst rows'; rewrite h //; split; first by move=> ->; rewrite mul0r.
move=> lz; rewrite sgrM (_ : Num.sg (1 + _) = 1) ?mulr1 //; apply/gtr0_sg.
have p0 : 0 < 1000%:R :> F by rewrite ltr0n.
rewrite -ltr_subl_addl sub0r.
have -> : -1 = 1000%:R^-1 * - 1000%:R :> F by rewrite mulrN mulVf // lt0r_neq0.
by move: lz; rewrite ltr_norml => /andP [lz _]; rewrite ltr_pmul2l // invr_gt0.
Qed.
(** in all other cases the number of samples changes nothing but the number of draws *)
Theorem C135_no_jitter : forall (s : st) a npar full k hx, full || (k <= 1)%N ->
  call s a npar false full k hx = ((get_par s a npar full k hx).1, rmap (@GOut F C) (get_par s a npar full k hx).2).
Proof.
move=> s a npar full k hx h; rewrite /get_par_call; case: M_Params.get_par => s1 [o|e] //=.
by rewrite (_ : ~~ full && (1 < k)%N = false) //; case/orP: h => [->|] //; rewrite leqNgt => /negbTE ->; rewrite andbF.
Qed.
End C135.
Print Assumptions C135_dict.
Print Assumptions C135_estimated.
Print Assumptions C135_single.
Print Assumptions C135_state.
Print Assumptions C135_draws.
Print Assumptions C135_draws_estimated.
Print Assumptions C135_jitter.
Print Assumptions C135_jitter_zero.
Print Assumptions C135_no_jitter.

Module Ex.
Notation R := [realFieldType of rat].
Definition M : static R :=
  Static [:: "alpha"; "beta"; "gamma"]%string [:: "kappa"]%string [:: 1; 2%:R; 3%:R] (Some [:: 2; 0]%N) (Some [:: "gamma"; "alpha"]%string).
Definition pf (v : seq rat) : seq rat := [:: nth 0 v 0 + nth 0 v 1].
Definition hx (v : seq rat) : res (seq rat) := Ok v.
Definition tab (v : seq rat) : res rat := Ok 0.
Definition cov (v : seq rat) : rat := nth 0 v 2.
Definition chain : res (seq (seq (seq rat))) := Ok [:: [:: [:: 5%:R; 6%:R]; [:: 7%:R; 8%:R]]; [:: [:: 9%:R; 10%:R]; [:: 11%:R; 12%:R]]].
Definition ch (m k : nat) : seq nat := iota 0 k.
Notation ST := (st R (seq rat) rat rat).
Definition pd (s : ST) (k : nat) : ST * res (seq (seq rat)) := (s, Ok [seq [:: i%:R; 10%:R] | i <- iota 0 k]).
Definition s0 : ST := St (Some (PV ([:: 1; 1; 1] : seq R))) None None None (Some [:: 30%:R; 0]) None.
Definition rnd (x : rat) : rat := x.
Definition z (i j : nat) : rat := (i + j)%:R.
Notation call := (get_par_call M pf hx tab cov None chain 0 ch pd rnd z).
Definition num_is (o : option (dval R)) (x : rat) : bool := if o is Some (DNum y) then y == x else false.
Definition row_is (o : option (dval R)) (x : seq rat) : bool := if o is Some (DRow y) then y == x else false.
Definition full_at (r : res (gout R rat)) (n m : string) (p : option (dval R) -> bool) (q : option (dval R) -> bool) : bool :=
  if r is Ok (GFull pd pf) then p (lookup pd n) && q (lookup pf m) else false.
Definition cand_at (r : res (gout R rat)) (n : string) (p : option (dval R) -> bool) : bool := if r is Ok (GCand d) then p (lookup d n) else false.
Definition rows_are (r : res (gout R rat)) (v : seq (seq rat)) : bool := if r is Ok (GOut (ORows w)) then w == v else false.
Definition rows_of (r : res (out R rat)) (v : seq (seq rat)) : bool := if r is Ok (ORows w) then w == v else false.
Example wf : wf_model M. Proof. by []. Qed.
Example pr : has_priors M [:: 2; 0]%N. Proof. by []. Qed.
Example h0 : holds M s0 [:: 1; 1; 1]. Proof. by []. Qed.
(** the mode is gamma = 30, alpha = 0; beta is calibrated *)
Example mode_dict : full_at (call s0 (AName _ "mode"%string) None true true 1 false).2 "gamma" "kappa" (fun o => num_is o 30%:R) (fun o => num_is o 2%:R).
Proof. by vm_compute. Qed.
Example mode_estimated : cand_at (call s0 (AName _ "mode"%string) None true false 1 false).2 "gamma" (fun o => num_is o 30%:R).
Proof. by vm_compute. Qed.
(** two draws: a dict raises; three draws: alpha "is" the first draw *)
Example two : (if (call s0 (AName _ "prior"%string) None true true 2 false).2 is Err ValueError then true else false).
Proof. by vm_compute. Qed.
Example three : full_at (call s0 (AName _ "prior"%string) None true true 3 false).2 "alpha" "kappa"
  (fun o => row_is o [:: 10%:R; 2%:R; 0]) (fun o => row_is o [:: 20%:R; 4%:R; 1]).
Proof. by vm_compute. Qed.
Example two_estimated : cand_at (call s0 (AName _ "prior"%string) None true false 2 false).2 "alpha" (fun o => row_is o [:: 1; 10%:R]).
Proof. by vm_compute. Qed.
Example jittered : rows_are (call s0 (AName _ "mode"%string) None false false 2 false).2
  [:: [:: 30%:R; 0]; [:: 30%:R * (1 + 1 / 1000%:R); 0]].
Proof. by vm_compute. Qed.
End Ex.

(** C135, violated: with as many draws as parameters, the dict gives a parameter the values of all parameters of one draw *)
Theorem C135_refuted : exists (M : static [realFieldType of rat]) (s : st [realFieldType of rat] (seq rat) rat rat) v rows pd pf s',
  wf_model M /\ holds M s v /\
  get_par M Ex.pf Ex.hx Ex.tab Ex.cov None Ex.chain 0 Ex.ch Ex.pd s (AName _ "prior"%string) None true 3 false = (s', Ok (ORows _ rows)) /\
  get_par_call M Ex.pf Ex.hx Ex.tab Ex.cov None Ex.chain 0 Ex.ch Ex.pd Ex.rnd Ex.z s (AName _ "prior"%string) None true true 3 false
    = (s', Ok (GFull _ pd pf)) /\
  lookup pd "alpha"%string = Some (DRow (nth [::] rows 0)) /\ nth [::] rows 0 != [seq value M r "alpha"%string | r <- rows].
Proof.
pose rows : seq (seq rat) := [:: [:: 10%:R; 2%:R; 0]; [:: 10%:R; 2%:R; 1]; [:: 10%:R; 2%:R; 2%:R]].
have E : Ex.rows_of (get_par Ex.M Ex.pf Ex.hx Ex.tab Ex.cov None Ex.chain 0 Ex.ch Ex.pd Ex.s0 (AName _ "prior"%string) None true 3 false).2 rows by vm_compute.
have df : nth [::] rows 0 != [seq value Ex.M r "alpha"%string | r <- rows] by vm_compute.
have sr : size rows = size (c_names Ex.M) by [].
move: df sr E; move: rows => rows df sr.
case Eg: (get_par _ _ _ _ _ _ _ _ _ _ _ _ _ _ _ _) => [s' r]; case: r Eg => [[x|x|x|w]|e] // Eg; rewrite /= => /eqP ew; subst w.
have [_ /(_ sr) [pd [pf [Ec hl]]]] := C135_draws Ex.rnd Ex.z (isT : uniq (c_names Ex.M)) Eg.
have := hl 0%N; rewrite sr => /(_ isT); rewrite /Ex.rnd map_id => h0.
by exists Ex.M, Ex.s0, [:: 1; 1; 1], rows, pd, pf, s'; split=> //; split=> //; split=> //; split.
Qed.
Print Assumptions C135_refuted.
