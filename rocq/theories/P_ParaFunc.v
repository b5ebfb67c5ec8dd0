(** Proofs for derived parameters and covariances. *)
Set Warnings "-all".
From Coq Require Import String Ascii.
From mathcomp Require Import all_ssreflect.
From Verif Require Import PyBase PyStr M_ParaFunc S_ParaFunc P_Parser.
Set Implicit Arguments. Unset Strict Implicit. Unset Printing Implicit Defensive.

Section PF.
Variable T : Type.
Implicit Types (d : defn T) (c known : seq (string * T)) (ds : seq (defn T * bool)).

Scheme denotes_ind2 := Induction for denotes Sort Prop
  with denote_all_ind2 := Induction for denote_all Sort Prop.

Lemma get_in c n v : get c n = Some v -> List.In (n, v) c.
Proof.
rewrite /get; elim: c => [|[n' v'] c IH] //=.
by case: eqP => [->|_] /=; [case=> ->; left | move=> /IH; right].
Qed.
Lemma get_some c n v : List.In (n, v) c -> exists w, get c n = Some w.
Proof.
rewrite /get; elim: c => [|[n' v'] c IH] //=.
case: eqP => [->|ne] /=; first by exists v'.
by case=> [[e _]|/IH] //; case: ne.
Qed.

Lemma eval_none c d : (forall v, eval_def c d <> Ok v) -> eval_def c d = Err NameError.
Proof.
rewrite /eval_def => H.
case E: mapM => [vs|x]; first by move: (H (d_fun d vs)); rewrite E.
suff -> : x = NameError by [].
elim: (d_refs d) x E => [|n ns IH] x //=; case: get => [v|] /=; last by case.
by case E: mapM => [vs|x'] //= [<-]; apply: IH E.
Qed.
Lemma eval_err c d x : eval_def c d = Err x -> x = NameError.
Proof. by move=> E; move: (@eval_none c d); rewrite E => /(_ (fun v => ltac:(done))) [->]. Qed.

Definition pend ds := count (fun x => ~~ x.2) ds.
Definition stuck c ds := forall d, List.In (d, false) ds -> eval_def c d = Err NameError.

Lemma pass_raise ds c suc : stuck c ds -> ~~ all (fun x => x.2) ds -> pass true ds c suc = Err NameError.
Proof.
elim: ds => [|[d b] ds IH] //= st; case: b st => st /=.
  by move=> h; rewrite IH // => d' di; apply: st; right.
by move=> _; rewrite (st d) //; left.
Qed.

Lemma pass_ok ds c suc : exists ds' c' suc', [/\ pass false ds c suc = Ok (ds', c', suc'),
   [seq x.1 | x <- ds'] = [seq x.1 | x <- ds], (suc -> suc'), (pend ds' <= pend ds)%N &
   (suc' = false -> [/\ ds' = ds, c' = c & stuck c ds]) /\ (suc' -> suc \/ (pend ds' < pend ds)%N)].
Proof.
elim: ds c suc => [|[d b] ds IH] c suc.
  by exists [::], c, suc; split=> //; split=> [h|h]; [by split | by left].
case: b => /=.
  have [ds' [c' [s' [-> e1 h2 h3 [h4 h5]]]]] := IH c suc; exists ((d, true) :: ds'), c', s'; split=> //=.
  - by rewrite e1.
  - split=> //; move=> /h4 [-> -> st]; split=> // d' /= [[]|] //; exact: st.
case E: eval_def => [v|x].
  have [ds' [c' [s' [-> e1 h2 h3 [h4 h5]]]]] := IH ((d_name d, v) :: c) true; exists ((d, true) :: ds'), c', s'; split=> //=.
  - by rewrite e1.
  - by move=> _; apply: h2.
  - by rewrite add0n; apply: leq_trans h3 _; rewrite leq_addl.
  - split=> [e|_]; last by right; rewrite add0n add1n ltnS.
    by move: (h2 isT); rewrite e.
have -> := eval_err E.
have [ds' [c' [s' [-> e1 h2 h3 [h4 h5]]]]] := IH c suc; exists ((d, false) :: ds'), c', s'; split=> //=.
- by rewrite e1.
- split=> [/h4 [-> -> st]|/h5 [->|h]]; last by right. 2: by left.
  by split=> // d' /= [[<-]|/st //]; rewrite E (eval_err E).
Qed.

Lemma pend0 ds : ~~ all (fun x => x.2) ds -> (0 < pend ds)%N.
Proof. by rewrite -has_predC /pend -has_count. Qed.

Lemma loop_stuck fuel ds c : stuck c ds -> ~~ all (fun x => x.2) ds -> loop fuel.+1 false ds c = Some (Err NameError).
Proof. by move=> st na; rewrite /= (negbTE na) pass_raise. Qed.

(** fuel *)
Lemma loop_fuel n m ds c : (pend ds < n)%N -> (pend ds < m)%N -> loop n true ds c = loop m true ds c /\ loop n true ds c <> None.
Proof.
elim: n m ds c => [|n IH] // [|m] // ds c ln lm /=; case: ifP => // na.
have [ds' [c' [s' [-> _ _ le [h4 h5]]]]] := pass_ok ds c false.
have p0 := pend0 (negbT na).
case: s' h4 h5 => [_ /(_ isT) [//|lt]|/(_ erefl) [-> -> st] _].
  by apply: IH; [apply: leq_trans lt _; rewrite -ltnS | apply: leq_trans lt _; rewrite -ltnS].
have n0 : (0 < n)%N by apply: leq_trans p0 _; rewrite -ltnS.
have m0 : (0 < m)%N by apply: leq_trans p0 _; rewrite -ltnS.
by rewrite -(prednK n0) -(prednK m0) !loop_stuck // na.
Qed.

(** the invariant *)
Section Sound.
Variables (known : seq (string * T)) (D : seq (defn T)).
Hypothesis fr : fresh_names known D.

Definition names c := [seq x.1 | x <- c].

Definition inv ds c : Prop :=
  [/\ [seq x.1 | x <- ds] = D,
      forall n v, List.In (n, v) c -> denotes known D n v,
      forall n v, List.In (n, v) known -> List.In (n, v) c,
      forall d, List.In (d, true) ds -> d_name d \in names c &
      forall d, List.In (d, false) ds -> d_name d \notin names c].

Lemma nameP c n : reflect (exists v, List.In (n, v) c) (n \in names c).
Proof.
apply: (iffP idP).
  elim: c => [|[n' v'] c IH] //=; rewrite inE => /orP [/eqP ->|/IH [v h]]; [exists v' | exists v]; [by left | by right].
by case=> v; elim: c => [|[n' v'] c IH] //= [[-> _]|/IH]; rewrite inE ?eqxx // => ->; rewrite orbT.
Qed.

Lemma get_names c n : n \in names c -> exists2 v, get c n = Some v & List.In (n, v) c.
Proof. by case/nameP=> v /get_some [w e]; exists w => //; apply: get_in. Qed.

Lemma eval_sound c d v : (forall n v, List.In (n, v) c -> denotes known D n v) -> eval_def c d = Ok v ->
  exists2 vs, denote_all known D (d_refs d) vs & v = d_fun d vs.
Proof.
move=> H; rewrite /eval_def; case E: mapM => [vs|] //= [<-]; exists vs => //.
elim: (d_refs d) vs E => [|n ns IH] vs /=; first by case=> <-; constructor.
case g: get => [w|] //=; case E: mapM => [ws|] //= [<-]; constructor; last exact: IH.
by apply: H; apply: get_in.
Qed.

Lemma uniqD : uniq [seq d_name d | d <- D].
Proof. by move: fr; rewrite /fresh_names cat_uniq => /and3P []. Qed.

Lemma pass_inv_gen r pre ds c suc ds' c' suc' : inv (pre ++ ds) c -> pass r ds c suc = Ok (ds', c', suc') ->
  inv (pre ++ ds') c'.
Proof.
elim: ds pre c suc ds' c' suc' => [|[d b] ds IH] pre c suc ds' c' suc' I /=; first by case=> <- <- _.
have ndup d' b' : List.In (d', b') (pre ++ ds) -> d_name d' <> d_name d.
  have := uniqD; have [<- _ _ _ _] := I; rewrite map_cat map_cat cat_uniq => /and3P [_ nh /andP [nd _]].
  move=> /In_cat [pi|di] e.
    have /negP := hasPn nh (d_name d) (mem_head _ _); apply; rewrite -e; apply/InP/In_map.
    by exists d'; split=> //; apply/In_map; exists (d', b').
  by move/negP: nd; apply; rewrite -e; apply/InP/In_map; exists d'; split=> //; apply/In_map; exists (d', b').
case: b I => I.
  case E: pass => [[[ds1 c1] s1]|] //= [<- <- _].
  by rewrite -cat_rcons; apply: (IH (rcons pre (d, true)) c suc) E; rewrite cat_rcons.
have [h1 h2 h3 h4 h5] := I.
case E: eval_def => [v|x].
  case P: pass => [[[ds1 c1] s1]|] //= [<- <- _].
  rewrite -cat_rcons; apply: (IH (rcons pre (d, true)) ((d_name d, v) :: c) true) P; rewrite cat_rcons; split.
  - by rewrite -h1 !map_cat.
  - move=> n w /= [[<- <-]|/h2 //]; have [vs dv ->] := eval_sound h2 E; apply: den_def => //.
    by rewrite -h1; apply/In_map; exists (d, false); split=> //; apply/In_cat; right; left.
  - by move=> n w /h3 h; right.
  - move=> d' /In_cat [pi|/= [[<-]|di]]; rewrite /= inE ?eqxx //; apply/orP; right; apply: h4; apply/In_cat; [by left | by right; right].
  - move=> d' di; rewrite /= inE negb_or.
    have di' : List.In (d', false) (pre ++ ds) by move: di => /In_cat [pi|/= [[]|di]] //; apply/In_cat; [left | right].
    rewrite (introN eqP (ndup _ _ di')) /=; apply: h5; move: di' => /In_cat [pi|di']; apply/In_cat; [by left | by right; right].
case: x E => E //; case: ifP => // _.
case P: pass => [[[ds1 c1] s1]|] //= [<- <- _].
by rewrite -cat_rcons; apply: (IH (rcons pre (d, false)) c suc) P; rewrite cat_rcons.
Qed.

Lemma eval_total c d : all (fun n => n \in names c) (d_refs d) -> exists v, eval_def c d = Ok v.
Proof.
rewrite /eval_def => H; suff [vs ->] : exists vs, mapM (fun n => of_opt NameError (get c n)) (d_refs d) = Ok vs by exists (d_fun d vs).
elim: (d_refs d) H => [|n ns IH] /=; first by exists [::].
by move=> /andP [/get_names [v -> _] /IH [vs ->]]; exists (v :: vs).
Qed.

Lemma stuck_none ds c : inv ds c -> stuck c ds -> forall n v, denotes known D n v -> n \in names c.
Proof.
move=> [h1 h2 h3 h4 h5] st n v.
apply: (@denotes_ind2 T known D (fun n v _ => n \in names c) (fun ns vs _ => all (fun n => n \in names c) ns)) => //=.
- by move=> n' v' /h3 h; apply/nameP; exists v'.
- move=> d vs; rewrite -{1}h1 => /In_map [[d' b] [/= <- di]] _ H.
  case: b di => di; first exact: h4 di.
  by have [w] := eval_total H; rewrite st.
- by move=> n' v' ns vs _ -> _ ->.
Qed.

(** names known are not names of definitions, so denotations are unique *)
Lemma known_uniq n v w : List.In (n, v) known -> List.In (n, w) known -> v = w.
Proof.
move: fr; rewrite /fresh_names cat_uniq => /and3P [_ _]; elim: known => [|[n' v'] k IH] //= /andP [ni un].
case=> [[e1 e2]|h1] [[e3 e4]|h2]; subst=> //; last exact: IH.
  by case/negP: ni; apply/nameP; exists w.
by case/negP: ni; apply/nameP; exists v.
Qed.
Lemma known_def n v d : List.In (n, v) known -> List.In d D -> n <> d_name d.
Proof.
move: fr; rewrite /fresh_names cat_uniq => /and3P [_ nh _] kn di e.
have : n \in names known by apply/nameP; exists v.
by move=> h; have /negP := hasPn nh _ h; apply; rewrite e; apply/InP/In_map; exists d.
Qed.
Lemma def_uniq d d' : List.In d D -> List.In d' D -> d_name d = d_name d' -> d = d'.
Proof.
have := uniqD; elim: D => [|a l IH] //= /andP [ni un] [<-|h1] [<-|h2] // e; last exact: IH.
  by case/negP: ni; rewrite e; apply/InP/In_map; exists d'.
by case/negP: ni; rewrite -e; apply/InP/In_map; exists d.
Qed.
Lemma den_fun n v : denotes known D n v -> forall w, denotes known D n w -> v = w.
Proof.
apply: (@denotes_ind2 T known D (fun n v _ => forall w, denotes known D n w -> v = w)
  (fun ns vs _ => forall ws, denote_all known D ns ws -> vs = ws)) => //=.
- move=> n' v' kn w H; inversion H as [n1 v1 k1 e1 e2|d vs di dv e1 e2]; subst; first exact: known_uniq kn k1.
  by case: (known_def kn di).
- move=> d vs di dv IH w H; inversion H as [n1 v1 k1 e1 e2|d' vs' di' dv' e1 e2]; subst; first by case: (known_def k1 di).
  by move: dv'; rewrite (def_uniq di' di e1) => /IH ->.
- by move=> ws H; inversion H.
- move=> n' v' ns vs _ IH1 _ IH2 ws H; inversion H as [|n1 v1 ns1 vs1 h1 h2]; subst.
  by rewrite (IH1 _ h1) (IH2 _ h2).
Qed.

Lemma inv_pass r ds c suc ds' c' suc' : inv ds c -> pass r ds c suc = Ok (ds', c', suc') -> inv ds' c'.
Proof. by move=> I; apply: (@pass_inv_gen r [::]). Qed.

(** outcome of the loop *)
Lemma loop_out fuel ds c r : inv ds c -> loop fuel true ds c = Some r ->
  match r with
  | Ok c' => exists2 ds', inv ds' c' & all (fun x => x.2) ds'
  | Err x => x = NameError /\ exists2 c', inv c'.1 c'.2 & stuck c'.2 c'.1 /\ ~~ all (fun x => x.2) c'.1
  end.
Proof.
elim: fuel ds c => [|n IH] ds c I /=; case: ifP => // na; try by case=> <-; exists ds.
have [ds' [c' [s' [E _ _ le [h4 h5]]]]] := pass_ok ds c false; rewrite E.
have I' := inv_pass I E.
case: s' E h4 h5 => [_ _ _|E /(_ erefl) [e1 e2 st] _]; first exact: IH I'.
rewrite e1 e2; case: n {IH} => [|n]; first by rewrite /= na.
by rewrite loop_stuck ?na // => -[<-]; split=> //; exists (ds, c) => //=; rewrite na.
Qed.

Lemma inv0 : inv [seq (d, false) | d <- D] known.
Proof.
split=> //.
- by rewrite -map_comp map_id.
- by move=> n v h; apply: den_known.
- by move=> d /In_map [d' [[]]].
- move=> d /In_map [d' [[<-] di]]; apply/negP=> /nameP [v kn].
  exact: (known_def kn di).
Qed.

Lemma resolve_out fuel r : resolve_defs fuel D known = Some r ->
  match r with
  | Ok c => all_denote known D /\ forall d v, List.In d D -> get c (d_name d) = Some v <-> denotes known D (d_name d) v
  | Err x => x = NameError /\ ~ all_denote known D
  end.
Proof.
move=> /(loop_out inv0); case: r => [c [ds [h1 h2 h3 h4 h5] al]|x [-> [[ds c] /= I [st na]]]].
  have nm d : List.In d D -> d_name d \in names c.
    rewrite -h1 => /In_map [[d' b] [/= <- di]]; case: b di => di; first exact: h4 di.
    have pb : forall l : seq (defn T * bool), List.In (d', false) l -> all (fun x => x.2) l -> False.
      by elim=> [|[d1 b1] l IHl] //= [[_ ->]|/IHl h] //= /andP [_ /h].
    by case: (pb _ di al).
  split=> [d /nm /get_names [v _ vi]|d v di]; first by exists v; apply: h2.
  split=> [/get_in/h2 //|dn]; have [w e wi] := get_names (nm d di).
  by rewrite e (den_fun dn (h2 _ _ wi)).
split=> // H.
have [h1 h2 h3 h4 h5] := I.
have [d di] : exists d, List.In (d, false) ds.
  move: na; elim: (ds) => [|[d [|]] l IHl] //=; first by move=> /IHl [d' h]; exists d'; right.
  by move=> _; exists d; left.
have dD : List.In d D by rewrite -h1; apply/In_map; exists (d, false).
have [v dv] := H d dD.
by have := h5 d di; rewrite (stuck_none I st dv).
Qed.
End Sound.
End PF.

(** ** covariance *)
Lemma split_plain s : ~~ str_has (fun a => Ascii.eqb a ","%char) s -> split_comma s = [:: s].
Proof. by elim: s => //= a s IH; rewrite negb_or => /andP [/negbTE -> /IH ->]. Qed.
Lemma rstrip_plain s : ~~ str_has is_space s -> rstrip s = s.
Proof.
elim: s => //= a s IH; rewrite negb_or => /andP [/negbTE e /IH ->]; rewrite e.
by case: s {IH}.
Qed.
Lemma strip_plain s : ~~ str_has is_space s -> strip s = s.
Proof.
move=> h; rewrite /strip; suff -> : lstrip s = s by apply: rstrip_plain.
by case: s h => //= a s; rewrite negb_or => /andP [/negbTE -> _].
Qed.
Lemma plainE s : plain_name s -> ~~ str_has (fun a => Ascii.eqb a ","%char) s /\ ~~ str_has is_space s.
Proof.
rewrite /plain_name; elim: s => //= a s IH; rewrite !negb_or => /andP [/andP [h1 h2] /IH [h3 h4]].
by rewrite h1 h3 h2 h4.
Qed.

Section Cov.
Variable T : Type.
Implicit Types (M : mat T) (cov : seq (string * T)).

Lemma cov_step_plain shks M k v : plain_name k -> k \in shks ->
  exists2 M', cov_step shks M (k, v) = Ok M' & forall a b, M' a b = if (a == index k shks) && (b == index k shks) then v else M a b.
Proof.
move=> /plainE [h1 h2] ki; rewrite /cov_step /= split_plain //= strip_plain // ki; eexists; first by [].
by move=> a b; rewrite /put !eqxx /=; case: (a == _); case: (b == _).
Qed.

Lemma covariance_diag zero cov : uniq [seq kv.1 | kv <- cov] -> all (fun kv => plain_name kv.1) cov ->
  exists2 M, covariance zero cov = Ok M &
    forall a b, (a < size cov)%N -> (b < size cov)%N -> M a b = if a == b then nth zero [seq kv.2 | kv <- cov] a else zero.
Proof.
move=> un pl; rewrite /covariance; set shks := map _ _.
suff gen : forall pre post M, cov = pre ++ post ->
   (forall a b, M a b = if (a == b) && (a < size pre)%N then nth zero [seq kv.2 | kv <- cov] a else zero) ->
   exists2 M', foldM (cov_step shks) post M = Ok M' &
    forall a b, M' a b = if (a == b) && (a < size cov)%N then nth zero [seq kv.2 | kv <- cov] a else zero.
  have [|M E H] := gen [::] cov (fun _ _ => zero) erefl; first by move=> a b; rewrite andbF.
  by exists M => // a b la lb; rewrite H la andbT.
move=> pre post; elim: post pre => [|[k v] post IH] pre M e H /=.
  by exists M => // a b; rewrite H e cats0.
have ki : index k shks = size pre.
  rewrite /shks e map_cat index_cat /= eqxx addn0 size_map; case: ifP => // kp.
  move: un; rewrite e map_cat cat_uniq => /and3P [_ nh _].
  by have := hasPn nh k (mem_head _ _); rewrite /= kp.
have kin : k \in shks by rewrite /shks e map_cat mem_cat /= mem_head orbT.
have pk : plain_name k by move: pl; rewrite e all_cat /= => /and3P [].
have [M' -> HM] := cov_step_plain M v pk kin.
apply: (IH (rcons pre (k, v)) M'); first by rewrite cat_rcons.
move=> a b; rewrite HM ki H size_rcons.
case: (a =P size pre) => [->|ne] /=.
  by rewrite eq_sym; case: eqP => //= _; rewrite ?ltnSn ?ltnn //= e map_cat nth_cat size_map ltnn subnn.
by rewrite ltnS [(a <= size pre)%N]leq_eqVlt (introF eqP ne).
Qed.

Lemma covariance_sym zero cov M : covariance zero cov = Ok M -> forall a b, M a b = M b a.
Proof.
rewrite /covariance; set shks := map _ _.
suff gen : forall l M0, (forall a b, M0 a b = M0 b a) -> foldM (cov_step shks) l M0 = Ok M -> forall a b, M a b = M b a by apply: gen.
elim=> [|[k v] l IH] M0 s0 /=; first by case=> <-.
case E: cov_step => [M1|] //; apply: IH; move: E; rewrite /cov_step.
set ll := (if size _ == 1 then _ else _); move: ll => ll.
case: ifP => _; last by case=> <-.
case: ifP => // _; case: ifP => // _; case=> <- a b; rewrite /put.
by rewrite !eqxx /= ![(b == _) && _]andbC; case: ((a == _) && _); case: ((a == _) && _).
Qed.
End Cov.
