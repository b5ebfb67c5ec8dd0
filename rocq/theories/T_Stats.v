(** C73-C76, C92-C94: decompositions, inputs of the marginal data density, posterior mean. *)
Set Warnings "-all".
From Coq Require Import String.
From mathcomp Require Import all_ssreflect all_algebra.
From Verif Require Import PyBase PyStr P_Loops M_FindLk M_Engine S_Engine M_Tools S_Tools P_Tools P_Tools2 P_Tools4 P_ToolsEx T_Tools M_Stats S_Stats P_Stats P_Stats2.
Set Implicit Arguments. Unset Strict Implicit. Unset Printing Implicit Defensive.
Import GRing.Theory Num.Theory Order.TTheory.
Local Open Scope ring_scope.

(** C73: the i-th band of the positive contributions reaches from the sum of the earlier ones to that sum plus the i-th; likewise
    for the negative ones *)
Theorem C73_bands (F : realFieldType) (hd : seq F) mins maxs : sort_nhd hd = Ok (mins, maxs) ->
  [/\ size mins = size hd, size maxs = size hd,
      forall i, (i < size hd)%N -> nth (0, 0) maxs i = (\sum_(h <- take i hd | 0 < h) h, \sum_(h <- take i.+1 hd | 0 < h) h) &
      forall i, (i < size hd)%N -> nth (0, 0) mins i = (\sum_(h <- take i hd | h < 0) h, \sum_(h <- take i.+1 hd | h < 0) h)].
Proof.
case: hd => // h hd.
have -> : sort_nhd (h :: hd) = let: (_, _, hmint, hmaxt) := foldl (@sort_step F) (0, 0, [::], [::]) (h :: hd) in Ok (hmint, hmaxt) by [].
move: (h :: hd) => {h}hd; rewrite sort_foldP !cat0s => -[<- <-]; split; rewrite ?size_map ?size_iota // => i li.
  by rewrite (nth_map 0%N) ?size_iota // nth_iota // !add0r add0n.
by rewrite (nth_map 0%N) ?size_iota // nth_iota // !add0r add0n.
Qed.
(** the bands start at zero, are contiguous and grow outwards, and the two outer levels add up to the sum of the contributions *)
Theorem C73_stacked (F : realFieldType) (hd : seq F) mins maxs : sort_nhd hd = Ok (mins, maxs) ->
  [/\ (head (0, 0) maxs).1 = 0 /\ (head (0, 0) mins).1 = 0,
      forall i, (i.+1 < size hd)%N -> (nth (0, 0) maxs i).2 = (nth (0, 0) maxs i.+1).1 /\ (nth (0, 0) mins i).2 = (nth (0, 0) mins i.+1).1,
      forall i, (i < size hd)%N -> (nth (0, 0) maxs i).1 <= (nth (0, 0) maxs i).2 /\ (nth (0, 0) mins i).2 <= (nth (0, 0) mins i).1,
      (last (0, 0) maxs).2 + (last (0, 0) mins).2 = \sum_(h <- hd) h &
      0 <= (last (0, 0) maxs).2 /\ (last (0, 0) mins).2 <= 0].
Proof.
move=> E; have [s1 s2 H1 H2] := C73_bands E; have sp : (0 < size hd)%N by case: (hd) E.
have l1 : last (0, 0) maxs = nth (0, 0) maxs (size hd).-1 by rewrite -s2 nth_last.
have l2 : last (0, 0) mins = nth (0, 0) mins (size hd).-1 by rewrite -s1 nth_last.
split.
- by rewrite -!nth0 H1 // H2 // take0 !big_nil.
- by move=> i li; rewrite !H1 ?H2 ?(ltnW li).
- move=> i li; rewrite H1 // H2 //= (take_nth 0) // -cats1 !big_cat /= !big_cons !big_nil; split.
    by rewrite ler_addl; case: ifP => [/ltW|]; rewrite ?addr0.
  by rewrite ger_addl; case: ifP => [/ltW|]; rewrite ?addr0 // => /ltW.
- rewrite l1 l2 H1 ?H2 ?prednK // take_size /=.
  rewrite [RHS](bigID (fun h => 0 < h)) /=; congr (_ + _); rewrite [RHS](bigID (fun h => h < 0)) /= [X in _ + X]big1 ?addr0.
    by apply: eq_bigl => h; case: ltrgt0P.
  by move=> h; case: ltrgt0P.
rewrite l1 l2 H1 ?H2 ?prednK // take_size /=; split; first by apply: sumr_ge0 => h /ltW.
by rewrite -oppr_ge0 -sumrN; apply: sumr_ge0 => h /ltW; rewrite oppr_ge0.
Qed.
Example C73_example : exists mins maxs, sort_nhd [:: 2%:Q; -1; 3%:Q] = Ok (mins, maxs) /\
  [seq b.2 | b <- maxs] = [:: 2%:Q; 2%:Q; 5%:Q] /\ [seq b.2 | b <- mins] = [:: 0; -1; -1].
Proof. by do 2 eexists; split; [reflexivity | split; apply/eqP]. Qed.

Section Nhd.
Variable F : realFieldType.
Variables (P : Type) (setpar : P -> res (tmodel F)) (dP : P).

Lemma nhd_inv lin T pars inits resids mf hd means : nhd setpar lin T pars inits resids = Ok (mf, hd, means) ->
  (0 < size pars)%N /\ setpar (last dP pars) = Ok mf /\
  exists rs, [/\ forall i, (i < size pars)%N -> exists m, [/\ setpar (nth dP pars i) = Ok m, (i < size inits)%N, (i < size resids)%N &
      nhd_sample m lin T (nth [::] inits i) (nth [::] resids i) = Ok (nth [::] rs i)],
    hd = (fun s t x => mean_of (size pars) (fun i => nth 0 (nth [::] (nth ([::], [::]) (nth [::] rs i) t).2 s) x)) &
    means = (fun t x => mean_of (size pars) (fun i => nth 0 (nth ([::], [::]) (nth [::] rs i) t).1 x))].
Proof.
rewrite /nhd; case E: mapM => [rs|] //=; case: pars E => [|p0 pars] E; first by case: rs E.
have [m0 Em0] : exists m0, setpar p0 = Ok m0 by move: E => /=; case: setpar => [m0|] //= _; exists m0.
have [sz H] := mapM_inv (p0, 0%N) (m0, [::]) E; rewrite size_zip size_iota minnn in sz H.
have H' i : (i < size (p0 :: pars))%N -> exists m, [/\ setpar (nth dP (p0 :: pars) i) = Ok m, (i < size inits)%N, (i < size resids)%N,
   nhd_sample m lin T (nth [::] inits i) (nth [::] resids i) = Ok (nth (m0, [::]) rs i).2 & (nth (m0, [::]) rs i).1 = m].
  move=> li; have := H i li; rewrite nth_zip ?size_iota // nth_iota // add0n (set_nth_default dP) //.
  case: setpar => [m|] //=; case: ifP => // /andP [l1 l2]; case En: nhd_sample => [r|] //= [<-]; by exists m.
case: rs sz E H H' => [|r0 rs] // sz E H H' [<- <- <-]; split=> //; split.
  have [m [h1 _ _ _ h2]] := H' (size pars) (ltnSn _).
  have e1 : last dP (p0 :: pars) = nth dP (p0 :: pars) (size pars) by rewrite -nth_last.
  have e2 : last r0 rs = nth (m0, [::]) (r0 :: rs) (size pars) by case: sz => <-; rewrite (last_nth (m0, [::])).
  by rewrite e1 e2 h1 h2.
exists [seq r.2 | r <- r0 :: rs]; split=> // i li; have [m [h1 h2 h3 h4 _]] := H' i li; exists m; split=> //.
by rewrite h4 (nth_map (m0, [::])) // sz.
Qed.
End Nhd.
Lemma linear_attributable (F : realFieldType) (m : tmodel F) init es : attributable m true init es.
Proof.
move=> xs fl E t lt; have [fls [_ _ /(_ t lt)]] := sim_steps E.
have e := sim_size E; move=> h; have := t_func_inv h; rewrite /=.
by case=> l' [k' [c [[-> _] _ _ _ _]]].
Qed.

(** C74: the contributions of all shocks add up to the mean state, in every period and for every variable *)
Theorem C74_adds_up (F : realFieldType) (P : Type) (setpar : P -> res (tmodel F)) dP linear T pars inits resids mf hd means ne :
  nhd setpar linear T pars inits resids = Ok (mf, hd, means) ->
  (forall i, (i < size pars)%N -> exists m, [/\ setpar (nth dP pars i) = Ok m, neps m = ne,
     good_draw m (nth [::] inits i) (nth [::] resids i) &
     linear \/ attributable m linear (nth [::] inits i) (nth [::] resids i)]) ->
  forall t x, (t < T)%N -> \sum_(s <- iota 0 ne) hd s t x = means t x.
Proof.
move=> E H t x lt; have [n0 [_ [rs [Hr -> ->]]]] := nhd_inv dP E.
rewrite /mean_of -mulr_suml exchange_big /=; congr (_ / _); apply: eq_big_seq => i; rewrite mem_iota add0n => /andP [_ li].
have [m [e1 e2 [[sm [f [omg [lam sd]]]] [gi al]] at_]] := H i li; have [m' [e1' _ _ Es]] := Hr i li.
move: e1'; rewrite e1 => -[em]; rewrite -em in Es.
have := sample_adds (dims sd) sd linear T gi al; rewrite Es => -[_ [_ [h1 h2]]].
rewrite h1 // -e2; apply: h2 => //; case: at_ => // ->; exact: linear_attributable.
Qed.
(** the second result is the mean of the simulated states *)
Theorem C74_means (F : realFieldType) (P : Type) (setpar : P -> res (tmodel F)) dP linear T pars inits resids mf hd means (md : nat -> tmodel F) :
  nhd setpar linear T pars inits resids = Ok (mf, hd, means) ->
  (forall i, (i < size pars)%N -> setpar (nth dP pars i) = Ok (md i) /\ good_draw (md i) (nth [::] inits i) (nth [::] resids i)) ->
  forall t x, (t < T)%N ->
    means t x = (\sum_(i <- iota 0 (size pars)) nth 0 (sim_state (md i) linear (nth [::] inits i) (nth [::] resids i) t) x) / (size pars)%:R.
Proof.
move=> E H t x lt; have [n0 [_ [rs [Hr _ ->]]]] := nhd_inv dP E.
congr (_ / _); apply: eq_big_seq => i; rewrite mem_iota add0n => /andP [_ li].
have [e1 [[sm [f [omg [lam sd]]]] [gi al]]] := H i li; have [m' [e1' _ _ Es]] := Hr i li.
move: e1'; rewrite e1 => -[em]; rewrite -em in Es.
by have := sample_adds (dims sd) sd linear T gi al; rewrite Es => -[_ [_ [h1 h2]]]; rewrite h1.
Qed.
(** it returns if there is at least one draw, and the number of shocks is one less than that of the data *)
Theorem C74_total (F : realFieldType) (P : Type) (setpar : P -> res (tmodel F)) dP linear T pars inits resids :
  (0 < size pars)%N -> size inits = size pars -> size resids = size pars ->
  (forall i, (i < size pars)%N -> (size (nth [::] resids i)).+1 = T /\ exists m, setpar (nth dP pars i) = Ok m /\ 
     good_draw m (nth [::] inits i) (nth [::] resids i)) ->
  is_ok (nhd setpar linear T pars inits resids).
Proof.
move=> n0 s1 s2 H; rewrite /nhd.
suff [rs E] : exists rs, mapM (fun a : P * nat => let: (p, i) := a in rbind (setpar p) (fun m => if (i < size inits)%N && (i < size resids)%N then
   rbind (nhd_sample m linear T (nth [::] inits i) (nth [::] resids i)) (fun r => Ok (m, r)) else Err IndexError)) (zip pars (iota 0 (size pars))) = Ok rs.
  rewrite E; have sz := mapM_size E.
  by case: rs sz {E} => //; rewrite size_zip size_iota minnn => e; rewrite -e in n0.
set f := fun a : P * nat => _.
have : forall i, (i < size pars)%N -> exists r, f (nth (dP, 0%N) (zip pars (iota 0 (size pars))) i) = Ok r.
  move=> i li; rewrite nth_zip ?size_iota // nth_iota // add0n /f; have [eT [m [-> [[sm [g [omg [lam sd]]]] [gi al]]]]] := H i li.
  rewrite /= s1 s2 li /=; have := sample_adds (dims sd) sd linear T gi al; case: nhd_sample => [r|e ne]; first by eexists.
  by case: ne.
have sz : size (zip pars (iota 0 (size pars))) = size pars by rewrite size_zip size_iota minnn.
rewrite -{1}sz; elim: (zip _ _) => [|a l IH] h; first by eexists.
rewrite /=; have [r ->] := h 0%N isT; have [|rs ->] := IH; last by eexists.
by move=> i li; apply: (h i.+1).
Qed.

(** if the contributions to the constraint cancel while a spell is expected, the constant part of the solution (what forcing the spell
    yields from the zero state without shocks) is attributed to nobody *)
Theorem C74_loss (F : realFieldType) (m : tmodel F) sm f omg lam linear init e x l k fl mf hd means :
  @solved F m sm f omg lam -> (nq m <= size init)%N -> size e = neps m ->
  t_func m init (Some e) KNone linear = Ok (x, (l, k), fl) -> k <> 0 -> constraint_part (inp_vec m init e) (l, k) = 0 ->
  nhd (fun _ : unit => Ok m) linear 2 [:: tt] [:: init] [:: [:: e]] = Ok (mf, hd, means) ->
  exists z, t_func m (nseq (nq m) 0) (Some (nseq (neps m) 0)) (KTuple l k) false = Ok (z, (l, k), 0%N) /\
    forall y, \sum_(s <- iota 0 (neps m)) hd s 1%N y = means 1%N y - nth 0 z y.
Proof.
move=> sd ge es Et k0 c0 E; have dm := dims sd; have ad := start_adds dm init; have [s1 s2 _] := ad.
have [l' [k' [fl' [c [b [hds' [[ll kk Ec Eb] E1 E2 [sz ss] H]]]]]]] := step_ok dm sd linear (conj s1 s2) ge es.
move: Et; rewrite E1 => -[ex el ek _]; move: c0; rewrite /constraint_part -el -ek /= Eb => c0.
exists (term c); split.
  rewrite (t_func_forced dm _ _ ll kk Ec) ?size_nseq // /cell_row /inp_vec.
  suff -> : col_of (dq m) (last_n (nq m) (nseq (nq m) (0 : F)) ++ nseq (neps m) 0) = 0 by rewrite !mulmx0 !add0r.
  apply/matrixP=> i j; rewrite !mxE last_n_id ?size_nseq // -nseqD nth_nseq if_same //.
have [_ [_ [rs [Hr -> ->]]]] := nhd_inv tt E; have [m' [[em] _ _ ]] := Hr 0%N isT; rewrite -em => {em m'}.
have -> : nhd_sample m linear 2 init [:: e] = rbind (nhd_step m linear (init, nseq (neps m) [seq x / (neps m)%:R | x <- init]) e)
  (fun r => Ok [:: (init, nseq (neps m) [seq x / (neps m)%:R | x <- init]); r]).
  rewrite /nhd_sample.
  have -> : nhd_loop m linear (init, nseq (neps m) [seq x / (neps m)%:R | x <- init]) [:: e] =
    rbind (nhd_step m linear (init, nseq (neps m) [seq x / (neps m)%:R | x <- init]) e) (fun y => Ok [:: y]) by [].
  by case: nhd_step.
rewrite E2 => -[er] y; rewrite /mean_of /=.
under eq_bigr do rewrite big_cons big_nil addr0 divr1 -er /=.
rewrite big_cons big_nil addr0 divr1 -er /=.
rewrite H (input_sum dm ad ge es) nth_cell_row /con c0 eqxx andbF addr0 addrK.
by [].
Qed.

Example C74_example : exists t b, let m := ex3_m t b in good_draw m [:: 0; 1] [:: [:: 1%:Q]; [:: 2%:Q]] /\
  is_ok (nhd (fun _ : unit => Ok m) true 3 [:: tt] [:: [:: 0; 1]] [:: [:: [:: 1%:Q]; [:: 2%:Q]]]).
Proof.
have [t [b sd]] := ex3_solved ex3_f; exists t, b.
have g : good_draw (ex3_m t b) [:: 0; 1] [:: [:: 1%:Q]; [:: 2%:Q]] by split=> //; do 4 eexists; exact: sd.
split=> //; apply: (@C74_total _ unit (fun _ => Ok (ex3_m t b)) tt true 3 [:: tt] [:: [:: 0; 1]] [:: [:: [:: 1%:Q]; [:: 2%:Q]]]) => //.
by case=> [|i] // _; split=> //; exists (ex3_m t b).
Qed.

(** C75: every column consists of shares, or of NaN *)
Theorem C75_shares (F : realFieldType) (P : Type) choice (setpar : P -> res (tmodel F)) m d horizon n linear m' vd :
  gfevd choice setpar m d horizon n linear = Ok (m', vd) ->
  size vd = neps m /\ forall x, (x < size (vvs m))%N ->
    (forall e, (e < neps m)%N -> nth None (nth [::] vd e) x = None) \/
    exists ws, [/\ size ws = neps m, forall e, (e < neps m)%N -> nth None (nth [::] vd e) x = Some (nth 0 ws e),
                   all (fun w => 0 <= w <= 1) ws & \sum_(w <- ws) w = 1].
Proof.
rewrite /gfevd; case: (e_means d) => [means|] //=; case: ifP => // _; case: mapM => [sample|] //=.
case E: foldM => [[m1 gis]|] //= [_ <-].
have tb0 : tabl (neps m) (size (vvs m)) (nseq (neps m) (nseq (size (vvs m)) (0 : F))).
  split; first by rewrite size_nseq.
  by move=> e le; rewrite nth_nseq le size_nseq; split=> // x; rewrite nth_nseq if_same.
have [sg tb] := samples_tabl0 tb0 E; split; first by rewrite size_map sg.
move=> x lx; set tot := \sum_(g <- gis) nth 0 g x.
have nn e : (e < neps m)%N -> nth None (nth [::] [seq [seq (if \sum_(g0 <- gis) nth 0 g0 x == 0 then None else
   Some (nth 0 g x / \sum_(g0 <- gis) nth 0 g0 x)) | x <- iota 0 (size (vvs m))] | g <- gis] e) x =
   if tot == 0 then None else Some (nth 0 (nth [::] gis e) x / tot).
  by move=> le; rewrite (nth_map [::]) ?sg // (nth_map 0%N) ?size_iota // nth_iota.
have [t0|t0] := eqVneq tot 0; first by left=> e le; rewrite nn // t0 eqxx.
right; exists [seq nth 0 g x / tot | g <- gis]; split.
- by rewrite size_map sg.
- by move=> e le; rewrite nn // (negbTE t0) (nth_map [::]) ?sg.
- have tp : 0 < tot by rewrite lt0r t0 /tot big_seq sumr_ge0 // => g /(nthP [::]) [e le <-]; rewrite sg in le; have [_ ->] := tb e le.
  apply/allP=> w /mapP [g /(nthP [::]) [e le <-] ->]; have le' := le; rewrite sg in le'.
  apply/andP; split; first by apply: divr_ge0; [case: (tb e le') => _; apply | exact: ltW].
  rewrite ler_pdivr_mulr // mul1r /tot (big_nth [::]) big_mkord (bigD1 (Ordinal le)) //= ler_addl sumr_ge0 // => i _.
  by have /tb [_] : (i < neps m)%N by [rewrite -sg]; apply.
by rewrite big_map -mulr_suml -/tot divff.
Qed.

Lemma In_map A B (f : A -> B) l y : List.In y (map f l) -> exists x, List.In x l /\ y = f x.
Proof. by elim: l => //= x l IH [<-|/IH [z [zi ->]]]; [exists x; split; [left|] | exists z; split; [right|]]. Qed.
Lemma sampleE (P : Type) (F : realFieldType) (R S : seq (seq F)) (Q : seq (option P)) draws sample :
  mapM (fun i => if [&& i < size R, i < size S & i < size Q]%N then Ok (nth [::] R i, nth [::] S i, nth None Q i) else Err IndexError) draws = Ok sample ->
  sample = [seq (nth [::] R i, nth [::] S i, nth None Q i) | i <- draws] /\ all (fun i => i < size Q)%N draws.
Proof.
elim: draws sample => [|i draws IH] sample /=; first by case=> <-.
by case: ifP => // /and3P [_ _ ->]; case: mapM IH => [l|] // /(_ _ erefl) [-> ->] [<-].
Qed.
Lemma nth_flatten_nseq (P : Type) n (pars : seq (option P)) (b : option P -> bool) i : 
  all b pars -> (i < size (flatten [seq nseq n p | p <- pars]))%N -> b (nth None (flatten [seq nseq n p | p <- pars]) i).
Proof.
elim: pars i => [|p pars IH] i //= /andP [bp bs]; rewrite size_cat nth_cat size_nseq; case: (ltnP i n) => h; first by rewrite nth_nseq h.
by rewrite -ltn_subLR // => l; apply: IH.
Qed.
(** each share is the part of the shock in the sum of the squared responses over the drawn samples; NaN if nothing responds *)
Theorem C75_value (F : realFieldType) (P : Type) choice (setpar : P -> res (tmodel F)) m d horizon n linear m' vd md :
  gfevd choice setpar m d horizon n linear = Ok (m', vd) ->
  uniq (shk m) -> models_of setpar m d md -> (forall o, shk (md o) = shk m) ->
  exists draws, draws = choice (size (flatten (e_resid d))) (if n is Some k.+1 then k.+1 else size (flatten (e_resid d))) /\
  let g := gain md d draws horizon linear (shk m) in
  forall e x, (e < neps m)%N -> (x < size (vvs m))%N -> 
    nth None (nth [::] vd e) x =
    (if \sum_(j <- iota 0 (neps m)) g j x == 0 then None else Some (g e x / \sum_(j <- iota 0 (neps m)) g j x)).
Proof.
rewrite /gfevd; case Em: (e_means d) => [means|] //=; case: ifP => // _.
set draws := choice _ _; case Es: mapM => [sample|] //=; have [es al] := sampleE Es.
case E: foldM => [[m1 gis]|] //= [_ <-] un mo hs; exists draws; split=> //.
pose g := gain md d draws horizon linear (shk m); move=> e x le lx.
have tb0 : tabl (neps m) (size (vvs m)) (nseq (neps m) (nseq (size (vvs m)) (0 : F))).
  split; first by rewrite size_nseq.
  by move=> j lj; rewrite nth_nseq lj size_nseq; split=> // y; rewrite nth_nseq if_same.
have hm : (forall s, List.In s sample -> s.2 = None) /\ md None = m \/ 
   (forall s, List.In s sample -> s.2 <> None) /\ (forall p m', setpar p = Ok m' -> md (Some p) = m').
  have li s : List.In s sample -> exists2 i, (i < size (flatten [seq nseq (size (head [::] (e_resid d))) p | p <- e_pars d]))%N &
     s.2 = nth None (flatten [seq nseq (size (head [::] (e_resid d))) p | p <- e_pars d]) i.
    rewrite es => si; have [i [ii ->]] := In_map si; exists i => //.
    by elim: (draws) al ii => //= y l IH /andP [ly /IH al] [<-|/al].
  case: mo => [[aN em]|[aS hp]]; [left|right]; split=> // s /li [i l1 ->].
    by have /= := nth_flatten_nseq aN l1; case: nth.
  by have /= := nth_flatten_nseq aS l1; case: nth.
have [sg _] := samples_tabl0 tb0 E.
have H j y : (j < neps m)%N -> (y < size (vvs m))%N -> nth 0 (nth [::] gis j) y = g j y.
  move=> lj ly; rewrite (samples_tabl tb0 un hs hm E) // nth_nseq lj nth_nseq ly add0r es big_map /g /gain /gf_data Em; exact: eq_bigr.
have T y : (y < size (vvs m))%N -> \sum_(g0 <- gis) nth 0 g0 y = \sum_(j <- iota 0 (neps m)) g j y.
  move=> ly; rewrite (big_nth [::]) sg /index_iota subn0; apply: eq_big_seq => j; rewrite mem_iota add0n => /andP [_ lj]; exact: H.
by rewrite (nth_map [::]) ?sg // (nth_map 0%N) ?size_iota // nth_iota // add0n T // H.
Qed.
(** the dictionary returned by extract is not accepted *)
Theorem C75_extract_refuted (F : realFieldType) (P : Type) choice (setpar : P -> res (tmodel F)) m pars resid horizon n linear :
  gfevd choice setpar m (extract_result pars resid) horizon n linear = Err KeyError.
Proof. by []. Qed.

(** C76: with an endogenous state the index cannot be computed: [vd] has as many columns as there are variables *)
Theorem C76_dimension_error (F : realFieldType) (R : Type) (rest : seq (seq F) -> res R) (m : tmodel F) g vd :
  size (vvs m) = (dp m + nq m)%N -> (0 < nq m)%N -> size g = size (vvs m) -> mbcs_index rest m (g :: vd) = Err ValueError.
Proof.
by move=> e n0 sg; rewrite /mbcs_index /= /matvec sg e; case: eqP => // h; rewrite -[in RHS](addn0 (dp m)) in h; move/eqP: h; rewrite eqn_add2l gtn_eqF.
Qed.
Theorem C76_solved (F : realFieldType) (R : Type) (rest : seq (seq F) -> res R) (m : tmodel F) sm f omg lam
    (P : Type) choice (setpar : P -> res (tmodel F)) d horizon n linear m' vd (vd' : seq (seq F)) :
  @solved F m sm f omg lam -> gfevd choice setpar m d horizon n linear = Ok (m', vd) -> vd = [seq [seq Some x | x <- g] | g <- vd'] ->
  mbcs_index rest m vd' = Err ValueError.
Proof.
move=> sd E ev; have [e0 lt] := andP (dims sd).
have [sz _] := C75_shares E; have : (0 < size vd')%N by rewrite -(size_map (map Some)) -ev sz.
case: vd' ev => // g vd' ev _; apply: C76_dimension_error; first exact: (sd_vv sd).
  by rewrite subn_gt0.
move: E; rewrite /gfevd; case: (e_means d) => [means|] //=; case: ifP => // _; case: mapM => [sample|] //=.
case: foldM => [[m1 gis]|] //= [_ e]; move: e; rewrite ev; case: gis => // g0 gis /= [e _].
by have := f_equal size e; rewrite !size_map size_iota => <-.
Qed.

Lemma call_ok (F : realFieldType) (m : tmodel F) sm f omg lam h st e x : @solved F m sm f omg lam -> uniq (shk m) -> (0 < h)%N -> (nq m <= size st)%N ->
  e \in shk m -> exists2 r, gf_call m h false st e x = Ok r & size r = size (vvs m).
Proof.
move=> sd un h0 ge ein; have [H _] := C80_irfs_total (P := unit) (fun _ => Err GenericException) (fun _ => false)
  [:: STriple e x 0] h None sd un (isT : endogenous (KBool false)) (st0 := Some st) ge.
have [|rows [err [mult [E sz]]]] := H; first by move=> t lt; rewrite /known_at /= ein implybT.
rewrite /gf_call E /=; case: rows sz E => [|r rs] sz E; first by rewrite -sz in h0.
exists (last r rs).1 => //; move: E; rewrite /irfs /irf_run.
set st0 := IS _ _ _ _ _; case Ef: foldM => [s1|] //= [er _ _].
have : all (fun r => size r.1 == size (vvs m)) (i_rows s1).
  apply: (foldM_ind (I := fun s => all (fun r => size r.1 == size (vvs m)) (i_rows s)) _ _ Ef) => // s y s'.
  move=> al; rewrite /irf_step; case: shock_vec => [sv|] //=; case: (if _ then _ else _) => [[eff mu]|] //=.
  case: ifP => // _; case: t_func => [[[a b] c]|] //=; case: ifP => // sa [<-] /=; by rewrite sa.
rewrite -all_rev er => /allP /(_ _ (mem_last r rs)) /eqP //.
Qed.
Lemma shocks_ok (F : realFieldType) (m : tmodel F) sm f omg lam h rs st es gis : @solved F m sm f omg lam -> uniq (shk m) -> (0 < h)%N ->
  (nq m <= size st)%N -> size rs = neps m -> {subset es <= shk m} -> tabl (neps m) (size (vvs m)) gis ->
  exists2 g, foldM (gf_shock m h false rs st) es gis = Ok g & tabl (neps m) (size (vvs m)) g.
Proof.
move=> sd un h0 ge sr; elim: es gis => [|e es IH] gis sub tb; first by exists gis.
have ein : e \in shk m by apply: sub; rewrite inE eqxx.
have li : (index e (shk m) < neps m)%N by rewrite index_mem.
have [a Ea sa] := call_ok (nth 0 rs (index e (shk m))) sd un h0 ge ein; have [b Eb sb] := call_ok 0 sd un h0 ge ein.
have [sg tg] := tb; have [s1 _] := tg _ li.
have [g Eg] : exists g, gf_shock m h false rs st gis e = Ok g.
  rewrite /gf_shock /py_find ein /= sr sg li /= Ea /= Eb /= /vadd s1 size_map size1_zip ?sa ?sb // eqxx /=; by eexists.
have [tb1 _] := shock_tabl tb Eg; rewrite /= Eg; apply: IH => // y ye; apply: sub; by rewrite inE ye orbT.
Qed.
(** it returns for a solved model and complete samples *)
Theorem C75_total (F : realFieldType) (P : Type) choice (setpar : P -> res (tmodel F)) m sm f omg lam d means horizon n :
  @solved F m sm f omg lam -> uniq (shk m) -> (0 < horizon)%N ->
  e_means d = Some means -> all (fun o => ~~ isSome o) (e_pars d) ->
  let: (R, St, Q) := gf_data d in
  all (fun e => size e == neps m) R -> all (fun s => nq m <= size s)%N St -> (size R <= size St)%N -> (size R <= size Q)%N ->
  (forall k, n = Some k -> (k <= size R)%N) -> (forall a b, (b <= a)%N -> all (fun i => i < a)%N (choice a b)) ->
  is_ok (gfevd choice setpar m d horizon n false).
Proof.
move=> sd un h0 em aN; rewrite /gf_data /gfevd em /=.
set R := flatten (e_resid d); set St := flatten [seq take _ _ | _ <- _]; set Q := flatten [seq nseq _ _ | _ <- _].
move=> aR aS lS lQ hn hc; set k := (match n with Some _.+1 => _ | _ => _ end).
have kR : (k <= size R)%N by rewrite /k; case: (n) hn => [[|j]|] // /(_ _ erefl).
rewrite ltnNge kR /=; have := hc _ _ kR; set draws := choice _ _ => al.
rewrite (@mapM_ok _ _ _ (fun i => (nth [::] R i, nth [::] St i, nth None Q i))); last first.
  by move=> i /(allP al) li; rewrite li (leq_trans li lS) (leq_trans li lQ).
have tb0 : tabl (neps m) (size (vvs m)) (nseq (neps m) (nseq (size (vvs m)) (0 : F))).
  split; first by rewrite size_nseq.
  by move=> j lj; rewrite nth_nseq lj size_nseq; split=> // y; rewrite nth_nseq if_same.
rewrite [rbind _ _]/=; move: (nseq (neps m) _) tb0 => gis tb.
suff [g ->] : exists g, foldM (gf_sample setpar horizon false) [seq (nth [::] R i, nth [::] St i, nth None Q i) | i <- draws] (m, gis) = Ok (m, g) by [].
elim: (draws) al gis tb => [|i l IH]; first by move=> _ gis _; exists gis.
rewrite [all _ _]/= [map _ (_ :: _)]/=; case/andP=> li /IH {}IH gis tb.
have -> : nth None Q i = None by have /= := nth_flatten_nseq aN (leq_trans li lQ); case: nth.
have sr : size (nth [::] R i) = neps m by apply/eqP/(allP aR)/mem_nth.
have ss : (nq m <= size (nth [::] St i))%N by apply/(allP aS)/mem_nth/(leq_trans li lS).
have [g Eg tg] := shocks_ok sd un h0 ss sr (fun _ h => h) tb.
have e : gf_sample setpar horizon false (m, gis) (nth [::] R i, nth [::] St i, None) = Ok (m, g) by rewrite /gf_sample [rbind (Ok m) _]/= Eg.
have [g' Eg'] := IH g tg; exists g'; rewrite -Eg'.
have fc X s xs (y : X) z : foldM (gf_sample setpar horizon false) (s :: xs) z =
  match gf_sample setpar horizon false z s with Ok w => foldM (gf_sample setpar horizon false) xs w | Err e => Err e end by [].
by rewrite (fc unit _ _ tt) e.
Qed.
Example C75_example : exists t b, let m := ex3_m t b in let d := ED (Some [:: [:: [:: 0; 1]; [:: 0; 2%:Q]]]) [:: (None : option unit)] [:: [:: [:: 1%:Q]]] in
  models_of (fun _ => Ok m) m d (fun _ => m) /\ is_ok (gfevd (fun a b => iota 0 b) (fun _ => Ok m) m d 4 None false).
Proof.
have [t [b sd]] := ex3_solved ex3_f; exists t, b; split; first by left.
apply: (C75_total (choice := fun a b => iota 0 b) _ sd (means := [:: [:: [:: 0; 1]; [:: 0; 2%:Q]]]) (d := ED (Some [:: [:: [:: 0; 1]; [:: 0; 2%:Q]]]) [:: (None : option unit)] [:: [:: [:: 1%:Q]]])) => //.
by move=> x y le; apply/allP=> i; rewrite mem_iota => /andP [_ /leq_trans ->].
Qed.

Lemma drop_zip2 A B n (s : seq A) (t : seq B) : drop n (zip s t) = zip (drop n s) (drop n t).
Proof. elim: n s t => [|n IH] [|x s] [|y t] //=; [by case: (drop n t) | by case: (drop n s)]. Qed.
(** C92: draws and probabilities correspond one to one *)
Theorem C92_pairs (F : realFieldType) (V : Type) (c : seq (seq V)) (p : seq (seq F)) own_tune tune t :
  size c = size p -> [seq size r | r <- c] = [seq size r | r <- p] ->
  (tune = Some t \/ (tune = None \/ tune = Some 0%N) /\ own_tune = Ok t) -> (0 < t)%N ->
  exists cs ps, [/\ mdd_inputs (Ok c) (Ok p) own_tune None None tune = Ok (cs, ps), size cs = size ps &
    zip cs ps = flatten [seq zip r.1 r.2 | r <- last_n t (zip c p)]].
Proof.
move=> s1 s2 ht t0; exists (flatten (last_n t c)), (flatten (last_n t p)).
have E : mdd_inputs (Ok c) (Ok p) own_tune None None tune = Ok (flatten (last_n t c), flatten (last_n t p)).
  rewrite /mdd_inputs /tail_n; case: t t0 ht => // t _ [->|[[->|->] ->]] //=.
have ld : last_n t (zip c p) = zip (last_n t c) (last_n t p).
  by rewrite /last_n size1_zip ?s1 // drop_zip2.
have s3 : [seq size r | r <- last_n t c] = [seq size r | r <- last_n t p] by rewrite /last_n !map_drop s2 s1.
have : size (flatten (last_n t c)) = size (flatten (last_n t p)) /\
  zip (flatten (last_n t c)) (flatten (last_n t p)) = flatten [seq zip r.1 r.2 | r <- zip (last_n t c) (last_n t p)].
  elim: (last_n t c) (last_n t p) s3 {E ld} => [|x c' IH] [|y p'] //= [e1 /IH [h1 h2]]; by rewrite !size_cat e1 h1 zip_cat // h2.
by rewrite ld => -[h1 h2]; split.
Qed.
(** a chain passed without probabilities is combined with the recorded probabilities, whatever chain it is *)
Theorem C92_given_chain (F : realFieldType) (V : Type) own_chain (p : seq (seq F)) own_tune tune t (c : seq V) :
  (tune = Some t \/ (tune = None \/ tune = Some 0%N) /\ own_tune = Ok t) -> (0 < t)%N ->
  mdd_inputs own_chain (Ok p) own_tune (Some c) None tune = Ok (c, flatten (last_n t p)).
Proof. by case: t => // t [->|[[->|->] ->]] _ //=. Qed.
Example C92_example : mdd_inputs (F := [realFieldType of rat]) (Ok [:: [:: 1%N; 2]; [:: 3; 4]; [:: 5; 6]]%N) 
   (Ok [:: [:: 0; 0]; [:: 1; 0]; [:: 0; 1]]) (Ok 2%N) None None None = Ok ([:: 3; 4; 5; 6]%N, [:: 1; 0; 0; 1]).
Proof. by []. Qed.

(** C93: the mean over all walkers of the last tune steps of the recorded chain *)
Theorem C93_post_mean (F : realFieldType) (c : seq (seq (seq F))) own_tune tune t :
  (tune = Some t \/ (tune = None \/ tune = Some 0%N) /\ own_tune = Ok t) -> (0 < t)%N ->
  exists2 mu, post_mean (Ok c) own_tune None tune = Ok mu &
    forall j, mu j = (\sum_(r <- flatten (last_n t c)) nth 0 r j) / (size (flatten (last_n t c)))%:R.
Proof. by case: t => // t [->|[[->|->] ->]] _; eexists. Qed.
(** a chain that is passed is rejected as soon as it has two numbers *)
Theorem C93_given_chain_refuted (F : realFieldType) own_chain own_tune (c : seq (seq (seq F))) tune t : tune = Some t.+1 ->
  (1 < \sum_(s <- c) \sum_(r <- s) size r)%N -> post_mean own_chain own_tune (Some c) tune = Err ValueError.
Proof.
move=> -> h; rewrite /post_mean /array_truth /=.
have : (1 < size (flatten [seq flatten r | r <- c]))%N.
  rewrite size_flatten /seq.shape -map_comp sumnE big_map; apply: leq_trans h _; apply: leq_sum => s _.
  by rewrite /= size_flatten /seq.shape sumnE big_map.
by case: (flatten _) => [|x [|y l]].
Qed.
Example C93_example : (1 < \sum_(s <- [:: [:: [:: 1%:Q; 2%:Q]]]) \sum_(r <- s) size r)%N. Proof. by rewrite !big_cons !big_nil. Qed.

(** C94: the decompositions change the model: it is left at the parameters of the last draw *)
Theorem C94_nhd (F : realFieldType) (P : Type) (setpar : P -> res (tmodel F)) dP linear T pars inits resids mf hd means :
  nhd setpar linear T pars inits resids = Ok (mf, hd, means) -> setpar (last dP pars) = Ok mf.
Proof. by move=> E; have [_ []] := nhd_inv dP E. Qed.
Theorem C94_gfevd (F : realFieldType) (P : Type) choice (setpar : P -> res (tmodel F)) m d horizon n linear m' vd i p :
  gfevd choice setpar m d horizon n linear = Ok (m', vd) ->
  ohead (rev (choice (size (flatten (e_resid d))) (if n is Some k.+1 then k.+1 else size (flatten (e_resid d))))) = Some i ->
  nth None (gf_data d).2 i = Some p -> setpar p = Ok m'.
Proof.
rewrite /gfevd /gf_data; case: (e_means d) => [means|] //=; case: ifP => // _.
set draws := choice _ _; case Es: mapM => [sample|] //=; have [-> _] := sampleE Es.
case: (lastP draws) => [|l i0]; first by [].
rewrite map_rcons -cats1 foldM_cat; case: foldM => [[m0 g0]|] //=.
set o := nth None _ i0; rewrite rev_rcons /= => E [ei]; rewrite -ei -/o => eo; move: E; rewrite eo.
by case: setpar => [m1|] //=; case: foldM => [g1|] //= [<-].
Qed.
Print Assumptions C73_bands.
Print Assumptions C73_stacked.
Print Assumptions C74_adds_up.
Print Assumptions C74_means.
Print Assumptions C74_total.
Print Assumptions C74_loss.
Print Assumptions C75_shares.
Print Assumptions C75_value.
Print Assumptions C75_extract_refuted.
Print Assumptions C76_dimension_error.
Print Assumptions C76_solved.
Print Assumptions C75_total.
Print Assumptions C92_pairs.
Print Assumptions C92_given_chain.
Print Assumptions C93_post_mean.
Print Assumptions C93_given_chain_refuted.
Print Assumptions C94_nhd.
Print Assumptions C94_gfevd.
