(** Estimation sessions: C122-C125. *)
Set Warnings "-all".
From Coq Require Import String ZArith.
From mathcomp Require Import all_ssreflect all_algebra.
From Verif Require Import PyBase PyStr M_Solve M_Filter M_Params M_Estim M_Cls M_Mcmc M_Session S_Session P_Session.
From Verif Require Import S_Params P_Params T_Params T_Sets.
Set Implicit Arguments. Unset Strict Implicit. Unset Printing Implicit Defensive.
Local Open Scope seq_scope.

Section T.
Variables (V K PS RR I B : Type).
Variables (draws : K -> res (seq (seq V))) (log_probs : K -> res (seq (seq V))) (acceptance : K -> res (seq V)).
Variables (shape : K -> nat * nat * nat) (tpm : settings -> PS -> PS * res unit) (newf : settings -> PS -> res (option RR)).
Variables (dry : flt RR -> PS -> res unit) (names : seq string) (gp : res ((V -> V) * I * B)) (mkp : res unit).
Notation sess := (sess V K PS RR I B).
Notation op := (op K PS RR).
Notation prep := (@prep_estim V K PS RR I B tpm newf dry names gp mkp).
Notation gchain := (@get_chain V K PS RR I B draws tpm newf dry names gp mkp).
Notation ginfo := (@info V K PS RR I B draws shape tpm newf dry names gp mkp).
Notation mcall := (@mcmc_call V K PS RR I B tpm newf dry names gp mkp).
Notation step := (@do V K PS RR I B draws log_probs acceptance shape tpm newf dry names gp mkp).
Notation after := (@after V K PS RR I B draws log_probs acceptance shape tpm newf dry names gp mkp).
Notation fresh := (@fresh V K PS RR I B).
Implicit Types (s : sess) (h : seq op).

Lemma after_cat s h1 h2 : after s (h1 ++ h2) = after (after s h1) h2. Proof. exact: foldl_cat. Qed.

(** ** C122 *)
Definition agree (s : sess) (cur : bool) (disk : option bool) : Prop :=
  [/\ odflt false (d_upt (d_set (o_meta s))) = cur,
      forall b, o_bp s = Some b -> exists bp i bd, gp = Ok (bp, i, bd) /\ b = (if cur then Some bp else None) &
      match disk with
      | Some b => exists m n, [/\ o_disk s = Some m, d_name m = Some n & odflt false (d_upt (d_set m)) = b]
      | None => o_disk s = None
      end].
Lemma agree_prep s a c k : agree s c k -> (forall b, a_upt (p_args a) = Some b -> (prep s a).2 = Ok tt) ->
  agree (prep s a).1 (odflt c (a_upt (p_args a))) k.
Proof.
move=> [h1 h2 h3] took; have [[e1 e2 e3 e4 e5 e6 e7 e8 e9 e10 e11 e12 e13] es eb _ eok] := prepP tpm newf dry names gp mkp s a.
have [r1 r2] := resolve_upt (d_set (o_meta s)) (p_args a).
split; first by rewrite es r1 /= r2 h1.
  move=> b eb'; case E: (a_upt (p_args a)) => [v|] /=.
    have [bp [i [bd [R [[q1 _] q2 _ _ _]]]]] := eok (took _ E); exists bp, i, bd; split=> //.
    by move: q2; rewrite eb' /settings_of r2 E => -[->].
  case: eb => [eb|[bp [i [bd [q1 q2]]]]]; first by move: eb'; rewrite eb => /h2.
  by exists bp, i, bd; split=> //; move: q2; rewrite eb' /settings_of r2 E /= h1 => -[->].
by rewrite e7.
Qed.
Lemma agree_step s o c k : agree s c k ->
  (forall a b, o = OPrep _ _ _ a -> a_upt (p_args a) = Some b -> (prep s a).2 = Ok tt) ->
  agree (step s o).1 (in_force_step (c, k) o).1 (in_force_step (c, k) o).2.
Proof.
move=> ag took; have dflt : agree (prep s default_call).1 c k by apply: (agree_prep (a := default_call) ag).
case: o took => [a|a x|f|f|f| | |p|p|R] took; rewrite ?[step _ _]/=.
- have -> : in_force_step (c, k) (OPrep K PS RR a) = (odflt c (a_upt (p_args a)), k) by rewrite /in_force_step /=; case: (a_upt _).
  exact: agree_prep ag (fun b => took a b erefl).
- have dm : agree (prep s (PCall no_args true true)).1 c k by apply: (agree_prep (a := PCall no_args true true) ag).
  have [e1 e2 e3 [e4 e5] _] := mcall_keep tpm newf dry names gp mkp s a x.
  set s1 := (if o_ndim s is None then _ else s) in e1 e2 e3 e4 e5.
  have [h1 h2 h3] : agree s1 c k by rewrite /s1; case: (o_ndim s).
  by split; rewrite ?e1 ?e2 ?e3.
- by rewrite /ignore [_.1]/=; case: (chain_state draws tpm newf dry names gp mkp s f) => [->|[_ ->]].
- by [].
- by [].
- by rewrite /ignore [_.1]/=; case: (info_state draws shape tpm newf dry names gp mkp s) => [->|[_ ->]].
- by case: ag => h1 h2 h3; split=> //=; exists (o_meta (save_meta s)), (o_name s); split.
- case: ag => h1 h2 h3; rewrite /load; clear dflt; case: k h3 => [b|] /=; last by move=> e; rewrite e; split.
  by move=> [m [n [q1 q2 q3]]]; rewrite q1 q2; split=> //=; exists m, n; split.
- by [].
- by rewrite /=; case: (o_filter s).
Qed.
Lemma agree_after n path p chains h : settings_took step (fresh n path p chains) h ->
  agree (after (fresh n path p chains) h) (foldl (@in_force_step K PS RR) (false, None) h).1 (foldl (@in_force_step K PS RR) (false, None) h).2.
Proof.
elim/last_ind: h => [|h o IH] took; first by split.
rewrite /after -cats1 !foldl_cat /= -/(after _ _).
have ag : agree (after (fresh n path p chains) h) (foldl (@in_force_step K PS RR) (false, None) h).1
                (foldl (@in_force_step K PS RR) (false, None) h).2.
  by apply: IH => h1 a h2 b e; apply: (took h1 a (rcons h2 o)); rewrite e rcons_cat.
move: ag; case: (foldl (@in_force_step K PS RR) _ h) => c k ag; apply: agree_step ag _ => a b e eb.
by apply: (took h a [::] b _ eb); rewrite -cats1 e.
Qed.

(** C122: whatever happened, a chain that get_chain returns shows the stored draws, transformed if use_prior_transform is in force
    (the last value passed; after loading, the one at the last saving) *)
Theorem C122_coordinates n path p chains h file c : let s := after (fresh n path p chains) h in
  settings_took step (fresh n path p chains) h -> (gchain s file).2 = Ok c ->
  exists k raw bp i b, [/\ get_reader (cst_of s) file = Ok k, draws k = Ok raw, gp = Ok (bp, i, b) &
    c = if in_force h then [seq [seq bp v | v <- r] | r <- raw] else raw].
Proof.
move=> s took; have := agree_after took; rewrite -/s -/(in_force h).
move: (in_force h) (_.2) => cur k ag; rewrite /get_chain; case: get_reader => [rd|e] //=; case er: (draws rd) => [raw|e] //=.
have fin s1 b : agree s1 cur k -> o_bp s1 = Some b -> Ok (apply_bp b raw) = Ok c ->
  exists k0 raw0 bp i b0, [/\ Ok rd = Ok k0, draws k0 = Ok raw0, gp = Ok (bp, i, b0) &
    c = if cur then [seq [seq bp v | v <- r] | r <- raw0] else raw0].
  move=> [_ h2 _] /h2 [bp [i [bd [q1 ->]]]] [<-]; exists rd, raw, bp, i, bd; split=> //; by case: (cur).
case E: (o_bp s) => [b|] /=; first by rewrite E => /(fin _ _ ag E).
have ag2 : agree (prep s default_call).1 cur k by apply: (agree_prep (a := default_call) ag).
case: (prep s default_call) ag2 => s1 [u|e] //= ag2; case E1: (o_bp s1) => [b|] //=; exact: fin ag2 E1.
Qed.

Lemma took_rcons s h o : (forall a, o <> OPrep _ _ _ a) -> settings_took step s h -> settings_took step s (rcons h o).
Proof.
move=> no took h1 a h2 b; elim/last_ind: h2 => [|h2 o' _]; first by rewrite cats1 => /rcons_inj [_ /no].
by rewrite -rcons_cons -rcons_cat => /rcons_inj [E _]; apply: took E.
Qed.
(** C122: so a chain reads the same in a later session *)
Theorem C122_later_session n path p chains h p' file c c' k : let s := after (fresh n path p chains) h in
  settings_took step (fresh n path p chains) h -> let s' := after s [:: OSave _ _ _; OLoad _ _ p'] in
  get_reader (cst_of s) file = Ok k -> get_reader (cst_of s') file = Ok k ->
  (gchain s file).2 = Ok c -> (gchain s' file).2 = Ok c' -> c' = c.
Proof.
move=> s took s' rk rk' e e'; have [k1 [raw1 [bp1 [i1 [b1 [q1 q2 q3 ->]]]]]] := C122_coordinates took e.
have took' : settings_took step (fresh n path p chains) (h ++ [:: OSave _ _ _; OLoad _ _ p']).
  by rewrite (catA h [:: _] [:: _]) !cats1; do 2!apply: took_rcons => //.
have e2 : (gchain (after (fresh n path p chains) (h ++ [:: OSave _ _ _; OLoad _ _ p'])) file).2 = Ok c' by rewrite after_cat.
have [k2 [raw2 [bp2 [i2 [b2 [r1 r2 r3 ->]]]]]] := C122_coordinates took' e2.
rewrite after_cat -/s' rk' in r1; rewrite rk in q1; case: r1 q1 r2 q2 => <- [<-] -> [->].
have <- : in_force h = in_force (h ++ [:: OSave _ _ _; OLoad _ _ p']) by rewrite /in_force foldl_cat; case: (foldl _ _ h).
by move: r3; rewrite q3 => -[->].
Qed.

(** C122: a later session reads the chain from the recorded file, or the one of standard name, not from the memory of the earlier one *)
Theorem C122_from_file s p : let file := if d_backend (o_meta s) is Some f then f else os_join (o_path s) (o_name s +++ "_sampler.h5") in
  file <> ""%string -> get_reader (cst_of (after s [:: OSave _ _ _; OLoad _ _ p])) None = of_opt NameError (o_chains s file).
Proof. by rewrite /get_reader /cst_of /=; case: (d_backend _) => [f|]; [case: f | case: (os_join _ _)]. Qed.

(** ** C123 *)
(** C123: reading log-probabilities or acceptance rates changes nothing; reading a chain or the information changes nothing once
    prep_estim has returned in this session *)
Theorem C123_pure s file : (step s (OLogProb _ _ _ file)).1 = s /\ (step s (OAccept _ _ _ file)).1 = s.
Proof. by []. Qed.
Lemma bp_step s o : ~~ is_load o -> o_bp s <> None -> o_bp (step s o).1 <> None.
Proof.
have pr s1 a : o_bp s1 <> None -> o_bp (prep s1 a).1 <> None.
  by have [_ _ [->|[bp [i [b [_ ->]]]]] _ _] := prepP tpm newf dry names gp mkp s1 a.
case: o => [a|a x|f|f|f| | |p|p|R] //= _ hb; first exact: pr.
- have [_ -> _ _ _] := mcall_keep tpm newf dry names gp mkp s a x; by case: (o_ndim s) => // ; apply: pr.
- by case: (chain_state draws tpm newf dry names gp mkp s f) => [->|[_ ->]] //; apply: pr.
- by case: (info_state draws shape tpm newf dry names gp mkp s) => [->|[_ ->]] //; apply: pr.
- by case: (o_filter s).
Qed.
Theorem C123_prepared s0 h1 a h2 file : (step (after s0 h1) (OPrep _ _ _ a)).2 = Ok tt -> ~~ has (@is_load K PS RR) h2 ->
  let s := after s0 (h1 ++ OPrep _ _ _ a :: h2) in (gchain s file).1 = s /\ (ginfo s).1 = s.
Proof.
move=> ok nl s; have hb : o_bp s <> None.
  have : o_bp (step (after s0 h1) (OPrep _ _ _ a)).1 <> None.
    by have [_ _ _ _ /(_ ok) [bp [i [b [R [_ -> _ _ _]]]]]] := prepP tpm newf dry names gp mkp (after s0 h1) a.
  rewrite /s after_cat [after _ (_ :: _)]/= -/(after _ h2); move: (step _ _).1 nl => s1; elim: h2 s1 {s} => [|o h2 IH] s1 //=.
  by rewrite negb_or => /andP [n1 n2] hb; apply: IH => //; apply: bp_step.
by split; [case: (chain_state draws tpm newf dry names gp mkp s file) => [//|[/hb]] | case: (info_state draws shape tpm newf dry names gp mkp s) => [//|[/hb]]].
Qed.
(** C123: before that, reading a stored chain is a call of prep_estim() *)
Theorem C123_first_read s file k raw : o_bp s = None -> get_reader (cst_of s) file = Ok k -> draws k = Ok raw ->
  (gchain s file).1 = (prep s default_call).1 /\ (forall e, (prep s default_call).2 = Err e -> (gchain s file).2 = Err e).
Proof.
move=> hb rk dk; split; last by move=> e; rewrite /get_chain rk dk hb; case: (prep s default_call) => s1 [u|e'] //= [->].
by rewrite /get_chain rk dk hb; case: (prep s default_call) => s1 [u|e'] //=; case: (o_bp s1).
Qed.
(** C123: in particular after loading: parameters set since then are lost, and the file is prepared as at the default settings
    remembered in the metadata *)
Theorem C123_parameters_lost s p q file k raw : (load s p).2 = Ok tt ->
  let s1 := after s [:: OLoad _ _ p; OParams _ _ q] in get_reader (cst_of s1) file = Ok k -> draws k = Ok raw ->
  o_par (after s1 [:: OChain _ _ _ file]) = (tpm (settings_of s1 default_call) q).1 /\
  o_par (after s1 [:: OLogProb _ _ _ file]) = q.
Proof.
move=> ok s1 rk dk.
have [hb hq] : o_bp s1 = None /\ o_par s1 = q by move: ok; rewrite /s1 /= /load; case: (o_disk s) => [m|] //=; case: (d_name m).
rewrite [after s1 _]/= /ignore [_.1]/=; have [-> _] := C123_first_read hb rk dk.
by have [_ _ _ -> _] := prepP tpm newf dry names gp mkp s1 default_call; rewrite hq.
Qed.
Lemma chain_ok s file c : (gchain s file).2 = Ok c ->
  exists k raw b, [/\ get_reader (cst_of s) file = Ok k, draws k = Ok raw, o_bp (gchain s file).1 = Some b & c = apply_bp b raw].
Proof.
rewrite /get_chain; case: get_reader => [k|//]; case dk: (draws k) => [raw|//].
case E: (o_bp s) => [b|] /=; first by rewrite E => -[<-]; exists k, raw, b.
by case: (prep s default_call) => s1 [u|//] /=; case E1: (o_bp s1) => [b|//] /= [<-]; exists k, raw, b.
Qed.
(** C123: once it was read, it can be read again, with the same result, and without further changes *)
Theorem C123_again s file c : (gchain s file).2 = Ok c -> gchain (gchain s file).1 file = ((gchain s file).1, Ok c).
Proof.
move=> e; have rd : get_reader (cst_of (gchain s file).1) file = get_reader (cst_of s) file.
  case: (chain_state draws tpm newf dry names gp mkp s file) => [->|[_ ->]] //.
  by have [[e1 e2 e3 e4 e5 e6 e7 e8 e9 e10 e11 e12 e13] _ _ _ _] := prepP tpm newf dry names gp mkp s default_call; rewrite /cst_of e1 e3 e5 e6 e9.
have [k [raw [b [rk dk hb ->]]]] := chain_ok e; by rewrite {1}/get_chain rd rk dk hb /= hb.
Qed.

(** ** C124 *)
(** C124: the measurement covariance after a call of prep_estim that returned is the saved one, whatever load_R; else that of a new
    filter *)
Theorem C124_saved s a R : d_R (o_meta s) = Some R -> (prep s a).2 = Ok tt -> cov_now (prep s a).1 = Some R.
Proof. by move=> e ok; have [_ _ _ _ /(_ ok) [bp [i [b [R' [_ _ _ _ ->]]]]]] := prepP tpm newf dry names gp mkp s a; rewrite e. Qed.
Lemma R_step s o R : ~~ is_save o -> d_R (o_meta s) = Some R /\ (forall m, o_disk s = Some m -> d_R m = Some R) ->
  d_R (o_meta (step s o).1) = Some R /\ (forall m, o_disk (step s o).1 = Some m -> d_R m = Some R).
Proof.
have pr s1 a : d_R (o_meta s1) = Some R /\ (forall m, o_disk s1 = Some m -> d_R m = Some R) ->
  d_R (o_meta (prep s1 a).1) = Some R /\ (forall m, o_disk (prep s1 a).1 = Some m -> d_R m = Some R).
  by have [[_ _ _ _ _ _ -> -> _ _ _ _ _] _ _ _ _] := prepP tpm newf dry names gp mkp s1 a.
case: o => [a|a x|f|f|f| | |p|p|R'] //= _ hb; first exact: pr.
- have [_ _ -> _ [-> _ _ _ _]] := mcall_keep tpm newf dry names gp mkp s a x; by case: (o_ndim s) => //; apply: pr.
- by case: (chain_state draws tpm newf dry names gp mkp s f) => [->|[_ ->]] //; apply: pr.
- by case: (info_state draws shape tpm newf dry names gp mkp s) => [->|[_ ->]] //; apply: pr.
- rewrite /load; case E: (o_disk s) => [m|]; last exact: hb.
  case: (d_name m) => [n|] //=.
  by case: hb => h1 h2; split; [exact: h2 | move=> m' [<-]; exact: h2].
- by case: (o_filter s).
Qed.
(** C124: a covariance that was in the filter when the metadata was saved is put back by every later call of prep_estim, in this session
    and in later ones, until the next saving *)
Theorem C124_kept s R h a : cov_now s = Some R -> ~~ has (@is_save K PS RR) h ->
  let s' := after s (OSave _ _ _ :: h) in (prep s' a).2 = Ok tt -> cov_now (prep s' a).1 = Some R.
Proof.
move=> e ns s'; suff [h1 _] : d_R (o_meta s') = Some R /\ (forall m, o_disk s' = Some m -> d_R m = Some R) by exact: C124_saved.
rewrite /s' [after _ (_ :: _)]/= -/(after _ h).
have : d_R (o_meta (save_meta s)) = Some R /\ (forall m, o_disk (save_meta s) = Some m -> d_R m = Some R).
  rewrite /save_meta /=; move: e; rewrite /cov_now; case: (o_filter s) => [f|] //= ->; split=> // m [<-] //.
elim: h (save_meta s) ns {s'} => [|o h IH] s1 //=; rewrite negb_or => /andP [n1 n2] hR; apply: IH => //; exact: R_step.
Qed.
(** C124: an assigned covariance is in the filter at once; saved, it is there from then on *)
Theorem C124_assigned s R h a : o_filter s <> None -> ~~ has (@is_save K PS RR) h ->
  cov_now (after s [:: OCov _ _ R]) = Some R /\
  let s' := after s ([:: OCov _ _ R; OSave _ _ _] ++ h) in (prep s' a).2 = Ok tt -> cov_now (prep s' a).1 = Some R.
Proof.
move=> fl nh; have e : cov_now (after s [:: OCov _ _ R]) = Some R by rewrite /=; case: (o_filter s) fl.
split=> // s' ok; exact: (@C124_kept (after s [:: OCov _ _ R]) R h a e nh ok).
Qed.
(** C124: one that was not saved is lost: the filter has the covariance of a new one *)
Theorem C124_unsaved s R a : d_R (o_meta s) = None -> let s1 := after s [:: OCov _ _ R] in (prep s1 a).2 = Ok tt ->
  newf (settings_of s a) (tpm (settings_of s a) (o_par s)).1 = Ok (cov_now (prep s1 a).1).
Proof.
move=> e s1 ok.
have [h1 h2] : o_meta s1 = o_meta s /\ o_par s1 = o_par s by rewrite /s1 /=; case: (o_filter s).
have [_ _ _ ep /(_ ok) [bp [i [b [R' [[_ hn] _ _ _ ->]]]]]] := prepP tpm newf dry names gp mkp s1 a.
by rewrite h1 e -hn ep h2 /settings_of h1.
Qed.
(** C124: asking for a saved covariance when there is none raises, but the settings are remembered, the parameters are at the prior mean
    and the filter is a new one; so does the first run in a session *)
Theorem C124_missing s a : d_R (o_meta s) = None -> p_loadR a = true -> 
  (exists e, (prep s a).2 = Err e) /\
  (forall R, (tpm (settings_of s a) (o_par s)).2 = Ok tt -> newf (settings_of s a) (tpm (settings_of s a) (o_par s)).1 = Ok R ->
     [/\ (prep s a).2 = Err AttributeError, d_set (o_meta (prep s a).1) = (resolve (d_set (o_meta s)) (p_args a)).1,
         o_par (prep s a).1 = (tpm (settings_of s a) (o_par s)).1 & cov_now (prep s a).1 = R]).
Proof.
move=> e la; split.
  rewrite /prep_estim; case: (resolve _ _) => d g /=; case: (tpm g _) => p [[]|er] /=; last by exists er.
  case: (newf g p) => [R|er] /=; last by exists er.
  by rewrite e la; exists AttributeError.
move=> R; rewrite /prep_estim /settings_of; case: (resolve _ _) => d g /=; case: (tpm g _) => p r /= -> /= -> /=.
by rewrite e la.
Qed.
Theorem C124_first_run s a x : o_ndim s = None -> d_R (o_meta s) = None -> exists e, (mcall s a x).2 = Err e.
Proof.
move=> en eR; have [[e he] _] := @C124_missing s (PCall no_args true true) eR erefl; exists e.
by rewrite /mcmc_call en; case: (prep s _) he => s1 [u|e'] //= [->].
Qed.

(** ** C125 *)
(** C125: what info shows if a chain is found and read *)
Theorem C125_shown s c t k desc : (if o_desc s is Some d then Some d else d_desc (o_meta s)) = Some desc ->
  get_reader (cst_of s) None = Ok k -> (gchain s None).2 = Ok c ->
  (if o_tune s is Some t' then Some t' else d_tune (o_meta s)) = Some t ->
  exists l, (ginfo s).2 = Ok (Title (o_name s) :: l ++ [:: Descr desc; NPar (shape k).2; NChains (shape k).1.2; Window t (shape k).1.1]) /\
    l = (if d_date (o_meta s) is Some (String x d) then [:: Date (String x d)] else [::]).
Proof.
move=> ed rk ec et; eexists; split; last by [].
rewrite /info; have -> : (match o_desc s with Some t => Ok t | None => of_opt KeyError (d_desc (o_meta s)) end) = Ok desc.
  by move: ed; case: (o_desc s) => [d [->]|] //; case: (d_desc _) => [d [->]|].
have cs := chain_state draws tpm newf dry names gp mkp s None.
case: (gchain s None) cs ec => s1 r /= cs er; rewrite er.
have [[e1 e2 e3 e4 e5 e6 e7 e8 e9 e10 e11 e12 e13] _ _ _ _] := prepP tpm newf dry names gp mkp s default_call.
have [-> -> ->] : [/\ cst_of s1 = cst_of s, o_tune s1 = o_tune s & d_tune (o_meta s1) = d_tune (o_meta s)].
  by case: cs => [->|[_ ->]] //; rewrite /cst_of e1 e2 e3 e5 e6 e9 e10.
rewrite rk /=; have -> : M_Cls.get_tune (o_tune s) (d_tune (o_meta s)) = Ok t.
  by rewrite /M_Cls.get_tune; move: et; case: (o_tune s) => [t' [->]|] //; case: (d_tune _) => [t' [->]|].
by case: (shape k) => [[n w] q] /=; case: (d_date _) => [[|x d]|].
Qed.
Definition unsampled n path (chains : string -> option K) s : Prop :=
  [/\ [/\ o_sampler s = None, d_backend (o_meta s) = None & o_chains s = chains], o_name s = n /\ o_path s = path,
    (if o_desc s is Some d then Some d else d_desc (o_meta s)) <> None &
    (forall m, o_disk s = Some m -> [/\ d_backend m = None, d_name m = Some n & d_desc m <> None])].
Lemma unsampled_step n path chains s o : ~~ is_mcmc o -> unsampled n path chains s -> unsampled n path chains (step s o).1.
Proof.
have pr s1 a : unsampled n path chains s1 -> unsampled n path chains (prep s1 a).1.
  have [[e1 e2 e3 e4 e5 e6 e7 e8 e9 e10 e11 e12 e13] _ _ _ _] := prepP tpm newf dry names gp mkp s1 a.
  by rewrite /unsampled e1 e3 e4 e5 e6 e7 e9 e12.
case: o => [a|a x|f|f|f| | |p|p|R'] // _ hb; first exact: pr.
- by rewrite [step _ _]/= /ignore [_.1]/=; case: (chain_state draws tpm newf dry names gp mkp s f) => [->|[_ ->]] //; apply: pr.
- by rewrite [step _ _]/= /ignore [_.1]/=; case: (info_state draws shape tpm newf dry names gp mkp s) => [->|[_ ->]] //; apply: pr.
- case: hb => [[h1 h2 h3] [h4 h5] h6 h7]; split=> //=; first by case: (o_desc s) h6.
  by move=> m [<-] /=; split; rewrite ?h4 //; case: (o_desc s) h6.
- case: (hb) => [[h1 h2 h3] [h4 h5] h6 h7]; rewrite /= /load; case E: (o_disk s) => [m|]; last exact: hb.
  by have [q1 q2 q3] := h7 _ E; rewrite q2; split=> //= m' [<-].
- by rewrite /=; case: (o_filter s).
Qed.
(** C125: a model that was read from a file and never sampled has no information: the call raises NameError, unless there happens to be
    a chain in the file of standard name *)
Theorem C125_never_sampled n path p chains h : chains (os_join path (n +++ "_sampler.h5")) = None -> ~~ has (@is_mcmc K PS RR) h ->
  (ginfo (after (fresh n path p chains) h)).2 = Err NameError.
Proof.
move=> nc nm; set s := after _ h.
have ne : os_join path (n +++ "_sampler.h5") <> ""%string.
  have nn : n +++ "_sampler.h5" <> ""%string by case: (n).
  by rewrite /os_join; case: ifP => // _; case: ifP; case: (path).
suff [[e1 e2 e3] [e4 e5] e6 _] : unsampled n path chains s.
  rewrite /info; case: (o_desc s) e6 => [d _|] /=; last case: (d_desc _) => [d _|] //=;
  (have -> : gchain s None = (s, Err NameError) by rewrite /get_chain /get_reader /cst_of /= e1 e2 /= e3 e4 e5;
     case: (os_join _ _) ne nc => [//|x l] _ -> //)=> //.
rewrite /s; have : unsampled n path chains (fresh n path p chains) by [].
elim: h nm (fresh n path p chains) {s} => [|o h IH] //=; rewrite negb_or => /andP [n1 n2] s1 h1; apply: IH => //.
exact: unsampled_step.
Qed.
(** C125: a successful run shows the description of the metadata from then on, and when it ran, whatever description was assigned before *)
Theorem C125_run_restores_description s a x : (mcall s a x).2 = Ok tt ->
  let s' := (mcall s a x).1 in
  [/\ d_desc (o_meta s') = d_desc (o_meta s), o_desc s' = (if d_desc (o_meta s) is Some d then Some d else o_desc s) &
      d_date (o_meta s') = Some (x_time x)].
Proof.
rewrite /mcmc_call.
have [[e1 e2 e3 e4 e5 e6 e7 e8 e9 e10 e11 e12 e13] _ _ _ _] := prepP tpm newf dry names gp mkp s (PCall no_args true true).
have go s0 : d_desc (o_meta s0) = d_desc (o_meta s) -> o_desc s0 = o_desc s ->
  let s1 := match d_desc (o_meta s0) with Some t => with_desc s0 (Some t) | None => s0 end in
  forall m, let s' := dated (put_mst s1 m) (x_time x) in
  [/\ d_desc (o_meta s') = d_desc (o_meta s), o_desc s' = (if d_desc (o_meta s) is Some d then Some d else o_desc s) &
      d_date (o_meta s') = Some (x_time x)].
  by move=> h1 h2 s1 m; rewrite /s1 h1; case E: (d_desc (o_meta s)) => [d|]; split; rewrite //= ?h1 ?E ?h2.
case: (o_ndim s) => [n|].
  by case: (M_Mcmc.mcmc _ _ _ _ _ _) => m [[]|e] //= _; exact: go.
case: (prep s _) e4 e12 => s0 [[]|e] //= h4 h12.
by case: (M_Mcmc.mcmc _ _ _ _ _ _) => m [[]|e] //= _; apply: go.
Qed.
(** C125: a later session shows the name, the date, the description and the window of the saved one *)
Theorem C125_later_session s p : let s' := after s [:: OSave _ _ _; OLoad _ _ p] in
  [/\ o_name s' = o_name s, d_date (o_meta s') = d_date (o_meta s),
      (if o_desc s' is Some d then Some d else d_desc (o_meta s')) = (if o_desc s is Some d then Some d else d_desc (o_meta s)) &
      (if o_tune s' is Some t then Some t else d_tune (o_meta s')) = (if o_tune s is Some t then Some t else d_tune (o_meta s))].
Proof. by []. Qed.
(** C125: information and starting values in a loaded session.  The starting values cannot be looked up until prep_estim or something
    that calls it has run, although they are in the metadata *)
Theorem C125_start_values s p h i : (load s p).2 = Ok tt -> d_start (o_meta (load s p).1) = Some i -> 
  ~~ has (fun o => is_load o || may_prepare o) h -> get_init (after s (OLoad _ _ p :: h)) = Err AttributeError.
Proof.
move=> ok es nh; have : o_ndim (load s p).1 = None /\ d_start (o_meta (load s p).1) = Some i.
  by split=> //; move: ok; rewrite /load; case: (o_disk s) => [m|] //; case: (d_name m).
rewrite [after _ _]/= -/(after _ h); elim: h (load s p).1 nh {ok es} => [|o h IH] s1; first by rewrite /get_init => _ [/= -> ->].
rewrite [has _ _]/= negb_or => /andP [no nh] [e1 e2]; rewrite [after _ _]/=; apply: IH nh _.
by case: o no => //=; case: (o_filter s1).
Qed.
Theorem C125_start_values_prepared s a : (prep s a).2 = Ok tt -> exists bp i b, gp = Ok (bp, i, b) /\ get_init (prep s a).1 = Ok i.
Proof.
move=> ok; have [_ _ _ _ /(_ ok) [bp [i [b [R [[h1 _] _ h2 h3 _]]]]]] := prepP tpm newf dry names gp mkp s a.
by exists bp, i, b; rewrite /get_init h2 h3.
Qed.
End T.

(** ** With the parameters of M_Params *)
Section Link.
Variable F : realFieldType.
Notation vec := (seq F).
Variables (V K RR I B H T C : Type).
Variables (draws : K -> res (seq (seq V))) (log_probs : K -> res (seq (seq V))) (acceptance : K -> res (seq V)).
Variables (shape : K -> nat * nat * nat).
(** the model (M_Params); the solution also depends on the horizons *)
Variables (M : static F) (pffunc : vec -> vec) (hx_of : vec -> res H) (tab_of : Z -> Z -> vec -> res T) (cov_of : vec -> C) (sq : C -> C).
Variables (priors : option (seq (prior F))) (chain : res (seq (seq vec))) (tune : nat) (choices : nat -> nat -> seq nat).
Variable prior_draw : st F H T C -> nat -> st F H T C * res (seq vec).
Notation PS := (st F H T C).
Definition set_prior_mean (g : settings) (q : PS) : PS * res unit :=
  let: (q', r) := set_par M pffunc hx_of (tab_of (g_l g) (g_k g)) cov_of sq priors chain tune choices prior_draw q (AName F "prior_mean") None None false in
  (q', rmap (fun _ => tt) r).
Variables (newf : settings -> PS -> res (option RR)) (dry : flt RR -> PS -> res unit) (names : seq string) (gp : res ((V -> V) * I * B)) (mkp : res unit).
Notation sess := (sess V K PS RR I B).
Notation op := (op K PS RR).
Notation prep := (@prep_estim V K PS RR I B set_prior_mean newf dry names gp mkp).
Notation gchain := (@get_chain V K PS RR I B draws set_prior_mean newf dry names gp mkp).
Notation after := (@M_Session.after V K PS RR I B draws log_probs acceptance shape set_prior_mean newf dry names gp mkp).
Notation fresh := (@M_Session.fresh V K PS RR I B).

(** C123: after prep_estim, and so after the first reading of a chain in a session, the estimated parameters are at the prior mean and
    all others at the calibration, whatever the user had set *)
Theorem C123_prior_mean (s : sess) a v l ps : wf_model M -> has_priors M l -> holds M (o_par s) v ->
  is_free M "prior_mean" -> priors = Some ps -> size ps = size l -> size (c_names M) <> 10 -> size l <> 10 -> (prep s a).2 = Ok tt ->
  exists r, overlays l [seq if pr_uniform p then ((pr_a p + pr_b p) / 2%:R)%R else pr_a p | p <- ps] (c_fix M) r /\
    holds M (o_par (prep s a).1) r.
Proof.
move=> wm hp hs fr ep es n1 n2 ok; set g := settings_of s a.
have [[r [q [e ov]]] _] := @C112_prior_mean F H T C M pffunc hx_of (tab_of (g_l g) (g_k g)) cov_of priors chain tune choices prior_draw _ v l wm hp hs ps fr ep es 1 false.
exists r; split=> //; have [_ _ _ -> _] := prepP set_prior_mean newf dry names gp mkp s a.
have sr : size r = size (c_names M) by rewrite ov.1 wm.2.
have m1 : String.length "prior_mean" <> size (c_names M) by move=> /esym.
have m2 : String.length "prior_mean" <> size l by move=> /esym.
have := @C46_selects F H T C M pffunc hx_of (tab_of (g_l g) (g_k g)) cov_of sq priors chain tune choices prior_draw _ _ v r "prior_mean" l false wm hp hs m1 m2 e sr.
have : (set_prior_mean g (o_par s)).2 = Ok tt.
  by move: ok; rewrite /prep_estim /g /settings_of; case: (resolve _ _) => d g' /=; case: set_prior_mean => p [[]|].
rewrite /set_prior_mean; by case: set_par => q' [o|er] //= _ [].
Qed.

(** C126: a model with exactly ten parameters, or exactly ten estimated ones, cannot be prepared: the text "prior_mean" has ten
    characters and is taken for a vector (C46) *)
Lemma ten_fails g q l : wf_model M -> has_priors M l -> size (c_names M) = 10 \/ size l = 10 -> exists e, (set_prior_mean g q).2 = Err e.
Proof.
move=> wm hp H10; rewrite /set_prior_mean.
suff [e] : exists e, (set_par M pffunc hx_of (tab_of (g_l g) (g_k g)) cov_of sq priors chain tune choices prior_draw q (AName F "prior_mean") None None false).2 = Err e.
  by case: set_par => q' [o|e'] //= _; exists e'.
rewrite /M_Params.set_par; case: (cur M q) => [par|e] /=; last by exists e.
rewrite wm.2 hp.1; case: eqP => [_|ne]; first by eexists; rewrite /finish /=; reflexivity.
by case: H10 => [e|->]; [case: ne; rewrite e | eexists].
Qed.
Theorem C126_ten_parameters (s : sess) a l : wf_model M -> has_priors M l -> size (c_names M) = 10 \/ size l = 10 ->
  exists e, (prep s a).2 = Err e.
Proof.
move=> wm hp H10; rewrite /prep_estim; case: (resolve _ _) => d g /=; have [e] := ten_fails g (o_par s) wm hp H10.
by case: set_prior_mean => p [[]|e'] //= _; exists e'.
Qed.
(** C126: so neither sampling nor reading chains is possible, whatever is done *)
Theorem C126_no_chains n path p chains (h : seq op) file l a x : wf_model M -> has_priors M l -> size (c_names M) = 10 \/ size l = 10 ->
  let s := after (fresh n path p chains) h in
  (exists e, (gchain s file).2 = Err e) /\ (exists e, (mcmc_call set_prior_mean newf dry names gp mkp s a x).2 = Err e).
Proof.
move=> wm hp H10 s.
have pf (s1 : sess) b : o_bp (prep s1 b).1 = o_bp s1 /\ o_ndim (prep s1 b).1 = o_ndim s1.
  rewrite /prep_estim; case: (resolve _ _) => d g /=; have [e] := ten_fails g (o_par s1) wm hp H10.
  by case: set_prior_mean => q [[]|e'].
have [hb hn] : o_bp s = None /\ o_ndim s = None.
  rewrite /s; have : o_bp (fresh n path p chains) = None /\ o_ndim (fresh n path p chains) = None by [].
  elim: h (fresh n path p chains) {s} => [|o h IH] s1 hs //=; apply: IH.
  case: o => [b|b y|f|f|f| | |q|q|R] //=; first by have [-> ->] := pf s1 b.
  - have [_ -> _ _ [_ _ _ -> _]] := mcall_keep set_prior_mean newf dry names gp mkp s1 b y.
    by rewrite hs.2; have [-> ->] := pf s1 (PCall no_args true true).
  - by case: (chain_state draws set_prior_mean newf dry names gp mkp s1 f) => [->|[_ ->]] //; have [-> ->] := pf s1 default_call.
  - by case: (info_state draws shape set_prior_mean newf dry names gp mkp s1) => [->|[_ ->]] //; have [-> ->] := pf s1 default_call.
  - by rewrite /load; case: (o_disk s1) => [m|] //; case: (d_name m).
  - by case: (o_filter s1).
split.
  rewrite /get_chain; case: get_reader => [k|e]; last by exists e.
  case: (draws k) => [c|e]; last by exists e.
  by rewrite hb; have [e] := C126_ten_parameters s default_call wm hp H10; case: (prep s default_call) => s1 [u|e'] //= _; exists e'.
by rewrite /mcmc_call hn; have [e] := C126_ten_parameters s (PCall no_args true true) wm hp H10; case: (prep s _) => s1 [u|e'] //= _; exists e'.
Qed.
End Link.

(** A concrete model: parameters are a number (0: the prior mean), draws are numbers, the prior transform adds one, a new filter has
    covariance 1; preparing fails at parameters 9. *)
Module SessionEx.
Definition draws (k : seq nat) : res (seq (seq nat)) := if k is [::] then Err AttributeError else Ok [:: k].
Definition tpm (g : settings) (p : nat) : nat * res unit := if p == 9 then (9, Err ValueError) else (0, Ok tt).
Definition newf (g : settings) (p : nat) : res (option nat) := Ok (Some 1).
Definition dry (f : flt nat) (p : nat) : res unit := Ok tt.
Definition gp : res ((nat -> nat) * seq nat * unit) := Ok (S, [:: 3], tt).
Definition shape (k : seq nat) : nat * nat * nat := (1, size k, 1).
Definition step := @do nat (seq nat) nat nat (seq nat) unit draws draws (fun k => Ok k) shape tpm newf dry [:: "a"%string] gp (Ok tt).
Definition after := @after nat (seq nat) nat nat (seq nat) unit draws draws (fun k => Ok k) shape tpm newf dry [:: "a"%string] gp (Ok tt).
Definition gchain := @get_chain nat (seq nat) nat nat (seq nat) unit draws tpm newf dry [:: "a"%string] gp (Ok tt).
Definition ginfo := @info nat (seq nat) nat nat (seq nat) unit draws shape tpm newf dry [:: "a"%string] gp (Ok tt).
Notation op := (op (seq nat) nat nat).
Definition s0 := @fresh nat (seq nat) nat nat (seq nat) unit "m" "d" 5 (fun _ => None).
Definition call (u : option bool) : pcall := PCall (PArgs None None None u (Zpos 3) (Zpos 16)) false true.
(** a run of two walkers that stores the draws 5 and 7 *)
Definition run : op := OMcmc _ _ (MArgs (Some 2) 1 None (Some 1) (BFlag true) None false false)
  (Ext (Ok tt) (fun _ _ => Ok [::]) (fun _ => (Some [:: 5; 7], Ok [:: 5; 7])) (fun _ _ => Ok tt) "today").
Definition h1 : seq op := [:: OPrep _ _ _ (call (Some true)); run].

Lemma took1 : settings_took step s0 h1.
Proof. by move=> [|o1 [|o2 [|o3 g1]]] a g2 b // [] *; subst. Qed.
(** the chain is shown as the prior sees it, in this session and in the next one *)
Example C122_met : let s := after s0 h1 in let s' := after s [:: OSave _ _ _; OLoad _ _ 2] in
  [/\ settings_took step s0 h1, in_force h1, get_reader (cst_of s) None = Ok [:: 5; 7] /\ get_reader (cst_of s') None = Ok [:: 5; 7],
      (gchain s None).2 = Ok [:: [:: 6; 8]] & (gchain s' None).2 = Ok [:: [:: 6; 8]]].
Proof. by split=> //; exact: took1. Qed.
(** C122: without the condition on settings the claim is false: after a call that raised, the chain reads differently in the next
    session *)
Theorem C122_later_session_refuted : let h := h1 ++ [:: OPrep _ _ _ (call (Some true)); OParams _ _ 9; OPrep _ _ _ (call (Some false))] in
  let s := after s0 h in let s' := after s [:: OSave _ _ _; OLoad _ _ 2] in
  [/\ (step (after s0 (h1 ++ [:: OPrep _ _ _ (call (Some true)); OParams _ _ 9])) (OPrep _ _ _ (call (Some false)))).2 = Err ValueError,
      get_reader (cst_of s) None = Ok [:: 5; 7] /\ get_reader (cst_of s') None = Ok [:: 5; 7],
      (gchain s None).2 = Ok [:: [:: 6; 8]] & (gchain s' None).2 = Ok [:: [:: 5; 7]]].
Proof. by []. Qed.
(** C122: a later call of prep_estim changes how a chain that was sampled before is read *)
Theorem C122_sampled_meaning_refuted : let s := after s0 h1 in let s' := after s [:: OPrep _ _ _ (call (Some false))] in
  [/\ get_reader (cst_of s') None = get_reader (cst_of s) None, (gchain s None).2 = Ok [:: [:: 6; 8]] & (gchain s' None).2 = Ok [:: [:: 5; 7]]].
Proof. by vm_compute. Qed.
(** reading a chain, or the information, in a new session resets the parameters the user has set (7) to the prior mean (0) *)
Example C123_met : let s := after s0 (h1 ++ [:: OSave _ _ _; OLoad _ _ 2; OParams _ _ 7]) in
  [/\ o_bp s = None, o_par s = 7, o_par (after s [:: OLogProb _ _ _ None]) = 7, o_par (after s [:: OChain _ _ _ None]) = 0 &
      o_par (after s [:: OInfo _ _ _]) = 0].
Proof. by []. Qed.
Example C123_prepared_met : (step (after s0 [::]) (OPrep _ _ _ (call None))).2 = Ok tt /\
  ~~ has (@is_load (seq nat) nat nat) [:: run; OParams _ _ 7] /\ o_par (after s0 [:: OPrep _ _ _ (call None); run; OParams _ _ 7; OChain _ _ _ None; OInfo _ _ _]) = 7.
Proof. by []. Qed.
Example C123_error_met : let s := after s0 (h1 ++ [:: OSave _ _ _; OLoad _ _ 2; OParams _ _ 9]) in
  (gchain s None).2 = Err ValueError /\ (get_log_prob draws s None).2 = Ok [:: [:: 5; 7]].
Proof. by []. Qed.
(** covariance 4 assigned by the user: kept over sessions if saved, lost otherwise *)
Example C124_met : let s := after s0 [:: OPrep _ _ _ (call None); OCov _ _ 4] in
  [/\ cov_now s = Some 4, cov_now (after s [:: OSave _ _ _; OCov _ _ 6; OLoad _ _ 2; OPrep _ _ _ (call None)]) = Some 4,
      cov_now (after s [:: OPrep _ _ _ (call None)]) = Some 1 &
      (step s (OPrep _ _ _ (PCall no_args true true))).2 = Err AttributeError].
Proof. by []. Qed.
Example C124_assigned_met : o_filter (after s0 [:: OPrep _ _ _ (call None)]) <> None. Proof. by []. Qed.
Example C122_from_file_met : d_backend (o_meta (after s0 h1)) = None /\ os_join (o_path (after s0 h1)) (o_name (after s0 h1) +++ "_sampler.h5") = "d/m_sampler.h5"%string.
Proof. by []. Qed.
Example C124_first_run_met : o_ndim s0 = None /\ d_R (o_meta s0) = None /\ (step s0 run).2 = Err AttributeError.
Proof. by []. Qed.
Example C125_met : let s := after s0 h1 in
  (ginfo s).2 = Ok [:: Title "m"; Date "today"; Descr "m"; NPar 1; NChains 2; Window 1 1] /\
  (ginfo (after s [:: OSave _ _ _; OLoad _ _ 2])).2 = Ok [:: Title "m"; Date "today"; Descr "m"; NPar 1; NChains 2; Window 1 1].
Proof. by []. Qed.
(** a description assigned after the preparation is lost by the next run *)
Example C125_description_met : let s := with_desc (after s0 [:: OPrep _ _ _ (call None)]) (Some "mine"%string) in
  let s1 := with_meta s (Meta (d_set (o_meta s)) (Some 1) (d_names (o_meta s)) (d_start (o_meta s)) (d_bounds (o_meta s)) (d_backend (o_meta s))
    (d_tune (o_meta s)) (d_name (o_meta s)) (Some "file"%string) None) in
  [/\ (step s1 run).2 = Ok tt, o_desc s1 = Some "mine"%string & o_desc (step s1 run).1 = Some "file"%string].
Proof. by []. Qed.
Example C125_never_sampled_met : (ginfo s0).2 = Err NameError /\ (ginfo (after s0 [:: OPrep _ _ _ (call None); OSave _ _ _; OLoad _ _ 2])).2 = Err NameError.
Proof. by []. Qed.
Example C125_start_values_met : let s := after s0 [:: OPrep _ _ _ (call None); OSave _ _ _] in
  [/\ get_init s = Ok [:: 3], (load s 2).2 = Ok tt, d_start (o_meta (load s 2).1) = Some [:: 3] &
      get_init (after s [:: OLoad _ _ 2; OParams _ _ 7]) = Err AttributeError].
Proof. by []. Qed.

(** two parameters, calibrated to 1 and 2, the second one estimated with prior mean 3; the user has set them to 7 and 8 *)
Definition M2 : static [realFieldType of rat] := Static [:: "a"; "b"]%string [::] [:: 1; 2%:Q]%R (Some [:: 1]) (Some [:: "b"%string]).
Definition v2 : seq [realFieldType of rat] := [:: 7%:R; 8%:R]%R.
Definition q2 : st [realFieldType of rat] unit unit unit := St (Some (PV v2)) None None None None None.
Definition tpm2 := @set_prior_mean [realFieldType of rat] unit unit unit M2 id (fun _ => Ok tt) (fun _ _ _ => Ok tt) (fun _ => tt) id
  (Some [:: Prior "normal" false 3%:Q%R 1%R]) (Err NameError) 1 (fun _ _ => [::]) (fun q _ => (q, Err NameError)).
Definition s2 := @fresh nat (seq nat) (st [realFieldType of rat] unit unit unit) nat (seq nat) unit "m" "d" q2 (fun _ => None).
Definition prep2 := prep_estim tpm2 (fun _ _ => Ok (Some 1)) (fun _ _ => Ok tt) [:: "b"%string] gp (Ok tt) s2 (call None).
Definition par_is (q : st [realFieldType of rat] unit unit unit) (v : seq rat) : bool := if s_par q is Some (PV w) then w == v else false.
Example C123_prior_mean_model : [/\ wf_model M2, has_priors M2 [:: 1] & is_free M2 "prior_mean"].
Proof. by []. Qed.
Example C123_prior_mean_holds : holds M2 (o_par s2) v2.
Proof. exact: (conj erefl erefl). Qed.
Example C123_prior_mean_ok : is_ok prep2.2.
Proof. by vm_compute. Qed.
Example C123_prior_mean_met : par_is (o_par prep2.1) [:: 1; 3%:Q]%R.
Proof. by vm_compute. Qed.
(** ten parameters *)
Definition names10 : seq string := [:: "a"; "b"; "c"; "d"; "e"; "f"; "g"; "h"; "i"; "j"]%string.
Definition M10 : static [realFieldType of rat] := Static names10 [::] (nseq 10 1%R) (Some [:: 1]) (Some [:: "b"%string]).
Example C126_met : [/\ wf_model M10, has_priors M10 [:: 1] & size (c_names M10) = 10].
Proof. by []. Qed.
(** the same model with an eleventh parameter, or without one of the ten, can be prepared *)
Definition prep_n (l : seq string) := prep_estim (@set_prior_mean [realFieldType of rat] unit unit unit
    (Static l [::] (nseq (size l) 1%R) (Some [:: 1]) (Some [:: "b"%string])) id (fun _ => Ok tt) (fun _ _ _ => Ok tt) (fun _ => tt) id
    (Some [:: Prior "normal" false 3%:Q%R 1%R]) (Err NameError) 1 (fun _ _ => [::]) (fun q _ => (q, Err NameError)))
  (fun _ _ => Ok (Some 1)) (fun _ _ => Ok tt) [:: "b"%string] gp (Ok tt)
  (@fresh nat (seq nat) (st [realFieldType of rat] unit unit unit) nat (seq nat) unit "m" "d" (St None None None None None None) (fun _ => None)) (call None).
Theorem C126_every_model_refuted : is_ok (prep_n (rcons names10 "k"%string)).2 && is_ok (prep_n (take 9 names10)).2 && ~~ is_ok (prep_n names10).2.
Proof. by vm_compute. Qed.
End SessionEx.
Print Assumptions C122_coordinates.
Print Assumptions C122_later_session.
Print Assumptions C122_from_file.
Print Assumptions SessionEx.C122_later_session_refuted.
Print Assumptions SessionEx.C122_sampled_meaning_refuted.
Print Assumptions C123_pure.
Print Assumptions C123_prepared.
Print Assumptions C123_first_read.
Print Assumptions C123_parameters_lost.
Print Assumptions C123_again.
Print Assumptions C124_saved.
Print Assumptions C124_kept.
Print Assumptions C124_assigned.
Print Assumptions C124_unsaved.
Print Assumptions C124_missing.
Print Assumptions C124_first_run.
Print Assumptions C125_shown.
Print Assumptions C125_later_session.
Print Assumptions C125_run_restores_description.
Print Assumptions C125_never_sampled.
Print Assumptions C125_start_values.
Print Assumptions C125_start_values_prepared.
Print Assumptions C123_prior_mean.
Print Assumptions C126_ten_parameters.
Print Assumptions C126_no_chains.
Print Assumptions SessionEx.C126_every_model_refuted.
