(** Property theorems C12-C15, C18, C78, C79: from the user's equations to the
    compressed system and back. *)
Set Warnings "-all".
From Coq Require Import String.
From mathcomp Require Import all_ssreflect all_algebra all_real_closed.
From Verif Require Import PyBase PyStr M_Engine S_Engine M_GenSys S_GenSys S_GenSys2 P_Engine P_Engine3 P_Engine4
  P_GenSys P_GenSys2 P_GenSys3 P_GenSys4 P_GenSys5 P_GenSys6 P_RQ P_GenSysEx.
Set Implicit Arguments. Unset Strict Implicit. Unset Printing Implicit Defensive.
Import GRing.Theory Num.Theory Order.TTheory.
Local Open Scope ring_scope.

(** C12.  [PU, MU, PR, MR, gg] are the matrices formed by gen_sys; [q_of], [p_of]
    read off the states and controls from the values of the model variables and
    the shocks, as labelled in [svv] and [cvv]. *)
Theorem C12_compressed_iff_user (F : realFieldType) (tol : F) (m n e : nat) (u : usys F m n e)
    (binding : nat -> bool) (x : nat -> 'cV[F]_n) (eps : nat -> 'cV[F]_e) :
  well_scaled u tol -> constraint_connected u -> no_lead_lag u -> encodable u -> no_future_shocks eps ->
  let q s := q_of tol u (x s) (eps s) in
  let p s := p_of tol u (x s.+1) (eps s.+1) in
  (forall s, if binding s
     then PR tol u *m col_mx (q s.+1) (p s.+1) = MR tol u *m col_mx (q s) (p s) + gg tol u
     else PU tol u *m col_mx (q s.+1) (p s.+1) = MU tol u *m col_mx (q s) (p s)) <->
  solves_user u binding x eps.
Proof. by move=> ws cc nl en nf; apply: c12. Qed.
Print Assumptions C12_compressed_iff_user.

(** every solution of the compressed system is the image of a path of the model variables *)
Theorem C12_no_spurious_paths (F : realFieldType) (tol : F) (m n e : nat) (u : usys F m n e)
    (binding : nat -> bool) (q : nat -> 'cV[F]_(dimq tol u)) (p : nat -> 'cV[F]_(dimp tol u)) :
  well_scaled u tol -> constraint_connected u -> no_lead_lag u ->
  (forall s, if binding s
     then PR tol u *m col_mx (q s.+1) (p s.+1) = MR tol u *m col_mx (q s) (p s) + gg tol u
     else PU tol u *m col_mx (q s.+1) (p s.+1) = MU tol u *m col_mx (q s) (p s)) ->
  exists x eps, [/\ no_future_shocks eps, forall s, q s = q_of tol u (x s) (eps s) &
                    forall s, p s = p_of tol u (x s.+1) (eps s.+1)].
Proof. by move=> ws cc nl H; apply: (c12_complete ws cc (binding := binding)). Qed.
Print Assumptions C12_no_spurious_paths.

(** exact meaning without the two provisos: the constraint row is
    [- fb / own, (+/-) fc / own, - fd], and the leads of every variable with a
    lag in the constraint are lost *)
Theorem C12_exact_meaning (F : realFieldType) (tol : F) (m n e : nat) (u : usys F m n e)
    (binding : nat -> bool) (x : nat -> 'cV[F]_n) (eps : nat -> 'cV[F]_e) :
  well_scaled u tol -> constraint_connected u -> no_future_shocks eps ->
  let q s := q_of tol u (x s) (eps s) in
  let p s := p_of tol u (x s.+1) (eps s.+1) in
  (forall s, if binding s
     then PR tol u *m col_mx (q s.+1) (p s.+1) = MR tol u *m col_mx (q s) (p s) + gg tol u
     else PU tol u *m col_mx (q s.+1) (p s.+1) = MU tol u *m col_mx (q s) (p s)) <->
  solves (\matrix_(i, j) (if fc0 u 0 j == 0 then AA0 u i j else 0)) (BB0 u) (CC0 u) (DD0 u)
    (- (own_coef u)^-1 *: fb0 u)
    (if fd0 u is Some _ then (own_coef u)^-1 *: fc0 u else - (own_coef u)^-1 *: fc0 u)
    (if fd0 u is Some fd then - fd else 0) (cv u) (x_bar u) binding x eps.
Proof.
move=> ws cc nf; have := c12_enc ws cc binding x nf; rewrite /compressed => -> /=.
have -> : AAeff u = \matrix_(i, j) (if fc0 u 0 j == 0 then AA0 u i j else 0).
  have nz : fb0 u 0 (cv u) != 0 by case: cc.
  apply/matrixP=> i j; rewrite [LHS]mxE [RHS]mxE /fcE /fcn; case: (fd0 u) => [_|];
  by rewrite !mxE ?oppr_eq0 mulf_eq0 oppr_eq0 invr_eq0 (negbTE nz).
by rewrite /fcE /fdE /fcn /fbn -/(own_coef u); case: (fd0 u) => [fd|]; rewrite ?scaleNr ?opprK.
Qed.
Print Assumptions C12_exact_meaning.

(** without the proviso on leads and lags the compressed system has solutions
    that violate the user's equations *)
Theorem C12_lead_lag_refuted (F : realFieldType) : exists (u : usys F 1 2 1) x eps,
  [/\ well_scaled u (tol F), constraint_connected u /\ encodable u, no_future_shocks eps,
      forall s : nat, PU (tol F) u *m col_mx (q_of (tol F) u (x s.+1) (eps s.+1)) (p_of (tol F) u (x s.+2) (eps s.+2)) =
                MU (tol F) u *m col_mx (q_of (tol F) u (x s) (eps s)) (p_of (tol F) u (x s.+1) (eps s.+1)) &
      ~ solves_user u (fun _ => false) x eps].
Proof.
exists (exL F), (exL_x F), (@exH_eps F); have [h1 h2] := exL_bad F; split=> //.
- exact: exL_ws.
- by split=> //; apply: exL_cc.
- by apply/(c12_enc (exL_ws F) (exL_cc F) (fun _ => false)).
Qed.
Print Assumptions C12_lead_lag_refuted.

Example C12_example (F : realFieldType) :
  [/\ well_scaled (exH F) (tol F), constraint_connected (exH F), no_lead_lag (exH F), encodable (exH F) &
      no_future_shocks (@exH_eps F) /\ solves_user (exH F) (fun _ => false) (@exH_x F) (@exH_eps F)].
Proof.
split; [exact: exH_ws|exact: exH_cc|exact: exH_nll|exact: exH_en|exact: exH_sol].
Qed.

(** C13.  A YAML constraint is compiled to [cx x(t) + cl x(t-1) + ce eps(t) = 0]
    with [bb = (-cx, -cl)], [bb_psi = -ce]; written "r = ..." it has [cx r = 1]. *)
Theorem C13_yaml_constraint_encoding (F : realFieldType) (m n e : nat)
    (AAm BBm CCm : 'M[F]_(m, n)) (PSI : 'M[F]_(m, e)) (cx cl : 'rV[F]_n) (ce : 'rV[F]_e) (c : 'I_n) (xb : F) :
  cx 0 c = 1 ->
  let u := usys_of_yaml AAm BBm CCm PSI (row_mx (- cx) (- cl)) (- ce) c xb in
  (forall (x1 x0 : 'cV[F]_n) (ep : 'cV[F]_e),
     fbn u *m x1 + (if fd0 u is Some _ then - fcn u else fcn u) *m x0
       + (if fd0 u is Some fd then - fd else 0) *m ep = - (cx *m x1 - cl *m x0 + ce *m ep)) /\
  ((forall (x1 x0 : 'cV[F]_n) (ep : 'cV[F]_e),
     (cx *m x1 + cl *m x0 + ce *m ep = 0) <->
     (fbn u *m x1 + (if fd0 u is Some _ then - fcn u else fcn u) *m x0
       + (if fd0 u is Some fd then - fd else 0) *m ep = 0)) <-> cl = 0).
Proof.
move=> c1 u.
have fbE : fb0 u = cx by rewrite /u /= row_mxKl opprK.
have fcE : fc0 u = cl by rewrite /u /= row_mxKr opprK.
have fdE : fd0 u = Some ce by rewrite /u /= opprK.
have b1 : fb0 u 0 (cv u) = 1 by rewrite fbE.
have E : forall (x1 x0 : 'cV[F]_n) (ep : 'cV[F]_e),
     fbn u *m x1 + (if fd0 u is Some _ then - fcn u else fcn u) *m x0
       + (if fd0 u is Some fd then - fd else 0) *m ep = - (cx *m x1 - cl *m x0 + ce *m ep).
  by move=> x1 x0 ep; rewrite fdE /fbn /fcn b1 fbE fcE invr1 !scaleN1r opprK !mulNmx -{1}[cl *m x0]opprK -!opprD.
split=> //.
have nz : fb0 u 0 (cv u) != 0 by rewrite b1 oner_eq0.
have := encoded_some nz fdE; rewrite fbE fcE /P_GenSys.fcE /P_GenSys.fdE => H.
by split=> [/H []|e0] //; apply/H; split=> //; right; rewrite -fbE.
Qed.
Print Assumptions C13_yaml_constraint_encoding.

(** the general case, for hand-made systems *)
Theorem C13_encoding_iff (F : realFieldType) (m n e : nat) (u : usys F m n e) :
  own_coef u != 0 ->
  (forall (x1 x0 : 'cV[F]_n) (ep : 'cV[F]_e),
     (fb0 u *m x1 + fc0 u *m x0 + shock_row u *m ep = 0) <->
     (fbn u *m x1 + (if fd0 u is Some _ then - fcn u else fcn u) *m x0
       + (if fd0 u is Some fd then - fd else 0) *m ep = 0)) <-> encodable u.
Proof.
move=> nz; rewrite /shock_row /encodable; case E : (fd0 u) => [fd|].
  by have := encoded_some nz E; rewrite /fcE /fdE E.
split=> // _; have := encoded_none nz E; rewrite /fcE /fdE E; exact.
Qed.
Print Assumptions C13_encoding_iff.

(** r(t) = x(t-1) is encoded as r(t) = - x(t-1) *)
Theorem C13_lagged_terms_refuted (F : realFieldType) :
  let u := usys_of_yaml (0 : 'M[F]_(1, 2)) 0 0 (0 : 'M[F]_(1, 1)) (row_mx (- row2 0 1) (- row2 (-1) 0)) (- 0) rv (-1) in
  forall (x1 x0 : 'cV[F]_2) (ep : 'cV[F]_1), (fbn u *m x1 + (if fd0 u is Some _ then - fcn u else fcn u) *m x0
       + (if fd0 u is Some fd then - fd else 0) *m ep = 0) <-> x1 rv 0 = - x0 xv 0.
Proof.
move=> u x1 x0 ep.
have [-> _] := @C13_yaml_constraint_encoding F 1 2 1 0 0 0 0 (row2 0 1) (row2 (-1) 0) 0 rv (-1) (row2r _ _ _).
rewrite [x1]col2E [x0]col2E col2r col2x !row2_col mul0mx addr0 !mul0r add0r addr0 mul1r mulN1r.
have -> : - (one1 (x1 rv 0) - one1 (- x0 xv 0)) = one1 (- x0 xv 0 - x1 rv 0) by rewrite opprB /one1 -raddfB.
rewrite -one1_0; split=> [/one1_inj /eqP|->]; last by rewrite subrr.
by rewrite subr_eq0 => /eqP.
Qed.
Print Assumptions C13_lagged_terms_refuted.

Example C13_example : (row2 (0 : rat) 1) 0 rv = 1 /\ own_coef (exH [realFieldType of rat]) != 0.
Proof. by split; rewrite ?row2r // /own_coef /= row2r. Qed.

(** C14.  [svv], [cvv], [vv] are the reported names; [vv0] the declared names
    followed by the added "_lag" names, assumed distinct *)
Theorem C14_variables_partitioned (F : realFieldType) (tol : F) (m n e : nat) (u : usys F m n e)
    (names : n.-tuple string) svv cvv vv :
  0 < tol <= 1 -> uniq (vv0 tol u names) -> new_vv tol u names = Ok (svv, cvv, vv) ->
  [/\ vv = cvv ++ svv, uniq vv, (size vv + e = dimq tol u + dimp tol u)%N &
      forall j, tnth names j \notin vv <->
        [/\ forall i, `|AA0 u i j| < tol, forall i, `|BB0 u i j| < tol, forall i, `|CC0 u i j| < tol &
            `|(own_coef u)^-1 * fc0 u 0 j| < tol]].
Proof.
move=> /andP [t0 t1] un H; have [h1 h2 h3 h4] := new_vvP t0 t1 un H; split=> // j.
have fP r (A : 'M[F]_(r, n)) : fast0 tol A j <-> forall i, `|A i j| < tol by split=> /forallP.
have fE : `|fcE u 0 j| = `|(own_coef u)^-1 * fc0 u 0 j|.
  by rewrite /fcE /fcn; case: (fd0 u) => [_|]; rewrite !mxE ?normrN mulNr normrN.
split=> [/h4 /and4P [/fP f1 /fP f2 /fP f3 f4]|[/fP f1 /fP f2 /fP f3 f4]]; first by split=> //; rewrite -fE.
by apply/h4/and4P; split=> //; rewrite fE.
Qed.
Print Assumptions C14_variables_partitioned.

(** with as many equations as variables (counting the constraint) the system is
    built if and only if no declared variable is missing; else ValueError *)
Theorem C14_missing_variable_is_an_error (F : realFieldType) (tol : F) (m e : nat) (u : usys F m m.+1 e)
    (rq : forall d, 'M[F]_d -> 'M[F]_d * 'M[F]_d) :
  0 < tol <= 1 ->
  ((exists sm, sys_of tol u rq = Ok sm) <->
   (forall j, ~ [/\ forall i, `|AA0 u i j| < tol, forall i, `|BB0 u i j| < tol, forall i, `|CC0 u i j| < tol &
                    `|(own_coef u)^-1 * fc0 u 0 j| < tol])) /\
  (forall ex, sys_of tol u rq = Err ex -> ex = ValueError).
Proof.
move=> /andP [t0 t1]; split; last by move=> ex /sys_of_err [].
rewrite sys_of_sq.
have fP r (A : 'M[F]_(r, m.+1)) j : fast0 tol A j <-> forall i, `|A i j| < tol by split=> /forallP.
have fE j : `|fcE u 0 j| = `|(own_coef u)^-1 * fc0 u 0 j|.
  by rewrite /fcE /fcn; case: (fd0 u) => [_|]; rewrite !mxE ?normrN mulNr normrN.
have D := dims u t0 t1.
have mE : (m + na tol u + e + 1 = dimq tol u + dimp tol u + #|missing tol u|)%N by rewrite D addn1 !addSn.
rewrite mE; split=> [/eqP|H].
  rewrite -[X in _ == X]addn0 eqn_add2l => /eqP /card0_eq H j [/fP f1 /fP f2 /fP f3 f4].
  by have := H j; rewrite -topredE /= missingE // f1 f2 f3 fE f4.
rewrite (_ : #|_| = 0%N) ?addn0 //; apply: eq_card0 => j; rewrite -topredE /= missingE //.
apply/negbTE/negP => /and4P [/fP f1 /fP f2 /fP f3 f4]; apply: (H j); split=> //; by rewrite -fE.
Qed.
Print Assumptions C14_missing_variable_is_an_error.

(** a constrained variable used in the constraint only cannot be handled *)
Example C14_example (F : realFieldType) (rq : forall d, 'M[F]_d -> 'M[F]_d * 'M[F]_d) :
  own_coef (exM F) = 1 /\ sys_of (tol F) (exM F) rq = Err ValueError.
Proof.
split; first by rewrite /own_coef /= row2r.
have [H1 H2] := C14_missing_variable_is_an_error (exM F) rq (tol_ok F).
case E : (sys_of _ _ _) => [sm|ex]; last by rewrite (H2 _ E).
have [t0 _] := andP (tol_ok F).
case: ((proj1 H1 (ex_intro _ sm E)) rv); split=> [i|i|i|] /=; rewrite ?row2r ?[(0 : 'M_(_,_)) _ _]mxE ?mulr0 ?normr0 //.
Qed.

Example C14_example_ok : let u := exH [realFieldType of rat] in let t := tol [realFieldType of rat] in
  uniq (vv0 t u [tuple "x"; "r"]%string) /\ exists svv cvv vv, new_vv t u [tuple "x"; "r"]%string = Ok (svv, cvv, vv).
Proof.
move=> u t; split; last first.
  by have [_ H] := @new_vv_err _ t _ _ _ u [tuple "x"; "r"]%string; have [//|[[s c] v] Hv] := H; exists s, c, v.
have t1 : t <= 1 by [].
have t0 : 0 < t by [].
have nz : `|-1| < t = false :> bool by apply/negbTE; rewrite -leNgt normrN normr1.
have ix : inall t u xv.
  by apply/andP; split; apply/negP => /forallP /(_ 0) /=; rewrite row2x nz.
have ir : ~~ inall t u rv.
  by rewrite negb_and negbK; apply/orP; left; apply/forallP=> i /=; rewrite row2r normr0.
rewrite /vv0; have -> : enum (inall t u) = [:: xv]; last by [].
have e1 : enum 'I_1 = [:: 0] by rewrite enum_ordSl (size0nil (size_enum_ord 0)).
rewrite (enum_pred (inall t u)) (enum_ord_add 1 1) e1 /= -/xv -/rv ix (negbTE ir) //.
Qed.

(** C15 *)
Theorem C15_rotation_preserves_solutions (F : realFieldType) (a b : nat)
    (rq : 'M[F]_(a + b) -> 'M[F]_(a + b) * 'M[F]_(a + b)) (P M : 'M[F]_(a + b)) (g : 'cV[F]_(a + b)) P' M' g' :
  is_rq rq -> rotate rq P M g = (P', M', g') ->
  (forall v w, P' *m v = M' *m w + g' <-> P *m v = M *m w + g) /\ ursubmx M' = 0.
Proof.
move=> rqP E; split; last by have := rotate_ur P M g rqP; rewrite E.
by move=> v w; have := rotate_sol rqP P M g v w; rewrite E.
Qed.
Print Assumptions C15_rotation_preserves_solutions.

Theorem C15_normalisation_preserves_solutions (F : fieldType) (dimq dimp : nat) (sm0 sm : sysmats F dimq dimp) :
  normalise sm0 = Ok sm ->
  [/\ forall q q' p p', unconstrained (mS sm0) (mT sm0) q q' p p' <-> unconstrained (mS sm) (mT sm) q q' p p',
      forall q q' p p', constrained (mV sm0) (mW sm0) (mh sm0) q q' p p'
                     <-> constrained (mV sm) (mW sm) (mh sm) q q' p p',
      drsubmx (mT sm) = 1%:M /\ drsubmx (mW sm) = 1%:M &
      ursubmx (mT sm) = ursubmx (mT sm0) /\ ursubmx (mW sm) = ursubmx (mW sm0)].
Proof. exact: normaliseP. Qed.
Print Assumptions C15_normalisation_preserves_solutions.

(** over a real closed field every matrix can be so decomposed *)
Example C15_example (F : rcfType) d : is_rq (@some_rq F d).
Proof. exact: some_rqP. Qed.
Example C15_example_normalise : exists sm, normalise P_EngineEx.ex1 = Ok sm.
Proof.
have [t [b]] := P_EngineEx.ex1_ok 1 1; rewrite /preprocess.
by case: (normalise _) => [sm|//] _; exists sm.
Qed.

(** C18.  The state block is the list [inq] of positions among the variables,
    the added lags and the shocks *)
Theorem C18_shocks_are_last_states (F : realFieldType) (tol : F) (m n e : nat) (u : usys F m n e) :
  0 < tol ->
  drop (dimq tol u - e) (enum (M_GenSys.inq (tol:=tol) (u:=u))) = [seq rshift (n + na tol u) j | j <- enum 'I_e] <->
  (forall k, (exists i, tol <= `|DD0 u i k|) \/ (exists fd, fd0 u = Some fd /\ tol <= `|fd 0 k|)).
Proof.
move=> t0; rewrite (shocks_last u t0).
have E k : tol <= `|fdE u 0 k| <-> exists fd, fd0 u = Some fd /\ tol <= `|fd 0 k|.
  rewrite /fdE; case: (fd0 u) => [fd|].
    by rewrite mxE normrN; split=> [h|[fd' [[<-]]] //]; exists fd.
  by rewrite mxE normr0 leNgt t0; split=> // -[fd []].
by split=> H k; have := H k; rewrite E.
Qed.
Print Assumptions C18_shocks_are_last_states.

Theorem C18_zero_loading_refuted (F : realFieldType) :
  [seq val j | j <- drop (dimq (tol F) (exS F) - 1) (enum (M_GenSys.inq (tol:=tol F) (u:=exS F)))] <>
  [:: (2 + na (tol F) (exS F))%N].
Proof.
have [t0 _] := andP (tol_ok F).
have e1 : enum 'I_1 = [:: 0] by rewrite enum_ordSl (size0nil (size_enum_ord 0)).
have [H _] := @C18_shocks_are_last_states F (tol F) 1 2 1 (exS F) t0 => E.
have /H /(_ 0) : drop (dimq (tol F) (exS F) - 1) (enum (M_GenSys.inq (tol:=tol F) (u:=exS F))) =
  [seq rshift (2 + na (tol F) (exS F)) j | j <- enum 'I_1].
  by apply: (inj_map val_inj); rewrite E e1 /= addn0.
case=> [ [i0] | [fd [ [<-] ] ] ]; last by rewrite mxE normr0 leNgt t0.
by rewrite (ord1 i0) mxE eqxx mulr1n normr0 leNgt t0.
Qed.
Print Assumptions C18_zero_loading_refuted.

Example C18_example (F : realFieldType) : forall k : 'I_1, exists i, tol F <= `|DD0 (exH F) i k|.
Proof.
by move=> k; exists 0; rewrite (ord1 k) /= mxE eqxx mulr1n normrN normr1; case/andP: (tol_ok F).
Qed.

(** C78 *)
Theorem C78_announced_paths_solve_users_model (F : realFieldType) (tol : F) (m n e : nat) (u : usys F m n e)
    (rq : forall d, 'M[F]_d -> 'M[F]_d * 'M[F]_d) sm omg lam (l_max k_max : nat) t b :
  well_scaled u tol -> constraint_connected u -> no_lead_lag u -> encodable u -> (forall d, is_rq (@rq d)) ->
  sys_of tol u rq = Ok sm -> linear_solution (mS sm) (mT sm) omg lam ->
  preprocess sm (ff tol u) omg lam l_max k_max = Ok (t, b) ->
  exists rules, stored l_max k_max t rules /\
    forall l k, (l <= l_max)%N -> (k <= k_max)%N ->
      (forall q0, exists q p, q 0%N = q0 /\ follows rules l k q p) /\
      (forall q p, follows rules l k q p ->
         exists x eps, [/\ no_future_shocks eps, forall s, q s = q_of tol u (x s) (eps s),
           forall s, p s = p_of tol u (x s.+1) (eps s.+1) & solves_user u (binds l k) x eps]).
Proof.
move=> ws cc nl en rqP sysE ls pre; have [_ _ h1 h2] := sys_ofP rqP sysE.
have [rules [st H]] := c01 pre h1 h2 ls; exists rules; split=> // l k ll kk.
have [ex an] := H l k ll kk; split=> // q p /an [ob _].
exact/(c78 ws cc rqP sysE l k q p nl en).
Qed.
Print Assumptions C78_announced_paths_solve_users_model.

Example C78_example : let F := [rcfType of realalg] in let u := exB F in let t := tol F in
  [/\ well_scaled u t, constraint_connected u /\ no_lead_lag u, encodable u,
      forall d, is_rq (@some_rq F d) &
      exists sm omg lam tb, [/\ sys_of t u (@some_rq F) = Ok sm, linear_solution (mS sm) (mT sm) omg lam &
        preprocess sm (ff t u) omg lam 4 17 = Ok tb]].
Proof.
move=> F u t; split; [exact: exB_ws|split; [exact: exB_cc|exact: exB_nll]|exact: exB_en|exact: some_rqP|].
have [sm [omg [lam [t' [b' [h1 h2 h3]]]]]] := @exB_ok F (@some_rq F) (ff t u) 4 17 (@some_rqP F).
by exists sm, omg, lam, (t', b').
Qed.
Print Assumptions C78_example.

(** C79: the value compared with x_bar is the value of the constrained variable
    that would satisfy the user's constraint, all other variables given *)
Theorem C79_notional_value_is_the_users (F : realFieldType) (tol : F) (m n e : nat) (u : usys F m n e)
    (q : nat -> 'cV[F]_(dimq tol u)) (p : nat -> 'cV[F]_(dimp tol u)) x eps s :
  well_scaled u tol -> constraint_connected u -> encodable u ->
  q s = q_of tol u (x s) (eps s) -> q s.+1 = q_of tol u (x s.+1) (eps s.+1) -> p s = p_of tol u (x s.+1) (eps s.+1) ->
  let v := notional (fq1 (ff tol u)) (fp1 (ff tol u)) (fq0 (ff tol u)) q p s in
  fb0 u *m (\col_j (if j == cv u then v else x s.+1 j 0)) + fc0 u *m x s + shock_row u *m eps s = 0.
Proof.
move=> ws cc en e0 e1 e2 v; have := c79 ws cc en e0 e1 e2; rewrite -/v => H.
apply/matrixP=> i j; rewrite !ord1 [RHS]mxE -[RHS]H [LHS]mxE [X in X + _ = _]mxE; congr (_ + _ + _).
rewrite mxE (bigD1 (cv u)) //= !mxE eqxx; congr (_ + _); apply: eq_bigr => k nk.
by rewrite mxE (negbTE nk).
Qed.
Print Assumptions C79_notional_value_is_the_users.

Example C79_example (F : realFieldType) : let u := exH F in let t := tol F in
  [/\ well_scaled u t, constraint_connected u, encodable u &
    let q s := q_of t u (exH_x F s) 0 in let p s := p_of t u (exH_x F s.+1) 0 in
    notional (fq1 (ff t u)) (fp1 (ff t u)) (fq0 (ff t u)) q p 1%N = 6%:R].
Proof.
move=> u t; split; [exact: exH_ws|exact: exH_cc|exact: exH_en|] => q p.
have := @C79_notional_value_is_the_users F t _ _ _ u q p (@exH_x F) (@exH_eps F) 1%N (exH_ws F) (exH_cc F) (exH_en F) erefl erefl erefl.
move=> /=; set v := notional _ _ _ _ _ _.
rewrite [\col_j _]col2E ![(\col_j _) _ _]mxE /= row2_00 mul0mx addr0 /exH_eps mulmx0 addr0 row2_col col2x -one1_0.
move/one1_inj/eqP; rewrite addrC mulNr subr_eq0 expr2 -!natrM => /eqP h.
have two : (2%:R : F) != 0 by rewrite pnatr_eq0.
by apply: (mulfI two); rewrite h -natrM.
Qed.
