(** Filtering: C56-C62, C84, C85. *)
Set Warnings "-all".
From Coq Require Import String.
From mathcomp Require Import all_ssreflect all_algebra.
From Verif Require Import PyBase PyStr M_FindLk M_Engine S_Engine P_EngineEx M_Tools S_Tools P_Tools P_Tools4 P_ToolsEx M_Filter S_Filter P_Filter P_FilterEx.
Set Implicit Arguments. Unset Strict Implicit. Unset Printing Implicit Defensive.
Import GRing.Theory Num.Theory Order.TTheory.
Local Open Scope ring_scope.

(** C56: the linear filter *)
Theorem C56_kalman (F : realFieldType) lyap (m : tmodel F) (Q0 : 'M[F]_(neps m)) (f : kf m) :
  lsolved m -> sound_lyap lyap -> setup_kf lyap (Sq Q0) None = Ok f ->
  exists B Q, [/\ linear_law (k_F f) B, Q = B *m Q0 *m B^T, k_Q f = Sq Q & solves_lyap (k_F f) Q (k_P f)].
Proof.
move=> ls sl; have [omg [lam [hc law _]]] := lawP ls; set c := Cell _ _ _ _ in hc law.
rewrite /setup_kf hc [rbind (Ok _) _]/= /kf_Q as_size_same as_size_same [rbind (Ok _) _]/=.
set E := E_of c in law *; set F1 := F_of c in law *; set Q := E *m Q0 *m E^T.
rewrite drsub_pad; case El: (lyap _ _ _) => [p4|e] //= [<-] /=; exists E, Q; split=> //.
by rewrite /solves_lyap tr_row_mx row_mxKr col_mxKd -tr_row_mx; apply: stationary; apply: sl El.
Qed.

(** C91: a given initial covariance is used as it is, with the same matrices otherwise *)
Theorem C91_given_covariance_is_used (F : realFieldType) lyap (m : tmodel F) (Q0 : 'M[F]_(neps m)) (P : 'M[F]_(dx m)) :
  lsolved m -> exists f B, [/\ setup_kf lyap (Sq Q0) (Some P) = Ok f, k_P f = P, linear_law (k_F f) B & k_Q f = Sq (B *m Q0 *m B^T)].
Proof.
move=> ls; have [omg [lam [hc law _]]] := lawP ls.
set c := Cell _ _ _ _ in hc law; rewrite /setup_kf hc [rbind (Ok _) _]/= /kf_Q as_size_same.
by eexists; exists (E_of c); split; first reflexivity.
Qed.
Print Assumptions C91_given_covariance_is_used.

(** the ensemble filter, in full and in reduced form *)
Theorem C56_ensemble (F : realFieldType) lyap (m : tmodel F) (Q0 : 'M[F]_(neps m)) P :
  lsolved m -> sound_lyap lyap -> get_p_init_lyapunov lyap Q0 = Ok P ->
  exists A B, linear_law A B /\ solves_lyap A (B *m Q0 *m B^T) P.
Proof.
move=> ls sl; have [omg [lam [hc law _]]] := lawP ls; set c := Cell _ _ _ _ in hc law.
rewrite /get_p_init_lyapunov hc /=; case El: (lyap _ _ _) => [p4|e] //= [<-].
by exists (row_mx 0 (F_of c)), (E_of c); split=> //; apply: stationary; apply: sl El.
Qed.
Theorem C56_reduced (F : realFieldType) lyap (m : tmodel F) (Q0 : 'M[F]_(neps m)) P :
  lsolved m -> sound_lyap lyap -> init_reduced lyap Q0 = Ok P ->
  exists A B, linear_state_law A B /\ solves_lyap A (B *m Q0 *m B^T) P.
Proof.
move=> ls sl; have [omg [lam [hc _ law]]] := lawP ls.
by rewrite /init_reduced hc /= => /sl h; do 2!eexists; split; first exact: law.
Qed.

(** C57 *)
Theorem C57_stable (F : realFieldType) lyap (m : tmodel F) (Q0 : 'M[F]_(neps m)) (init_cov : option 'M[F]_(dx m)) n q :
  lsolved m -> dx m <> neps m -> Q_after lyap init_cov n.+1 (Sq Q0) = Ok q ->
  exists A B, linear_law A B /\ q = Sq (B *m Q0 *m B^T).
Proof.
move=> ls ne; have [omg [lam [hc law _]]] := lawP ls; set c := Cell _ _ _ _ in hc law.
have step q0 q1 : rmap (@k_Q F m) (setup_kf lyap q0 init_cov) = Ok q1 -> q1 = kf_Q c q0.
  rewrite /setup_kf hc [rbind (Ok _) _]/=; case: (match init_cov with Some _ => _ | None => _ end) => [P|] //= [<-] //.
rewrite /Q_after /=; case E: (setup_kf _ _ _) => [f|] //= H; exists (row_mx 0 (F_of c)), (E_of c); split=> //.
have e1 : k_Q f = Sq (E_of c *m Q0 *m (E_of c)^T).
  by rewrite (step (Sq Q0) (k_Q f)) ?E // /kf_Q as_size_same.
move: H; rewrite e1; elim: n 1%N {E} => [|n IH] j /=; first by case.
case E: (setup_kf _ _ _) => [f'|] //= H; apply: (IH j.+1); rewrite -{}H; congr foldM.
by apply: esym; rewrite (step (Sq (E_of c *m Q0 *m (E_of c)^T)) (k_Q f')) ?E // /kf_Q as_size_other.
Qed.

(** C58 *)
Lemma setup_F (F : realFieldType) lyap (m : tmodel F) q init_cov (f : kf m) : lsolved m -> setup_kf lyap q init_cov = Ok f ->
  exists E c, [/\ cell10 m = Ok c, E = E_of c & linear_law (k_F f) E].
Proof.
move=> ls; have [omg [lam [hc law _]]] := lawP ls.
rewrite /setup_kf hc [rbind (Ok _) _]/=; case: (match init_cov with Some _ => _ | None => _ end) => [P|] //= [<-] /=.
by do 2!eexists; split; first reflexivity.
Qed.

Theorem C58_recover (F : realFieldType) lyap pinv (m : tmodel F) q init_cov (f : kf m) xp eps x lk fl :
  lsolved m -> pseudo_inverse pinv -> distinct_effects m -> setup_kf lyap q init_cov = Ok f ->
  size xp = dx m -> size eps = neps m -> t_func m xp (Some eps) KNone true = Ok (x, lk, fl) ->
  get_eps_lin pinv (k_F f) x xp = Ok eps.
Proof.
move=> ls pi de /(setup_F ls) [E [c [hc eE law]]] sx se; have tl := law _ _ sx se; rewrite tl => -[<- _ _].
rewrite /get_eps_lin hc [rbind (Ok _) _]/= /matvec sx eqxx [rbind (Ok _) _]/=.
set u := k_F f *m _; have -> : [seq - y | y <- seq_of u] = seq_of (- u).
  by rewrite /seq_of -map_comp; apply: eq_map => i; rewrite /comp [RHS]mxE.
rewrite vaddE [rbind (Ok _) _]/= -eE addrAC subrr add0r size_seq_of eqxx col_of_seq_of; congr Ok.
apply: esym; apply: (de xp) => //; first by rewrite size_seq_of.
by rewrite tl law ?size_seq_of // col_of_seq_of !mulmxA pi.
Qed.

(** C59: simulating the extracted shocks from the extracted initial state gives the path built by extract *)
Lemma extract_loopP (F : realFieldType) pinv (m : tmodel F) Ff cur means r : extract_loop pinv (m := m) Ff cur means = Ok r ->
  size r.1 = size means /\ exists lks fl, sim_loop m true cur r.1 = Ok (lks, fl) /\ [seq x.1 | x <- lks] = r.2.
Proof.
elim: means cur r => [|x means IH] cur r /=; first by case=> <-; split=> //; exists [::], 0%N.
case: get_eps_lin => [e|] //=; case Et: t_func => [[[y lk] fl]|] //=; case El: extract_loop => [rest|] //= [<-] /=.
have [sz [lks [fl' [es <-]]]] := IH _ _ El; split; first by rewrite sz.
by rewrite Et /= es /=; do 2!eexists; split; first reflexivity.
Qed.

Theorem C59_replay (F : realFieldType) pinv (m : tmodel F) (Ff : 'M[F]_(dx m)) means x0 resid path
    P (setpar : P -> res (tmodel F)) op par :
  setpar par = Ok m -> extract_kf pinv Ff means = Ok (x0, resid, path) ->
  [/\ x0 = head [::] means, size resid = (size means).-1 & exists lks fl, sim_run setpar op None true par resid x0 = Ok (path, lks, fl)].
Proof.
move=> ep; case: means => [|y means] //=; case El: extract_loop => [r|] //= [<- <- <-]; have [sr [lks [fl [es el]]]] := extract_loopP El.
by split=> //; rewrite /sim_run /= ep /= eqxx es /= el; do 2!eexists.
Qed.

(** and if the given states are a linear path of the model, exactly its shocks are recovered *)
Theorem C59_exact (F : realFieldType) lyap pinv (m : tmodel F) q init_cov (f : kf m) es x0 means lks fl
    P (setpar : P -> res (tmodel F)) op par :
  lsolved m -> pseudo_inverse pinv -> distinct_effects m -> setup_kf lyap q init_cov = Ok f -> setpar par = Ok m ->
  size x0 = dx m -> all (fun e => size e == neps m) es ->
  sim_run setpar op None true par es x0 = Ok (means, lks, fl) ->
  extract_kf pinv (k_F f) means = Ok (x0, es, means).
Proof.
move=> ls pi de sf ep sx al; rewrite /sim_run /= ep /= eqxx; case E: sim_loop => [[r fl']|] //= [<- _ _].
rewrite /extract_kf; suff -> : extract_loop pinv (k_F f) x0 [seq x.1 | x <- r] = Ok (es, [seq x.1 | x <- r]) by [].
elim: es x0 r fl' sx al E => [|e es IH] x0 r fl' sx /=; first by move=> _ [<-].
case/andP=> /eqP se al; case Et: t_func => [[[y lk] fl1]|] //=; case E: sim_loop => [[r' fl2]|] //= [<- _] /=.
rewrite (C58_recover ls pi de sf sx se Et) /= Et /= (IH y r' fl2) //.
have [E0 [c [_ _ law]]] := setup_F ls sf; move: Et; rewrite law // => -[<- _ _]; by rewrite size_seq_of.
Qed.

(** C60 *)
Theorem C60_guards (F S : Type) ncols neps kind smoother ll dispatch setup (lik : res (xr F)) (states : res S) :
  ncols = 1%N \/ ncols <> neps -> run_filter ncols neps kind smoother ll dispatch setup lik states = Err NotImplementedErr.
Proof. by rewrite /run_filter; case: eqP => // h [//|/eqP ->]. Qed.
Theorem C60_ll_is_number (F S : Type) ncols neps kind dispatch setup (lik : res (xr F)) (states : res S) r :
  get_ll ncols neps kind dispatch setup lik states = Ok r ->
  exists2 x, r = inl x & ~~ isnan x /\ exists2 y, lik = Ok y & x = if isnan y then NInf else y.
Proof.
rewrite /get_ll /run_filter; case: eqP => // _; case: eqP => // _ /=; case: (match kind with KalmanF => _ | _ => _ end) => //= _.
have -> : (match kind with InversionF => false | _ => false end) = false by case: kind.
case: lik => [y|] //= [<-]; eexists; first reflexivity; split; [by case: y | by exists y].
Qed.

(** run_filter returns the likelihood if it is asked for it, and the (smoothed) states otherwise *)
Theorem C60_states (F S : Type) ncols neps kind smoother dispatch setup (lik : res (xr F)) (states : res S) r :
  run_filter ncols neps kind smoother false dispatch setup lik states = Ok r -> exists2 x, r = inr x & states = Ok x.
Proof.
rewrite /run_filter; case: eqP => // _; case: eqP => // _ /=; case: (match kind with KalmanF => _ | _ => _ end) => //= _.
by case: ifP => //= _; case: states => [x|] //= [<-]; exists x.
Qed.
Print Assumptions C60_states.

(** C61 *)
Theorem C61_names have_wip obs shocks fargs :
  let create t := create_filter have_wip obs shocks t fargs in
  [/\ create (Some "KalmanFilter"%string) = Ok KalmanF, create (Some "KF"%string) = Ok KalmanF,
      create (Some "InversionFilter"%string) = create (Some "IF"%string),
      create (Some "ParticleFilter"%string) = create (Some "PF"%string) /\
      create (Some "AuxiliaryParticleFilter"%string) = create (Some "APF"%string) &
      forall t, t \notin [:: Some "KalmanFilter"; Some "KF"; Some "InversionFilter"; Some "IF"; Some "ParticleFilter"; Some "PF";
                             Some "AuxiliaryParticleFilter"; Some "APF"]%string -> create t = Ok EnsembleF].
Proof.
split=> // t; rewrite !inE => /norP [/negbTE h1 /norP [/negbTE h2 /norP [/negbTE h3 /norP [/negbTE h4 /norP [/negbTE h5 /norP [/negbTE h6 /norP [/negbTE h7 /negbTE h8]]]]]]].
by rewrite /create_filter /canon h1 h3 h5 h7 h2 h4 !inE h6 h8.
Qed.
Theorem C61_unavailable have_wip obs shocks fargs :
  (forall t, t \in [:: "IF"; "InversionFilter"; "PF"; "ParticleFilter"; "APF"; "AuxiliaryParticleFilter"]%string ->
     exists e, create_filter have_wip obs shocks (Some t) fargs = Err e) /\
  (forall F S ncols neps smoother ll (setup : res unit) (lik : res (xr F)) (states : res S), exists e,
     run_filter ncols neps EnsembleF smoother ll true setup lik states = Err e).
Proof.
split=> [t|F S ncols neps smoother ll setup lik states]; last first.
  by rewrite /run_filter; case: ifP => _; [eexists | case: ifP => _ /=; eexists].
have IF : exists e, create_filter have_wip obs shocks (Some "IF"%string) fargs = Err e.
  rewrite /create_filter /=; case: have_wip => /=; last by eexists.
  case: lookup => [oo|e] /=; last by eexists.
  case: py_find => [i|e] /=; last by eexists.
  case: lookup => [os|e] /=; last by eexists.
  case: py_find => [j|e] /=; last by eexists.
  case E: lookup => [xb|e] /=; last by eexists.
  suff -> : "x_bar"%string \in [seq x.1 | x <- fargs] by eexists.
  move: E; rewrite /lookup; case Ef: [seq _ | x <- fargs & _] => [|y l] //= _.
  have : y \in [seq x.2 | x <- fargs & x.1 == "x_bar"%string] by rewrite Ef mem_head.
  by case/mapP=> x; rewrite mem_filter => /andP [/eqP <- xi] _; apply: map_f.
rewrite !inE => /or4P [/eqP ->|/eqP ->|/eqP ->|/or3P [] /eqP ->]; rewrite ?IF //; by eexists.
Qed.

(** the ensemble has by default as many members as the number of pairs of states, and at least one *)
Theorem C61_default_size dimq dimeps : let d := (dimq - dimeps)%N in
  (d ^ 2 < 2 * default_N dimq dimeps <= d ^ 2 + 2)%N.
Proof.
rewrite /= /default_N; set d := (_ ^ 2)%N; rewrite mul2n doubleS -{1 4}(odd_double_half d) ltnS.
by apply/andP; split; [case: (odd d) => /=; rewrite ?add1n ?add0n ?ltnS | rewrite addnC !addSn add0n !ltnS; apply: leq_addl].
Qed.
Print Assumptions C61_default_size.
Example C61_default_ex : default_N 9 4 = 13%N. Proof. by []. Qed.

(** C62 *)
Theorem C62_same_seed (W A R : Type) (npas : W -> A -> res R * W) n accept w a :
  seeded npas -> attempt npas n.+1 accept w a = attempt npas 1 accept w a.
Proof.
move=> sd; rewrite /attempt /=; case E: (npas w a) => [[x|e] w'] //.
have fail k w1 l : e <> KeyboardInterruptExn -> (attempts npas k w1 a l).1 = inr (if k is 0%N then l else Some e).
  move=> ne; elim: k w1 l => [|k IH] w1 l //=; have := sd w w1 a; rewrite E /=; case: (npas w1 a) => r w2 /= <-.
  by case: e ne {E} IH => // _ ->; case: (k).
by case: e E fail => // E fail; rewrite /= fail //; case: (n).
Qed.
Theorem C62_no_attempts (W A R : Type) (npas : W -> A -> res R * W) accept w a : attempt npas 0 accept w a = Err UnboundLocal.
Proof. by []. Qed.

(** the outcome after attempts that all fail in the same way: [None] if failures are accepted, otherwise the exception; interrupts
    are never accepted *)
Theorem C62_failure (W A R : Type) (npas : W -> A -> res R * W) n accept w a e :
  (forall w, (npas w a).1 = Err e) ->
  attempt npas n.+1 accept w a = if accept && ~~ (if e is KeyboardInterruptExn then true else false) then Ok None else Err e.
Proof.
move=> fl; have sd w1 w2 : (npas w1 a).1 = (npas w2 a).1 by rewrite !fl.
have H k w1 l : (if e is KeyboardInterruptExn then true else false) = false -> (attempts npas k.+1 w1 a l).1 = inr (Some e).
  elim: k w1 l => [|k IH] w1 l ne.
    by rewrite /=; have := fl w1; case: (npas w1 a) => r w' /= ->; case: (e) ne.
  rewrite [attempts _ _ _ _ _]/=; have := fl w1; case: (npas w1 a) => r w' /= ->.
  have := IH w' (Some e) ne; case: (e) ne => // _; exact.
rewrite /attempt; case K: (if e is KeyboardInterruptExn then true else false).
  by rewrite andbF /=; have := fl w; case: (npas w a) => r w' /= ->; case: (e) K.
by rewrite H // andbT; case: accept.
Qed.
Theorem C62_success (W A R : Type) (npas : W -> A -> res R * W) n accept w a r :
  (npas w a).1 = Ok r -> attempt npas n.+1 accept w a = Ok (Some r).
Proof. by rewrite /attempt /=; case: (npas w a) => r' w' /= ->. Qed.
Print Assumptions C62_failure.
Print Assumptions C62_success.

(** C84: with states of the other shapes (states and shocks of a period, states before) shocks with the observed effects are found *)
Theorem C84_fitting_shapes (F : realFieldType) pinv (m : tmodel F) c s e :
  (neps m < dq m)%N -> pseudo_inverse pinv -> cell10 m = Ok c -> size s = ns m -> size e = neps m ->
  exists e', [/\ get_eps_other pinv m (seq_of (qm c *m col_of (dq m) (s ++ e))) s = Ok e', size e' = neps m &
    qm c *m col_of (dq m) (s ++ e') = qm c *m col_of (dq m) (s ++ e)].
Proof.
move=> lt pi hc es ee; have ed := dqE lt; set G := slice (qm c) 0 (dq m) 0 (ns m); set H := slice (qm c) 0 (dq m) (ns m) (neps m).
have cut t : qm c *m col_of (dq m) (s ++ t) = G *m col_of (ns m) s + H *m col_of (neps m) t.
  by apply/matrixP=> i j; rewrite (ord1 j); apply: cut_cols.
exists (seq_of (pinv _ _ H *m (H *m col_of (neps m) e))); split; last 2 first.
- by rewrite size_seq_of.
- by rewrite !cut col_of_seq_of !mulmxA pi.
rewrite /get_eps_other hc [rbind (Ok _) _]/= /matvec es eqxx [rbind (Ok _) _]/= -/G.
set u := G *m _; have -> : [seq - y | y <- seq_of u] = seq_of (- u).
  by rewrite /seq_of -map_comp; apply: eq_map => i; rewrite /comp [RHS]mxE.
by rewrite vaddE [rbind (Ok _) _]/= cut -/u addrAC subrr add0r size_seq_of eqxx col_of_seq_of.
Qed.
Print Assumptions C84_fitting_shapes.

(** C84: for all filters but the linear one no pair of states of a model with more than one variable is accepted *)
Theorem C84_states_rejected (F : realFieldType) pinv (m : tmodel F) x xp : (0 < neps m < dq m)%N -> (1 < dx m)%N ->
  size x = dx m -> size xp = dx m -> is_ok (cell10 m) -> get_eps_other pinv m x xp = Err ValueError.
Proof.
move=> /andP [e0 lt] _ sx sp; rewrite /get_eps_other; case: cell10 => //= c _; rewrite /matvec sp.
case: eqP => //= ed; rewrite /vadd size_map size_seq_of sx; case: eqP => //= e2.
exfalso; move: e0; rewrite ed in e2; have := dqE lt; rewrite -e2 => /eqP; rewrite -{1}[ns m]addn0 eqn_add2l => /eqP <-; by rewrite ltnn.
Qed.

(** C85 *)
Theorem C85_obs_cov (F : realFieldType) (n k : nat) (Z : 'M[F]_(n, k)) (scale : F) :
  let C := create_obs_cov Z scale in
  let avg j := (\sum_t Z t j) / n%:R in
  [/\ forall i j, i != j -> C i j = 0,
      (0 < n)%N -> forall j, C j j * n%:R = scale ^+ 2 * \sum_t (Z t j - avg j) ^+ 2,
      (0 < n)%N -> forall j, (C j j == 0) = (scale == 0) || [forall t, Z t j == avg j] &
      forall v : 'cV[F]_k, 0 <= (v^T *m C *m v) 0 0].
Proof.
move=> C avg; split.
- by move=> i j ne; rewrite /C /create_obs_cov !mxE (negbTE ne).
- move=> n0 j; rewrite /C /create_obs_cov !mxE eqxx mulr1n /var /mean mulrAC divfK ?pnatr_eq0 -?lt0n // mulrC //.
- move=> n0 j; rewrite /C /create_obs_cov !mxE eqxx mulr1n mulf_eq0 sqrf_eq0 orbC; congr (_ || _).
  rewrite /var /mean mulf_eq0 invr_eq0 pnatr_eq0 (negbTE (lt0n_neq0 n0)) orbF psumr_eq0; last by move=> t _; exact: sqr_ge0.
  apply/allP/forallP=> h t; first by have := h t (mem_index_enum t); rewrite /= sqrf_eq0 subr_eq0.
  by move=> _ /=; rewrite sqrf_eq0 subr_eq0; exact: h.
move=> v; rewrite /C /create_obs_cov mul_mx_diag mxE; apply: sumr_ge0 => j _; rewrite !mxE.
rewrite mulrAC -expr2 mulr_ge0 ?sqr_ge0 // mulr_ge0 ?sqr_ge0 // /var /mean divr_ge0 ?ler0n //.
by apply: sumr_ge0 => t _; exact: sqr_ge0.
Qed.

(** C57, violated if there are as many variables as shocks: with one variance 1, the second run uses 16 instead of 4 *)
Theorem C57_refuted : exists (m : tmodel [realFieldType of rat]) (Q0 : 'M[rat]_(neps m)) (init_cov : option 'M[rat]_(dx m)) q1 q2,
  [/\ lsolved m, Q_after lyap_sc init_cov 1 (Sq Q0) = Ok q1, Q_after lyap_sc init_cov 2 (Sq Q0) = Ok q2 & q1 <> q2].
Proof.
have [t [b [ls hc]]] := ef_solved; exists (ef_m t b), 1%:M, (Some 0).
have s2 (a : rat) : kf_Q (m := ef_m t b) (Cell ef_B 0 ef_A 0) (Sq (a%:M : 'M[[realFieldType of rat]]_2)) = Sq ((4%:Q * a)%:M : 'M[[realFieldType of rat]]_2).
  by rewrite /kf_Q (as_size_same (a%:M : 'M[[realFieldType of rat]]_2)) ef_E -ef_EE.
exists (Sq (4%:Q%:M : 'M[[realFieldType of rat]]_2)), (Sq (16%:Q%:M : 'M[[realFieldType of rat]]_2)); split=> //; last exact: ef_ne.
- by rewrite /Q_after /= /setup_kf hc /= s2 mulr1.
- by rewrite /Q_after /= /setup_kf hc /= s2 mulr1 s2.
Qed.

(** the hypotheses are met: a solved model with two shocks, two variables, a sound solver that succeeds, a pseudo-inverse *)
Example C56_met : exists (m : tmodel [realFieldType of rat]) (Q0 : 'M[rat]_(neps m)), 
  [/\ lsolved m, sound_lyap (F := [realFieldType of rat]) lyap_sc, exists f : kf m, setup_kf lyap_sc (Sq Q0) None = Ok f,
      exists P, get_p_init_lyapunov (F := [realFieldType of rat]) lyap_sc Q0 = Ok P &
      exists P, init_reduced (F := [realFieldType of rat]) lyap_sc Q0 = Ok P].
Proof.
have [t [b [ls hc]]] := ef_solved; exists (ef_m t b), 1%:M.
have [h1 h2 h3] := @inits_ok _ lyap_sc (ef_m t b) _ 1%:M hc (fun Q => ef_state Q).
by split=> //; exact: lyap_sc_sound.
Qed.
Example C57_met : exists m : tmodel [realFieldType of rat], [/\ lsolved m, dx m <> neps m & forall Q0 : 'M[rat]_(neps m),
  exists q, Q_after lyap_sc (Some (0 : 'M[rat]_(dx m))) 3 (Sq Q0) = Ok q].
Proof.
have [t [b ls]] := ex3_lsolved; exists (ex3_m t b); split=> // Q0.
exact: Q_after_ok.
Qed.
Example C58_met : exists m : tmodel [realFieldType of rat], [/\ lsolved m, distinct_effects m,
  pseudo_inverse (F := [realFieldType of rat]) (fun a b => @pinvmx _ a b) &
  exists f : kf m, setup_kf lyap_sc (Sq (1%:M : 'M[rat]_(neps m))) (Some 0) = Ok f].
Proof.
have [t [b [ls hc]]] := ef_solved; exists (ef_m t b); split=> //; first exact: ef_distinct.
  by move=> a c A; apply: mulmxKpV.
exact: setup_ok.
Qed.
Example C84_fitting_met : exists (m : tmodel [realFieldType of rat]) c, [/\ (0 < neps m < dq m)%N, cell10 m = Ok c &
  pseudo_inverse (F := [realFieldType of rat]) (fun a b => @pinvmx _ a b)].
Proof.
have [t [b [ls hc]]] := ef_solved; exists (ef_m t b); eexists; split; [by [] | exact: hc | ].
by move=> a c A; apply: mulmxKpV.
Qed.
Example C60_states_met : run_filter (F := rat) (S := nat) 2 2 KalmanF true false false (Ok tt) (Ok NaN) (Ok 7%N) = Ok (inr 7%N).
Proof. by []. Qed.
Example C62_failure_met : let npas := fun (w a : nat) => (@Err nat ValueError, w.+1) in
  (forall w, (npas w 3%N).1 = Err ValueError) /\ attempt npas 4 true 0%N 3%N = Ok None /\ attempt npas 4 false 0%N 3%N = Err ValueError.
Proof. by []. Qed.
Example C60_met : run_filter (F := rat) (S := unit) 2 2 KalmanF false true false (Ok tt) (Ok NaN) (Ok tt) = Ok (inl NInf).
Proof. by []. Qed.
(** a sampling smoother that always fails after using random numbers *)
Example C62_met : seeded (fun (w : nat) (a : nat) => if a == 0%N then (Ok a, w.+1) else (@Err nat ValueError, w.+1)).
Proof. by move=> w w' [|a]. Qed.

Print Assumptions C56_kalman.
Print Assumptions C56_ensemble.
Print Assumptions C56_reduced.
Print Assumptions C57_stable.
Print Assumptions C58_recover.
Print Assumptions C59_replay.
Print Assumptions C59_exact.
Print Assumptions C60_guards.
Print Assumptions C60_ll_is_number.
Print Assumptions C61_names.
Print Assumptions C61_unavailable.
Print Assumptions C62_same_seed.
Print Assumptions C62_no_attempts.
Print Assumptions C84_states_rejected.
Print Assumptions C85_obs_cov.
Print Assumptions C57_refuted.
