(** Property theorems C19-C32, C80: transition function, observables, impulse
    responses, simulation, trajectories. *)
Set Warnings "-all".
From Coq Require Import String PeanoNat.
From mathcomp Require Import all_ssreflect all_algebra.
From Verif Require Import PyBase PyStr M_FindLk M_Engine S_Engine S_FindLk P_Engine4 M_Tools S_Tools P_Tools P_Tools2 P_Tools3 P_Tools4 P_Tools5
  P_ToolsEx T_Engine.
Set Implicit Arguments. Unset Strict Implicit. Unset Printing Implicit Defensive.
Import GRing.Theory Num.Theory Order.TTheory.
Local Open Scope ring_scope.

(** C19 *)
Theorem C19_only_the_state_block_matters (F : realFieldType) (m : tmodel F) (st st' : seq F) sh sk linear :
  (neps m < dq m)%N -> last_n (nq m) st = last_n (nq m) st' ->
  t_func m st sh sk linear = t_func m st' sh sk linear /\
  t_func_obs m st sh sk linear = t_func_obs m st' sh sk linear /\
  t_func m (last_n (nq m) st) sh sk linear = t_func m st sh sk linear /\
  ((size st < nq m)%N -> size (odflt (nseq (neps m) 0) sh) = neps m -> t_func m st sh sk linear = Err ValueError).
Proof.
move=> lt e; split.
  exact: (etrans (esym (t_func_block st sh sk linear lt))
           (etrans (congr1 (fun x => t_func m x sh sk linear) e) (t_func_block st' sh sk linear lt))).
split.
  exact: (etrans (esym (t_func_obs_block st sh sk linear lt))
           (etrans (congr1 (fun x => t_func_obs m x sh sk linear) e) (t_func_obs_block st' sh sk linear lt))).
by split; [apply: t_func_block | apply: t_func_short].
Qed.
Print Assumptions C19_only_the_state_block_matters.

(** without endogenous states every call with a non-empty state vector fails, and so does irfs *)
Theorem C19_no_states_refuted (F : realFieldType) (m : tmodel F) : neps m = dq m ->
  (forall (st : seq F) sh sk linear, size st != 0%N -> size (odflt (nseq (neps m) 0) sh) = neps m ->
     t_func m st sh sk linear = Err ValueError) /\
  (forall P (setpar : P -> res (tmodel F)) anyp sl T linear sk fo, (0 < T)%N -> (0 < size (vvs m))%N ->
     exists e, irfs m setpar anyp sl None None T linear sk fo = Err e).
Proof.
move=> e; split; first by move=> st sh sk lin; apply: t_func_nostates.
move=> P setpar anyp sl [|T] // lin sk fo _ v0; rewrite /irfs /irf_run [iota 0 T.+1]/= /=.
rewrite /irf_step; case Es: (shock_vec _ _ _) => [sv|e1] /=; last by exists e1.
set short := py_from _ _.
have short0 : size short != 0%N by rewrite /short e subrr /= drop0 size_nseq -lt0n.
have ssv : size sv = neps m.
  move: Es; rewrite /shock_vec /neps; have : size (nseq (size (shk m)) (0 : F)) = size (shk m) by rewrite size_nseq.
  elim: [seq norm_shock a | a <- sl] (nseq _ _) => [|[[s x] per] sl' IH] v ev /=; first by case=> <-.
  case: eqP => [_|_]; last exact: IH.
  rewrite /py_find; case: (boolP (s \in shk m)) => // si /=; apply: IH.
  by rewrite size_set_nth ev; apply/maxn_idPr; rewrite index_mem.
have fail k : t_func m short (Some sv) k lin = Err ValueError by apply: t_func_nostates.
case: ifP => _ /=; rewrite !fail /=; first by eexists.
by case: ifP => _ /=; eexists.
Qed.
Print Assumptions C19_no_states_refuted.

Example C19_example t b : let m := ex3_m t b in
  (neps m < dq m)%N /\ last_n (nq m) [:: 7%:Q; 3%:Q] = last_n (nq m) [:: 3%:Q].
Proof. by []. Qed.

(** C20 *)
Theorem C20_set_k_decoding (F : realFieldType) (m : tmodel F) st sh :
  (forall sk, t_func m st sh sk true = t_func m st sh (KTuple 0 0) false) /\
  (forall b linear, t_func m st sh (KBool b) linear = t_func m st sh KNone linear) /\
  (forall n, n != 0 -> t_func m st sh (KInt n) false = t_func m st sh (KTuple 0 n) false) /\
  t_func m st sh (KInt 0) false = t_func m st sh (KTuple 1 0) false /\
  (forall l, t_func m st sh (KTuple l (-1)) false = t_func m st sh KNone false) /\
  (forall l k x lk flag, k != -1 -> t_func m st sh (KTuple l k) false = Ok (x, lk, flag) -> lk = (l, k) /\ flag = 0%N) /\
  (forall x lk flag, t_func m st sh KNone false = Ok (x, lk, flag) ->
     exists l k : nat, lk = (Posz l, Posz k) /\ t_func m st sh (KTuple lk.1 lk.2) false = Ok (x, lk, 0%N)).
Proof.
split; first by [].
split; first by move=> b lin; apply: t_func_search; [right; exists b | left].
split; first by move=> n n0; rewrite /t_func /t_func_raw /= (negbTE n0).
split; first by [].
split; first by move=> l; symmetry; apply: t_func_search; [left | right; right; left; exists l].
split; last exact: t_func_search_forced.
move=> l k x lk fl k1 /t_func_inv /= [l' [k' [c []]]].
by rewrite (negbTE k1).
Qed.
Print Assumptions C20_set_k_decoding.

Example C20_example : exists t b, let m := ex3_m t b in exists x,
  t_func m [:: 0%:Q] (Some [:: 1%:Q]) (KTuple 1 2) false = Ok (x, (1, 2), 0%N).
Proof.
have [t [b sd]] := ex3_solved ex3_f; exists t, b.
have [c Ec] := cells_ok sd (isT : (1 <= 2)%N) (isT : (2 <= 3)%N).
by eexists; apply: (@t_func_forced _ (ex3_m t b) [:: 0%:Q] [:: 1%:Q] 1%N 2%N c).
Qed.

(** C21 *)
Theorem C21_observables_agree (F : realFieldType) (m : tmodel F) st sh sk linear :
  (0 < neps m < dq m)%N -> nsv m = nq m ->
  (forall x lk flag, t_func m st sh sk linear = Ok (x, lk, flag) ->
     exists o, t_func_obs m st sh sk linear = Ok (drop (dp m) x, o, lk, flag) /\ o_func2 m [:: x] = Ok [:: o]) /\
  (forall e, t_func m st sh sk linear = Err e <-> t_func_obs m st sh sk linear = Err e).
Proof.
move=> dm en; have := obs_agree st sh sk linear dm en.
case: (t_func m st sh sk linear) => [[[x lk] fl]|e]; case: (t_func_obs m st sh sk linear) => [[[[q o] lk'] fl']|e'] //.
  case=> -> <- <- Eo; split; last by [].
  by move=> x' lk2 fl2 [<- <- <-]; exists o; rewrite /o_func2 /= Eo.
by move=> <-; split=> // e0; split=> -[->].
Qed.
Print Assumptions C21_observables_agree.

(** several periods at once are treated row by row *)
Theorem C21_rows (F : realFieldType) (m : tmodel F) (xs os : seq (seq F)) :
  o_func2 m xs = Ok os <-> size xs = size os /\ forall i, (i < size xs)%N -> o_func2 m [:: nth [::] xs i] = Ok [:: nth [::] os i].
Proof.
rewrite /o_func2; elim: xs os => [|x xs IH] [|o os] /=; [by split|by split=> // -[]| | ].
  split; last by case.
  by case: obs_row => // a; case: mapM.
split.
  case E: obs_row => [a|] //; case E2: mapM => [ys|] // [<- eys].
  have [sz H] := (IH os).1 (etrans E2 (congr1 Ok eys)).
  by split; [rewrite sz | case=> [|i] //= lt; [rewrite E | apply: H]].
case=> -[sz] H; have := H 0%N isT; rewrite /=; case: obs_row => // a -[<-].
by rewrite (IH os).2 //; split=> // i lt; apply: (H i.+1).
Qed.
Print Assumptions C21_rows.

(** a single state passed as a vector always raises when there are several observables *)
Theorem C21_one_dimensional_state_refuted (F : realFieldType) (m : tmodel F) ndata st : nobs m != 1%N ->
  exists e, o_func1 m ndata st = Err e.
Proof.
by move=> n1; rewrite /o_func1; case: obs_row => [o|e] /=; [rewrite (negbTE n1) |]; eexists.
Qed.
Print Assumptions C21_one_dimensional_state_refuted.

Example C21_example t b : let m := ex3_m t b in (0 < neps m < dq m)%N /\ nsv m = nq m /\ nobs m != 1%N.
Proof. by []. Qed.

(** C22 *)
Theorem C22_linear_superposition (F : realFieldType) (m : tmodel F) sm f omg lam (a b : F) st st' sh sh' sk :
  @solved F m sm f omg lam ->
  size st = size st' -> (nq m <= size st)%N -> size sh = neps m -> size sh' = neps m ->
  exists x x', [/\ t_func m st (Some sh) sk true = Ok (x, (0, 0), 0%N),
    t_func m st' (Some sh') sk true = Ok (x', (0, 0), 0%N), size x = size x' &
    t_func m (lincomb a st b st') (Some (lincomb a sh b sh')) sk true = Ok (lincomb a x b x', (0, 0), 0%N)].
Proof.
move=> sd h1 h2 h3 h4; have [x [x' [? ? ? _ ?]]] := t_func_superpose (cell00 sd) (dims sd) a b sk h1 h2 h3 h4.
by exists x, x'.
Qed.
Print Assumptions C22_linear_superposition.

Theorem C22_linear_simulation (F : realFieldType) (m : tmodel F) sm f omg lam (a b : F) st st' es es' P (setpar : P -> res (tmodel F)) op par :
  @solved F m sm f omg lam -> setpar par = Ok m ->
  size st = size st' -> (nq m <= size st)%N -> size es = size es' ->
  all (fun e => size e == neps m) es -> all (fun e => size e == neps m) es' ->
  exists xs xs' lks,
    [/\ sim_run setpar op None true par es st = Ok (st :: xs, lks, 0%N),
        sim_run setpar op None true par es' st' = Ok (st' :: xs', lks, 0%N), size xs = size xs' &
        sim_run setpar op None true par (lincombs a es b es') (lincomb a st b st') =
          Ok (lincombs a (st :: xs) b (st' :: xs'), lks, 0%N)].
Proof.
move=> sd Ep h1 h2 h3 h4 h5; have [xs [xs' [E1 E2 sz E3]]] := sim_superpose (cell00 sd) (dims sd) a b h1 h2 h3 h4 h5.
exists xs, xs', [seq (0, 0) | x <- xs]; rewrite /sim_run /= Ep /= eqxx E1 E2 E3 /= -!map_comp /=.
have me (x : seq (seq F)) : map (fun x : seq F => x) x = x by elim: x => //= y x ->.
rewrite (@eq_map _ _ (fst \o _) (fun x : seq F => x)) // me.
rewrite (@eq_map _ _ (fst \o _) (fun x : seq F => x)) // me.
rewrite (@eq_map _ _ (fst \o _) (fun x : seq F => x)) // me.
have e1 : [seq ((0 : int), (0 : int)) | x <- xs] = [seq (0, 0) | x <- xs'].
  by elim: xs xs' sz {E1 E2 E3} => [|x xs IH] [|x' xs'] //= [/IH ->].
have e2 : [seq ((0 : int), (0 : int)) | x <- lincombs a xs b xs'] = [seq (0, 0) | x <- xs].
  by elim: xs xs' sz {E1 E2 E3 e1} => [|x xs IH] [|x' xs'] //= [/IH ->].
by rewrite /comp /= e2 -e1.
Qed.
Print Assumptions C22_linear_simulation.

Example C22_example : exists t b, let m := ex3_m t b in
  @solved _ m ex3 ex3_f ex3_omg ex3_A /\ (nq m <= size [:: 1%:Q; 2%:Q])%N /\
  all (fun e => size e == neps m) [:: [:: 1%:Q]; [:: -(2%:Q)]].
Proof. by have [t [b sd]] := ex3_solved ex3_f; exists t, b. Qed.

(** C23.  [fixes sk l k]: the argument is (l,k), or an integer k<>0 or True with l=0. *)
Theorem C23_set_k_gives_the_announced_path (F : realFieldType) (m : tmodel F) sm f omg lam
    P (setpar : P -> res (tmodel F)) anyp shocklist st0 T sk fo l k q p :
  @solved F m sm f omg lam -> no_expected_shocks sm (neps m) -> uniq (shk m) ->
  (l <= lmx m)%N -> (k <= kmx m)%N -> fixes sk l k -> (nq m <= size st0)%N ->
  let sl := [seq norm_shock a | a <- shocklist] in
  all (fun a => a.2 == 0) sl -> all (fun a => a.1.1 \in shk m) sl ->
  announced_by sm omg l k q p -> q 0%N = inp_vec m st0 (shocks_at (shk m) sl 0) ->
  irfs m setpar anyp shocklist None (Some st0) T false sk fo =
  Ok (IRows [seq (path_row (nq m) q p t, lkz (remaining l k t)) | t <- iota 0 T] 0 false).
Proof.
move=> sd ne un ll kk fx sz sl a0 ak an q0; rewrite /irfs.
have [r E [e1 e2 e3 _]] := run_fixed sd un sz (odflt (default_force sk) fo) T ll kk an fx ne a0 ak q0.
by rewrite /runS in E; rewrite E /= e1 e2 e3.
Qed.
Print Assumptions C23_set_k_gives_the_announced_path.

(** the path with l = 1, k = 2 after a shock of size -3 in period 0 *)
Example C23_example : exists t b q p, let m := ex3_m t b in
  [/\ @solved _ m ex3 ex3_f ex3_omg ex3_A, no_expected_shocks ex3 (neps m), fixes (KTuple 1 2) 1 2,
      announced_by ex3 ex3_omg 1 2 q p &
      q 0%N = inp_vec m [:: 0; 1] (shocks_at (shk m) [seq norm_shock a | a <- [:: SPair "e"%string (- 3%:Q)]] 0)].
Proof.
have [t [b sd]] := ex3_solved ex3_f.
set v : 'cV_2 := inp_vec (ex3_m t b) [:: 0; 1] (shocks_at (shk (ex3_m t b)) [seq norm_shock a | a <- [:: SPair "e"%string (- 3%:Q)]] 0).
have [q [p [q0 a0]]] := @ex3_path 1 2 v isT isT.
by exists t, b, q, p; split=> //; apply: ex3_noshock.
Qed.

(** with shocks in any period: in period t the given durations, as far as they remain, apply; there are no error flags *)
Theorem C23_given_durations_apply (F : realFieldType) (m : tmodel F) sm f omg lam
    P (setpar : P -> res (tmodel F)) anyp shocklist st0 T sk l k :
  @solved F m sm f omg lam -> uniq (shk m) -> (l <= lmx m)%N -> (k <= kmx m)%N -> fixes sk l k -> (nq m <= size st0)%N ->
  let sl := [seq norm_shock a | a <- shocklist] in
  (forall t, (t < T)%N -> known_at (shk m) sl t) ->
  exists rows mult,
    irfs m setpar anyp shocklist None (Some st0) T false sk None = Ok (IRows rows 0 mult) /\ size rows = T /\
    forall t, (t < T)%N ->
      (nth ([::], (0, 0)) rows t).2 = lkz (remaining l k t) /\
      t_func m (nth [::] (st0 :: [seq x.1 | x <- rows]) t) (Some (shocks_at (shk m) sl t))
               (KTuple (remaining l k t).1 (remaining l k t).2) false = Ok (nth ([::], (0, 0)) rows t, 0%N).
Proof.
move=> sd un ll kk fx sz sl kn; rewrite /irfs -/sl [odflt _ None]/=.
have [r E [e1 _ e3 _ H]] := run_given sd un sz ll kk fx kn.
rewrite E /= e1; do 2 eexists; split; first by [].
by split=> [|t lt]; [rewrite size_rev | have [h1 h2] := H t lt].
Qed.
Print Assumptions C23_given_durations_apply.

Example C23_given_example : exists t b, let m := ex3_m t b in
  let sl := [seq norm_shock a | a <- [:: STriple "e"%string (- 3%:Q) 2%:Z]] in
  [/\ @solved _ m ex3 ex3_f ex3_omg ex3_A, fixes (KTuple 1 2) 1 2, (1 <= lmx m)%N /\ (2 <= kmx m)%N &
      forall t, (t < 5)%N -> known_at (shk m) sl t].
Proof. by have [t [b sd]] := ex3_solved ex3_f; exists t, b; split=> // -[|[|[|[|[|t']]]]]. Qed.

(** C80: with endogenous expectations irfs always returns T rows; an unknown shock name is reported
    if and only if its period is simulated *)
Theorem C80_irfs_total (F : realFieldType) (m : tmodel F) sm f omg lam
    P (setpar : P -> res (tmodel F)) anyp shocklist st0 T sk fo :
  @solved F m sm f omg lam -> uniq (shk m) -> endogenous sk ->
  (nq m <= size (odflt (nseq (size (vvs m)) (0%R : F)) st0))%N ->
  let sl := [seq norm_shock a | a <- shocklist] in
  ((forall t, (t < T)%N -> known_at (shk m) sl t) ->
   exists rows err mult, irfs m setpar anyp shocklist None st0 T false sk fo = Ok (IRows rows err mult) /\ size rows = T) /\
  ((exists2 t, (t < T)%N & ~~ known_at (shk m) sl t) ->
   irfs m setpar anyp shocklist None st0 T false sk fo = Err ValueError).
Proof.
move=> sd un en sz sl; rewrite /irfs -/sl.
set fo' := odflt (default_force sk) fo.
have E0 : forall T', irf_run m (size (vvs m)) st0 T' (lmx m) (kmx m) sl false sk fo' =
   irf_run m (size (vvs m)) (Some (odflt (nseq (size (vvs m)) 0) st0)) T' (lmx m) (kmx m) sl false sk fo' by [].
split=> [kn|un'].
  have [r E _] := run_total sd un (sl := sl) sz fo' en kn.
  rewrite E0 E /=; do 3 eexists; split; first by [].
  by have [sr _] := run_rows E; rewrite size_rev.
by rewrite E0 (run_unknown sd un sz fo' en un').
Qed.
Print Assumptions C80_irfs_total.

Example C80_example : exists t b, let m := ex3_m t b in
  @solved _ m ex3 ex3_f ex3_omg ex3_A /\ uniq (shk m) /\ (nq m <= size (nseq (size (vvs m)) (0%R : rat)))%N /\
  known_at (shk m) [:: ("x"%string, 1%:Q, 5%:Z); ("e"%string, 1%:Q, 0)] 0.
Proof. by have [t [b sd]] := ex3_solved ex3_f; exists t, b. Qed.

(** C24 *)
Theorem C24_equilibrium_is_held (F : realFieldType) (m : tmodel F) sm f omg lam
    P (setpar : P -> res (tmodel F)) anyp shocklist st0 T sk fo :
  @solved F m sm f omg lam -> no_expected_shocks sm (neps m) -> uniq (shk m) -> endogenous sk ->
  (nq m <= size st0)%N -> odflt (default_force sk) fo ->
  let sl := [seq norm_shock a | a <- shocklist] in
  (forall t, (t < T)%N -> known_at (shk m) sl t) -> has (fun a => a.2 != 0) sl ->
  exists rows err mult,
    irfs m setpar anyp shocklist None (Some st0) T false sk fo = Ok (IRows rows err mult) /\
    (forall a n l k q p, (a + n < T)%N ->
       (forall j, (0 < j <= n)%N -> shocks_at (shk m) sl (a + j) = nseq (neps m) 0) ->
       (nth ([::], (0, 0)) rows a).2 = lkz (l, k) ->
       announced_by sm omg l k q p ->
       q 0%N = inp_vec m (nth [::] (st0 :: [seq x.1 | x <- rows]) a) (shocks_at (shk m) sl a) ->
       forall j, (j <= n)%N -> nth ([::], (0, 0)) rows (a + j) = (path_row (nq m) q p j, lkz (remaining l k j))) /\
    (forall t, (t < T)%N -> (forall j, (j <= t)%N -> shocks_at (shk m) sl j = nseq (neps m) 0) ->
       (nth ([::], (0, 0)) rows t).2 = (0, 0)).
Proof.
move=> sd ne un en sz fa sl kn hs; rewrite /irfs -/sl fa.
have [r E _] := run_total sd un (sl := sl) sz true en kn.
have [sr H] := run_rows E.
rewrite E /=; do 3 eexists; split; first by [].
have na : np_anyz [seq a.2 | a <- sl] by rewrite /np_anyz has_map.
split.
  move=> a n l k q p lt qu ea an q0 j jn.
  have kn' t : (t <= a + n)%N -> known_at (shk m) sl t by move=> h; apply: kn; apply: leq_ltn_trans lt.
  have aT : (a < T)%N by apply: leq_ltn_trans lt; apply: leq_addr.
  have [ra Ea ra2] : exists2 ra, irf_run m (size (vvs m)) (Some st0) a (lmx m) (kmx m) sl false sk true = Ok ra &
      i_st ra = nth [::] (st0 :: [seq x.1 | x <- rev (i_rows r)]) a.
    case: a {qu ea q0 kn' lt} aT => [|a] aT; first by eexists.
    have [ra Ea e] := H a (ltnW aT); exists ra => //=.
    by rewrite (nth_map ([::], (0, 0))) ?size_rev ?sr ?(ltnW aT) // e.
  have [r1 E1 e1] := H a aT; move: ea; rewrite e1 /= => ea.
  have hq j' : (0 < j' <= n)%N -> quiet m sl (a + j').
    by move=> hj; split; [apply: kn'; rewrite leq_add2l; case/andP: hj | apply: qu].
  rewrite -ra2 in q0.
  have [rj Ej [es ek]] := run_hold sd un sz en ne kn' na hq Ea an q0 (ex_intro2 _ _ r1 E1 ea) jn.
  have jT : (a + j < T)%N by apply: leq_ltn_trans lt; rewrite leq_add2l.
  have [rj' Ej' ->] := H (a + j)%N jT; move: Ej'; rewrite Ej => -[<-]; by rewrite es ek.
move=> t lt qu; have [rt Et ->] := H t lt.
have hq j' : (j' < t.+1)%N -> quiet m sl j'.
  by move=> hj; split; [apply: kn; apply: leq_ltn_trans lt | apply: qu].
have [r' E' e'] := run_before sd un sz sk hq na.
by move: Et; rewrite E' => -[<-] /=.
Qed.
Print Assumptions C24_equilibrium_is_held.

(** the flag for further equilibria is set if and only if in some quiet period in which an equilibrium is held, the search would
    find other durations than those held *)
Theorem C24_multiplicity (F : realFieldType) (m : tmodel F) sm f omg lam
    P (setpar : P -> res (tmodel F)) anyp shocklist st0 T sk fo rows err mult :
  @solved F m sm f omg lam -> uniq (shk m) -> (nq m <= size st0)%N ->
  let sl := [seq norm_shock a | a <- shocklist] in
  (forall t, (t < T)%N -> known_at (shk m) sl t) ->
  irfs m setpar anyp shocklist None (Some st0) T false sk fo = Ok (IRows rows err mult) ->
  (mult <->
   odflt (default_force sk) fo /\ has (fun a => a.2 != 0) sl /\
   exists t st lk fl, [/\ (t < T)%N, shocks_at (shk m) sl t = nseq (neps m) 0,
     t_func m (nth [::] (st0 :: [seq x.1 | x <- rows]) t) None KNone false = Ok (st, lk, fl) &
     let: (l, k) := nth (0, 0) ((0, 0) :: [seq x.2 | x <- rows]) t in
     lk <> if l != 0 then (l - 1, k) else (0, Order.max (k - 1) 0)]).
Proof.
move=> sd un sz sl kn; rewrite /irfs -/sl; set fo' := odflt _ _.
case E: irf_run => [r|] //= [<- _ <-]; have iff := run_mult sd un kn E.
have quiet t : ~~ np_any (shocks_at (shk m) sl t) <-> shocks_at (shk m) sl t = nseq (neps m) 0.
  split=> [|->]; last by rewrite /np_any; elim: (neps m) => //= n; rewrite eqxx.
  move=> h; rewrite -[neps m](size_shocks_at (shk m) sl t); apply/all_pred1P.
  by apply/allP=> x xi; apply/negPn/negP=> ne; move/negP: h; apply; apply/hasP; exists x.
have el lk : elapse lk = let: (l, k) := lk in if l != 0 then (l - 1, k) else (0, Order.max (k - 1) 0).
  by case: lk => l k; rewrite /elapse; case: eqP => // ->.
rewrite iff; split.
  case=> t [lt /and3P [h1 h2 h3] [[[st lk] fl] [hy ne]]]; split=> //; split; first by move: h3; rewrite /np_anyz has_map.
  exists t, st, lk, fl; have q := (quiet t).1 h2; split=> //; first by rewrite q in hy.
  by rewrite el /= in ne; case: nth ne.
case=> h1 [h3 [t [st [lk [fl [lt q hy ne]]]]]]; exists t; split=> //.
  by apply/and3P; split=> //; [apply/quiet | rewrite /np_anyz has_map].
exists (st, lk, fl); rewrite q; split=> //=; rewrite el; by case: nth ne.
Qed.
Print Assumptions C24_multiplicity.

Example C24_example : exists t b, let m := ex3_m t b in
  let sl := [seq norm_shock a | a <- [:: STriple "e"%string (- 3%:Q) 2%:Z]] in
  [/\ @solved _ m ex3 ex3_f ex3_omg ex3_A, no_expected_shocks ex3 (neps m), default_force (KBool false),
      has (fun a => a.2 != 0) sl & shocks_at (shk m) sl 1 = nseq (neps m) 0 /\ shocks_at (shk m) sl 2 = [:: - 3%:Q]].
Proof. by have [t [b sd]] := ex3_solved ex3_f; exists t, b; split=> //; apply: ex3_noshock. Qed.

(** with all shocks in period 0 forcing has no effect: the equilibrium is recalculated each period *)
Theorem C24_forcing_inactive_refuted (F : realFieldType) (m : tmodel F) P (setpar : P -> res (tmodel F)) anyp
    shocklist par st0 T linear sk :
  all (fun a => a.2 == 0) [seq norm_shock a | a <- shocklist] ->
  irfs m setpar anyp shocklist par st0 T linear sk (Some true) =
  irfs m setpar anyp shocklist par st0 T linear sk (Some false).
Proof.
move=> a0; rewrite /irfs /=.
have e m' : irf_run m' (size (vvs m)) st0 T (lmx m) (kmx m) [seq norm_shock a | a <- shocklist] linear sk true =
            irf_run m' (size (vvs m)) st0 T (lmx m) (kmx m) [seq norm_shock a | a <- shocklist] linear sk false.
  rewrite /irf_run; elim: (iota 0 T) (IS _ _ _ _ _) => //= t ts IH s.
  have -> : irf_step m' (size (vvs m)) (lmx m) (kmx m) [seq norm_shock a | a <- shocklist] linear sk true s t =
     irf_step m' (size (vvs m)) (lmx m) (kmx m) [seq norm_shock a | a <- shocklist] linear sk false s t.
    have na : np_anyz [seq a.2 | a <- [seq norm_shock a | a <- shocklist]] = false.
      by apply/negbTE; rewrite /np_anyz has_map -all_predC; apply: sub_all a0 => a /= ->.
    by rewrite /irf_step na; case: shock_vec => //= sv; rewrite andbF.
  by case: irf_step.
by case: par => [p|]; rewrite ?e //; case: anyp; rewrite ?e //; case: setpar => // m'; rewrite e.
Qed.
Print Assumptions C24_forcing_inactive_refuted.

(** C25 *)
Theorem C25_shock_vector (F : realFieldType) (names : seq string) (shocklist : seq (shockarg F)) (t : nat) : uniq names ->
  [seq norm_shock a | a <- shocklist] =
    [seq (match a with SName s => (s, 1, 0) | SPair s x => (s, x, 0) | STriple s x per => (s, x, per) end) | a <- shocklist] /\
  shock_vec names [seq norm_shock a | a <- shocklist] t =
    if known_at names [seq norm_shock a | a <- shocklist] t
    then Ok (shocks_at names [seq norm_shock a | a <- shocklist] t) else Err ValueError.
Proof. by move=> un; split=> //; apply: shock_vecE. Qed.
Print Assumptions C25_shock_vector.

Example C25_example : shock_vec [:: "u"%string; "v"%string]
  [seq norm_shock a | a <- [:: SName _ "v"%string; SPair "u"%string (2%:Q); STriple "v"%string (5%:Q) 1; SPair "u"%string (3%:Q)]] 0
  = Ok [:: 3%:Q; 1%:Q].
Proof. by []. Qed.

(** C26 *)
Theorem C26_simulate (F : realFieldType) (m : tmodel F) P (setpar : P -> res (tmodel F)) op linear par es st xs lks flag :
  setpar par = Ok m ->
  sim_run setpar op None linear par es st = Ok (xs, lks, flag) ->
  exists fls, [/\ size xs = (size es).+1, size lks = size es, nth [::] xs 0 = st, flag = foldr Nat.lor 0%N fls &
      size fls = size es /\
      forall t, (t < size es)%N -> t_func m (nth [::] xs t) (Some (nth [::] es t)) KNone linear =
        Ok (nth [::] xs t.+1, nth (0, 0) lks t, nth 0%N fls t)].
Proof.
move=> Ep; rewrite /sim_run /= Ep /= eqxx; case E: sim_loop => [[r fl]|] //= [<- <- <-].
have sz := sim_size E; rewrite /= in sz; rewrite /= !size_map sz.
by have [fls [e sf H]] := sim_steps E; exists fls; split=> //; split.
Qed.
Print Assumptions C26_simulate.

Theorem C26_composition (F : realFieldType) P (setpar : P -> res (tmodel F)) op linear par es1 es2 st xs1 lks1 flag1 :
  sim_run setpar op None linear par es1 st = Ok (xs1, lks1, flag1) ->
  sim_run setpar op None linear par (es1 ++ es2) st =
  rbind (sim_run setpar op None linear par es2 (last [::] xs1)) (fun r =>
    Ok (xs1 ++ behead r.1.1, lks1 ++ r.1.2, Nat.lor flag1 r.2)).
Proof.
rewrite /sim_run /=; case: setpar => //= m; rewrite eqxx sim_cat.
case E: (sim_loop m linear st es1) => [[r1 f1]|] //= [<- <- <-].
rewrite (_ : last [::] (st :: [seq x.1 | x <- r1]) = last_state st r1) //.
by case: sim_loop => [[r2 f2]|] //=; rewrite !map_cat.
Qed.
Print Assumptions C26_composition.

Theorem C26_mask (F : realFieldType) (mk : seq (seq (option F))) (eps : seq (seq F)) :
  (forall eps', mask_eps *%R mk eps = Ok eps' ->
     size eps' = size eps /\
     forall i j, (i < size eps)%N -> (j < size (nth [::] eps i))%N ->
       nth 0 (nth [::] eps' i) j =
       match nth None (nth [::] mk i) j with
       | None => nth 0 (nth [::] eps i) j
       | Some a => a * nth 0 (nth [::] eps i) j
       end).
Proof.
move=> eps'; rewrite mask_eps_ok; case: andP => // -[/eqP sz al] [<-].
rewrite size_map size_zip sz minnn; split=> // i j li lj.
have lz : (i < size (zip mk eps))%N by rewrite size_zip sz minnn.
rewrite (nth_map ([::], [::])) // nth_zip //=.
have sj : size (nth [::] mk i) = size (nth [::] eps i).
  by have := all_nthP ([::], [::]) al i lz; rewrite nth_zip //= => /eqP.
by rewrite (nth_map (None, 0)) ?size_zip ?sj ?minnn // nth_zip //=; case: (nth None _ j).
Qed.
Print Assumptions C26_mask.

(** a mask value replaces the shock only if it is 0 or the shock is 1 *)
Theorem C26_mask_replaces_refuted (F : realFieldType) (a e : F) : mask_eps *%R [:: [:: Some a]] [:: [:: e]] = Ok [:: [:: a]] <-> a = 0 \/ e = 1.
Proof.
rewrite /=; split=> [[h]|[->|->]]; last 2 first; rewrite ?mul0r ?mulr1 //.
have : a * (e - 1) = 0 by rewrite mulrBr mulr1 h subrr.
by move/eqP; rewrite mulf_eq0 subr_eq0 => /orP [/eqP|/eqP]; [left | right].
Qed.
Print Assumptions C26_mask_replaces_refuted.

(** on a solved model, well-shaped inputs always give a result *)
Theorem C26_total (F : realFieldType) (m : tmodel F) sm f omg lam P (setpar : P -> res (tmodel F)) op linear par es st :
  @solved F m sm f omg lam -> setpar par = Ok m -> (nq m <= size st)%N -> all (fun e => size e == neps m) es ->
  exists r, sim_run setpar op None linear par es st = Ok r.
Proof.
move=> sd Ep h al; have [r E] := sim_total sd linear h al.
by rewrite /sim_run /= Ep /= eqxx E /=; eexists.
Qed.
Print Assumptions C26_total.

Example C26_example : exists t b, let m := ex3_m t b in
  [/\ @solved _ m ex3 ex3_f ex3_omg ex3_A, (nq m <= 2)%N, neps m = 1%N &
  mask_eps *%R [:: [:: None]; [:: Some 2%:Q]] [:: [:: 1%:Q]; [:: - 1%:Q]] = Ok [:: [:: 1%:Q]; [:: 2%:Q * - 1%:Q]]].
Proof. by have [t [b sd]] := ex3_solved ex3_f; exists t, b. Qed.

(** C27: the order guard has no effect, whatever order the re-solved model has *)
Theorem C27_guard_never_fires_refuted (F : realFieldType) P (setpar : P -> res (tmodel F)) op mask linear par eps state m :
  setpar par = Ok m ->
  sim_run setpar op mask linear par eps state =
  rbind (if mask is Some mk then mask_eps op mk eps else Ok eps) (fun eps' =>
  rbind (sim_loop m linear state eps') (fun r => Ok (state :: [seq x.1 | x <- r.1], [seq x.2 | x <- r.1], r.2))).
Proof. by move=> E; rewrite /sim_run E /= eqxx. Qed.
Print Assumptions C27_guard_never_fires_refuted.

(** two solves of one model with different variable orders, both accepted *)
Example C27_example : exists t b, let m := ex3_m t b in
  let m' := @TM _ 2 1 t b 2 3 (-1) [:: "e"%string] 2 1 0 0 0 [:: "z"%string; "r"%string] in
  [/\ @solved _ m ex3 ex3_f ex3_omg ex3_A, @solved _ m' ex3 ex3_f ex3_omg ex3_A & vvs m <> vvs m'].
Proof. by have [t [b sd]] := ex3_solved ex3_f; exists t, b; case: sd => *; split. Qed.

(** C28 *)
Theorem C28_simulate_needs_source_refuted (F : realFieldType) P (setpar : P -> res (tmodel F)) mask pars resid init op linear :
  simulate setpar None mask pars resid init op linear = Err TypeError.
Proof. by rewrite /simulate; case: pars => [ps|] //=; case: resid => [rs|] //=; case: init. Qed.
Print Assumptions C28_simulate_needs_source_refuted.

(** with a source, each argument replaces the corresponding entry and one simulation is run per triple *)
Theorem C28_simulate_with_source (F : realFieldType) P (setpar : P -> res (tmodel F)) src mask pars resid init op linear :
  simulate setpar (Some src) mask pars resid init op linear =
  mapM (fun a => sim_run setpar op mask linear a.1 a.2.1 a.2.2)
    (zip (odflt (s_pars src) pars) (zip (odflt (s_resid src) resid) (odflt (s_init src) init))).
Proof. by rewrite /simulate; case: pars => [ps|] /=; case: resid => [rs|] /=; case: init. Qed.
Print Assumptions C28_simulate_with_source.

(** C29.  [N l k s]: notional value of the constrained variable in period s of the announced (l,k) path. *)
Theorem C29_traj_is_one_period_short (F : realFieldType) (m : tmodel F) sm f omg lam tb state N :
  @solved F m sm f omg lam -> preprocess_tmats f (tab m) (lmx m) (kmx m) = Ok tb -> size state = dq m ->
  notional_on (mS sm) (mT sm) (mV sm) (mW sm) (mh sm) omg (fq1 f) (fp1 f) (fq0 f) (lmx m) (kmx m) (col_of (dq m) state) N ->
  forall l, (l <= lmx m)%N ->
  (forall k, (k <= kmx m)%N -> traj tb state l%:Z k.+1%:Z = Ok [seq N l k s | s <- iota 0 (lmx m + kmx m + 2)]) /\
  traj tb state l%:Z 0 = Ok [seq N l (kmx m) s | s <- iota 0 (lmx m + kmx m + 2)].
Proof.
move=> sd Et ss NE l ll; split; last exact: (traj_zero sd).
by move=> k kk; apply: (traj_pos sd).
Qed.
Print Assumptions C29_traj_is_one_period_short.

(** hence traj(state, 0, 1) is not the (0,1) path *)
Theorem C29_traj_refuted : exists t b tb, let m := ex3_m t b in
  [/\ @solved _ m ex3 ex3_fr ex3_omg ex3_A, preprocess_tmats ex3_fr (tab m) (lmx m) (kmx m) = Ok tb &
   exists N, notional_on (mS ex3) (mT ex3) (mV ex3) (mW ex3) (mh ex3) ex3_omg (fq1 ex3_fr) (fp1 ex3_fr) (fq0 ex3_fr)
      (lmx m) (kmx m) (col_of (dq m) [:: 0; 0]) N /\
     @traj _ m tb [:: 0; 0] 0 1 <> Ok [seq N 0%N 1%N s | s <- iota 0 (lmx m + kmx m + 2)]].
Proof.
have [t [b sd]] := ex3_solved ex3_fr.
have [tb Et] := tables_ex sd; exists t, b, tb; split=> //.
have z0 : col_of 2 [:: 0; 0] = 0 :> 'cV[rat]_2 by apply/matrixP=> i j; rewrite !mxE; case: i => -[|[|i]].
have [N NE] := notional_ex (sd_pre sd) (sd_T sd) (sd_W sd) (sd_lin sd) (col_of 2 [:: 0; 0]) isT.
exists N; split=> //.
have [H _] := @C29_traj_is_one_period_short _ (ex3_m t b) ex3 ex3_fr ex3_omg ex3_A tb [:: 0; 0] N sd Et (erefl 2%N) NE 0%N (leq0n 2).
by rewrite (H 0%N isT) => -[e _]; move: NE; rewrite z0 => /ex3_N /(_ e).
Qed.
Print Assumptions C29_traj_refuted.

(** C30: the trajectory tables are those of the solve in force at the first call of traj or k_map *)
Theorem C30_tables_of_first_use (A TB : Type) (build : A -> res TB) (s0 : tm_state A TB) (before after : seq (tm_op A)) tb :
  tm_memo s0 = None -> all (fun o => if o is OpSolve _ then true else false) before ->
  build (tm_cur (tm_run build s0 before)) = Ok tb ->
  (tm_step build (tm_run build s0 (before ++ OpUse :: after)) OpUse).2 = Some (Ok tb).
Proof.
move=> m0 al E.
have mb : tm_memo (tm_run build s0 before) = None.
  by elim: before s0 m0 al {E} => [|[a|] os IH] s m0 //= al; apply: IH.
rewrite /tm_run foldl_cat -/(tm_run build s0 before) /=.
rewrite mb E /= -/(tm_run build _ after).
by rewrite (@tm_memo_stays A TB build _ tb after).
Qed.
Print Assumptions C30_tables_of_first_use.

Theorem C30_stale_tables_refuted : exists (build : nat -> res nat) s0 os,
  (tm_step build (tm_run build s0 os) OpUse).2 <> Some (build (tm_cur (tm_run build s0 os))).
Proof. by exists (fun x => Ok x), (TmSt 1%N None), [:: OpUse; OpSolve 2%N]. Qed.
Print Assumptions C30_stale_tables_refuted.

(** C31 *)
Theorem C31_k_map (F : realFieldType) (m : tmodel F) sm f omg lam tb state N :
  @solved F m sm f omg lam -> preprocess_tmats f (tab m) (lmx m) (kmx m) = Ok tb -> size state = dq m ->
  notional_on (mS sm) (mT sm) (mV sm) (mW sm) (mh sm) omg (fq1 f) (fp1 f) (fq0 f) (lmx m) (kmx m) (col_of (dq m) state) N ->
  forall (l : option nat) k, (odflt 0%N l <= lmx m)%N -> (k <= kmx m)%N ->
  k_map tb state (omap Posz l) (Some k%:Z) =
  Ok ([seq N i k (i + k)%N - xb m | i <- iota 0 (lmx m)],
      [seq N (odflt 0%N l) i (odflt 0%N l + i)%N - xb m | i <- iota 0 (kmx m)]).
Proof. by move=> sd Et ss NE l k; apply: (k_mapN sd). Qed.
Print Assumptions C31_k_map.

(** with [k] omitted the pair found by the search is used; a given non-zero [l] replaces the one found *)
Theorem C31_k_map_search (F : realFieldType) (m : tmodel F) sm f omg lam tb state N :
  @solved F m sm f omg lam -> preprocess_tmats f (tab m) (lmx m) (kmx m) = Ok tb -> size state = dq m ->
  notional_on (mS sm) (mT sm) (mV sm) (mW sm) (mh sm) omg (fq1 f) (fp1 f) (fq0 f) (lmx m) (kmx m) (col_of (dq m) state) N ->
  forall l : nat, (l <= lmx m)%N ->
  exists l' k fl, find_lk (check_cnst (btab m) (lmx m).+1 (kmx m).+1 (col_of (dq m) state)) (xb m) (lmx m).+1 (kmx m).+1 = Ok (l', k, fl) /\
  let l'' := if l == 0%N then l' else l in
  k_map tb state (Some l%:Z) None = k_map tb state (Some l''%:Z) (Some k%:Z) /\
  k_map tb state None None = k_map tb state (Some l'%:Z) (Some k%:Z).
Proof.
move=> sd Et ss NE l ll.
have [l' [k [fl [c [E ll' kk Ec]]]]] := C08_results_in_range (sd_pre sd) (sd_T sd) (sd_W sd) (sd_lin sd) (sd_k sd) (sd_l sd)
  (col_of (dq m) state) (xb m).
exists l', k, fl; split=> //=; rewrite /k_map ss eqxx E /=; split=> //.
by case: l {ll}.
Qed.
Print Assumptions C31_k_map_search.

Example C31_example : exists t b tb N, let m := ex3_m t b in
  [/\ @solved _ m ex3 ex3_f ex3_omg ex3_A, preprocess_tmats ex3_f (tab m) (lmx m) (kmx m) = Ok tb &
      notional_on (mS ex3) (mT ex3) (mV ex3) (mW ex3) (mh ex3) ex3_omg (fq1 ex3_f) (fp1 ex3_f) (fq0 ex3_f)
      (lmx m) (kmx m) (col_of (dq m) [:: 1; - 2%:Q]) N].
Proof.
have [t [b sd]] := ex3_solved ex3_f.
have [tb Et] := tables_ex sd.
have [N NE] := notional_ex (sd_pre sd) (sd_T sd) (sd_W sd) (sd_lin sd) (col_of 2 [:: 1; - 2%:Q]) isT.
by exists t, b, tb, N.
Qed.

(** C32 *)
Theorem C32_shock2state (F : realFieldType) (m : tmodel F) s x : (0 < neps m <= dq m)%N ->
  shock2state m s x =
  if s \in shk m
  then Ok [seq (if i == (dq m - neps m + index s (shk m))%N then x else 0) | i <- iota 0 (dq m)]
  else Err ValueError.
Proof. exact: shock2stateE. Qed.
Print Assumptions C32_shock2state.

Example C32_example t b : shock2state (ex3_m t b) "e" 5%:Q = Ok [:: 0; 5%:Q] /\
  shock2state (ex3_m t b) "z" 5%:Q = Err ValueError.
Proof. by []. Qed.
