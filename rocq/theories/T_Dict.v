(** Property theorems C131: models given as a dict of matrices. *)
Set Warnings "-all".
From Coq Require Import String.
From mathcomp Require Import all_ssreflect all_algebra all_real_closed.
From Verif Require Import PyBase PyStr M_FindLk M_Parser S_Parser P_Parser5 M_Engine S_Engine M_GenSys S_GenSys S_GenSys2 P_Engine P_Engine3 P_Engine4
  P_GenSys P_GenSys2 P_GenSys3 P_GenSys4 P_GenSys5 P_GenSys6 P_RQ M_Pipe S_Pipe P_Pipe P_Pipe2 P_PipeEx P_Pipe3 M_Tools S_Tools P_Tools P_Tools2 P_Tools3
  P_Tools4 P_ToolsEx M_Full S_Full P_Full P_Full2 P_Full3 P_Full4 T_Engine T_GenSys T_Tools T_Pipe T_Full S_Meta P_Meta T_Meta S_Bound M_Dict S_Dict T_Bound.
Set Implicit Arguments. Unset Strict Implicit. Unset Printing Implicit Defensive.
Import GRing.Theory Num.Theory Order.TTheory.
Local Open Scope ring_scope.

Section Dict.
Variables (F : realFieldType) (tol : F) (rq : forall d, 'M[F]_d -> 'M[F]_d * 'M[F]_d).
Variable klein : forall a b, 'M[F]_(a + b) -> 'M[F]_(a + b) -> res ('M[F]_(b, a) * 'M[F]_a).

Lemma named_nval n (names : n.-tuple string) (x : 'cV[F]_n) a : uniq names -> named names x a = nval names x a.
Proof.
move=> un; rewrite /named /nval; case: (boolP (a \in names)) => [/tnthP [i ->]|ni].
  rewrite (tnth_nth EmptyString) index_uniq ?size_tuple // nth_seq_of (bigD1 i) /= ?(tnth_nth EmptyString) //.
  rewrite big1 ?addr0 // => j /andP [/eqP ej nj]; case/eqP: nj.
  by apply: (elimT (tuple_uniqP _) un); rewrite ej (tnth_nth EmptyString).
rewrite big1 => [|j /eqP ej]; last by rewrite -ej mem_tnth in ni.
by rewrite nth_default // size_seq_of; move: ni; rewrite -index_mem size_tuple -leqNgt.
Qed.

(** a [klein] that answers only for one system *)
Section One.
Variables (a0 b0 : nat) (S0 T0 : 'M[F]_(a0 + b0)) (omg0 : 'M[F]_(b0, a0)) (lam0 : 'M[F]_a0).
Definition klein1 a b (S T : 'M[F]_(a + b)) : res ('M[F]_(b, a) * 'M[F]_a) :=
  if [&& a == a0, b == b0, conform_mx 0 S == S0 & conform_mx 0 T == T0]
  then Ok (conform_mx 0 omg0, conform_mx 0 lam0) else Err LinAlgErr.
Lemma klein1_ok : linear_solution S0 T0 omg0 lam0 -> klein_ok klein1.
Proof.
move=> ls a b S T omg lam; rewrite /klein1; case: eqP => //= ea; case: eqP => //= eb; subst a b.
by rewrite !conform_mx_id; case: eqP => //= ->; case: eqP => //= -> [<- <-].
Qed.
Lemma klein1E : klein1 S0 T0 = Ok (omg0, lam0).
Proof. by rewrite /klein1 !conform_mx_id !eqxx. Qed.
End One.

Lemma solve_dictE m n e o (d : mdict F m n e o) lm km mdl : solve_dict tol rq klein d lm km = Ok mdl ->
  exists zz c, [/\ k_ZZ d = Some zz, val c = index (k_cvar d) (k_vars d), k_array d &
    gen_sys tol rq (solution klein d) (usys_of_dict d c) (k_vars d) (k_shocks d) zz.1 zz.2 lm km = Ok mdl].
Proof.
rewrite /solve_dict; case: (k_ZZ d) => [zz|] //=; case: insubP => [c _ ec|] //; case E: (k_array d) => //= G.
by exists zz, c.
Qed.

Lemma reg_klein m n e o (d : mdict F m n e o) c zz lm km mdl : klein_ok klein -> regular_dict tol rq d c ->
  gen_sys tol rq (solution klein d) (usys_of_dict d c) (k_vars d) (k_shocks d) zz.1 zz.2 lm km = Ok mdl ->
  exists2 kl, klein_ok kl & gen_sys tol rq kl (usys_of_dict d c) (k_vars d) (k_shocks d) (zz.1 : 'M[F]_(o, n)) zz.2 lm km = Ok mdl.
Proof.
move=> klP R; rewrite /gen_sys; case: new_vv => [vv|] //=; case E2: sys_of => [sm|] //=.
case E3: solution => [[omg lam]|] //= G; exists (klein1 (mS sm) (mT sm) omg lam); last by rewrite klein1E.
apply: klein1_ok; move: E3; rewrite /solution; case Eg: (k_gx d) => [gx|]; last exact: klP.
case Eh: (k_hx d) => [hx|] //; case: ifP => // _ [<- <-]; exact: (rd_given R Eg Eh E2).
Qed.

(** C131.  Given the matrices of a model file at some parameters, gen_sys_from_dict ends as loading and solving the file does: with
    the same model or the same error. *)
Theorem C131_file (mf : rawmodel F) p g par xb lm km : parse mf = Ok p -> get_matrices p par = Ok g -> xb <= 0 ->
  solve_dict tol rq klein (dict_of_file mf p g xb) lm km = solve_file tol rq klein mf par xb lm km.
Proof. by move=> Hp Hg h; rewrite /solve_file Hp /= h Hg. Qed.

(** The meaning of what is reported, for any dict. *)
Theorem C131_period m n e o (d : mdict F m n e o) c lm km mdl : rq_ok rq -> klein_ok klein -> regular_dict tol rq d c ->
  (0 < lm < 999)%N -> (0 < km)%N -> solve_dict tol rq klein d lm km = Ok mdl -> (e < dq mdl)%N ->
  forall st sh set_k linear x (l k : nat) flag, (nq mdl <= size st)%N -> size sh = e ->
    t_func mdl st (Some sh) set_k linear = Ok (x, (l%:Z, k%:Z), flag) ->
    exists xs eps, period_solves_dict d c mdl st sh x l k xs eps.
Proof.
move=> rqP klP R hl hk /solve_dictE [zz [c' [_ ec _ G]]] st0 st sh sk lin x l k fl ge sz E.
have t0 := tol0 (rd_scale R).
have un := un_names (rd_names R).
have e' : c' = c.
  apply: val_inj; rewrite ec -(rd_cvar R) (tnth_nth EmptyString) index_uniq ?size_tuple //.
subst c'; have [kl klP' G'] := reg_klein klP R G.
have es : size (k_shocks d) = e by rewrite size_tuple.
have st1 : (size (k_shocks d) < dq mdl)%N by rewrite es.
have [xs [eps [[h1 h2] h3 h4 h5 _]]] := gen_sys_path rqP klP' (rd_names R) t0 (rd_load R) es hl hk G' st1
  (rd_scale R) (rd_conn R) (rd_nll R) (rd_enc R) ge sz E.
exists xs, eps.
have rE t : [seq named (k_vars d) (xs t) (original (k_vars d) a) | a <- vvs mdl] = [seq nval (k_vars d) (xs t) (original (k_vars d) a) | a <- vvs mdl].
  by apply: eq_map => a; rewrite named_nval.
split; [split=> //|by rewrite rE|by rewrite rE|].
  by move=> j; rewrite -h2 nth_seq_of.
by move: h5; rewrite /solves_user /shock_row /=; case: (k_fd d).
Qed.

(** Simulations of such a model: the parameters given are ignored, and every period has this meaning. *)
Theorem C131_simulate m n e o (d : mdict F m n e o) c lm km mdl : rq_ok rq -> klein_ok klein -> regular_dict tol rq d c ->
  (0 < lm < 999)%N -> (0 < km)%N -> solve_dict tol rq klein d lm km = Ok mdl -> (e < dq mdl)%N ->
  forall P (par : P) op linear es st xs lks flag, (nq mdl <= size st)%N -> all (fun s => size s == e) es ->
    dict_simulate mdl op None linear par es st = Ok (xs, lks, flag) ->
    forall t, (t < size es)%N -> exists l k X E, nth (0, 0) lks t = lkz (l, k) /\
      period_solves_dict d c mdl (nth [::] xs t) (nth [::] es t) (nth [::] xs t.+1) l k X E.
Proof.
move=> rqP klP R hl hk G st0 P par op lin es st xs lks fl ge al S.
have [zz [c' [_ ec _ G0]]] := solve_dictE G.
have un := un_names (rd_names R).
have e' : c' = c by apply: val_inj; rewrite ec -(rd_cvar R) (tnth_nth EmptyString) index_uniq ?size_tuple.
subst c'; have [kl klP' G'] := reg_klein klP R G0.
have ess : size (k_shocks d) = e by rewrite size_tuple.
have st1 : (size (k_shocks d) < dq mdl)%N by rewrite ess.
have [sm [f [omg [lam [sd _]]]]] := gen_sys_solved rqP klP' (rd_names R) (rd_load R) ess hl hk G' st1 (rd_scale R) (rd_conn R).
have Sp : (fun _ : P => Ok mdl) par = Ok mdl by [].
have [fls [h1 h2 h3 _ [_ H]]] := C26_simulate (setpar := fun _ : P => Ok mdl) (op := op) Sp S.
have ge' t : (t <= size es)%N -> (nq mdl <= size (nth [::] xs t))%N.
  case: t => [_|t lt]; first by rewrite h3.
  by rewrite (t_func_size (dims sd) (sd_vv sd) (H t lt)) (sd_vv sd) leq_addl.
move=> t lt; have E := H t lt; have [l [k el]] := t_func_nat (sk := KNone) isT E; rewrite el in E.
have sz : size (nth [::] es t) = e by have /allP /(_ _ (mem_nth [::] lt)) /eqP := al.
by have [X [E' Q]] := C131_period rqP klP R hl hk G st0 (ge' t (ltnW lt)) sz E; exists l, k, X, E'.
Qed.

Lemma gen_sys_fc2 kl m n e o (AA BB CC : 'M[F]_(m, n)) (DD : 'M[F]_(m, e)) fb fc fc' (fd fd' : option 'rV[F]_e) c xb names shks (Z0 : 'M[F]_(o, n)) Z1 lm km :
  let u1 := USys AA BB CC DD fb fc fd c xb in let u2 := USys AA BB CC DD fb fc' fd' c xb in
  fc2 tol u1 = fc2 tol u2 -> gen_sys tol rq kl u1 names shks Z0 Z1 lm km = gen_sys tol rq kl u2 names shks Z0 Z1 lm km.
Proof.
move=> u1 u2 E.
match goal with |- ?L = ?R =>
  let L1 := eval unfold gen_sys, new_vv, sys_of, ff, zp, zq, dimq, dimp, PU, MU, PR, MR, CCU, M_GenSys.inp, M_GenSys.inq in L in
  let L2 := eval pattern (fc2 tol u1) in L1 in change (L2 = R) end.
rewrite E; reflexivity.
Qed.

(** Leaving out the shocks of the constraint, "fd", is not the same as giving zeros: it turns the sign of the lagged terms. *)
Theorem C131_sign m n e o (d : mdict F m n e o) lm km : k_fd d = None ->
  solve_dict tol rq klein d lm km = solve_dict tol rq klein (with_fc d (- k_fc d) (Some 0)) lm km.
Proof.
case: d => vars arr shs cvar xb AA BB CC DD fb fc fd ZZ gx hx /= ->; rewrite /solve_dict /=.
case: ZZ => [[Z0 Z1]|] //=; case: insubP => [c _ _|] //; case: arr => //.
apply: gen_sys_fc2; rewrite /fc2 /= /fcn /= scalerN opp_row_mx opp_row_mx opprK !oppr0.
by [].
Qed.

Lemma rrel_mono A B (R R' : A -> B -> Prop) x y : rrel R x y -> (forall a b, x = Ok a -> y = Ok b -> R a b -> R' a b) -> rrel R' x y.
Proof. by case: x => [a|ex]; case: y => [b|ey] //= h H; apply: H. Qed.

Lemma linked_trans (a b c : tmodel F) : linked a b -> linked b c -> linked a c.
Proof.
move=> [t' [b' [x [-> h]]]]; case: a t' b' h => ? ? ? ? ? ? ? ? ? ? ? ? ? ? t' b' /= h [t2 [b2 [y [-> h2]]]].
by exists t2, b2, y; split=> //; rewrite h2.
Qed.

(** The bound of a dict is -1 if there is none, and it is not checked: with any two bounds, positive ones included, solving ends in the
    same way, and linear runs are the same. *)
Theorem C131_any_bound m n e o (d : mdict F m n e o) b b' lm km :
  both (fun mdl mdl' => [/\ same_frame mdl mdl', xb mdl = odflt (-1) b, xb mdl' = odflt (-1) b' &
      forall st sh sk, t_func mdl' st sh sk true = t_func mdl st sh sk true])
    (solve_dict tol rq klein (with_xbar d b) lm km) (solve_dict tol rq klein (with_xbar d b') lm km).
Proof.
have L x : rrel (fun a a' => linked a a' /\ xb a' = odflt (-1) x) (solve_dict tol rq klein (with_xbar d (Some 1)) lm km) (solve_dict tol rq klein (with_xbar d x) lm km).
  rewrite /solve_dict /=; case: (k_ZZ d) => [[Z0 Z1]|] //=; case: insubP => [c _ _|] //; case: (k_array d) => //.
  have := gen_sys_sc tol rq (solution klein d) (odflt (-1) x) (usys_of_dict (with_xbar d (Some 1)) c) (k_vars d) (k_shocks d) Z0 Z1 lm km.
  have -> : scale_bound (odflt (-1) x) (usys_of_dict (with_xbar d (Some 1)) c) = usys_of_dict (with_xbar d x) c by rewrite /scale_bound /= mulr1.
  change (solution klein (with_xbar d (Some 1))) with (solution klein d); change (solution klein (with_xbar d x)) with (solution klein d).
  move/rrel_mono; apply=> a a' _ E S; split; first exact: scaled_linked S.
  by move: E; rewrite /gen_sys; case: new_vv => [vv|] //=; case: sys_of => [sm|] //=; case: solution => [ol|] //=; case: preprocess => [tb|] //= [<-].
move: (L b) (L b'); destruct (solve_dict tol rq klein (with_xbar d (Some 1)) lm km) as [a|ex];
destruct (solve_dict tol rq klein (with_xbar d b) lm km) as [a1|e1]; destruct (solve_dict tol rq klein (with_xbar d b') lm km) as [a2|e2]; rewrite /rrel /both; [|by []..|].
  move=> [l1 x1] [l2 x2].
  have l12 := linked_trans (linked_sym l1) l2.
  by split=> //; [exact: linked_frame|move=> st sh sk; exact: linear_t].
by move=> <- <-.
Qed.

(** Without observables (the matrix "ZZ0"), or if the names are in a list instead of an array, no dict can be solved. *)
Theorem C131_rejected m n e o (d : mdict F m n e o) lm km : k_ZZ d = None \/ ~~ k_array d ->
  solve_dict tol rq klein d lm km = Err TypeError \/
  solve_dict tol rq klein d lm km = Err ValueError /\ k_cvar d \notin k_vars d /\ k_ZZ d <> None.
Proof.
rewrite /solve_dict; case: (k_ZZ d) => [zz|] /=; last by left.
case=> // /negbTE ->; case: insubP => [c _ _|]; first by left.
move=> ni; right; split=> //; split=> //.
by rewrite -index_mem size_tuple.
Qed.

(** A given solution "gx", "hx" is used instead of a computed one; "hx" alone is ignored, "gx" alone is never accepted. *)
Theorem C131_given m n e o (d : mdict F m n e o) lm km :
  (forall gx hx kl kl', solve_dict tol rq kl (with_solution d (Some gx) (Some hx)) lm km = solve_dict tol rq kl' (with_solution d (Some gx) (Some hx)) lm km) /\
  (forall hx, solve_dict tol rq klein (with_solution d None hx) lm km = solve_dict tol rq klein (with_solution d None None) lm km) /\
  (forall gx mdl, solve_dict tol rq klein (with_solution d (Some gx) None) lm km <> Ok mdl).
Proof.
split; [by []|split=> // gx mdl /solve_dictE [zz [c [_ _ _]]]].
by rewrite /gen_sys; case: new_vv => [vv|] //=; case: sys_of => [sm|].
Qed.

(** irfs with other parameters than zero ones raises. *)
Theorem C131_irfs_parameters (mdl : tmodel F) P (anyp : P -> bool) shocklist (par : P) st T linear set_k force : anyp par ->
  irfs mdl (@no_set_par F P) anyp shocklist (Some par) st T linear set_k force = Err TypeError.
Proof. by move=> h; rewrite /irfs h. Qed.
End Dict.
Print Assumptions C131_file.
Print Assumptions C131_period.
Print Assumptions C131_simulate.
Print Assumptions C131_sign.
Print Assumptions C131_any_bound.
Print Assumptions C131_rejected.
Print Assumptions C131_given.
Print Assumptions C131_irfs_parameters.

(** The file of C95 as a dict, with the bound -1, without and with its row of zeros for the shocks of the constraint, and with the bound 1,
    which the file is not allowed to have. *)
Lemma pf_dict (F : rcfType) (par : string -> F) : let tol := P_GenSysEx.tol F in
  exists g klein, let d := dict_of_file (pf F) (pf_p F) g (-1) in let S d' := solve_dict tol (@some_rq F) klein d' 4 17 in
  [/\ klein_ok klein, regular_dict tol (@some_rq F) d (pf_c F) /\ regular_dict tol (@some_rq F) (with_fc d 0 None) (pf_c F),
      exists2 mdl, S d = Ok mdl & (1 < dq mdl)%N, S (with_fc d 0 None) = S d & exists mdl, S (with_xbar d (Some 1)) = Ok mdl].
Proof.
move=> tol; have [g [kl [mdl [h1 h2 R h4 h5]]]] := @pf_full F par; exists g, kl => d S.
case: (R) => Hp He Hce uv us Hc aff nl2 up2 affc cdat c0 cc0 obs0 Hg ws cc nl en ld un.
have Sd : S d = Ok mdl by rewrite /S (C131_file _ _ _ _ _ Hp Hg) ?oppr_le0 ?ler01.
have [g2 [Hg2 _ _ hr hp]] := @pf_mat F par.
have eg : g2 = g by move: Hg2; rewrite Hg => -[].
subst g2.
have fz : k_fc d = 0 by rewrite /d /dict_of_file /= hr oppr0.
have fdz : k_fd d = Some 0 by rewrite /d /dict_of_file /= hp oppr0.
split=> //.
- split; split=> //.
  + case: ws => w1 w2 w3 _ _; split=> //= i j; left; by rewrite !mxE mulr0.
  + by move=> j _; rewrite mxE.
  + move=> k; case: (ld k) => [|[fd [ef]]]; [by left|].
    by move: ef; rewrite -[fd0 _]/(k_fd d) fdz => -[<-]; case: ws => /andP [t0 _] _ _ _ _; rewrite mxE normr0 leNgt t0.
- exists mdl => //; by move: h5; rewrite (file_shk R h4).
- rewrite /S C131_sign //; congr solve_dict.
  by rewrite /with_fc /= oppr0 -fdz -fz.
- have := C131_any_bound tol (@some_rq F) kl d (Some (-1)) (Some 1) 4 17.
  rewrite (_ : with_xbar d (Some (-1)) = d) // -/(S d) -/(S (with_xbar d (Some 1))) Sd.
  by case: (S _) => // a _; exists a.
Qed.
Example C131_example (par : string -> realalg) : let F := [rcfType of realalg] in let tol := P_GenSysEx.tol F in
  exists g klein, let d := dict_of_file (pf F) (pf_p F) g (-1) in let S d' := solve_dict tol (@some_rq F) klein d' 4 17 in
  [/\ klein_ok klein, regular_dict tol (@some_rq F) d (pf_c F) /\ regular_dict tol (@some_rq F) (with_fc d 0 None) (pf_c F),
      exists2 mdl, S d = Ok mdl & (1 < dq mdl)%N, S (with_fc d 0 None) = S d & exists mdl, S (with_xbar d (Some 1)) = Ok mdl].
Proof. exact: (@pf_dict [rcfType of realalg] par). Qed.
Print Assumptions C131_example.
