(** Property theorems C128: names do not matter. *)
Set Warnings "-all".
From Coq Require Import String Ascii.
From mathcomp Require Import all_ssreflect all_algebra all_real_closed.
From Verif Require Import PyBase PyStr M_Parser M_FindLk M_Engine M_GenSys S_GenSys S_GenSys2 M_Pipe M_Tools M_Full S_Full P_RQ P_PipeEx P_GenSysEx S_Rename P_Rename T_Full.
Set Implicit Arguments. Unset Strict Implicit. Unset Printing Implicit Defensive.
Import GRing.Theory Num.Theory.
Local Open Scope ring_scope.
Local Open Scope py_scope.

Section Ren.
Variables (F : realFieldType) (tol : F) (rq : forall d, 'M[F]_d -> 'M[F]_d * 'M[F]_d).
Variable klein : forall a b, 'M[F]_(a + b) -> 'M[F]_(a + b) -> res ('M[F]_(b, a) * 'M[F]_a).
Variables (m : rawmodel F) (new : string -> string) (xb : F) (lm km : nat).
Hypothesis rn : renames m new.

(** C128.  The renamed file, with the same values under the new names, is rejected with the same error, or is solved by the model with
    the same numbers under the new names. *)
Theorem C128_solve (par par' : string -> F) : (forall n, par' (new n) = par n) ->
  solve_file tol rq klein (rename_file new m) par' xb lm km =
  match solve_file tol rq klein m par xb lm km with Ok mdl => Ok (rename_model new mdl) | Err e => Err e end.
Proof.
move=> pE; have [inj H] := rn; rewrite (@solve_ren F new inj par par' pE tol rq klein m xb lm km).
- by case: solve_file.
- by move=> v vi e he; apply: H; rewrite ?vi.
- by move=> v vi e he; apply: H; rewrite ?vi ?orbT.
Qed.
End Ren.
Print Assumptions C128_solve.

Lemma foldM_ext (S X : Type) (f f' : S -> X -> res S) xs s : (forall s x, f' s x = f s x) -> foldM f' xs s = foldM f xs s.
Proof. by move=> H; elim: xs s => //= x xs IH s; rewrite H; case: (f s x). Qed.
Section Reports.
Variable F : realFieldType.
Variable new : string -> string.
Hypothesis inj : injective new.
Lemma rn_jit mdl st sh l k b : t_func_jit (rename_model new mdl) st sh l k b = t_func_jit (F := F) mdl st sh l k b.
Proof. by rewrite /t_func_jit /neps /= size_map. Qed.
Lemma rn_t_func mdl st sh sk lin : t_func (rename_model new mdl) st sh sk lin = t_func (F := F) mdl st sh sk lin.
Proof. by rewrite /t_func /t_func_raw /neps /= size_map; case: (decode _ _) => l k; rewrite rn_jit. Qed.
Lemma rn_sim mdl lin st es : sim_loop (rename_model new mdl) lin st es = sim_loop (F := F) mdl lin st es.
Proof. by elim: es st => //= e es IH st; rewrite rn_t_func; case: t_func => //= -[[x lk] fl]; rewrite IH. Qed.
Lemma rn_find x s : py_find (new x) (map new s) = py_find x s.
Proof. by rewrite /py_find (mem_map inj) (index_map inj). Qed.
Lemma rn_vec names (sl : seq (string * F * int)) t : shock_vec (map new names) [seq (new a.1.1, a.1.2, a.2) | a <- sl] t = shock_vec names sl t.
Proof.
rewrite /shock_vec size_map; apply: foldM_ren => v [[s x] per] /=.
by rewrite rn_find.
Qed.

(** Everything that is reported by a model is reported by the renamed model: periods, *)
Theorem C128_period mdl st sh set_k linear : 
  [/\ t_func (rename_model new mdl) st sh set_k linear = t_func (F := F) mdl st sh set_k linear,
      t_func_obs (rename_model new mdl) st sh set_k linear = t_func_obs mdl st sh set_k linear &
      obs_row (rename_model new mdl) st = obs_row mdl st].
Proof. by split; [exact: rn_t_func | rewrite /t_func_obs /t_func_raw /neps /= size_map; case: (decode _ _) => l k; rewrite rn_jit |]. Qed.

(** impulse responses to the renamed shocks, *)
Theorem C128_irfs P (mdl : tmodel F) (setpar setpar' : P -> res (tmodel F)) anyp shocklist par st T linear set_k force :
  (forall p, setpar' p = match setpar p with Ok a => Ok (rename_model new a) | Err e => Err e end) ->
  irfs (rename_model new mdl) setpar' anyp (map (rename_shock new) shocklist) par st T linear set_k force =
  irfs mdl setpar anyp shocklist par st T linear set_k force.
Proof.
move=> sE; rewrite /irfs.
have -> : [seq norm_shock a | a <- map (rename_shock new) shocklist] = [seq (new a.1.1, a.1.2, a.2) | a <- [seq norm_shock a | a <- shocklist]].
  by rewrite -!map_comp; apply: eq_map; case.
set sl := [seq norm_shock a | a <- shocklist].
have run m' : irf_run (rename_model new m') (size (vvs (rename_model new mdl))) st T (lmx mdl) (kmx mdl) [seq (new a.1.1, a.1.2, a.2) | a <- sl] linear set_k (odflt (default_force set_k) force) =
    irf_run m' (size (vvs mdl)) st T (lmx mdl) (kmx mdl) sl linear set_k (odflt (default_force set_k) force).
  rewrite /irf_run /= size_map; apply: foldM_ext.
  move=> s t; rewrite /irf_step /= rn_vec /neps /= size_map; case: (shock_vec _ _ _) => //= sv.
  have -> : [seq a.2 | a <- [seq (new a.1.1, a.1.2, a.2) | a <- sl]] = [seq a.2 | a <- sl] by rewrite -map_comp; apply: eq_map.
  rewrite rn_t_func; case: (if _ then _ else _) => [[eff mult]|] //=; case: (match eff with KTuple _ _ => _ | _ => _ end) => //.
  by rewrite rn_t_func.
by rewrite !run; case: par => [p|] //; case: ifP => // _; rewrite sE; case: (setpar p) => //= m'; rewrite run.
Qed.

(** states named after a shock, *)
Theorem C128_shock2state (mdl : tmodel F) s x : shock2state (rename_model new mdl) (new s) x = shock2state mdl s x.
Proof. by rewrite /shock2state /neps /= size_map rn_find. Qed.
End Reports.
Print Assumptions C128_period.
Print Assumptions C128_irfs.
Print Assumptions C128_shock2state.

(** and whole simulations of the renamed file. *)
Theorem C128_simulate (F : realFieldType) (tol : F) (rq : forall d, 'M[F]_d -> 'M[F]_d * 'M[F]_d)
    (klein : forall a b, 'M[F]_(a + b) -> 'M[F]_(a + b) -> res ('M[F]_(b, a) * 'M[F]_a)) (m : rawmodel F) new xb lm km op mask linear (par par' : string -> F) es st :
  renames m new -> (forall n, par' (new n) = par n) ->
  sim_run (fun q => solve_file tol rq klein (rename_file new m) q xb lm km) op mask linear par' es st =
  sim_run (fun q => solve_file tol rq klein m q xb lm km) op mask linear par es st.
Proof.
move=> rn pE; rewrite /sim_run; case: (match mask with Some _ => _ | None => _ end) => //= es'.
rewrite (C128_solve tol rq klein xb lm km rn pE).
by case: (solve_file _ _ _ m _ _ _ _) => [mdl|e] //=; rewrite !eqxx rn_sim.
Qed.
Print Assumptions C128_simulate.

(** names before their first underscore *)
Definition under (s : string) : Prop := s = EmptyString \/ exists r, s = String "_"%char r.
Lemma head_ne c s : c <> "_"%char -> head_of (String c s) = String c (head_of s) /\ rest_of (String c s) = rest_of s.
Proof. by move=> h; case: c h => -[] [] [] [] [] [] [] []. Qed.
Lemma rest_under s : under (rest_of s).
Proof.
elim: s => [|c s IH]; first by left.
have [->|h] := ascii_dec c "_"%char; first by right; exists s.
by have [_ ->] := head_ne s h.
Qed.
Lemma head_rest s : s = append (head_of s) (rest_of s).
Proof.
elim: s => // c s IH; have [->|h] := ascii_dec c "_"%char; first by [].
by have [-> ->] := head_ne s h; rewrite /= -IH.
Qed.
Lemma head_cat a r : under r -> head_of (append a r) = head_of a /\ rest_of (append a r) = append (rest_of a) r.
Proof.
move=> u; elim: a => [|c a [IH1 IH2]]; first by case: u => [->|[r' ->]].
have [->|h] := ascii_dec c "_"%char; first by [].
by have [E1 E2] := head_ne a h; have [E3 E4] := head_ne (append a r) h; rewrite -[append (String c a) r]/(String c (append a r)) E1 E2 E3 E4 IH1 IH2.
Qed.
Lemma plain_head s : plain (head_of s).
Proof.
rewrite /plain; elim: s => // c s IH; have [->|h] := ascii_dec c "_"%char; first by [].
by have [-> _] := head_ne s h; have [_ ->] := head_ne (head_of s) h.
Qed.
Lemma plain_headE s : plain s -> head_of s = s.
Proof. by move=> p; rewrite [RHS]head_rest p; elim: (head_of s) => //= c r <-. Qed.
Lemma ending_under e : ending e -> under e.
Proof.
by elim=> [|i|i||a b _ [->|[r ->]] _ [->|[r' ->]]]; first [by left | right; eexists; reflexivity].
Qed.

(** Names can be chosen freely: any exchange of names without underscores, applied to the part of each name before its first
    underscore, is a renaming in the sense above, for every file. *)
Theorem C128_free_choice (F : realFieldType) (m : rawmodel F) (new : string -> string) : injective new -> (forall s, plain s -> plain (new s)) ->
  renames m (at_head new) /\ forall s, plain s -> at_head new s = new s.
Proof.
move=> inj pl; split; first split.
- move=> s t; rewrite /at_head => E.
  have [h1 r1] := head_cat (new (head_of s)) (rest_under s); have [h2 r2] := head_cat (new (head_of t)) (rest_under t).
  have Es := pl _ (plain_head s); have Et := pl _ (plain_head t).
  move: h1 r1; rewrite E h2 r2 (plain_headE Es) (plain_headE Et) Es Et /= => /inj hh rr.
  by rewrite (head_rest s) (head_rest t) -hh -rr.
- move=> a e _ /ending_under u; rewrite /at_head; have [-> ->] := head_cat a u; by rewrite appA.
- move=> s p; rewrite /at_head plain_headE // p; by elim: (new s) => //= c r ->.
Qed.
Print Assumptions C128_free_choice.

(** exchange of two names *)
Definition swap (a b s : string) : string := if s == a then b else if s == b then a else s.
Lemma swapK a b : involutive (swap a b).
Proof.
move=> s; rewrite /swap; case: (s =P a) => [->|na]; first by rewrite eqxx; case: (b =P a).
by case: (s =P b) => [->|nb]; rewrite ?eqxx //; case: eqP => // _; case: eqP.
Qed.

Lemma at_headK f : involutive f -> (forall s, plain s -> plain (f s)) -> involutive (at_head f).
Proof.
move=> fK pl s; rewrite {1}/at_head; have h := pl _ (plain_head s).
by have [-> ->] := head_cat (f (head_of s)) (rest_under s); rewrite (plain_headE h) h /= fK -head_rest.
Qed.

(** The file of C116, x = x(-2) + e(-1) - r with the constraint r = 3/2 x, in which x is called infl: it declares the names infl, r and e,
    the parser adds infl_LAG1 and e_VAR, and both files are solved, with the same numbers. *)
Example C128_example (par : string -> realalg) : let F := [rcfType of realalg] in let tol := P_GenSysEx.tol F in
  let new := at_head (swap "x" "infl") in
  [/\ renames (pf F) new, r_vars (rename_file new (pf F)) = [:: "infl"; "r"]%string,
      exists2 p, parse (rename_file new (pf F)) = Ok p & p_vars p = [:: "infl"; "r"; "e_VAR"; "infl_LAG1"]%string &
      exists klein mdl, [/\ klein_ok klein, solve_file tol (@some_rq F) klein (pf F) par (-1) 4 17 = Ok mdl &
        solve_file tol (@some_rq F) klein (rename_file new (pf F)) (par \o new) (-1) 4 17 = Ok (rename_model new mdl)]].
Proof.
move=> F tol new; have pl s : plain s -> plain (swap "x" "infl" s) by rewrite /swap; do 2![case: eqP => // _].
have rn : renames (pf F) new by apply: (C128_free_choice (pf F) _ pl).1; exact: inv_inj (swapK _ _).
split; [exact: rn | by [] | by eexists; reflexivity |].
have [g [kl [mdl [h1 h2 h3 h4 h5]]]] := @pf_full F par; exists kl, mdl; split; [exact: h2 | exact: h4 |].
have nK : involutive new by apply: at_headK; [exact: swapK | exact: pl].
by rewrite (C128_solve tol (@some_rq F) kl (-1) 4 17 rn (par := par)) ?h4 // => n /=; rewrite nK.
Qed.
Print Assumptions C128_example.
