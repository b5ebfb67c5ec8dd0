(** Property theorems C16, C17: horizons and attributes over histories of
    solves. *)
From Coq Require Import List ZArith Bool Lia.
From Verif Require Import PyBase M_Solve S_Solve P_Solve.
Import ListNotations.
Local Open Scope Z_scope.

(** C16.  A call without horizons keeps the stored ones; a call with both stores
    [l_max + 1] (or 3 if [l_max < 2] and [k_max > 0]) and [k_max]; one horizon alone
    leaves the other; the only error is [l_max < 2] without [k_max]. *)
Theorem C16_one_call (lk : Z * Z) (l k : Z) :
  horizons (Some lk) None None = Ok lk /\
  (forall lks, horizons lks (Some l) (Some k) = Ok (stored_l l k, k)) /\
  horizons (Some lk) None (Some k) = Ok (fst lk, k) /\
  (2 <= l -> horizons (Some lk) (Some l) None = Ok (l + 1, snd lk)) /\
  (forall lks lm km e, horizons lks lm km = Err e <->
     e = TypeError /\ km = None /\ exists l', lm = Some l' /\ l' < 2).
Proof.
split; [apply horizons_none|]; split; [intros; apply horizons_explicit|].
split; [reflexivity|]; split.
  intros H; unfold horizons; replace (l <? 2) with false by lia; reflexivity.
intros lks lm km e; split; [apply horizons_err|].
intros (-> & -> & l' & -> & H); unfold horizons; replace (l' <? 2) with true by lia; reflexivity.
Qed.
Print Assumptions C16_one_call.

(** every history of calls [(l_max, k_max)] on one object: each horizon is that of the last call that
    requested it and did not raise, or the one before the history, or the default *)
Theorem C16_history (h : list (option Z * option Z)) (lks : option (Z * Z)) :
  let raises c := match c with (Some l, None) => l <? 2 | _ => false end in
  fold_left (fun lks c => match horizons lks (fst c) (snd c) with Ok lk => Some lk | Err _ => lks end) h lks =
  if forallb raises h then lks else
  Some (dflt (match lks with Some lk => fst lk | None => 3 end) (last_some req_l h),
        dflt (match lks with Some lk => snd lk | None => 17 end) (last_some req_k h)).
Proof. exact (hrunE h lks). Qed.
Print Assumptions C16_history.

(** re-solving any number of times without horizons *)
Theorem C16_resolve_keeps (lk : Z * Z) (n : nat) :
  fold_left (fun lks c => match horizons lks (fst c) (snd c) with Ok lk => Some lk | Err _ => lks end)
    (repeat (None, None) n) (Some lk) = Some lk.
Proof. induction n as [|n IH]; simpl; [reflexivity|]. destruct lk; exact IH. Qed.
Print Assumptions C16_resolve_keeps.

(** the documented default is not the effective one; passing the stored value back grows it *)
Theorem C16_documented_default_refuted :
  horizons None None None <> horizons None (Some 3) (Some 17) /\
  forall l k, 2 <= l -> 
    rbind (horizons None (Some l) (Some k)) (fun lk => horizons (Some lk) (Some (fst lk)) (Some (snd lk))) = Ok (l + 2, k).
Proof.
split; [discriminate|]. intros l k H; unfold horizons.
replace (l <? 2) with false by lia; simpl. 
replace (l + 1 <? 2) with false by lia; simpl. f_equal; f_equal; lia.
Qed.
Print Assumptions C16_documented_default_refuted.

Example C16_ex :
  fold_left (fun lks c => match horizons lks (fst c) (snd c) with Ok lk => Some lk | Err _ => lks end)
    [(Some 1, Some 20); (None, None); (Some 0, None); (Some 5, None); (None, Some 30); (None, None)] None
  = Some (6, 30).
Proof. reflexivity. Qed.

Section C17.
(** any types of parameters, matrices, solutions and tables, and any behaviour of the
    steps of the solve, each of which may raise *)
Variables P PP X V M L S T : Type.
Variable p0 : P.
Variable pcompile : P -> res PP.
Variable has_constraint : bool.
Variable xbar_of : P -> res X.
Variable positive : X -> bool.
Variable names : V.
Variable mats : PP -> res M.
Variable layout : M -> res L.
Variable order : L -> V.
Variable linsol : M -> X -> res S.
Variable tables : M -> X -> S -> Z * Z -> res T.
Notation solve := (@solve P PP X V M L S T p0 pcompile has_constraint xbar_of positive names mats layout order linsol tables).
Notation run := (@run P PP X V M L S T p0 pcompile has_constraint xbar_of positive names mats layout order linsol tables).
Notation new_tab := (new_tab P PP X M S T pcompile xbar_of mats linsol tables).
Notation written := (written P PP X V M L S T pcompile xbar_of names mats layout order linsol tables).

(** C17.  Whatever happens, a call updates a prefix of the attributes in the order
    par, ppar, x_bar, vv, lks, layout, linear solution, tables: everything after a full
    solve; everything but the last two if only the observation matrices were requested;
    otherwise at least [par] and never the tables. *)
Theorem C17_prefix_of_attributes s par l_max k_max hx_only s' r :
  solve s par l_max k_max hx_only = (s', r) ->
  exists n, written n (match par with Some p => p | None => p0 end) l_max k_max s s' /\
    match r with
    | Ok _ => n = if hx_only then 6%nat else 8%nat
    | Err e => (1 <= n <= (if hx_only then 5 else 7))%nat
    end.
Proof. apply solveP. Qed.

(** hence after a failed solve the object reports the new parameters, while the
    transition tables are those from before *)
Theorem C17_failed_solve_mixes s par l_max k_max hx_only s' e :
  solve s par l_max k_max hx_only = (s', Err e) ->
  m_par s' = Some (match par with Some p => p | None => p0 end) /\ m_tab s' = m_tab s /\
  (pcompile (match par with Some p => p | None => p0 end) = Err e ->
   m_ppar s' = m_ppar s /\ m_xbar s' = m_xbar s /\ m_vv s' = m_vv s /\ m_lks s' = m_lks s /\
   m_layout s' = m_layout s /\ m_sys s' = m_sys s).
Proof.
intros H; destruct (solveP _ _ _ _ _ _ _ _ _ _ _ _ _ _ _ _ _ _ _ _ _ _ _ _ _ _ H) as [n [W N]].
split; [|split].
- rewrite (w_par _ _ _ _ _ _ _ _ _ _ _ _ _ _ _ _ _ _ _ _ _ _ W); destruct n; [destruct hx_only; lia|reflexivity].
- rewrite (w_tab _ _ _ _ _ _ _ _ _ _ _ _ _ _ _ _ _ _ _ _ _ _ W).
  replace (7 <? n)%nat with false; [reflexivity|symmetry; apply Nat.ltb_ge; destruct hx_only; lia].
- intros C; revert H; unfold M_Solve.solve; rewrite C; intros H; injection H as <-; simpl; auto 10.
Qed.

(** over any history of calls, failing or not: the parameters are those of the last call,
    the tables those of the last call that succeeded completely *)
Theorem C17_tables_of_last_success s h c :
  m_par (run s (h ++ [c])) = Some (match c_par c with Some p => p | None => p0 end) /\
  forall g,
  (exists g1 d g2 lk tb, g = g1 ++ d :: g2 /\
     is_ok (snd (solve (run s g1) (c_par d) (c_l d) (c_k d) (c_hx d))) = true /\ c_hx d = false /\
     (forall g3 d' g4, g2 = g3 ++ d' :: g4 ->
        c_hx d' = true \/
        is_ok (snd (solve (run s (g1 ++ d :: g3)) (c_par d') (c_l d') (c_k d') (c_hx d'))) = false) /\
     horizons (m_lks (run s g1)) (c_l d) (c_k d) = Ok lk /\
     new_tab (match c_par d with Some p => p | None => p0 end) lk = Ok tb /\
     m_tab (run s g) = Some tb) \/
  ((forall g3 d' g4, g = g3 ++ d' :: g4 ->
        c_hx d' = true \/ is_ok (snd (solve (run s g3) (c_par d') (c_l d') (c_k d') (c_hx d'))) = false) /\
   m_tab (run s g) = m_tab s).
Proof.
split; [apply run_par|]. intros g.
assert (S2 : forall s0 d, succeeds _ _ _ _ _ _ _ _ p0 pcompile has_constraint xbar_of positive names mats layout order linsol tables s0 d = false ->
  c_hx d = true \/ is_ok (snd (solve s0 (c_par d) (c_l d) (c_k d) (c_hx d))) = false).
{ intros s0 d; unfold succeeds; destruct (c_hx d); simpl; auto. }
destruct (run_tab _ _ _ _ _ _ _ _ p0 pcompile has_constraint xbar_of positive names mats layout order linsol tables s g)
  as [(g1 & d & g2 & lk & tb & E & Su & N & H1 & H2 & H3)|[N H]].
- left; exists g1, d, g2, lk, tb; split; [exact E|].
  unfold succeeds in Su; apply andb_true_iff in Su; destruct Su as [Sa Sb].
  split; [exact Sb|split; [destruct (c_hx d); [discriminate|reflexivity]|split; [|auto]]].
  intros g3 d' g4 E'; apply S2; eapply N; eauto.
- right; split; [|exact H]. intros g3 d' g4 E'; apply S2; eapply N; eauto.
Qed.
End C17.
Print Assumptions C17_prefix_of_attributes.
Print Assumptions C17_failed_solve_mixes.
Print Assumptions C17_tables_of_last_success.

(** a solve is not atomic: a model with one parameter whose linear solution exists
    only for parameters below 2, solved at 1 and then at 3 *)
Definition solve_ex := @solve Z Z Z nat Z Z Z (Z * Z) 1 (fun p => Ok p) true (fun p => Ok (- p)) (fun x => 0 <? x)
  7%nat (fun p => Ok p) (fun m => Ok m) (fun l => Z.to_nat l) (fun m x => if m <? 2 then Ok (m + x) else Err GenericException)
  (fun m x so lk => Ok (m, snd lk)).
Theorem C17_atomic_refuted :
  exists s0 s1 s2, solve_ex s0 (Some 1) None None false = (s1, Ok tt) /\
    solve_ex s1 (Some 3) None None false = (s2, Err GenericException) /\
    m_par s2 = Some 3 /\ m_xbar s2 = Some (-3) /\ m_layout s2 = Some 3 /\ m_tab s2 = Some (1, 17) /\ s1 <> s2.
Proof.
eexists (fresh _ _ _ _ _ _ _), _, _; split; [reflexivity|]; split; [reflexivity|]; repeat split; discriminate.
Qed.
Print Assumptions C17_atomic_refuted.
