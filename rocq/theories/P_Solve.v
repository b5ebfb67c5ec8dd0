From Coq Require Import List ZArith Bool Lia.
From Verif Require Import PyBase M_Solve S_Solve.
Import ListNotations.
Local Open Scope Z_scope.

Lemma horizons_explicit lks l k : horizons lks (Some l) (Some k) = Ok (stored_l l k, k).
Proof. unfold horizons, stored_l; destruct (l <? 2), (0 <? k); reflexivity. Qed.

Lemma horizons_none lk : horizons (Some lk) None None = Ok lk.
Proof. destruct lk; reflexivity. Qed.

Lemma horizons_err lks l k e : horizons lks l k = Err e ->
  e = TypeError /\ k = None /\ exists l', l = Some l' /\ l' < 2.
Proof.
unfold horizons; destruct l as [l|]; [|destruct lks; discriminate].
destruct (l <? 2) eqn:E; [|discriminate].
destruct k as [k|]; simpl; [destruct (0 <? k); discriminate|].
intros H; injection H as <-; repeat split; eauto; exists l; split; auto; lia.
Qed.

(** history of horizon requests, those that raise being ignored *)
Definition hstep (lks : option (Z * Z)) (c : option Z * option Z) : option (Z * Z) :=
  match horizons lks (fst c) (snd c) with Ok lk => Some lk | Err _ => lks end.
Definition hrun := fold_left hstep.

Lemma hstepE lks c : hstep lks c =
  if raises c then lks else
  Some (dflt (match lks with Some lk => fst lk | None => 3 end) (req_l c),
        dflt (match lks with Some lk => snd lk | None => 17 end) (req_k c)).
Proof.
destruct c as [[l|] [k|]]; unfold hstep, req_l, req_k, raises; simpl.
- rewrite horizons_explicit; reflexivity.
- unfold horizons; simpl. destruct (l <? 2); simpl; destruct lks; reflexivity.
- unfold horizons; simpl; destruct lks; reflexivity.
- unfold horizons; simpl; destruct lks; reflexivity.
Qed.

Lemma raises_req c : raises c = true -> req_l c = None /\ req_k c = None.
Proof. destruct c as [[l|] [k|]]; unfold raises, req_l, req_k; simpl; try discriminate. intros ->; auto. Qed.

Lemma hrunE h : forall lks, hrun h lks =
  if forallb raises h then lks else
  Some (dflt (match lks with Some lk => fst lk | None => 3 end) (last_some req_l h),
        dflt (match lks with Some lk => snd lk | None => 17 end) (last_some req_k h)).
Proof.
unfold hrun; induction h as [|c h IH]; intros lks; simpl; [reflexivity|].
rewrite IH, hstepE; destruct (raises c) eqn:R; simpl.
- apply raises_req in R; destruct R as [-> ->].
  destruct (forallb raises h); [reflexivity|].
  destruct (last_some req_l h), (last_some req_k h); reflexivity.
- destruct (forallb raises h) eqn:A.
  + assert (last_some req_l h = None /\ last_some req_k h = None) as [-> ->].
    { clear -A; induction h as [|d h IH]; simpl in *; auto.
      apply andb_true_iff in A; destruct A as [A B]; destruct (IH B) as [-> ->]; apply raises_req; auto. }
    reflexivity.
  + simpl; destruct (last_some req_l h), (last_some req_k h); reflexivity.
Qed.

Section Solve.
Variables P PP X V M L S T : Type.
Variable p0 : P.
Variable pcompile : P -> res PP.
Variable has_constraint : bool.
Variable xbar_of : P -> res X.
Variable positive : X -> bool.
Variable names : V.
Variable mats : PP -> res M.
Variable layout : M -> res L.
Variable order : L -> V.
Variable linsol : M -> X -> res S.
Variable tables : M -> X -> S -> Z * Z -> res T.
Notation mstate := (mstate P PP X V L S T).
Notation new_layout := (new_layout P PP M L pcompile mats layout).
Notation new_sys := (new_sys P PP X M S pcompile xbar_of mats linsol).
Notation new_tab := (new_tab P PP X M S T pcompile xbar_of mats linsol tables).
Notation written := (written P PP X V M L S T pcompile xbar_of names mats layout order linsol tables).
Notation w_par := (w_par P PP X V M L S T pcompile xbar_of names mats layout order linsol tables).
Notation w_tab := (w_tab P PP X V M L S T pcompile xbar_of names mats layout order linsol tables).
Notation solve := (@solve P PP X V M L S T p0 pcompile has_constraint xbar_of positive names mats layout order linsol tables).


Definition request (par : option P) : P := match par with Some p => p | None => p0 end.

Ltac rwo H := try (progress rewrite H; simpl).
Ltac wr E1 E3 E5 E6 E7 E8 E9 := constructor; simpl; unfold S_Solve.new_layout, S_Solve.new_sys, S_Solve.new_tab;
  rwo E6; rwo E1; rwo E5; rwo E3; rwo E7; rwo E8; rwo E9; reflexivity.

Lemma solveP s par l k hx s' r : solve s par l k hx = (s', r) ->
  exists n, written n (request par) l k s s' /\
    match r with
    | Ok _ => n = if hx then 6%nat else 8%nat
    | Err e => (1 <= n <= (if hx then 5 else 7))%nat
    end.
Proof.
unfold M_Solve.solve; fold (request par); set (p := request par).
destruct (pcompile p) as [pp|e0] eqn:E1; [|intros H; injection H as <- <-; exists 1%nat; split; [wr E1 I I I I I I|destruct hx; lia]].
destruct has_constraint eqn:E2; simpl; [|intros H; injection H as <- <-; exists 2%nat; split; [wr E1 I I I I I I|destruct hx; lia]].
destruct (xbar_of p) as [x|e0] eqn:E3; [|intros H; injection H as <- <-; exists 2%nat; split; [wr E1 E3 I I I I I|destruct hx; lia]].
destruct (positive x) eqn:E4; [intros H; injection H as <- <-; exists 3%nat; split; [wr E1 E3 I I I I I|destruct hx; lia]|].
destruct (mats pp) as [mm|e0] eqn:E5; [|intros H; injection H as <- <-; exists 4%nat; split; [wr E1 E3 E5 I I I I|destruct hx; lia]].
destruct (horizons (m_lks s) l k) as [lk|e0] eqn:E6; [|intros H; injection H as <- <-; exists 4%nat; split; [wr E1 E3 E5 E6 I I I|destruct hx; lia]].
destruct (layout mm) as [ly|e0] eqn:E7; [|intros H; injection H as <- <-; exists 5%nat; split; [wr E1 E3 E5 E6 E7 I I|destruct hx; lia]].
destruct hx; [intros H; injection H as <- <-; exists 6%nat; split; [wr E1 E3 E5 E6 E7 I I|reflexivity]|].
destruct (linsol mm x) as [so|e0] eqn:E8; [|intros H; injection H as <- <-; exists 6%nat; split; [wr E1 E3 E5 E6 E7 E8 I|lia]].
destruct (tables mm x so lk) as [tb|e0] eqn:E9; [|intros H; injection H as <- <-; exists 7%nat; split; [wr E1 E3 E5 E6 E7 E8 E9|lia]].
intros H; injection H as <- <-; exists 8%nat; split; [wr E1 E3 E5 E6 E7 E8 E9|reflexivity].
Qed.

(** when a call succeeds every value it depends on exists *)
Lemma solve_ok s par l k s' u : solve s par l k false = (s', Ok u) ->
  exists lk tb, horizons (m_lks s) l k = Ok lk /\ new_tab (request par) lk = Ok tb /\
    m_tab s' = Some tb /\ m_lks s' = Some lk /\ m_par s' = Some (request par) /\ m_xbar s' = ok (xbar_of (request par)).
Proof.
unfold M_Solve.solve, S_Solve.new_tab; fold (request par); set (p := request par).
destruct (pcompile p) as [pp|] eqn:E1; [|discriminate].
destruct has_constraint; simpl; [|discriminate].
destruct (xbar_of p) as [x|] eqn:E3; [|discriminate].
destruct (positive x); [discriminate|].
destruct (mats pp) as [mm|] eqn:E5; [|discriminate].
destruct (horizons (m_lks s) l k) as [lk|] eqn:E6; [|discriminate].
destruct (layout mm) as [ly|] eqn:E7; [|discriminate].
destruct (linsol mm x) as [so|] eqn:E8; [|discriminate].
destruct (tables mm x so lk) as [tb|] eqn:E9; [|discriminate].
intros H; injection H as <-; exists lk, tb; simpl. rwo E5; rwo E3; rwo E8; auto 10.
Qed.

Notation run := (@run P PP X V M L S T p0 pcompile has_constraint xbar_of positive names mats layout order linsol tables).

(** does the call, made in state [s], solve the model completely? *)
Definition succeeds (s : mstate) (c : call P) : bool :=
  negb (c_hx c) && is_ok (snd (solve s (c_par c) (c_l c) (c_k c) (c_hx c))).

Lemma run_snoc s h c : run s (h ++ [c]) = fst (solve (run s h) (c_par c) (c_l c) (c_k c) (c_hx c)).
Proof. unfold M_Solve.run; rewrite fold_left_app; reflexivity. Qed.

Lemma call_cases s c : 
  m_par (fst (solve s (c_par c) (c_l c) (c_k c) (c_hx c))) = Some (request (c_par c)) /\
  if succeeds s c
  then exists lk tb, horizons (m_lks s) (c_l c) (c_k c) = Ok lk /\ new_tab (request (c_par c)) lk = Ok tb /\
     m_tab (fst (solve s (c_par c) (c_l c) (c_k c) (c_hx c))) = Some tb
  else m_tab (fst (solve s (c_par c) (c_l c) (c_k c) (c_hx c))) = m_tab s.
Proof.
unfold succeeds; destruct c as [par l k hx]; simpl.
destruct (solve s par l k hx) as [s' r] eqn:E; simpl.
destruct (solveP _ _ _ _ _ _ _ E) as [n [W N]]; split.
  rewrite (w_par _ _ _ _ _ _ W); destruct r; [subst n; destruct hx; reflexivity|].
  destruct n; [destruct hx; lia|reflexivity].
destruct hx; simpl.
  rewrite (w_tab _ _ _ _ _ _ W); destruct r; [subst n; reflexivity|].
  replace (7 <? n)%nat with false; [reflexivity|symmetry; apply Nat.ltb_ge; lia].
destruct r as [u|e]; simpl.
  destruct (solve_ok _ _ _ _ _ _ E) as (lk & tb & h1 & h2 & h3 & _); eauto.
rewrite (w_tab _ _ _ _ _ _ W).
replace (7 <? n)%nat with false; [reflexivity|symmetry; apply Nat.ltb_ge; lia].
Qed.

(** the tables of a history *)
Lemma run_tab s h :
  (exists h1 c h2 lk tb, h = h1 ++ c :: h2 /\ succeeds (run s h1) c = true /\
     (forall h3 d h4, h2 = h3 ++ d :: h4 -> succeeds (run s (h1 ++ c :: h3)) d = false) /\
     horizons (m_lks (run s h1)) (c_l c) (c_k c) = Ok lk /\
     new_tab (request (c_par c)) lk = Ok tb /\ m_tab (run s h) = Some tb) \/
  ((forall h3 d h4, h = h3 ++ d :: h4 -> succeeds (run s h3) d = false) /\ m_tab (run s h) = m_tab s).
Proof.
induction h as [|c h IH] using rev_ind.
  right; split; [|reflexivity]. intros h3 d h4 H; destruct h3; discriminate.
rewrite run_snoc; destruct (call_cases (run s h) c) as [_ C].
destruct (succeeds (run s h) c) eqn:E.
  left; destruct C as (lk & tb & h1 & h2 & h3); exists h, c, [], lk, tb; repeat split; auto.
  intros h4 d h5 H; destruct h4; discriminate.
assert (split_last : forall (h2 h3 h4 : list (call P)) d, h2 ++ [c] = h3 ++ d :: h4 ->
  (h2 = h3 /\ d = c) \/ exists h5, h2 = h3 ++ d :: h5).
{ intros h2 h3 h4 d; destruct h4 as [|d' h4] using rev_ind; intros H.
  - apply app_inj_tail in H; destruct H as [-> ->]; auto.
  - right; clear IHh4. rewrite app_comm_cons, app_assoc in H; apply app_inj_tail in H; destruct H as [-> _]; eauto. }
destruct IH as [(h1 & c1 & h2 & lk & tb & -> & S1 & N & H1 & H2 & H3)|[N H]].
- left; exists h1, c1, (h2 ++ [c]), lk, tb; repeat split; auto.
  + rewrite <- app_assoc; reflexivity.
  + intros h3 d h4 H; apply split_last in H; destruct H as [[<- ->]|[h5 ->]]; [exact E|].
    apply (N _ _ _ eq_refl).
  + rewrite C; exact H3.
- right; split; [|rewrite C; exact H].
  intros h3 d h4 H'; apply split_last in H'; destruct H' as [[<- ->]|[h5 ->]]; [exact E|].
  apply (N _ _ _ eq_refl).
Qed.

Lemma run_par s h c : m_par (run s (h ++ [c])) = Some (request (c_par c)).
Proof. rewrite run_snoc; apply (proj1 (call_cases _ _)). Qed.
End Solve.
