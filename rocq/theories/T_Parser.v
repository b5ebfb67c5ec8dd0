(** From the model file to the coefficient matrices: C33-C38, C81, C82. *)
Set Warnings "-all".
From Coq Require Import String.
From mathcomp Require Import all_ssreflect all_algebra.
From Verif Require Import PyBase PyStr M_Parser S_Parser S_ParserEx P_Parser P_Parser2 P_Parser3 P_Parser4 P_Parser5 P_Parser6 P_Parser7.
Set Implicit Arguments. Unset Strict Implicit. Unset Printing Implicit Defensive.
Import GRing.Theory Num.Theory Order.TTheory.
Local Open Scope ring_scope.
Local Open Scope string_scope.

(** tools for the examples *)
Lemma eachP (F : fieldType) (P : sym -> bool) (eqs : seq (eqn F)) : all (fun q => all P (eatoms q)) eqs ->
  forall q a, List.In q eqs -> a \in eatoms q -> P a.
Proof. by elim: eqs => [|q l IH] //= /andP [h1 /IH h2] q' a [<-|qi]; [move/allP: h1; apply | apply: h2]. Qed.
Lemma eachA (F : fieldType) (P : eqn F -> bool) (eqs : seq (eqn F)) : all P eqs -> forall q, List.In q eqs -> P q.
Proof. by elim: eqs => [|q l IH] //= /andP [h1 /IH h2] q' [<-|qi] //; apply: h2. Qed.

Section T.
Variable F : fieldType.
Variables (m : rawmodel F) (p : parsed F) (eqs : seq (eqn F)).
Hypothesis Hp : parse m = Ok p.
Hypothesis He : declared_eqs m = Ok eqs.

Lemma tE : expand eqs (r_vars m) (r_shks m) = Ok (p_eqs p, p_vars p).
Proof. by have [_ _ []] := pE Hp He. Qed.
Let dec := declared_eqsP He.

Lemma faithful (par : string -> F) e x : uniq (p_vars p) -> leads_upto 2 eqs ->
  solves par e x eqs <-> exists y, agree (r_vars m) y x /\ solves par e y (p_eqs p).
Proof.
move=> un le; have cut := cut_id le.
have snd := @expand_sound F _ _ _ _ _ tE dec par e.
have cmp := @expand_complete F _ _ _ _ _ tE dec par e x un.
rewrite cut in snd; rewrite cut in cmp.
split=> [/cmp [y [ag H]]|[y [ag H]]]; first by exists y.
by apply: (solves_agree dec ag); apply: snd.
Qed.
End T.

(** C33: a path solves the declared equations (with lags of any order, leads of at most one period) if and only if
    it can be extended to the auxiliary variables so that the expanded equations hold; the extension is unique, each
    auxiliary lag variable carries the lagged value of its variable, and no date below -1 remains. *)
Theorem C33_lags_faithful : forall (F : fieldType) (m : rawmodel F) (p : parsed F) (eqs : seq (eqn F)),
  parse m = Ok p -> declared_eqs m = Ok eqs -> uniq (p_vars p) -> leads_upto 1 eqs ->
  (forall par e x, solves par e x eqs <-> exists y, agree (r_vars m) y x /\ solves par e y (p_eqs p)) /\
  (forall par e y y', solves par e y (p_eqs p) -> solves par e y' (p_eqs p) -> agree (r_vars m) y y' ->
     agree (p_vars p) y y') /\
  var_range (-1) 1 (p_eqs p) /\
  (forall n, n \in p_vars p -> [\/ n \in r_vars m,
     exists s, [/\ s \in r_shks m, n = var_s s & forall par e y t, solves par e y (p_eqs p) -> y n t = e s t],
     exists v i, [/\ v \in p_vars p, n = var_lag v i.+1 &
       forall par e y t, solves par e y (p_eqs p) -> y n t = y v (t - i.+1%:Z)] |
     exists v i, [/\ v \in p_vars p, n = var_lead v i.+1 &
       forall par e y t, solves par e y (p_eqs p) -> y n t = y v (t + 1)]]).
Proof.
move=> F m p eqs Hp He un le; split; last split; last split.
- move=> par e x; apply: (faithful Hp He) => // q a qi ai ka; exact: le_trans (le q a qi ai ka) _.
- by move=> par e y y' h1 h2 ag v t; apply: (expand_unique (tE Hp He) (declared_eqsP He) h1 h2 ag).
- exact: expand_range (tE Hp He) (declared_eqsP He).
- move=> n ni; exact: (expand_aux (tE Hp He) (declared_eqsP He) ni).
Qed.
Print Assumptions C33_lags_faithful.

Lemma nthIn (T : Type) (x0 : T) (s : seq T) i : (i < size s)%N -> List.In (nth x0 s i) s.
Proof. by elim: s i => [|x s IH] [|i] //=; [left | move=> /IH; right]. Qed.
Definition ok_or (A : Type) (d : A) (x : res A) : A := match x with Ok a => a | Err _ => d end.
Lemma ok_orE (A : Type) (d : A) (x : res A) : is_ok x -> x = Ok (ok_or d x). Proof. by case: x. Qed.
Definition p_dummy : parsed rat_fieldType := Parsed [::] [::] [::] [::] [::] "" (Cst 0, Cst 0) [::].
Definition ex_p := ok_or p_dummy (parse ex_m).
Definition ex_eqs := ok_or [::] (declared_eqs ex_m).
Lemma ex_parse : parse ex_m = Ok ex_p. Proof. by apply: ok_orE; vm_compute. Qed.
Lemma ex_decl : declared_eqs ex_m = Ok ex_eqs. Proof. by apply: ok_orE; vm_compute. Qed.
Lemma ex_uniq : uniq (p_vars ex_p). Proof. by vm_compute. Qed.
Lemma ex_leads : leads_upto 2 ex_eqs.
Proof.
move=> q a qi ai ka; have h : all (fun q => all (fun a : sym => dat a <= 2) (eatoms q)) ex_eqs by vm_compute.
exact: (eachP (P := fun a => dat a <= 2) h qi ai).
Qed.
(** a file with a lag of two and a lagged shock *)
Definition ex_lag : rawmodel rat_fieldType := RawModel
  [:: "x"; "z"; "r"] [:: "a"] [:: "e"] [::]
  [:: (n_ "x", Add (Sub (Mul (n_ "a") (l_ "x" (-3))) (n_ "r")) (Cst 1)); (n_ "z", Add (l_ "e" (-1)) (l_ "z" 1))]
  "r" (n_ "r", Add (Mul (Cst 2%:Q) (n_ "x")) (n_ "e")) [:: ("o", Add (n_ "x") (Cst 3%:Q))].
Example C33_ex : exists p eqs, [/\ parse ex_lag = Ok p, declared_eqs ex_lag = Ok eqs, uniq (p_vars p), leads_upto 1 eqs &
  p_vars p = [:: "x"; "z"; "r"; "e_VAR"; "x_LAG1"; "x_LAG2"]].
Proof.
exists (ok_or p_dummy (parse ex_lag)), (ok_or [::] (declared_eqs ex_lag)); split; [by apply: ok_orE; vm_compute | by apply: ok_orE; vm_compute | by vm_compute | | by vm_compute].
move=> q a qi ai ka; have h : all (fun q => all (fun a : sym => dat a <= 1) (eatoms q)) (ok_or [::] (declared_eqs ex_lag)) by vm_compute.
exact: (eachP (P := fun a => dat a <= 1) h qi ai).
Qed.

(** C34: the same for leads of at most two periods. *)
Theorem C34_leads_faithful : forall (F : fieldType) (m : rawmodel F) (p : parsed F) (eqs : seq (eqn F)),
  parse m = Ok p -> declared_eqs m = Ok eqs -> uniq (p_vars p) -> leads_upto 2 eqs ->
  (forall par e x, solves par e x eqs <-> exists y, agree (r_vars m) y x /\ solves par e y (p_eqs p)) /\
  (forall par e y y', solves par e y (p_eqs p) -> solves par e y' (p_eqs p) -> agree (r_vars m) y y' ->
     agree (p_vars p) y y').
Proof.
move=> F m p eqs Hp He un le; split; first by move=> par e x; apply: (faithful Hp He).
by move=> par e y y' h1 h2 ag v t; apply: (expand_unique (tE Hp He) (declared_eqsP He) h1 h2 ag).
Qed.
Print Assumptions C34_leads_faithful.
Example C34_ex : [/\ parse ex_m = Ok ex_p, declared_eqs ex_m = Ok ex_eqs, uniq (p_vars ex_p), leads_upto 2 ex_eqs &
  p_vars ex_p = [:: "x"; "z"; "r"; "e_VAR"; "x_LAG1"; "z_LEAD1"]].
Proof. split; [exact: ex_parse | exact: ex_decl | exact: ex_uniq | exact: ex_leads | by vm_compute]. Qed.

(** What longer leads mean: the system that is solved is the declared one with every lead above two cut to two. *)
Theorem C34_long_leads_are_cut : forall (F : fieldType) (m : rawmodel F) (p : parsed F) (eqs : seq (eqn F)),
  parse m = Ok p -> declared_eqs m = Ok eqs -> uniq (p_vars p) ->
  forall par e, (forall y, solves par e y (p_eqs p) -> solves par e y [seq cut_leads q | q <- eqs]) /\
    (forall x, solves par e x [seq cut_leads q | q <- eqs] -> exists y, agree (r_vars m) y x /\ solves par e y (p_eqs p)).
Proof.
move=> F m p eqs Hp He un par e; split.
  by move=> y; apply: (expand_sound (tE Hp He) (declared_eqsP He)).
by move=> x; apply: (expand_complete (tE Hp He) (declared_eqsP He)).
Qed.
Print Assumptions C34_long_leads_are_cut.
Example C34_long_leads_ex : exists p eqs, [/\ parse ex_lead = Ok p, declared_eqs ex_lead = Ok eqs & uniq (p_vars p)].
Proof. by exists (ok_or p_dummy (parse ex_lead)), (ok_or [::] (declared_eqs ex_lead)); split; [apply: ok_orE; vm_compute | apply: ok_orE; vm_compute | vm_compute]. Qed.

(** Hence the equivalence fails for a lead of three: z = e + z(+3) has a solution that no choice of the auxiliary
    variables turns into a solution of the expanded system. *)
Theorem C34_long_leads_refuted : exists (m : rawmodel rat_fieldType) (p : parsed rat_fieldType) (eqs : seq (eqn rat_fieldType)),
  [/\ parse m = Ok p, declared_eqs m = Ok eqs, uniq (p_vars p) &
   exists par e x, solves par e x eqs /\ forall y, agree (r_vars m) y x -> ~ solves par e y (p_eqs p)].
Proof.
exists ex_lead, (ok_or p_dummy (parse ex_lead)), (ok_or [::] (declared_eqs ex_lead)).
have Hp : parse ex_lead = Ok (ok_or p_dummy (parse ex_lead)) by apply: ok_orE; vm_compute.
have He : declared_eqs ex_lead = Ok (ok_or [::] (declared_eqs ex_lead)) by apply: ok_orE; vm_compute.
split; [exact: Hp | exact: He | by vm_compute |].
(* x = r = 0; z has period 3: z(t) = 1 if 3 | t, else 0 *)
pose z (t : int) : rat := if (t %% 3)%Z == 0 then 1 else 0.
exists (fun _ => 0), (fun _ _ => 0), (fun n t => if n == "z" then z t else 0); split.
  move=> t q [<-|[<-|[]]]; rewrite /value /=.
    by rewrite subr0.
  by rewrite add0r addr0 /z modzDr.
move=> y ag H; have := expand_sound (tE Hp He) (declared_eqsP He) H.
move=> /(_ 0 _ (or_intror (or_introl erefl))); rewrite /value /= /cut2 /=.
by rewrite !(ag "z") //= /z.
Qed.
Print Assumptions C34_long_leads_refuted.

(** C35: shocks with lags of any order: the equivalence as above, no lagged shock remains, and the auxiliary
    variable of a shock carries the shock. *)
Theorem C35_lagged_shocks_faithful : forall (F : fieldType) (m : rawmodel F) (p : parsed F) (eqs : seq (eqn F)),
  parse m = Ok p -> declared_eqs m = Ok eqs -> uniq (p_vars p) -> leads_upto 2 eqs ->
  (forall par e x, solves par e x eqs <-> exists y, agree (r_vars m) y x /\ solves par e y (p_eqs p)) /\
  no_lagged_shock (p_eqs p) /\
  (forall q a, List.In q eqs -> a \in eatoms q -> knd a = KShk -> dat a < 0 ->
     var_s (nam a) \in p_vars p /\ forall par e y t, solves par e y (p_eqs p) -> y (var_s (nam a)) t = e (nam a) t).
Proof.
move=> F m p eqs Hp He un le; split; last split.
- by move=> par e x; apply: (faithful Hp He).
- exact: expand_noshock (tE Hp He) (declared_eqsP He).
- move=> q a qi ai ka da; exact: (expand_shock_aux (tE Hp He) (declared_eqsP He) qi ai ka da).
Qed.
Print Assumptions C35_lagged_shocks_faithful.
Example C35_ex : [/\ parse ex_m = Ok ex_p, declared_eqs ex_m = Ok ex_eqs, uniq (p_vars ex_p), leads_upto 2 ex_eqs &
  exists q a, [/\ List.In q ex_eqs, a \in eatoms q, knd a = KShk & dat a < 0]].
Proof.
split; [exact: ex_parse | exact: ex_decl | exact: ex_uniq | exact: ex_leads |].
exists (nth (Cst 0, Cst 0) ex_eqs 1), (KShk, "e", -1); split; [by apply: nthIn; vm_compute | by vm_compute | by [] | by []].
Qed.

(** C36: the number of equations stays one below the number of variables; a file where it is not is rejected. *)
Theorem C36_square : forall (F : fieldType) (m : rawmodel F),
  (forall p, parse m = Ok p -> (size (r_eqs m)).+1 = size (r_vars m) /\ (size (p_eqs p)).+1 = size (p_vars p)) /\
  ((size (r_eqs m)).+1 <> size (r_vars m) -> parse m = Err SyntaxErr).
Proof.
move=> F m; split=> [p Hp|ne].
  have [eqs [He _ sz _]] := parseP Hp; split=> //; exact: size_rows Hp He.
rewrite /parse; case ec: resolve_eqn => [ceq|x]; last by rewrite (resolve_eqn_err ec).
by rewrite [rbind _ _]/=; case: eqP.
Qed.
Print Assumptions C36_square.
Example C36_ex : parse ex_m = Ok ex_p /\ size (p_eqs ex_p) = 5%N. Proof. by split; [exact: ex_parse | vm_compute]. Qed.

(** C37: for affine equations the matrices represent every expanded model equation and the constraint exactly, up to
    the constant term: left minus right-hand side = constant + AA x(t+1) + BB x(t) + CC x(t-1) - PSI eps(t), and for
    the constraint constant - bb (x(t), x(t-1)) - bb_PSI eps(t). *)
Theorem C37_matrices : forall (F : fieldType) (m : rawmodel F) (p : parsed F) (eqs : seq (eqn F)) (par : string -> F),
  parse m = Ok p -> declared_eqs m = Ok eqs -> uniq (p_vars p) -> uniq (r_shks m) ->
  each (fun q => affine_eqn q) eqs -> no_shock_lead eqs ->
  affine_eqn (p_ceq p) -> dates_in (-1) 0 0 0 (set_eq_zero (p_ceq p)) ->
  (forall o, List.In o (p_obs p) -> [/\ affine o.2, no_shocks o.2 & dates_in (-1) 0 0 0 o.2]) ->
  exists g, [/\ get_matrices p par = Ok g,
    [/\ size (g_AA g) = size (p_eqs p), size (g_BB g) = size (p_eqs p), size (g_CC g) = size (p_eqs p) & size (g_PSI g) = size (p_eqs p)],
    forall i q0 y e t, (i < size (p_eqs p))%N -> gap (value par y e t) (nth q0 (p_eqs p) i) =
      linear_gap (const_of par (nth q0 (p_eqs p) i)) g i (p_vars p) (p_shks p) y e t &
    forall y e t, gap (value par y e t) (p_ceq p) =
      const_of par (p_ceq p) - times (take (size (p_vars p)) (g_bb g)) (p_vars p) y t
        - times (drop (size (p_vars p)) (g_bb g)) (p_vars p) y (t - 1) - times (g_bbPSI g) (p_shks p) e t].
Proof.
move=> F m p eqs par Hp He uv us af ns ac cd ob.
by have [g [h1 h2 h3 h4 _]] := get_matricesP par Hp He uv us af ns ac cd ob; exists g; split.
Qed.
Print Assumptions C37_matrices.

(** hence, if no declared equation has a constant term, a path solves the declared equations exactly if it extends to
    a path on which the linear system of the matrices is zero *)
Theorem C37_solutions : forall (F : fieldType) (m : rawmodel F) (p : parsed F) (eqs : seq (eqn F)) (par : string -> F),
  parse m = Ok p -> declared_eqs m = Ok eqs -> uniq (p_vars p) -> uniq (r_shks m) ->
  each (fun q => affine_eqn q) eqs -> no_shock_lead eqs -> leads_upto 2 eqs ->
  affine_eqn (p_ceq p) -> dates_in (-1) 0 0 0 (set_eq_zero (p_ceq p)) ->
  (forall o, List.In o (p_obs p) -> [/\ affine o.2, no_shocks o.2 & dates_in (-1) 0 0 0 o.2]) ->
  each (fun q => const_of par q = 0) (p_eqs p) ->
  exists2 g, get_matrices p par = Ok g &
    forall e x, solves par e x eqs <-> exists y, agree (r_vars m) y x /\
      forall i t, (i < size (p_eqs p))%N -> linear_gap 0 g i (p_vars p) (p_shks p) y e t = 0.
Proof.
move=> F m p eqs par Hp He uv us af ns le ac cd ob c0.
have [g [h1 h2 h3 h4 _]] := get_matricesP par Hp He uv us af ns ac cd ob; exists g => // e x.
rewrite (faithful Hp He par e x uv le); split=> -[y [ag H]]; exists y; split=> //.
  move=> i t lt; have qi := nthIn (Cst 0, Cst 0) lt.
  have := h3 i (Cst 0, Cst 0) y e t lt; rewrite c0 // => <-.
  by rewrite /gap (H t _ qi) subrr.
move=> t q qi; have [i lt eq] : exists2 i, (i < size (p_eqs p))%N & nth (Cst 0, Cst 0) (p_eqs p) i = q.
  elim: (p_eqs p) qi => [|q' l IH] //= [->|/IH [i lt eq]]; [by exists 0%N | by exists i.+1].
by apply/eqP; rewrite -subr_eq0; have := h3 i (Cst 0, Cst 0) y e t lt; rewrite c0 ?eq // H // => /eqP.
Qed.
Print Assumptions C37_solutions.

(** checks for the examples *)
Definition date_ok (a : sym) := match knd a with KVar => (-1 <= dat a) && (dat a <= 0) | KShk => dat a == 0 | KPar => true end.
Lemma dates_inP (F : fieldType) (ex : expr F sym) : all date_ok (atoms ex) -> dates_in (-1) 0 0 0 ex.
Proof.
move=> /allP H a /H; rewrite /date_ok; case: (knd a) => //= /eqP ->; by rewrite lexx.
Qed.
Lemma obsP (F : fieldType) (p : parsed F) : all (fun o => [&& affine o.2, all (fun a : sym => knd a != KShk) (atoms o.2) & all date_ok (atoms o.2)]) (p_obs p) ->
  forall o, List.In o (p_obs p) -> [/\ affine o.2, no_shocks o.2 & dates_in (-1) 0 0 0 o.2].
Proof.
elim: (p_obs p) => [|o l IH] //= /andP [/and3P [h1 /allP h2 h3] /IH h] o' [<-|oi]; last exact: h.
by split=> //; [move=> a ai /eqP; apply/negP; apply: h2 | apply: dates_inP].
Qed.
Definition ex_m0 : rawmodel rat_fieldType := RawModel (r_vars ex_m) (r_pars ex_m) (r_shks ex_m) [::]
  [:: (n_ "x", Sub (Mul (n_ "a") (l_ "x" (-2))) (n_ "r")); (n_ "z", Add (l_ "e" (-1)) (l_ "z" 2))]
  "r" (r_ceq ex_m) (r_obs ex_m).
Definition ex_p0 := ok_or p_dummy (parse ex_m0).
Definition ex_eqs0 := ok_or [::] (declared_eqs ex_m0).
Example C37_ex : [/\ parse ex_m0 = Ok ex_p0, declared_eqs ex_m0 = Ok ex_eqs0, uniq (p_vars ex_p0), uniq (r_shks ex_m0) &
  [/\ each (fun q => affine_eqn q) ex_eqs0, no_shock_lead ex_eqs0, leads_upto 2 ex_eqs0 &
  [/\ affine_eqn (p_ceq ex_p0), dates_in (-1) 0 0 0 (set_eq_zero (p_ceq ex_p0)),
    (forall o, List.In o (p_obs ex_p0) -> [/\ affine o.2, no_shocks o.2 & dates_in (-1) 0 0 0 o.2]) &
    each (fun q => const_of (fun _ => 1) q = 0) (p_eqs ex_p0)]]].
Proof.
split; [by apply: ok_orE; vm_compute | by apply: ok_orE; vm_compute | by vm_compute | by vm_compute |].
split; [| | | split].
- have h : all (fun q => affine_eqn q) ex_eqs0 by vm_compute.
  exact: eachA h.
- move=> q a qi ai ka; have h : all (fun q => all (fun a : sym => dat a <= 0) (eatoms q)) [::] by [].
  have h2 : all (fun q => all (fun a : sym => (knd a != KShk) || (dat a <= 0)) (eatoms q)) ex_eqs0 by vm_compute.
  by have := eachP (P := fun a => (knd a != KShk) || (dat a <= 0)) h2 qi ai; rewrite ka.
- move=> q a qi ai ka; have h : all (fun q => all (fun a : sym => dat a <= 2) (eatoms q)) ex_eqs0 by vm_compute.
  exact: (eachP (P := fun a => dat a <= 2) h qi ai).
- by vm_compute.
- by apply: dates_inP; vm_compute.
- by apply: obsP; vm_compute.
- have h : all (fun q => const_of (fun _ => 1) q == 0) (p_eqs ex_p0) by vm_compute.
  by move=> q qi; apply/eqP; apply: (eachA h).
Qed.

(** C38: an observable that involves only contemporaneous variables is represented exactly by ZZ0 and ZZ1, ... *)
Theorem C38_contemporaneous : forall (F : fieldType) (m : rawmodel F) (p : parsed F) (eqs : seq (eqn F)) (par : string -> F),
  parse m = Ok p -> declared_eqs m = Ok eqs -> uniq (p_vars p) -> uniq (r_shks m) ->
  each (fun q => affine_eqn q) eqs -> no_shock_lead eqs ->
  affine_eqn (p_ceq p) -> dates_in (-1) 0 0 0 (set_eq_zero (p_ceq p)) ->
  (forall o, List.In o (p_obs p) -> [/\ affine o.2, no_shocks o.2 & dates_in 0 0 0 0 o.2]) ->
  exists g, [/\ get_matrices p par = Ok g, size (g_ZZ0 g) = size (p_obs p), size (g_ZZ1 g) = size (p_obs p) &
    forall i o0 y e t, (i < size (p_obs p))%N ->
      eval (value par y e t) (nth o0 (p_obs p) i).2 = nth 0 (g_ZZ1 g) i + times (nth [::] (g_ZZ0 g) i) (p_vars p) y t].
Proof.
move=> F m p eqs par Hp He uv us af ns ac cd ob.
have ob' o : List.In o (p_obs p) -> [/\ affine o.2, no_shocks o.2 & dates_in (-1) 0 0 0 o.2].
  move=> /ob [h1 h2 h3]; split=> // a ai; have := h3 a ai; case: (knd a) => //.
  by move=> /andP [l1 l2]; rewrite l2 (le_trans _ l1).
have [g [h1 h2 h3 h4 [h5 h6 h7]]] := get_matricesP par Hp He uv us af ns ac cd ob'; exists g; split=> //.
move=> i o0 y e t lt; rewrite (h7 i o0 y e t lt); apply: eval_atoms => a ai.
have [_ nsh dd] := ob _ (nthIn o0 lt).
have := dd a ai; have := nsh a ai; rewrite /value /only_at; case: (knd a) => // _ /andP [l1 l2].
have -> : dat a = 0 by apply/eqP; rewrite eq_le l1 l2.
by rewrite addr0 eqxx.
Qed.
Print Assumptions C38_contemporaneous.

(** ... and with lags of one period the compiled observable is the declared one with all lagged values replaced by
    zero: the lagged terms are dropped without an error. *)
Theorem C38_lags_dropped : forall (F : fieldType) (m : rawmodel F) (p : parsed F) (eqs : seq (eqn F)) (par : string -> F),
  parse m = Ok p -> declared_eqs m = Ok eqs -> uniq (p_vars p) -> uniq (r_shks m) ->
  each (fun q => affine_eqn q) eqs -> no_shock_lead eqs ->
  affine_eqn (p_ceq p) -> dates_in (-1) 0 0 0 (set_eq_zero (p_ceq p)) ->
  (forall o, List.In o (p_obs p) -> [/\ affine o.2, no_shocks o.2 & dates_in (-1) 0 0 0 o.2]) ->
  exists g, [/\ get_matrices p par = Ok g, size (g_ZZ0 g) = size (p_obs p), size (g_ZZ1 g) = size (p_obs p) &
    forall i o0 y e t, (i < size (p_obs p))%N ->
      nth 0 (g_ZZ1 g) i + times (nth [::] (g_ZZ0 g) i) (p_vars p) y t =
      eval (value par (only_at t y) e t) (nth o0 (p_obs p) i).2].
Proof.
move=> F m p eqs par Hp He uv us af ns ac cd ob.
by have [g [h1 h2 h3 h4 [h5 h6 h7]]] := get_matricesP par Hp He uv us af ns ac cd ob; exists g; split.
Qed.
Print Assumptions C38_lags_dropped.

Definition ex_pl := ok_or p_dummy (parse ex_lead).
Definition ex_eqsl := ok_or [::] (declared_eqs ex_lead).
Lemma ex_lead_ok : [/\ parse ex_lead = Ok ex_pl, declared_eqs ex_lead = Ok ex_eqsl, uniq (p_vars ex_pl), uniq (r_shks ex_lead) &
  [/\ each (fun q => affine_eqn q) ex_eqsl, no_shock_lead ex_eqsl &
  [/\ affine_eqn (p_ceq ex_pl), dates_in (-1) 0 0 0 (set_eq_zero (p_ceq ex_pl)) &
    (forall o, List.In o (p_obs ex_pl) -> [/\ affine o.2, no_shocks o.2 & dates_in (-1) 0 0 0 o.2])]]].
Proof.
split; [by apply: ok_orE; vm_compute | by apply: ok_orE; vm_compute | by vm_compute | by vm_compute |].
split; [| | split].
- have h : all (fun q => affine_eqn q) ex_eqsl by vm_compute.
  exact: eachA h.
- move=> q a qi ai ka.
  have h2 : all (fun q => all (fun a : sym => (knd a != KShk) || (dat a <= 0)) (eatoms q)) ex_eqsl by vm_compute.
  by have := eachP (P := fun a => (knd a != KShk) || (dat a <= 0)) h2 qi ai; rewrite ka.
- by vm_compute.
- by apply: dates_inP; vm_compute.
- by apply: obsP; vm_compute.
Qed.

(** The observable o = x + x(-1) is compiled to o = x. *)
Theorem C38_lags_refuted : exists (m : rawmodel rat_fieldType) (p : parsed rat_fieldType) (g : matrices rat_fieldType) par y e t o,
  [/\ parse m = Ok p, get_matrices p par = Ok g, List.In o (p_obs p) & size (p_obs p) = 1%N] /\
  eval (value par y e t) o.2 <> nth 0 (g_ZZ1 g) 0 + times (nth [::] (g_ZZ0 g) 0) (p_vars p) y t.
Proof.
have [Hp He uv us [af ns [ac cd ob]]] := ex_lead_ok.
have [g [h1 h2 h3 h4 [h5 h6 h7]]] := get_matricesP (fun _ => 0) Hp He uv us af ns ac cd ob.
exists ex_lead, ex_pl, g, (fun _ => 0), (fun _ _ => 1), (fun _ _ => 0), 0, (nth ("", Cst 0) (p_obs ex_pl) 0).
have sz : size (p_obs ex_pl) = 1%N by vm_compute.
split; first by split; [exact: Hp | exact: h1 | apply: nthIn; rewrite sz | exact: sz].
by rewrite (h7 0%N ("", Cst 0) _ (fun _ _ => 0)) ?sz //; apply/eqP; vm_compute.
Qed.
Print Assumptions C38_lags_refuted.
Example C38_ex : [/\ parse ex_m0 = Ok ex_p0, size (p_obs ex_p0) = 1%N &
  forall o, List.In o (p_obs ex_p0) -> dates_in 0 0 0 0 o.2].
Proof.
split; [by apply: ok_orE; vm_compute | by vm_compute |].
have h : all (fun o => all (fun a : sym => (knd a != KPar) ==> (dat a == 0)) (atoms o.2)) (p_obs ex_p0) by vm_compute.
move: h; elim: (p_obs ex_p0) => [|o l IH] //= /andP [/allP h1 /IH h] o' [<-|oi]; last exact: h.
by move=> a /h1; case: (knd a) => //= /eqP ->; rewrite lexx.
Qed.

(** C81: a variable or shock that occurs in no model equation (for example only in the constraint) makes parsing
    fail, and so does a name that is used but not declared. *)
Theorem C81_unused_and_undeclared : forall (F : fieldType) (m : rawmodel F) n,
  (n \in r_shks m -> n \notin used_names m -> parse m = Err SyntaxErr) /\
  (n \in r_vars m -> n \notin used_names m -> (forall s, n <> var_s s) -> parse m = Err SyntaxErr) /\
  (n \in used_names m -> n \notin r_vars m -> n \notin r_pars m -> n \notin r_shks m -> n \notin r_oths m ->
     parse m = Err SyntaxErr).
Proof.
move=> F m n; split; last split.
- exact: parse_unused_shock.
- exact: parse_unused_var.
- move=> nu h1 h2 h3 h4; apply: (parse_undeclared nu).
  apply/negP=> /mapP [x]; rewrite /context !mem_cat => /orP [|/orP [|/orP []]] /mapP [z zi ->] /= e; move: h1 h2 h3 h4; rewrite e zi //.
Qed.
Print Assumptions C81_unused_and_undeclared.

(** a parameter must not be dated *)
Theorem C81_dated_parameter : forall (F : fieldType) (m : rawmodel F) q n d,
  List.In q (r_eqs m) -> List.In (n, Some d) (atoms q.1 ++ atoms q.2) -> n \in r_pars m -> n \notin r_shks m ->
  parse m = Err SyntaxErr.
Proof. by move=> F m q n d qi li np ns; apply: (parse_dated_par qi li); right. Qed.
Print Assumptions C81_dated_parameter.
Definition ex_dated : rawmodel rat_fieldType := RawModel [:: "x"; "r"] [:: "beta"] [:: "e"] [::]
  [:: (n_ "x", Add (n_ "e") (Mul (l_ "beta" 1) (n_ "r")))] "r" (n_ "r", n_ "x") [::].
Example C81_dated_ex : List.In (n_ "x", Add (n_ "e") (Mul (l_ "beta" 1) (n_ "r"))) (r_eqs ex_dated) /\ parse ex_dated = Err SyntaxErr.
Proof.
split; first by left.
apply: (@C81_dated_parameter _ ex_dated _ "beta" 1); [by left | by vm_compute; do 2 right; left | by [] | by []].
Qed.
Definition ex_unused : rawmodel rat_fieldType := RawModel [:: "x"; "r"] [::] [:: "e"] [::]
  [:: (n_ "x", n_ "e")] "r" (n_ "r", n_ "x") [::].
Example C81_ex : "r" \in r_vars ex_unused /\ "r" \notin used_names ex_unused /\ parse ex_unused = Err SyntaxErr.
Proof.
have syn (A : Type) (x : res A) : (if x is Err SyntaxErr then true else false) -> x = Err SyntaxErr by case: x => // -[].
by split; [|split; [|apply: syn]]; vm_compute.
Qed.

(** C82: the constraint is not expanded: a lead of a variable in it raises NotImplementedError, a lag of two or more
    periods raises as well. *)
Theorem C82_constraint_dates : forall (F : fieldType) (p : parsed F) par a,
  a \in eatoms (p_ceq p) -> knd a = KVar ->
  (0 < dat a -> get_matrices p par = Err NotImplementedErr) /\
  (dat a < -1 -> exists x, get_matrices p par = Err x).
Proof. by move=> F p par a ai ka; split; [apply: mat_forward | apply: mat_lagged]. Qed.
Print Assumptions C82_constraint_dates.
Definition ex_cl : rawmodel rat_fieldType := RawModel [:: "x"; "r"] [::] [:: "e"] [::]
  [:: (n_ "x", Add (n_ "e") (l_ "r" (-2)))] "r" (n_ "r", l_ "r" (-2)) [::].
Example C82_ex : is_ok (parse ex_cl) /\ (KVar, "r", -2) \in eatoms (p_ceq (ok_or p_dummy (parse ex_cl))).
Proof. by split; vm_compute. Qed.
