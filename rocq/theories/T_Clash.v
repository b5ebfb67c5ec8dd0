(** Name clashes between declared names and the names of auxiliary variables: C103. *)
Set Warnings "-all".
From Coq Require Import String.
From mathcomp Require Import all_ssreflect all_algebra.
From Verif Require Import PyBase PyStr M_Parser S_Parser S_ParserEx P_Parser P_Parser2 P_Parser5 P_Parser8 T_Parser.
Set Implicit Arguments. Unset Strict Implicit. Unset Printing Implicit Defensive.
Import GRing.Theory Num.Theory Order.TTheory.
Local Open Scope ring_scope.
Local Open Scope string_scope.

(** C103: a file that repeats a name, be it by declaration or because of auxiliary variables, never gives matrices *)
Theorem C103_clash_is_rejected : forall (F : fieldType) (m : rawmodel F) (p : parsed F) (eqs : seq (eqn F)),
  parse m = Ok p -> declared_eqs m = Ok eqs -> each (fun q => mentions q) eqs ->
  ~~ uniq (p_vars p) -> forall par, exists x, get_matrices p par = Err x.
Proof.
move=> F m p eqs Hp He me nu par; case Hg: (get_matrices p par) => [g|x]; last by exists x.
by rewrite (no_clash Hp He me Hg) in nu.
Qed.
Print Assumptions C103_clash_is_rejected.

(** hence a file that is accepted is expanded faithfully, whatever its names (cf. C33-C35, where this is a premise) *)
Theorem C103_accepted_is_faithful : forall (F : fieldType) (m : rawmodel F) (p : parsed F) (eqs : seq (eqn F)) par0 g,
  parse m = Ok p -> declared_eqs m = Ok eqs -> each (fun q => mentions q) eqs -> leads_upto 2 eqs ->
  get_matrices p par0 = Ok g ->
  uniq (r_vars m) /\
  (forall par e x, solves par e x eqs <-> exists y, agree (r_vars m) y x /\ solves par e y (p_eqs p)) /\
  (forall par e y y', solves par e y (p_eqs p) -> solves par e y' (p_eqs p) -> agree (r_vars m) y y' ->
     agree (p_vars p) y y').
Proof.
move=> F m p eqs par0 g Hp He me le Hg; have un := no_clash Hp He me Hg.
split; last exact: (C34_leads_faithful Hp He un le).
have [_ _ [Ex _ _ _]] := pE Hp He; move: Ex; rewrite /expand; case: mapM => [sl|] //=.
case ef: (foldl _ _ _) => [eqs1 vars1]; case ev: mapM => [vd|] //= [_ E].
move: un; rewrite -E cat_uniq => /and3P [+ _ _].
by have := shock_vars sl eqs (r_vars m); rewrite ef /= => ->; rewrite cat_uniq => /and3P [].
Qed.
Print Assumptions C103_accepted_is_faithful.

(** a file that declares x_LAG1 and uses x(-2): parsing expands it, building the matrices raises IndexError *)
Definition ex_clash : rawmodel rat_fieldType := RawModel [:: "x"; "x_LAG1"; "r"] [::] [:: "e"] [::]
  [:: (n_ "x", Add (n_ "e") (Add (l_ "x" (-2)) (n_ "r"))); (n_ "x_LAG1", n_ "e")] "r" (n_ "r", n_ "x") [::].
Example C103_ex : exists p eqs, [/\ parse ex_clash = Ok p, declared_eqs ex_clash = Ok eqs, each (fun q => mentions q) eqs,
  ~~ uniq (p_vars p) & get_matrices p (fun _ => 0) = Err IndexError].
Proof.
have syn (A : Type) (x : res A) : (if x is Err IndexError then true else false) -> x = Err IndexError by case: x => // -[].
exists (ok_or p_dummy (parse ex_clash)), (ok_or [::] (declared_eqs ex_clash)).
split; [by apply: ok_orE; vm_compute | by apply: ok_orE; vm_compute | | by vm_compute | by apply: syn; vm_compute].
by apply: eachA; vm_compute.
Qed.
Example C103_ex_accepted : exists g, [/\ parse ex_m = Ok ex_p, declared_eqs ex_m = Ok ex_eqs, each (fun q => mentions q) ex_eqs,
  leads_upto 2 ex_eqs & get_matrices ex_p (fun _ => 0) = Ok g].
Proof.
have ok : is_ok (get_matrices ex_p (fun _ => 0)) by vm_compute.
case e: (get_matrices ex_p (fun _ => 0)) ok => [g|] // _; exists g.
split; [exact: ex_parse | exact: ex_decl | by apply: eachA; vm_compute | exact: ex_leads | by []].
Qed.

(** An equation without variables and shocks fills no row: with one, a variable declared twice goes unnoticed. *)
Definition ex_twice : rawmodel rat_fieldType := RawModel [:: "x"; "x"; "r"] [::] [:: "e"] [::]
  [:: (n_ "x", Add (n_ "e") (n_ "r")); (Cst 1, Cst 0)] "r" (n_ "r", n_ "x") [::].
Theorem C103_declared_twice_refuted : exists p eqs g,
  [/\ parse ex_twice = Ok p, declared_eqs ex_twice = Ok eqs, ~~ uniq (r_vars ex_twice) &
      get_matrices p (fun _ => 0) = Ok g] /\ forall par e x, ~ solves par e x eqs.
Proof.
pose p := ok_or p_dummy (parse ex_twice).
have ok : is_ok (get_matrices p (fun _ => 0)) by vm_compute.
case e: (get_matrices p (fun _ => 0)) ok => [g|] // _.
exists p, (ok_or [::] (declared_eqs ex_twice)), g; split.
  by split; [apply: ok_orE; vm_compute | apply: ok_orE; vm_compute | vm_compute |].
by move=> par sh x /(_ 0 _ (or_intror (or_introl erefl))) /=; apply/eqP; rewrite oner_eq0.
Qed.
Print Assumptions C103_declared_twice_refuted.
