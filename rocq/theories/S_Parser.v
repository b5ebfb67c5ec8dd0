(** Vocabulary of the parser properties. *)
Set Warnings "-all".
From Coq Require Import String.
From mathcomp Require Import all_ssreflect all_algebra.
From Verif Require Import PyBase PyStr M_Parser.
Set Implicit Arguments. Unset Strict Implicit. Unset Printing Implicit Defensive.
Import GRing.Theory.
Local Open Scope ring_scope.

Section Spec.
Variable F : fieldType.

(** a path assigns to each variable name its value in every period; likewise for the shocks *)
Definition path := string -> int -> F.

(** value of a symbol in period t: [x(d)] is x in period t+d *)
Definition value (par : string -> F) (y e : path) (t : int) (a : sym) : F :=
  match knd a with KVar => y (nam a) (t + dat a) | KShk => e (nam a) (t + dat a) | KPar => par (nam a) end.

(** the equations hold in every period *)
Definition solves (par : string -> F) (e y : path) (eqs : seq (eqn F)) : Prop :=
  forall t q, List.In q eqs -> eval (value par y e t) q.1 = eval (value par y e t) q.2.

(** every dated symbol is declared *)
Definition declared (vars shks : seq string) (eqs : seq (eqn F)) : Prop :=
  forall q a, List.In q eqs -> a \in eatoms q ->
    match knd a with KVar => nam a \in vars | KShk => nam a \in shks | KPar => true end.

(** dates of the variables and of the shocks in a system *)
Definition var_range (lo hi : int) (eqs : seq (eqn F)) : Prop :=
  forall q a, List.In q eqs -> a \in eatoms q -> knd a = KVar -> lo <= dat a <= hi.
Definition no_lagged_shock (eqs : seq (eqn F)) : Prop :=
  forall q a, List.In q eqs -> a \in eatoms q -> knd a = KShk -> 0 <= dat a.

(** leads above two periods cut to two *)
Definition cut2 (a : sym) : sym := if (knd a == KVar) && (2 < dat a) then (a.1, 2%:Z) else a.
Definition cut_leads (q : eqn F) : eqn F := (emap cut2 q.1, emap cut2 q.2).

(** affine in variables and shocks: products and quotients only with expressions free of them *)
Definition dated (a : sym) : bool := knd a != KPar.
Definition free_of_dated (e : expr F sym) : bool := ~~ has dated (atoms e).
Fixpoint affine (e : expr F sym) : bool :=
  match e with
  | Cst _ | At _ => true
  | Add e f | Sub e f => affine e && affine f
  | Mul e f => (free_of_dated e && affine f) || (affine e && free_of_dated f)
  | Opp e => affine e
  | Inv e => free_of_dated e
  end.
Definition affine_eqn (q : eqn F) : bool := affine q.1 && affine q.2.

(** left-hand minus right-hand side *)
Definition gap (v : sym -> F) (q : eqn F) : F := eval v q.1 - eval v q.2.
(** the constant term: all variables and shocks zero *)
Definition zero_path : path := fun _ _ => 0.
Definition const_of (par : string -> F) (q : eqn F) : F := gap (value par zero_path zero_path 0) q.

(** product of a row of coefficients with the values of the named variables in a period *)
Definition times (row : seq F) (names : seq string) (y : path) (t : int) : F :=
  \sum_(j < size names) nth 0 row j * y (nth EmptyString names j) t.

(** no lead of a variable exceeds [n] periods; no shock is dated ahead *)
Definition leads_upto (n : int) (eqs : seq (eqn F)) : Prop :=
  forall q a, List.In q eqs -> a \in eatoms q -> knd a = KVar -> dat a <= n.
Definition no_shock_lead (eqs : seq (eqn F)) : Prop :=
  forall q a, List.In q eqs -> a \in eatoms q -> knd a = KShk -> dat a <= 0.
(** every equation satisfies a condition *)
Definition each (P : eqn F -> Prop) (eqs : seq (eqn F)) : Prop := forall q, List.In q eqs -> P q.

(** two paths agree on the named variables *)
Definition agree (names : seq string) (y x : path) : Prop := forall v t, v \in names -> y v t = x v t.

(** the equations declared in a model file, with the names resolved *)
Definition declared_eqs (m : rawmodel F) : res (seq (eqn F)) := mapM (resolve_eqn (context m)) (r_eqs m).

(** the names occurring in the model equations of a file *)
Definition used_names (m : rawmodel F) : seq string :=
  flatten [seq [seq l.1 | l <- atoms q.1 ++ atoms q.2] | q <- r_eqs m].

(** dates of the variables and shocks of an expression lie in the given ranges *)
Definition dates_in (vlo vhi slo shi : int) (ex : expr F sym) : Prop := forall a, a \in atoms ex ->
  match knd a return Prop with
  | KVar => vlo <= dat a <= vhi
  | KShk => slo <= dat a <= shi
  | KPar => True
  end.
Definition no_shocks (ex : expr F sym) : Prop := forall a, a \in atoms ex -> knd a <> KShk.

(** value of equation [i] of the linear system built from the matrices *)
Definition linear_gap (cst : F) (g : matrices F) (i : nat) (vars shks : seq string) (y e : path) (t : int) : F :=
  cst + times (nth [::] (g_AA g) i) vars y (t + 1) + times (nth [::] (g_BB g) i) vars y t
      + times (nth [::] (g_CC g) i) vars y (t - 1) - times (nth [::] (g_PSI g) i) shks e t.

(** the equation contains a variable or a shock *)
Definition mentions (q : eqn F) : bool := has dated (eatoms q).

(** the path that keeps period t and is zero elsewhere *)
Definition only_at (t : int) (y : path) : path := fun n s => if s == t then y n s else 0.

End Spec.
