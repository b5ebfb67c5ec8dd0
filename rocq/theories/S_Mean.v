(** Vocabulary of the properties about the meaning of a model file: bounded paths, and files that say the same. *)
Set Warnings "-all".
From Coq Require Import String.
From mathcomp Require Import all_ssreflect all_algebra.
From Verif Require Import PyBase PyStr M_Parser S_Parser M_Engine S_Engine M_GenSys S_GenSys S_GenSys2 M_Pipe S_Pipe M_Tools S_Tools M_Full S_Full.
Set Implicit Arguments. Unset Strict Implicit. Unset Printing Implicit Defensive.
Import GRing.Theory Num.Theory.
Local Open Scope ring_scope.

Section Spec.
Variable F : realFieldType.

(** a sequence of numbers does not explode *)
Definition bounded (f : nat -> F) : Prop := exists B, forall s, `|f s| <= B.
Definition bounded_cols (n : nat) (q : nat -> 'cV[F]_n) : Prop := forall i, bounded (fun s => q s i 0).

(** from period 0 on, the named variables do not explode *)
Definition bounded_path (names : seq string) (X : path F) : Prop := forall v, v \in names -> bounded (fun s => X v s%:Z).

(** the property that makes a linear solution "the" stable solution of S (q',p') = T (q,p): the paths it generates are bounded, and
    bounded paths have p = omg q in every period *)
Definition stable_solution (a b : nat) (S T : 'M[F]_(a + b)) (omg : 'M[F]_(b, a)) (lam : 'M[F]_a) : Prop :=
  [/\ linear_solution S T omg lam,
      forall q : nat -> 'cV[F]_a, (forall s, q s.+1 = lam *m q s) -> bounded_cols q &
      forall q p, (forall s, unconstrained S T (q s) (q s.+1) (p s) (p s.+1)) -> bounded_cols q -> bounded_cols p ->
        forall s, p s = omg *m q s].
Definition klein_stable (klein : forall a b, 'M[F]_(a + b) -> 'M[F]_(a + b) -> res ('M[F]_(b, a) * 'M[F]_a)) : Prop :=
  forall a b (S T : 'M[F]_(a + b)) omg lam, klein a b S T = Ok (omg, lam) -> stable_solution S T omg lam.

(** the path with another value of one variable in one period *)
Definition change (X : path F) (v : string) (t : int) (z : F) : path F := fun w t' => if (w == v) && (t' == t) then z else X w t'.

(** [z] is the value the constraint equation would give to the constrained variable in period [t] of the path [X] *)
Definition notional_value (par : string -> F) (ceq : eqn F) (cvar : string) (X E : path F) (t : int) (z : F) : Prop :=
  holds par (change X cvar t z) E t ceq.

(** [X], [E]: a bounded solution of the file from the state [st] and the shocks [sh], in which the constraint binds in the periods
    l, ..., l+k-1 *)
Definition file_path (m : rawmodel F) (p : parsed F) (eqs : seq (eqn F)) (ceq : eqn F) (par : string -> F) (xb : F) (mdl : tmodel F)
    (st sh : seq F) (l k : nat) (X E : path F) : Prop :=
  [/\ starts_from m p mdl st sh X E, solves_file par eqs ceq (r_cvar m) xb (binds l k) X E & bounded_path (r_vars m) X].

(** [N l k s] is the notional value of the constrained variable in period [s] of such a solution *)
Definition notional_values (m : rawmodel F) (p : parsed F) (eqs : seq (eqn F)) (ceq : eqn F) (par : string -> F) (xb : F) (mdl : tmodel F)
    (lm km : nat) (st sh : seq F) (N : nat -> nat -> nat -> F) : Prop :=
  forall l k X E, (l <= lm)%N -> (k <= km)%N -> file_path m p eqs ceq par xb mdl st sh l k X E ->
    forall s : nat, notional_value par ceq (r_cvar m) X E s%:Z (N l k s).

(** two files that mean the same: they declare the same variables and shocks, in any order, and constrain the same variable; a path
    satisfies the equations of one in all periods if and only if it satisfies those of the other; the same for the constraint equation,
    period by period *)
Record same_meaning (m1 m2 : rawmodel F) (eqs1 eqs2 : seq (eqn F)) (ceq1 ceq2 : eqn F) (par1 par2 : string -> F) : Prop := SameMeaning {
  sm_vars : r_vars m1 =i r_vars m2;
  sm_shks : r_shks m1 =i r_shks m2;
  sm_cvar : r_cvar m1 = r_cvar m2;
  sm_eqs : forall X E, (forall s : nat, each (holds par1 X E s%:Z) eqs1) <-> (forall s : nat, each (holds par2 X E s%:Z) eqs2);
  sm_ceq : forall X E t, holds par1 X E t ceq1 <-> holds par2 X E t ceq2 }.

(** the states [st1] and [st2] of two models, listed in the order of each model, are states of the same past: there are paths that
    have both states, whatever the shocks are *)
Definition same_past (m1 m2 : rawmodel F) (p1 p2 : parsed F) (mdl1 mdl2 : tmodel F) (st1 st2 : seq F) : Prop :=
  forall e : string -> F, exists P E,
    starts_from m1 p1 mdl1 st1 [seq e s | s <- r_shks m1] P E /\ starts_from m2 p2 mdl2 st2 [seq e s | s <- r_shks m2] P E.

(** the rows [x1] and [x2] reported by two models give every variable of the file the same value *)
Definition same_values (names vv1 vv2 : seq string) (x1 x2 : seq F) : Prop :=
  forall v, v \in names -> nth 0 x1 (index v vv1) = nth 0 x2 (index v vv2).

(** the observables of two files have the same values, in the same order, on every path *)
Definition same_observables (p1 p2 : parsed F) (par1 par2 : string -> F) : Prop :=
  forall X E t, [seq eval (value par1 X E t) o.2 | o <- p_obs p1] = [seq eval (value par2 X E t) o.2 | o <- p_obs p2].
End Spec.
