(** Vocabulary of the property that connects the model file with the stored rules. *)
Set Warnings "-all".
From Coq Require Import String.
From mathcomp Require Import all_ssreflect all_algebra.
From Verif Require Import PyBase PyStr M_Parser S_Parser.
Set Implicit Arguments. Unset Strict Implicit. Unset Printing Implicit Defensive.
Import GRing.Theory Num.Theory.
Local Open Scope ring_scope.

Section Spec.
Variable F : realFieldType.

(** one equation in period [t], for the paths [x] of the variables and [e] of the shocks *)
Definition holds (par : string -> F) (x e : path F) (t : int) (q : eqn F) : Prop :=
  eval (value par x e t) q.1 = eval (value par x e t) q.2.

(** the column vector of the values in period [t] of the named variables *)
Definition column (names : seq string) (x : path F) (t : int) : 'cV[F]_(size names) :=
  \col_j x (nth EmptyString names j) t.

(** the file's own equations hold from period 0 on, [binding] telling in which periods the constraint binds: then the
    constrained variable is at its bound and the constraint equation is given up *)
Definition solves_file (par : string -> F) (eqs : seq (eqn F)) (ceq : eqn F) (cvar : string) (xb : F)
    (binding : nat -> bool) (x e : path F) : Prop :=
  forall s : nat, (forall q, List.In q eqs -> holds par x e s q) /\
    (if binding s then x cvar s = xb else holds par x e s ceq).

(** shocks hit in period 0 only *)
Definition surprise_only (shks : seq string) (e : path F) : Prop := forall s (t : nat), s \in shks -> e s t.+1 = 0.
End Spec.
