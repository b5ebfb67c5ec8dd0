(** Hypotheses and vocabulary of the gensys theorems, in terms of the arguments
    the user supplies (matrices and the constraint row). *)
Set Warnings "-all".
From mathcomp Require Import all_ssreflect all_algebra.
From Verif Require Import M_GenSys S_GenSys.
Set Implicit Arguments. Unset Strict Implicit. Unset Printing Implicit Defensive.
Import GRing.Theory Num.Theory.
Local Open Scope ring_scope.

Section Spec.
Variable F : realFieldType.
Variables m n e : nat.
Variable u : usys F m n e.

(** coefficient of the constrained variable in the constraint *)
Definition own_coef : F := fb0 u 0 (cv u).

(** every coefficient of the model and of the constraint divided by
    [own_coef] is zero or at least [tol], which is positive and at most 1 *)
Definition well_scaled (tol : F) : Prop :=
  [/\ 0 < tol <= 1, clean tol (AA0 u) /\ clean tol (BB0 u), clean tol (CC0 u) /\ clean tol (DD0 u),
      clean tol (own_coef^-1 *: fc0 u) & if fd0 u is Some fd then clean tol fd else True].

(** the constrained variable, and every variable with a contemporaneous
    coefficient in the constraint, occurs in some model equation *)
Definition constraint_connected : Prop :=
  own_coef != 0 /\
  forall j, j = cv u \/ fb0 u 0 j != 0 -> occurs (AA0 u) j \/ occurs (BB0 u) j \/ occurs (CC0 u) j.

(** no variable appears both with a lead in the model and with a lag in the constraint *)
Definition no_lead_lag : Prop := forall j, occurs (AA0 u) j -> fc0 u 0 j = 0.

(** the shock row of the constraint *)
Definition shock_row : 'rV[F]_e := if fd0 u is Some fd then fd else 0.

(** constraints that are encoded as written: either no shock row is passed, or
    there are no lagged terms and, if shocks enter, the constrained variable
    has coefficient one *)
Definition encodable : Prop :=
  if fd0 u is Some fd then fc0 u = 0 /\ (fd = 0 \/ own_coef = 1) else True.

(** [x], [eps] solve the user's own model *)
Definition solves_user (binding : nat -> bool) (x : nat -> 'cV[F]_n) (eps : nat -> 'cV[F]_e) : Prop :=
  solves (AA0 u) (BB0 u) (CC0 u) (DD0 u) (fb0 u) (fc0 u) shock_row (cv u) (x_bar u) binding x eps.
End Spec.
