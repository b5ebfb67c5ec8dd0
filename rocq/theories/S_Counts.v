(** Vocabulary of the property about the numbers that describe a model. *)
Set Warnings "-all".
From Coq Require Import String.
From mathcomp Require Import all_ssreflect all_algebra.
From Verif Require Import PyBase PyStr M_Parser.
Set Implicit Arguments. Unset Strict Implicit. Unset Printing Implicit Defensive.
Import GRing.Theory Num.Theory.
Local Open Scope ring_scope.

Section Spec.
Variable F : fieldType.
(** what is written in the equations: names with or without a date *)
Definition written (m : rawmodel F) : seq (string * option int) := flatten [seq atoms q.1 ++ atoms q.2 | q <- r_eqs m].
(** [x(d)]; [x] alone is [x(0)] *)
Definition date (w : string * option int) : int := odflt 0 w.2.
(** no name is declared twice *)
Definition distinct (m : rawmodel F) : bool := uniq (r_vars m ++ r_pars m ++ r_shks m ++ r_oths m).
(** variables with at most one lead or lag, shocks without *)
Definition plain (m : rawmodel F) : Prop := forall w, w \in written m ->
  (w.1 \in r_vars m -> -1 <= date w <= 1) /\ (w.1 \in r_shks m -> date w = 0).
(** [v] is not only written with leads, and not only with lags *)
Definition both_sides (m : rawmodel F) (v : string) : bool :=
  has (fun w => (w.1 == v) && (0 <= date w)) (written m) && has (fun w => (w.1 == v) && (date w <= 0)) (written m).
(** the longest lead and the longest lag of [v]; 0 if there is none *)
Definition longest_lead (m : rawmodel F) (v : string) : nat := \max_(w <- written m | (w.1 == v) && (0 < date w)) absz (date w).
Definition longest_lag (m : rawmodel F) (v : string) : nat := \max_(w <- written m | (w.1 == v) && (date w < 0)) absz (date w).
(** shocks are written without lead, and if [s] is written with a lag, there is no variable [s_VAR] *)
Definition no_shock_leads (m : rawmodel F) : Prop := forall w, w \in written m -> w.1 \in r_shks m -> date w <= 0.
Definition free_names (m : rawmodel F) : Prop := forall s, s \in r_shks m -> (0 < longest_lag m s)%N -> String.append s "_VAR" \notin r_vars m.
(** the variables that are written with a lead *)
Definition forward_looking (m : rawmodel F) : seq string := [seq v <- r_vars m | has (fun w => (w.1 == v) && (0 < date w)) (written m)].
End Spec.
