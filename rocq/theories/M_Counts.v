(** Model of the numbers that describe a model (parser.py:201-223); a model is what [parse] returns. *)
Set Warnings "-all".
From Coq Require Import String.
From mathcomp Require Import all_ssreflect all_algebra.
From Verif Require Import PyBase PyStr M_Parser.
Set Implicit Arguments. Unset Strict Implicit. Unset Printing Implicit Defensive.
Import GRing.Theory.
Local Open Scope ring_scope.

Section Counts.
Variable F : fieldType.
(** parser.py:201-203; [perturb_eq] is [equations] (parser.py:155) *)
Definition neq (p : parsed F) : nat := size (p_eqs p).
(** parser.py:209-211; [fvars] is collected in parser.py:117-142 *)
Definition neta (p : parsed F) : nat := size (fvars (p_eqs p)).
(** parser.py:205-207 *)
Definition neq_fort (p : parsed F) : nat := (neq p + neta p)%N.
(** parser.py:213-215; one observable per entry of the section (M_Text, M_Parser) *)
Definition nobs (p : parsed F) : nat := size (p_obs p).
(** parser.py:217-219 *)
Definition neps (p : parsed F) : nat := size (p_shks p).
(** parser.py:221-223 *)
Definition npara (p : parsed F) : nat := size (p_pars p).
End Counts.
