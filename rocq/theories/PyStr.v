(** Strings as an eqType, so that the mathcomp sequence library applies to lists of names. *)
Set Warnings "-all".
From Coq Require Import String.
From mathcomp Require Import all_ssreflect.
Definition string_eqMixin := EqMixin String.eqb_spec.
Canonical string_eqType := EqType string string_eqMixin.
