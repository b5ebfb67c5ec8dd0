(** Vocabulary of the property about the table of the current best guess. *)
Set Warnings "-all".
From Coq Require Import String Ascii.
From mathcomp Require Import all_ssreflect.
Set Implicit Arguments. Unset Strict Implicit. Unset Printing Implicit Defensive.
(** [s] at the right end of a cell of eight characters, or as it is if longer *)
Definition cell (s : string) : string := String.append (iter (8 - String.length s) (String " ") ""%string) s.
(** an empty cell and one cell for each entry *)
Definition row (l : seq string) : string := String.concat "" [seq cell s | s <- ""%string :: l].
(** a block of the table: names, values below, an empty line *)
Definition block (g : seq (string * string)) : seq string := [:: row [seq x.1 | x <- g]; row [seq x.2 | x <- g]; ""%string].
