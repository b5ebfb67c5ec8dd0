(** Vocabulary of the property about [mask]. *)
Set Warnings "-all".
From Coq Require Import String.
From mathcomp Require Import all_ssreflect.
From Verif Require Import PyBase PyStr M_Cls.
Set Implicit Arguments. Unset Strict Implicit. Unset Printing Implicit Defensive.

(** the table with [x] entered in the row labelled [d], under the name [s] *)
Definition put (F : Type) (L : eqType) (f : frame F L) (d : L) (s : string) (x : F) : frame F L :=
  Frame (rows f) [seq (c.1, if c.1 == s then [seq if y.1 == d then Some x else y.2 | y <- zip (rows f) c.2] else c.2) | c <- cols f].
