(** Vocabulary for dated symbols. *)
From Coq Require Import String Ascii ZArith.
(** Python identifiers contain no parenthesis *)
Fixpoint no_paren (s : string) : Prop :=
  match s with EmptyString => True | String a s' => a <> "("%char /\ no_paren s' end.
