(** Vocabulary of the properties of calls with several parameter vectors. *)
Set Warnings "-all".
From mathcomp Require Import all_ssreflect all_algebra.
From Verif Require Import PyBase PyStr M_FindLk M_Engine M_Tools M_Params M_Batch.
Set Implicit Arguments. Unset Strict Implicit. Unset Printing Implicit Defensive.
(** two compiled models with the same number of variables and the same horizon *)
Definition same_shape (F : realFieldType) (m m1 : tmodel F) : Prop :=
  [/\ size (vvs m1) = size (vvs m), lmx m1 = lmx m & kmx m1 = kmx m].
(** operations without the argument [init_cov] *)
Definition passes_none (F : realFieldType) (P : Type) (o : fop F P) : bool :=
  match o with DoSet _ => true | DoExtract ic _ => ~~ isSome ic | DoFilter ic => ~~ isSome ic end.
