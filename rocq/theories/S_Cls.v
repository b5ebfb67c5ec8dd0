(** Specification vocabulary for C68-C72 and C92. *)
Set Warnings "-all".
From Coq Require Import String Ascii.
From mathcomp Require Import all_ssreflect.
From Verif Require Import PyBase PyStr M_Cls.
Set Implicit Arguments. Unset Strict Implicit. Unset Printing Implicit Defensive.
Local Open Scope string_scope.
Local Open Scope seq_scope.

(** a text that ends in .npz *)
Definition has_ext (s : string) : Prop := exists t, s = t +++ ".npz".
(** [i] is the first position of [v] in [vv] *)
Definition first_at (vv : seq string) (v : string) (i : nat) : Prop :=
  (i < size vv)%N /\ nth "" vv i = v /\ forall j, (j < i)%N -> nth "" vv j <> v.
(** the value in row [i] of the column called [o] *)
Definition cell (F L : Type) (f : frame F L) (o : string) (i : nat) : option F :=
  nth None (odflt [::] (ohead [seq c.2 | c <- cols f & c.1 == o])) i.
