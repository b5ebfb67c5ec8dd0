(** Vocabulary of the property about draws from the prior. *)
Set Warnings "-all".
From Coq Require Import String.
From mathcomp Require Import all_ssreflect all_algebra.
From Verif Require Import PyBase PyStr M_Params S_Params.
Set Implicit Arguments. Unset Strict Implicit. Unset Printing Implicit Defensive.
Import GRing.Theory Num.Theory.
Local Open Scope ring_scope.

Section Spec.
Variable F : realFieldType.
Notation vec := (seq F).
Variables H T C : Type.
Variable M : static F.
Variable hx_of : vec -> res H.
Variable tab_of : vec -> res T.

(** the model has a solution at the full vector [w] *)
Definition soluble (w : vec) : Prop := is_ok (hx_of w) && is_ok (tab_of w).
(** the model is solved at [w]: its parameters, observation matrices and tables are those of [w] *)
Definition solved_at (s : st F H T C) (w : vec) : Prop :=
  [/\ holds M s w, exists2 h, hx_of w = Ok h & s_hx s = Some h & exists2 t, tab_of w = Ok t & s_tab s = Some t].
(** [p] is the first of the candidates [cs] for which the model has a solution, the other parameters being those of [v] *)
Definition first_soluble (l : seq nat) (v : vec) (cs : seq vec) (p : vec) : Prop :=
  exists pre post, [/\ cs = pre ++ p :: post, exists2 w, completes M l p v w & soluble w &
    forall p' w', p' \in pre -> completes M l p' v w' -> ~ soluble w'].
End Spec.
