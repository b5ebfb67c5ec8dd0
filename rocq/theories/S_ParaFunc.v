(** Vocabulary for derived parameters and covariances. *)
Set Warnings "-all".
From Coq Require Import String Ascii.
From mathcomp Require Import all_ssreflect.
From Verif Require Import PyBase PyStr M_ParaFunc.
Set Implicit Arguments. Unset Strict Implicit. Unset Printing Implicit Defensive.

Section Spec.
Variable T : Type.

(** [denotes known ds n v]: the name [n] has value [v], either because it is known or because a definition with
    that name refers only to names that have values (well-founded, hence not circular).  Only membership in [ds]
    matters, not the order. *)
Inductive denotes (known : seq (string * T)) (ds : seq (defn T)) : string -> T -> Prop :=
| den_known n v : List.In (n, v) known -> denotes known ds n v
| den_def d vs : List.In d ds -> denote_all known ds (d_refs d) vs -> denotes known ds (d_name d) (d_fun d vs)
with denote_all (known : seq (string * T)) (ds : seq (defn T)) : seq string -> seq T -> Prop :=
| den_nil : denote_all known ds [::] [::]
| den_cons n v ns vs : denotes known ds n v -> denote_all known ds ns vs -> denote_all known ds (n :: ns) (v :: vs).

(** definitions have different names, and none is the name of a parameter or function *)
Definition fresh_names (known : seq (string * T)) (ds : seq (defn T)) : Prop :=
  uniq ([seq d_name d | d <- ds] ++ [seq x.1 | x <- known]).

Definition all_denote (known : seq (string * T)) (ds : seq (defn T)) : Prop :=
  forall d, List.In d ds -> exists v, denotes known ds (d_name d) v.
End Spec.

Fixpoint str_has (p : ascii -> bool) (s : string) : bool :=
  match s with EmptyString => false | String a s' => p a || str_has p s' end.
(** no comma and no space *)
Definition plain_name (s : string) : bool := ~~ str_has (fun a => Ascii.eqb a ","%char || Ascii.eqb a " "%char) s.
