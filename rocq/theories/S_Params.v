(** Vocabulary for parameters. *)
Set Warnings "-all".
From Coq Require Import String.
From mathcomp Require Import all_ssreflect all_algebra.
From Verif Require Import PyBase PyStr M_Params.
Set Implicit Arguments. Unset Strict Implicit. Unset Printing Implicit Defensive.
Import GRing.Theory Num.Theory.
Local Open Scope ring_scope.

Section Spec.
Variable F : realFieldType.
Notation vec := (seq F).
Variables H T C : Type.
Variable M : static F.

(** a parsed model: one calibrated value per parameter, distinct names *)
Definition wf_model : Prop := uniq (c_names M) /\ size (c_fix M) = size (c_names M).
(** with an estimation section: [l] are the positions of the priors in the list of parameters *)
Definition has_priors (l : seq nat) : Prop :=
  c_prior_arg M = Some l /\ uniq l /\ all (fun i => (i < size (c_names M))%N) l /\
  c_prior_names M = Some [seq nth ""%string (c_names M) i | i <- l].

Definition priors_ok : Prop := match c_prior_arg M with None => True | Some l => has_priors l end.

(** the value of parameter [n] in a full vector *)
Definition value (v : vec) (n : string) : F := nth 0 v (index n (c_names M)).
(** the model holds the parameter vector [v] *)
Definition holds (s : st F H T C) (v : vec) : Prop := s_par s = Some (PV v) /\ size v = size (c_names M).
(** [r] is [v] with the estimated parameters replaced by [m] *)
Definition overlays (l : seq nat) (m v r : vec) : Prop :=
  size r = size v /\ forall i, nth 0 r i = if i \in l then nth 0 m (index i l) else nth 0 v i.
(** assignments in order *)
Fixpoint assigned (al : seq (string * F)) (n : string) (x0 : F) : F :=
  match al with [::] => x0 | (m, x) :: al' => assigned al' n (if m == n then x else x0) end.
Definition rpos (r : report) : nat := match r with Lower i | Higher i => i end.

(** [v'] is the full vector meant by [p]: [p] itself, or the current vector [v] with the estimated parameters replaced *)
Definition completes (l : seq nat) (p v v' : vec) : Prop :=
  if size p == size (c_names M) then v' = p else size p = size l /\ overlays l p v v'.
(** block by block, the observables computed with the observation matrices of the block's own parameters *)
Fixpoint blocks (X O : Type) (hx_of : vec -> res H) (observe : H -> X -> O) (l : seq nat) (v : vec) (xs : seq (X * vec)) (os : seq O) (vlast : vec) : Prop :=
  match xs, os with
  | [::], [::] => vlast = v
  | (x, p) :: xs', o :: os' =>
      exists v' h, completes l p v v' /\ hx_of v' = Ok h /\ o = observe h x /\ blocks hx_of observe l v' xs' os' vlast
  | _, _ => False
  end.
End Spec.
