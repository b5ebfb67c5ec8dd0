(** Specification vocabulary for C66 and C86. *)
Set Warnings "-all".
From mathcomp Require Import all_ssreflect.
From Verif Require Import PyBase M_Pool.
Set Implicit Arguments. Unset Strict Implicit. Unset Printing Implicit Defensive.

(** the number of workers a successful call asks for *)
Definition asked (o : op) : option nat :=
  match o with
  | CreatePool (Some n) | PrepEstim _ (Some n) false => if n == 0 then None else Some n
  | _ => None
  end.
Definition last_asked (n0 : nat) (h : seq op) : nat := foldl (fun n o => odflt n (asked o)) n0 h.

(** calls that store None instead of a pool, [debug] being the debug flag of the model before the call *)
Definition drops (debug : bool) (o : op) : bool :=
  match o with
  | PrepEstim d n f => ~~ f && (d || (n == Some 0))
  | Mcmc _ => debug
  | _ => false
  end.

(** operations that need the pool: all but prep_estim, mcmc and prior sampling in debug mode *)
Definition needs_pool (o : op) : bool :=
  match o with
  | CreatePool _ | Irfs _ _ _ | Simulate _ _ | Extract _ _ _ | PriorSampler false _ => true
  | _ => false
  end.

(** a call that asks for debug mode *)
Definition asks_debug (o : op) : bool :=
  match o with
  | PrepEstim d _ _ | Irfs d _ _ | Simulate d _ | PriorSampler d _ => d
  | _ => false
  end.
