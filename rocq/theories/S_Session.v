(** Specification of sessions (C122-C125). *)
Set Warnings "-all".
From Coq Require Import String ZArith.
From mathcomp Require Import all_ssreflect all_algebra.
From Verif Require Import PyBase PyStr M_Solve M_Filter M_Params M_Estim M_Cls M_Mcmc M_Session.
Set Implicit Arguments. Unset Strict Implicit. Unset Printing Implicit Defensive.

Section Spec.
Variables (V K PS RR I B : Type).
Notation sess := (sess V K PS RR I B).
Notation op := (op K PS RR).

(** the value of use_prior_transform in force: the last one passed to prep_estim, initially False.  Saving writes it down, loading
    takes the one written down last (if nothing was saved there is nothing to load) *)
Definition in_force_step (st : bool * option bool) (o : op) : bool * option bool :=
  match o with
  | OPrep a => (if a_upt (p_args a) is Some b then b else st.1, st.2)
  | OSave => (st.1, Some st.1)
  | OLoad _ => (if st.2 is Some b then b else st.1, st.2)
  | _ => st
  end.
Definition in_force (h : seq op) : bool := (foldl in_force_step (false, None) h).1.

(** every call that passed a value of use_prior_transform returned *)
Definition settings_took (run : sess -> op -> sess * res unit) (s : sess) (h : seq op) : Prop :=
  forall h1 a h2 b, h = h1 ++ OPrep _ _ _ a :: h2 -> a_upt (p_args a) = Some b ->
    (run (foldl (fun s o => (run s o).1) s h1) (OPrep _ _ _ a)).2 = Ok tt.

Definition is_load (o : op) : bool := if o is OLoad _ then true else false.
Definition is_save (o : op) : bool := if o is OSave then true else false.
Definition is_mcmc (o : op) : bool := if o is OMcmc _ _ then true else false.
(** calls that may prepare the estimation: prep_estim itself, runs, and reading chains or information *)
Definition may_prepare (o : op) : bool :=
  match o with OPrep _ | OMcmc _ _ | OChain _ | OInfo => true | _ => false end.
(** the measurement covariance of the filter *)
Definition cov_now (s : sess) : option RR := if o_filter s is Some f then f_cov f else None.
(** the settings a call of prep_estim works with: those passed, else those remembered, else the defaults (C87) *)
Definition settings_of (s : sess) (a : pcall) : settings := (resolve (d_set (o_meta s)) (p_args a)).2.
End Spec.
