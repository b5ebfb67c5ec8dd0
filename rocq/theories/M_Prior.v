(** Model of [prior_sampler] (mpile.py:37-89) and of the branch of [get_par] that calls it (mpile.py:188-197).
    External (emcwrap.get_prior_sample): for each sample, candidates are drawn from the priors until one passes the check, where an
    exception counts as a failure; the samples are distributed over the mapper.  The candidates are given: [cands] has for each sample
    the candidates that may be tried; if none of them passes, the loop has not ended yet (OutOfFuel).
    Not modelled: [check_likelihood=True], where the check is [lprob] (M_Estim); the pool itself (M_Pool). *)
Set Warnings "-all".
From Coq Require Import String.
From mathcomp Require Import all_ssreflect all_algebra.
From Verif Require Import PyBase PyStr M_Params.
Set Implicit Arguments. Unset Strict Implicit. Unset Printing Implicit Defensive.
Import GRing.Theory Num.Theory.
Local Open Scope ring_scope.
Local Open Scope py_scope.

Section Prior.
Variable F : realFieldType.
Notation vec := (seq F).
Variables H T C : Type.
Variable M : static F.
Variable pffunc : vec -> vec.
Variable hx_of : vec -> res H.
Variable tab_of : vec -> res T.
Variable cov_of : vec -> C.
Variable sq : C -> C.
Variable priors : option (seq (prior F)).
Variable chain : res (seq (seq vec)).
Variable tune : nat.
Variable choices : nat -> nat -> seq nat.
Notation st := (st F H T C).
(** [self.set_par] on a vector never draws from the prior, so that this argument is not used *)
Definition no_draw (s : st) (n : nat) : st * res (seq vec) := (s, Err GenericException).

(** mpile.py:81-87: the check of a candidate; [set_par] itself is called if [try_parameter].  With a pool the call changes the copy of
    the model in a worker, otherwise the model itself.  Simplified: a worker starts every candidate from the model of the main process. *)
Definition check (try_parameter pool : bool) (s : st) (v : vec) : st * res unit :=
  if ~~ try_parameter then (s, Ok tt) else
  let: (s1, r) := set_par M pffunc hx_of tab_of cov_of sq priors chain tune choices no_draw s (AVec v) None None false in
  ((if pool then s else s1), let* _ := r in Ok tt).
(** one sample: the first candidate that passes *)
Fixpoint draw_one (try_parameter pool : bool) (s : st) (cs : seq vec) : st * res vec :=
  match cs with
  | [::] => (s, Err OutOfFuel)
  | v :: cs' => let: (s1, r) := check try_parameter pool s v in
                match r with Ok _ => (s1, Ok v) | Err _ => draw_one try_parameter pool s1 cs' end
  end.
(** all samples *)
Fixpoint draw_all (try_parameter pool : bool) (s : st) (cands : seq (seq vec)) : st * res (seq vec) :=
  match cands with
  | [::] => (s, Ok [::])
  | cs :: cands' =>
      let: (s1, r) := draw_one try_parameter pool s cs in
      match r with
      | Err e => (s1, Err e)
      | Ok v => let: (s2, r2) := draw_all try_parameter pool s1 cands' in (s2, let* vs := r2 in Ok (v :: vs))
      end
  end.
(** mpile.py:37-89 for [nsamples] samples *)
Definition prior_sampler (try_parameter pool : bool) (cands : nat -> seq vec) (s : st) (nsamples : nat) : st * res (seq vec) :=
  draw_all try_parameter pool s [seq cands i | i <- iota 0 nsamples].
End Prior.
