(** Model of impulse responses, simulations and extractions for several parameter vectors, as operations on the model object:
    which parameters each of them uses and what is left behind (tools.py:160-356, 386-485; filtering.py:140-198, 310-490).
    Built on M_Params (parameters, compiled attributes, filter) and M_Tools (irfs, simulate).
    Simplified: the keyword arguments that are passed on to set_par are omitted; process pools, printing and the debug flag are
    omitted (M_Pool); [dill.loads(dill.dumps(self))] is a copy of the object that shares nothing with it; [serializer] (package
    grgrlib) returns functions that act on the object itself, as they do when no pool is used. *)
Set Warnings "-all".
From Coq Require Import String.
From mathcomp Require Import all_ssreflect all_algebra.
From Verif Require Import PyBase PyStr M_FindLk M_Engine M_Tools M_Params.
Set Implicit Arguments. Unset Strict Implicit. Unset Printing Implicit Defensive.
Import GRing.Theory Num.Theory.
Local Open Scope ring_scope.
Local Open Scope py_scope.

Section Batch.
Variable F : realFieldType.
Notation vec := (seq F).
Variables H C : Type.
Variable M : static F.
Variable pffunc : vec -> vec.
Variable hx_of : vec -> res H.
(** the compiled model for a parameter vector *)
Variable tab_of : vec -> res (tmodel F).
Variable cov_of : vec -> C.
Variable sq : C -> C.
Variable priors : option (seq (prior F)).
Variable chain : res (seq (seq vec)).
Variable tune : nat.
Variable choices : nat -> nat -> seq nat.
Variable prior_draw : st F H (tmodel F) C -> nat -> st F H (tmodel F) C * res (seq vec).
Notation obj := (st F H (tmodel F) C).
Notation set_par := (set_par M pffunc hx_of tab_of cov_of sq priors chain tune choices prior_draw).

(** [set_par(p)] *)
Definition set_vec (s : obj) (p : vec) := set_par s (AVec p) None None false.
(** tools.py:221-231, 436-439: the model of a copy of the object after [set_par(p)] *)
Definition on_copy (s : obj) (p : vec) : res (tmodel F) :=
  let: (s1, r) := set_vec s p in let* _ := r in of_opt AttributeError (s_tab s1).
(** tools.py:206-207: solve if that has not been tried *)
Definition ensure (s : obj) : obj * res unit :=
  match s_par s with None => gen_sys M hx_of tab_of s (PV (c_fix M)) false | Some _ => (s, Ok tt) end.
(** [np.any(par)], tools.py:229 *)
Definition np_any (p : vec) : bool := has (fun x => x != 0) p.

(** tools.py:160-356 with [pars=None] *)
Definition irfs_current (s : obj) (sl : seq (shockarg F)) (state : option (seq F)) (T : nat) (linear : bool) (sk : setk) (fo : option bool)
  : obj * res (irf_res F) :=
  let: (s0, r) := ensure s in
  (s0, let* _ := r in let* m := of_opt AttributeError (s_tab s0) in irfs m (on_copy s0) np_any sl None state T linear sk fo).
(** tools.py:160-356 with a list of parameter vectors; lines 325-328 *)
Definition irfs_pars (s : obj) (pars : seq vec) (sl : seq (shockarg F)) (state : option (seq F)) (T : nat) (linear : bool) (sk : setk)
    (fo : option bool) : obj * res (seq (irf_res F)) :=
  let: (s0, r) := ensure s in
  (s0, let* _ := r in let* m := of_opt AttributeError (s_tab s0) in
       mapM (fun p => irfs m (on_copy s0) np_any sl (Some p) state T linear sk fo) pars).

(** tools.py:386-485, with [source] *)
Definition simulate_obj (s : obj) (src : simsrc F vec) (mask : option (seq (seq (option F)))) (op : F -> F -> F) (linear : bool)
  : obj * res (seq (seq (seq F) * seq (int * int) * nat)) :=
  (s, simulate (on_copy s) (Some src) mask None None None op linear).

(** * Extraction with the linear filter *)
Variables P R : Type.
(** filtering.py:184-189: the covariance of the shocks becomes a covariance of the states (M_Filter.kf_Q) *)
Variable to_states : tmodel F -> C -> C.
(** what the filter and the loop of lines 422-433 compute from the matrices, the covariance and the initial covariance *)
Variable smooth : H -> tmodel F -> C -> option P -> res R.
(** the object together with [filter.init_cov] *)
Definition fobj : Type := obj * option P.
Definition with_Q (s : obj) (q : C) : obj := St (s_par s) (s_hx s) (s_tab s) (Some (Some q)) (s_mode s) (s_init s).
(** filtering.py:140-198 and the computation of the filter; [ic] is the argument [init_cov], lines 166-167 *)
Definition run_kf (fs : fobj) (ic : option P) : fobj * res R :=
  let: (s, ic0) := fs in
  let ic1 := if ic is Some _ then ic else ic0 in
  match s_filter s, s_tab s, s_hx s with
  | Some (Some q), Some m, Some h => let q' := to_states m q in ((with_Q s q', ic1), smooth h m q' ic1)
  | _, _, _ => ((s, ic1), Err AttributeError)
  end.
(** filtering.py:412-433 for one vector *)
Definition extract_one (fs : fobj) (ic : option P) (p : vec) : fobj * res R :=
  let: (s1, r) := set_vec fs.1 p in
  match r with Err e => ((s1, fs.2), Err e) | Ok _ => run_kf (s1, fs.2) ic end.
(** filtering.py:310-490 for several vectors *)
Fixpoint extract (fs : fobj) (ic : option P) (ps : seq vec) : fobj * res (seq R) :=
  match ps with
  | [::] => (fs, Ok [::])
  | p :: ps' =>
      let: (fs1, r) := extract_one fs ic p in
      match r with
      | Err e => (fs1, Err e)
      | Ok x => let: (fs2, rs) := extract fs1 ic ps' in (fs2, rmap (cons x) rs)
      end
  end.
(** filtering.py:345-352: without [sample] the current parameters *)
Definition extract_current (fs : fobj) (ic : option P) : fobj * res (seq R) :=
  match s_par fs.1 with
  | None => (fs, Err AttributeError)
  | Some (PV v) => extract fs ic [:: v]
  | Some (PText _) => (fs, Err TypeError)
  | Some (PRows r) => extract fs ic r
  end.

(** what users do with a model that has a filter: set parameters, extract, filter (with or without [init_cov]) *)
Inductive fop := DoSet (p : vec) | DoExtract (ic : option P) (ps : seq vec) | DoFilter (ic : option P).
Definition fstep (fs : fobj) (o : fop) : fobj :=
  match o with
  | DoSet p => ((set_vec fs.1 p).1, fs.2)
  | DoExtract ic ps => (extract fs ic ps).1
  | DoFilter ic => (run_kf fs ic).1
  end.
Definition frun (fs : fobj) (os : seq fop) : fobj := foldl fstep fs os.
End Batch.
