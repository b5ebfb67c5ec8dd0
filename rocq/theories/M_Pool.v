(** Model of the bookkeeping of the process pool and of the debug flag: [create_pool] and [mapper]
    (estimation.py:239-287) and the operations that use them.  Not modelled: the limit on threads (estimation.py:260-273), the
    processes themselves, everything the operations compute (the flag [fails] says that the computation raises after
    the pool was set up; for prep_estim, before). *)
Set Warnings "-all".
From mathcomp Require Import all_ssreflect.
From Verif Require Import PyBase.
Set Implicit Arguments. Unset Strict Implicit. Unset Printing Implicit Defensive.

(** attribute [pool]: [None] = no such attribute, [Some None] = the value None, [Some (Some n)] = a pool of n workers *)
Record pst := Pst { pool : option (option nat); dbg : bool; has_ndim : bool }.
Definition set_pool (p : option nat) (s : pst) := Pst (Some p) (dbg s) (has_ndim s).
(** [self.debug |= debug] *)
Definition or_debug (d : bool) (s : pst) := Pst (pool s) (dbg s || d) (has_ndim s).
Definition set_debug (d : bool) (s : pst) := Pst (pool s) d (has_ndim s).

(** Python's [a or b] for numbers *)
Definition py_or (a : option nat) (b : nat) : nat := match a with Some n => if n == 0 then b else n | None => b end.

(** how the tasks are distributed *)
Inductive mode := Sequential | Workers (n : nat).

Section Pool.
(** number of cores of the machine *)
Variable cpus : nat.

(** estimation.py:239-278 *)
Definition create_pool (s : pst) (ncores : option nat) : pst * res unit :=
  match pool s with
  | Some None => (s, Err AttributeError)      (* None.ncpus or None.close() *)
  | Some (Some n) => (set_pool (Some (py_or ncores n)) s, Ok tt)
  | None => (set_pool (Some (py_or ncores cpus)) s, Ok tt)
  end.

(** estimation.py:281-287 *)
Definition mapper (s : pst) : res mode :=
  match pool s, dbg s with
  | Some p, false => match p with Some n => Ok (Workers n) | None => Err AttributeError end
  | _, _ => Ok Sequential
  end.

(** [if hasattr(self, "pool"): create_pool(self)] *)
Definition refresh (s : pst) : pst * res unit := if pool s is Some _ then create_pool s None else (s, Ok tt).

Inductive op :=
| CreatePool (ncores : option nat)
| PrepEstim (debug : bool) (ncores : option nat) (fails : bool)
| Irfs (debug : bool) (many : bool) (fails : bool)     (* [many]: several parameter vectors *)
| Simulate (debug : bool) (fails : bool)
| Extract (debug : bool) (kalman : bool) (fails : bool)
| PriorSampler (debug : bool) (fails : bool)
| Mcmc (fails : bool).

Definition then_map (s : pst) (fails : bool) : pst * res mode :=
  (s, if mapper s is Ok m then if fails then Err GenericException else Ok m else Err AttributeError).

(** estimation.py:95 and 231-234; [self.ndim] is set in line 135, before the pool *)
Definition prep_estim (s : pst) (debug : bool) (ncores : option nat) (fails : bool) : pst * res unit :=
  let s := or_debug debug s in
  if fails then (s, Err GenericException) else
  let s := Pst (pool s) (dbg s) true in
  if ~~ debug && (if ncores is Some n then n != 0 else true) then create_pool s ncores else (set_pool None s, Ok tt).

Definition step (s : pst) (o : op) : pst * res mode :=
  match o with
  | CreatePool n => let: (s, r) := create_pool s n in (s, rmap (fun _ => Sequential) r)
  | PrepEstim d n f => let: (s, r) := prep_estim s d n f in (s, rmap (fun _ => Sequential) r)
  (* tools.py:199-214 and 333-338 *)
  | Irfs d many f =>
      let: (s, r) := refresh (or_debug d s) in
      if r is Err e then (s, Err e) else
      if many then then_map s f else (s, if f then Err GenericException else Ok Sequential)
  (* tools.py:417-422, 466 *)
  | Simulate d f =>
      let: (s, r) := refresh (or_debug d s) in if r is Err e then (s, Err e) else then_map s f
  (* filtering.py:360-378, 392, 477-488 *)
  | Extract d kf f =>
      let: (s, r) := refresh s in
      if r is Err e then (s, Err e) else
      if kf then
        let old := dbg s in
        let: (s, r) := then_map (or_debug old (set_debug true s)) f in
        (if r is Ok _ then set_debug old s else s, r)
      else then_map (or_debug d s) f
  (* mpile.py:74-89 *)
  | PriorSampler d f =>
      let s := or_debug d s in
      let: (s, r) := if d then (s, Ok tt) else refresh s in if r is Err e then (s, Err e) else then_map s f
  (* mcmc.py:61-64, 78-86, 103 and 157; prep_estim is called without debug and with the default number of workers *)
  | Mcmc f =>
      let: (s, r) := if has_ndim s then (s, Ok tt) else prep_estim s false None f in
      if r is Err e then (s, Err e) else
      let: (s, r) := if dbg s then (set_pool None s, Ok tt) else refresh s in
      if r is Err e then (s, Err e) else
      match pool s with
      | None => (s, Err AttributeError)
      | Some p => (s, if f then Err GenericException else Ok (if p is Some n then Workers n else Sequential))
      end
  end.

Fixpoint run (s : pst) (h : seq op) : pst := if h is o :: h' then run (step s o).1 h' else s.
End Pool.
