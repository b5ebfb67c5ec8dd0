(** Model of the storage of chains in mcmc.py and of the use of stored chains by [mcmc_summary] and [posterior2csv]
    (clsmethods.py:216-246).  The sampler (emcwrap, emcee) is an oracle.
    Not modelled here: the log-probability and the mode (M_Estim.v), the pool (M_Pool.v), printing. *)
Set Warnings "-all".
From Coq Require Import String.
From mathcomp Require Import all_ssreflect.
From Verif Require Import PyBase PyStr M_Cls.
Set Implicit Arguments. Unset Strict Implicit. Unset Printing Implicit Defensive.
Local Open Scope py_scope.
Local Open Scope string_scope.
Local Open Scope seq_scope.

Section Mcmc.
(** content of a chain: in a file or in the memory of a sampler *)
Variable K : Type.

(** the argument [backend]: a truth value, a text, or any other object (of true truth value) *)
Inductive barg := BFlag (b : bool) | BName (f : string) | BObject.
(** Python's truth value *)
Definition truthy (b : barg) : bool :=
  match b with BFlag b => b | BName f => f != EmptyString | BObject => true end.

(** the arguments of [mcmc] that matter here (mcmc.py:15-30); [a_p0] is the number of rows of [p0] *)
Record margs := MArgs {
  a_p0 : option nat; a_nsteps : nat; a_nwalks : option nat; a_tune : option nat;
  a_backend : barg; a_suffix : option string; a_resume : bool; a_append : bool }.

(** the object: what M_Cls needs to find chains, and the attribute [tune] *)
Record mst := Mst { m_c : cst K; m_tune : option nat }.
Definition set_files (c : cst K) (fs : string -> option K) : cst K := Cst (sampler c) (backend c) (c_path c) (c_name c) fs.
Definition set_file (c : cst K) (f : string) (k : option K) : cst K := set_files c (fun g => if g == f then k else c_files c g).
Definition set_backend (c : cst K) (f : string) : cst K := Cst (sampler c) (Some f) (c_path c) (c_name c) (c_files c).
Definition set_sampler (c : cst K) (k : K) : cst K := Cst (Some k) (backend c) (c_path c) (c_name c) (c_files c).

(** mcmc.py:106-121 calls get_par for a starting point: the result only matters if it raises *)
Variable start : res unit.
(** emcee's [HDFBackend.reset(nwalks, ndim)]: the new content of the file, from the old one *)
Variable reset : option K -> nat -> res K.
(** the run: from the content of the backend ([None]: no backend or no file) to the content afterwards and the sampler, or an
    exception *)
Variable run : option K -> option K * res K.
(** what follows the run (mcmc.py:163-174, [store_mode] of M_Estim.v), with the argument [tune] *)
Variable mode : option nat -> K -> res unit.

(** mcmc.py:71-73: [int(nsteps * 1 / 5.0)] *)
Definition tune_of (a : margs) : nat := odflt (a_nsteps a %/ 5) (a_tune a).
(** mcmc.py:132-133 *)
Definition default_file (c : cst K) (a : margs) : string :=
  let suffix := match a_suffix a with Some (String x s) => String x s | _ => "_sampler.h5" end in
  os_join (c_path c) (c_name c +++ suffix).
Definition keep (a : margs) : bool := a_resume a || a_append a.

(** mcmc.py:106-121: number of walkers *)
Definition walkers (a : margs) : option nat :=
  if (if a_p0 a is Some _ then true else false) && ~~ a_resume a then a_p0 a else a_nwalks a.

(** mcmc.py:123-155: the object and the file to use *)
Definition open_backend (c : cst K) (a : margs) : cst K * res (option string) :=
  if ~~ truthy (a_backend a) then (c, Ok None) else
  let c := if a_backend a is BName f then set_backend c f else c in
  let: (c, f) := match backend c with
                 | Some f => (c, f)
                 | None => let f := default_file c a in
                           ((if (if c_files c f is Some _ then true else false) && ~~ keep a then set_file c f None else c), f)
                 end in
  if keep a then (c, Ok (Some f)) else
  match walkers a with
  | None | Some 0 => (c, Err TypeError)
  | Some n => match reset (c_files c f) n with
              | Ok k => (set_file c f (Some k), Ok (Some f))
              | Err e => (c, Err e)
              end
  end.

(** mcmc.py:61-177 *)
Definition mcmc (s : mst) (a : margs) : mst * res unit :=
  let t := Some (tune_of a) in
  let c := m_c s in
  let r0 := if (if a_p0 a is Some _ then false else true) && ~~ a_resume a then start else Ok tt in
  match r0 with
  | Err e => (Mst c t, Err e)
  | Ok _ =>
      let: (c, r) := open_backend c a in
      match r with
      | Err e => (Mst c t, Err e)
      | Ok None => let: (_, r) := run None in
                   match r with Ok k => (Mst (set_sampler c k) t, mode (a_tune a) k) | Err e => (Mst c t, Err e) end
      | Ok (Some f) =>
          let: (k', r) := run (c_files c f) in
          let c := set_file c f k' in
          match r with Ok k => (Mst (set_sampler c k) t, mode (a_tune a) k) | Err e => (Mst c t, Err e) end
      end
  end.

(** a new session (parser.py:563-642, clsmethods.py:123-142): metadata and files survive, the sampler and the attributes do not.
    [save_meta] copies the attribute [tune]; it looks for an attribute [backend_file], which nothing sets *)
Definition new_session (s : mst) : cst K := Cst None (backend (m_c s)) (c_path (m_c s)) (c_name (m_c s)) (c_files (m_c s)).
End Mcmc.

Section Report.
Variables V P : Type.
(** numpy's [c[-n:]] *)
Definition last_n (A : Type) (n : nat) (c : seq A) : seq A := if n == 0 then c else drop (size c - n) c.
(** Python's [tune or self.get_tune] *)
Definition pick_tune (own : res nat) (tune : option nat) : res nat := if tune is Some (k.+1) then Ok k.+1 else own.
(** clsmethods.py:216-232: chain (steps x walkers) and log-probabilities that are summarised *)
Definition summary_inputs (own_chain : res (seq (seq V))) (own_lp : res (seq (seq P))) (own_tune : res nat)
    (chain : option (seq (seq V))) (tune : option nat) : res (seq (seq V) * seq (seq P)) :=
  let* c := (if chain is Some c then Ok c else own_chain) in
  let* t := pick_tune own_tune tune in
  let* l := own_lp in
  Ok (last_n t c, last_n t l).

(** clsmethods.py:235-246: the table written, one row for each parameter; [coord v j] is the value of parameter [j] in the draw
    [v], [npar] the length of a draw; pandas requires as many labels as rows *)
Variable X : Type.
Variable coord : V -> nat -> X.
Definition posterior_table (own_chain : res (seq (seq V))) (own_tune : res nat) (npar : nat) (prior_names : seq string)
    (tune : option nat) : res (seq (string * seq X)) :=
  let* t := pick_tune own_tune tune in
  let* c := own_chain in
  let post := flatten (last_n t c) in
  if size prior_names == npar then
    Ok [seq (nth EmptyString prior_names j, [seq coord v j | v <- post]) | j <- iota 0 npar]
  else Err ValueError.
End Report.

