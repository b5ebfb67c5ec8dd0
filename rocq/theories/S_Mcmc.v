(** Vocabulary of the properties of stored chains. *)
Set Warnings "-all".
From Coq Require Import String.
From mathcomp Require Import all_ssreflect.
From Verif Require Import PyBase PyStr M_Cls M_Mcmc.
Set Implicit Arguments. Unset Strict Implicit. Unset Printing Implicit Defensive.
Local Open Scope string_scope.
Local Open Scope seq_scope.

Section Spec.
Variable K : Type.
(** the standard place of a chain *)
Definition standard_file (c : cst K) : string := os_join (c_path c) (c_name c +++ "_sampler.h5").
(** the place asked for by a suffix; no suffix or an empty one: the standard place *)
Definition suffix_file (c : cst K) (suffix : option string) : string :=
  match suffix with
  | Some x => if x == "" then standard_file c else os_join (c_path c) (c_name c +++ x)
  | None => standard_file c
  end.
(** Where a run stores its chain: nowhere if [backend] is false, zero or empty; else the file named in the call; else the file named
    in an earlier call; else the file given by model and suffix *)
Definition place (c : cst K) (a : margs) : option string :=
  match a_backend a with
  | BFlag false => None
  | BName f => if f == "" then None else Some f
  | _ => Some (if backend c is Some f then f else suffix_file c (a_suffix a))
  end.
(** the call names a file, or an earlier call did *)
Definition named (c : cst K) (a : margs) : Prop := (exists2 f, a_backend a = BName f & f <> "") \/ backend c <> None.
(** the call asks to go on with an existing chain *)
Definition continues (a : margs) : Prop := a_resume a = true \/ a_append a = true.
(** number of walkers: rows of [p0] unless a chain is resumed, else the argument *)
Definition nwalkers (a : margs) : option nat :=
  match a_p0 a, a_resume a with Some n, false => Some n | _, _ => a_nwalks a end.
(** the call gets past the search for starting values *)
Definition starts (start : res unit) (a : margs) : Prop := a_p0 a = None -> a_resume a = false -> start = Ok tt.
End Spec.
