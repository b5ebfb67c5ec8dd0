(** Model of [write_yaml] (clsmethods.py:108-120).  Model objects and files are those of M_Cache. *)
Set Warnings "-all".
From Coq Require Import String Ascii.
From mathcomp Require Import all_ssreflect.
From Verif Require Import PyBase PyStr M_Cache.
Set Implicit Arguments. Unset Strict Implicit. Unset Printing Implicit Defensive.
Local Open Scope py_scope.
Local Open Scope string_scope.

(** clsmethods.py:110-111: [filename[-5:] != ".yaml"] *)
Definition yaml_name (f : string) : string :=
  if substring (length f - 5) 5 f == ".yaml" then f else f ++ ".yaml".

Section Write.
Variables P U : Type.
(** clsmethods.py:108-120: the file is opened with mode "w+", which creates or empties it; then the attribute [raw_yaml] is
    read, which raises AttributeError if there is none, and written, which raises TypeError if it is no text.  That the file
    can be opened is assumed (existing directory, permissions). *)
Definition write_yaml (fs : string -> option string) (c : content P U) (filename : string) : (string -> option string) * res unit :=
  let f := yaml_name filename in
  let opened := set_file fs f (Some "") in
  match dget c.1.2 "raw_yaml" with
  | None => (opened, Err AttributeError)
  | Some (VStr s) => (set_file opened f (Some s), Ok tt)
  | Some _ => (opened, Err TypeError)
  end.
End Write.
