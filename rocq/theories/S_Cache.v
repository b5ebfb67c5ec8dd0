(** Vocabulary for cached and saved models. *)
Set Warnings "-all".
From Coq Require Import String Ascii.
From mathcomp Require Import all_ssreflect.
From Verif Require Import PyBase PyStr M_Cache.
Set Implicit Arguments. Unset Strict Implicit. Unset Printing Implicit Defensive.
Local Open Scope string_scope.
Local Open Scope seq_scope.

Section Spec.
Variables P U : Type.
Variable parse : string -> option string -> res P.
Variable mod_name : P -> string.

(** the operations by which the user modifies a model they were given *)
Definition is_modification (o : op P U) : bool :=
  match o with OAttr _ _ _ | OMeta _ _ _ | OPay _ _ => true | _ => false end.

(** contents of the files after a history *)
Fixpoint files (fs : string -> option string) (ops : seq (op P U)) : string -> option string :=
  match ops with
  | [::] => fs
  | OFile f t :: ops' => files (fun g => if g == f then t else fs g) ops'
  | _ :: ops' => files fs ops'
  end.

(** for each read of an existing file in a history: its text, the text of its functions file and its directory *)
Fixpoint read_log (fs : string -> option string) (ops : seq (op P U)) : seq (string * option string * string) :=
  match ops with
  | [::] => [::]
  | OFile f t :: ops' => read_log (fun g => if g == f then t else fs g) ops'
  | ORead f _ :: ops' =>
      match fs f with
      | Some t => (t, fs (func_file f), dirname f) :: read_log fs ops'
      | None => read_log fs ops'
      end
  | _ :: ops' => read_log fs ops'
  end.

(** [c] is the untouched model parsed from text [t] with functions [ft], located in directory [path] *)
Definition is_parse_of (t : string) (ft : option string) (path : string) (c : content P U) : Prop :=
  let: (p, attrs, meta) := c in
  parse t ft = Ok p /\ dget attrs "path" = Some (VStr path) /\ dget attrs "name" = Some (VStr (mod_name p)) /\
  dget meta "yaml_raw" = Some (VStr t) /\ dget meta "ffile_raw" = omap (@VStr P U) ft.

(** the result of reading file [f] after the history [ops] *)
Definition read_after (fs : string -> option string) (ops : seq (op P U)) (f : string) (nocache : bool) : res (content P U) :=
  last (Err GenericException) (run parse mod_name (init fs) (ops ++ [:: ORead f nocache])).

(** size of a stored value: number of nodes, those of stored dumps included *)
Fixpoint vsize (v : val P U) : nat :=
  match v with
  | VNone | VStr _ | VObj _ => 1
  | VPick v => (vsize v).+1
  | VDump _ a d => (sumn (map (fun kv => vsize kv.2) a) + sumn (map (fun kv => vsize kv.2) d)).+1
  end.
End Spec.

(** [n] slashes *)
Fixpoint slashes (n : nat) : string := if n is n'.+1 then String "/"%char (slashes n') else EmptyString.

Section SaveSpec.
Variables P U : Type.
Variable parse : string -> option string -> res P.
Variable mod_name : P -> string.
Variable other_text : val P U -> string.
(** a cached model offered for given texts has been parsed from these texts, and no functions file consists of just
    the word None (which is how line 580 encodes the absence of such a file) *)
Definition sound_cache (hit : string -> option string -> option (content P U)) : Prop :=
  (forall t ft p a d, hit t (Some ft) = Some (p, a, d) -> parse t (Some ft) = Ok p) /\
  (forall t, hit t (Some "None") = None).

(** entries of the metadata the library itself relies on *)
Definition reserved (k : string) : bool :=
  k \in [:: "yaml_raw"; "ffile_raw"; "model_dump"; "data"; "name"; "obs"].

(** models a user can hold: read, then any number of: loading data, storing results in the metadata, setting
    attributes, saving, and loading a saved file (in this or another session) *)
Inductive held : content P U -> Prop :=
| held_read t ft path c : parsed_model U parse mod_name t ft path = Ok c -> held c
| held_data c x obs : held c -> held (store_data c x obs)
| held_result p a d k v : held (p, a, d) -> ~~ reserved k -> held (p, a, dset d k v)
| held_attr p a d k v : held (p, a, d) -> ~~ reserved k -> held (p, dset a k v, d)
| held_save c : held c -> held (save_meta c)
| held_load force hit c path c' : held c -> sound_cache hit ->
    load parse other_text force hit (saved c) path = Ok c' -> held c'.

(** data have been loaded into the model *)
Definition has_data (c : content P U) : bool := isSome (dget c.1.2 "data").
(** what a saved file preserves of an entry: the text "None" becomes None *)
Definition reread (v : val P U) : val P U := match v with VStr s => if s == "None" then VNone else v | _ => v end.
Definition dump_size (c : content P U) : nat := if dget c.2 "model_dump" is Some v then vsize v else 0.

(** [n] save/load cycles *)
Inductive cycles : nat -> content P U -> content P U -> Prop :=
| cycles0 c : cycles 0 c c
| cyclesS n force hit c path c1 c2 : cycles n c c1 -> sound_cache hit ->
    load parse other_text force hit (saved c1) path = Ok c2 -> cycles n.+1 c c2.
End SaveSpec.

Section DictSpec.
Variables (D L : eqType) (S : Type).
Variable gen_sys : D -> L -> res S.
(** what can happen to dict models: a call of gen_sys_from_dict, or a modification of a returned object *)
Inductive dop : Type := DCall (d : D) (lk : L) (force : bool) | DModify (r : nat) (f : S -> S).
Definition forced (o : dop) : bool := if o is DCall _ _ true then true else false.
Definition dstep (w : dworld D L S) (o : dop) : dworld D L S :=
  match o with
  | DCall d lk force => (gen_sys_from_dict gen_sys w d lk force).1
  | DModify r f => DWorld (g_cache w) (upd (g_objs w) r f)
  end.
End DictSpec.
Arguments DCall {D L S}. Arguments DModify {D L S}.
