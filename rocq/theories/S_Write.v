(** Vocabulary of the property about [write_yaml]. *)
Set Warnings "-all".
From Coq Require Import String Ascii.
From mathcomp Require Import all_ssreflect.
From Verif Require Import PyBase PyStr M_Cache S_Cache.
Set Implicit Arguments. Unset Strict Implicit. Unset Printing Implicit Defensive.
Local Open Scope string_scope.

(** the file a name stands for: the name itself if it has the extension, the name with the extension otherwise *)
Definition yaml_file (name file : string) : Prop :=
  (exists g, name = append g ".yaml" /\ file = name) \/ ((forall g, name <> append g ".yaml") /\ file = append name ".yaml").

Section Spec.
Variables P U : Type.
Variable parse : string -> option string -> res P.
Variable mod_name : P -> string.
Variable other_text : val P U -> string.

(** the models held by a user who does not themselves create an attribute raw_yaml: a model is read, then any number of times data
    are loaded, results stored in the metadata, attributes set, metadata saved and models loaded from saved metadata, where the cache
    of parsed models may be used *)
Inductive ordinary : content P U -> Prop :=
| or_read t ft path c : parsed_model U parse mod_name t ft path = Ok c -> ordinary c
| or_data c x obs : ordinary c -> ordinary (store_data c x obs)
| or_result p a d k v : ordinary (p, a, d) -> ~~ reserved k -> ordinary (p, a, dset d k v)
| or_attr p a d k v : ordinary (p, a, d) -> k <> "raw_yaml" -> ordinary (p, dset a k v, d)
| or_save c : ordinary c -> ordinary (save_meta c)
| or_load force hit c path c' : ordinary c -> 
    (forall t ft c1, hit t ft = Some c1 -> exists path1, parsed_model U parse mod_name t ft path1 = Ok c1) ->
    load parse other_text force hit (saved c) path = Ok c' -> ordinary c'.
End Spec.
