(** Vocabulary of the property about printing a model: what is to be seen, and the layout. *)
Set Warnings "-all".
From Coq Require Import String Ascii.
From mathcomp Require Import all_ssreflect.
From Verif Require Import PyBase PyStr M_Dump.
Set Implicit Arguments. Unset Strict Implicit. Unset Printing Implicit Defensive.

(** an outline: entries, and headed groups of outlines with a closing bracket *)
Inductive outline := Entry of string | Group of string & seq outline & string.
(** an object as an outline, with the label of its key in front *)
Definition label (k : pkey) : string := if k is KText s then String.append s " : " else ""%string.
Fixpoint view (front : string) (o : obj) : outline :=
  match o with
  | ODict kvs => Group (String.append front "{") [seq view (label kv.1) kv.2 | kv <- kvs] "}"
  | OSeq BList vs => Group (String.append front "[") [seq view ""%string v | v <- vs] "]"
  | OSeq BTuple vs => Group (String.append front "(") [seq view ""%string v | v <- vs] ")"
  | OSeq BSet vs => Group (String.append front "{") [seq view ""%string v | v <- vs] "}"
  | OEq l r => Entry (String.append front (String.append l (String.append " = " r)))
  | OStr s => Entry (String.append front (String.append "'" (String.append s "'")))
  | OOther s => Entry (String.append front s)
  end.
(** the lines of an outline: everything inside of a group is moved to the right by four blanks *)
Definition move_right (l : string) : string := String.append "    " l.
Fixpoint layout (t : outline) : seq string :=
  match t with
  | Entry l => [:: l]
  | Group l ts c => l :: [seq move_right x | x <- flatten [seq layout u | u <- ts]] ++ [:: c]
  end.
(** all keys are texts or None *)
Fixpoint text_keys (o : obj) : bool :=
  match o with
  | ODict kvs => all (fun kv => (if kv.1 is KOther then false else true) && text_keys kv.2) kvs
  | OSeq _ vs => all text_keys vs
  | _ => true
  end.
(** no text of another object, or right hand side of an equation, ends with an opening bracket *)
Fixpoint last_char (d : ascii) (s : string) : ascii := if s is String c s' then last_char c s' else d.
Definition ends_open (s : string) : bool := let c := last_char " " s in Ascii.eqb c "{" || Ascii.eqb c "[" || Ascii.eqb c "(".
Fixpoint plain_texts (o : obj) : bool :=
  match o with
  | ODict kvs => all (fun kv => plain_texts kv.2) kvs
  | OSeq _ vs => all plain_texts vs
  | OEq l r => ~~ ends_open r
  | OStr s => true
  | OOther s => ~~ ends_open s
  end.
(** what stands on the screen after several prints *)
Definition newline : ascii := Ascii.ascii_of_nat 10.
Fixpoint screen (l : seq string) : string := if l is x :: l' then String.append x (String newline (screen l')) else ""%string.
(** no line breaks in keys and texts *)
Fixpoint one_line (s : string) : bool := if s is String c s' then ~~ Ascii.eqb c newline && one_line s' else true.
Fixpoint no_breaks (o : obj) : bool :=
  match o with
  | ODict kvs => all (fun kv => (if kv.1 is KText s then one_line s else true) && no_breaks kv.2) kvs
  | OSeq _ vs => all no_breaks vs
  | OEq l r => one_line l && one_line r
  | OStr s | OOther s => one_line s
  end.
(** the object with None instead of the keys that are neither texts nor None *)
Definition clean_key (k : pkey) : pkey := if k is KOther then KNone else k.
Fixpoint clean (o : obj) : obj :=
  match o with
  | ODict kvs => ODict [seq (clean_key kv.1, clean kv.2) | kv <- kvs]
  | OSeq b vs => OSeq b [seq clean v | v <- vs]
  | _ => o
  end.
