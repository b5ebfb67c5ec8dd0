(** Model of [DSGE.dump] (parser.py:166-167) and [_dumper] (utils.py:3-55): what is printed, one text per call of [print]. *)
Set Warnings "-all".
From Coq Require Import String Ascii.
From mathcomp Require Import all_ssreflect.
From Verif Require Import PyBase PyStr.
Set Implicit Arguments. Unset Strict Implicit. Unset Printing Implicit Defensive.

(** keys of a dict: a text, None, or anything else (YAML allows numbers, booleans, dates) *)
Inductive pkey := KText of string | KNone | KOther.
Inductive box := BList | BTuple | BSet.
(** Python objects as [_dumper] tells them apart; [OEq] is a sympy equality with its sides as texts, [OOther] an object given by its
    [str].  Simplified: objects are finite, and the order of a set is that of its iteration. *)
Inductive obj :=
  | ODict of seq (pkey * obj) | OSeq of box & seq obj | OEq of string & string | OStr of string | OOther of string.

(** prints, and whether the call returned *)
Definition out := (seq string * res unit)%type.
Definition say (t : string) : out := ([:: t], Ok tt).
Definition andthen (a : out) (b : out) : out := match a.2 with Ok _ => (a.1 ++ b.1, b.2) | Err e => (a.1, Err e) end.
(** [n*" "] *)
Fixpoint blanks (n : nat) : string := if n is n'.+1 then String " " (blanks n') else EmptyString.
(** utils.py:24-27: [name + " " + eq + " "] raises TypeError unless the name is a text *)
Definition name_and_eq (name : pkey) (eq : string) : res string :=
  match name with KNone => Ok ""%string | KText s => Ok (String.append s (String.append " " (String.append eq " "))) | KOther => Err TypeError end.
(** utils.py:34, 39, 44 *)
Definition opening (b : box) : string := match b with BList => "[" | BTuple => "(" | BSet => "{" end.
Definition closing (b : box) : string := match b with BList => "]" | BTuple => ")" | BSet => "}" end.
(** utils.py:3-55 *)
Fixpoint dumper (o : obj) (name : pkey) (eq : string) (indent cur : nat) : out :=
  match name_and_eq name eq with
  | Err e => ([::], Err e)
  | Ok ne =>
      match o with
      | ODict kvs =>
          andthen (say (String.append (blanks cur) (String.append ne "{")))
            (andthen (foldr (fun kv acc => andthen (dumper kv.2 kv.1 ":" indent (cur + indent)) acc) ([::], Ok tt) kvs)
               (say (String.append (blanks cur) "}")))
      | OSeq b vs =>
          andthen (say (String.append (blanks cur) (String.append ne (opening b))))
            (andthen (foldr (fun v acc => andthen (dumper v KNone "=" indent (cur + indent)) acc) ([::], Ok tt) vs)
               (say (String.append (blanks cur) (closing b))))
      | OEq l r => say (String.append (blanks cur) (String.append ne (String.append l (String.append " = " r))))
      | OStr s => say (String.append (blanks cur) (String.append ne (String.append "'" (String.append s "'"))))
      | OOther s => say (String.append (blanks cur) (String.append ne s))
      end
  end.
(** parser.py:166-167 with the defaults of utils.py:3 *)
Definition dump (o : obj) : out := dumper o KNone "=" 4 0.
