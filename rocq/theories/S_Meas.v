(** Vocabulary of the property about measurement errors declared in a model file. *)
Set Warnings "-all".
From Coq Require Import String Ascii.
From mathcomp Require Import all_ssreflect.
From Verif Require Import PyBase PyStr M_Text S_Text M_Meas.
Set Implicit Arguments. Unset Strict Implicit. Unset Printing Implicit Defensive.

(** the key [k] of an entry names [a] and [b]: one name, or two names separated by a comma; blanks around names do not count *)
Definition names (k : text) (a b : string) : Prop :=
  (exists n, [/\ ","%char \notin k, trimmed k n, a = str n & b = str n]) \/
  (exists k1 k2 n1 n2, [/\ k = k1 ++ ","%char :: k2, ","%char \notin k1 /\ ","%char \notin k2, trimmed k1 n1 /\ trimmed k2 n2, a = str n1 & b = str n2]).

(** [a] is the name at position [i] *)
Definition position (ms : seq string) (a : string) (i : nat) : Prop := (i < size ms)%N /\ nth EmptyString ms i = a.

Section Spec.
Variable T : Type.
Variable ev : text -> res T.

(** an entry that can be used, with the positions of its names among the declared ones and its value: text that can be evaluated *)
Definition usable (ms : seq string) (kv : text * mval) (i j : nat) (v : T) : Prop :=
  exists a b t, [/\ names kv.1 a b, position ms a i, position ms b j, kv.2 = MText t & ev t = Ok v].
End Spec.

(** an entry is about the positions [i] and [j], in this order or the other *)
Definition about (ms : seq string) (kv : text * mval) (i j : nat) : Prop :=
  exists a b, names kv.1 a b /\ ((position ms a i /\ position ms b j) \/ (position ms a j /\ position ms b i)).
(** the key has at most one comma *)
Definition at_most_two (k : text) : bool := (count_mem ","%char k <= 1)%N.
