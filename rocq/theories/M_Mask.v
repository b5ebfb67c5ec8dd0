(** Model of the property [mask] (tools.py:367-383), the empty table that users fill in to change shocks in [simulate]. *)
Set Warnings "-all".
From Coq Require Import String.
From mathcomp Require Import all_ssreflect.
From Verif Require Import PyBase PyStr M_Cls.
Set Implicit Arguments. Unset Strict Implicit. Unset Printing Implicit Defensive.
Local Open Scope py_scope.

Section Mask.
Variables (F L : Type).
(** [dict(zip(observables, shocks))], looked up with [DataFrame.rename]: names that are not in the dictionary stay *)
Definition renamed (observables shocks : seq string) (n : string) : string :=
  odflt n (ohead (rev [seq x.2 | x <- zip observables shocks & x.1 == n])).
(** tools.py:367-383; [data], [observables]: the attributes, [None] if missing *)
Definition mask (data : option (frame F L)) (observables : option (seq string)) (shocks : seq string) : res (frame F L) :=
  let* d := of_opt AttributeError data in
  let msk := Frame (rows d) [seq (c.1, nseq (size c.2) None) | c <- cols d] in
  let* ob := of_opt AttributeError observables in
  let ren := Frame (rows msk) [seq (renamed ob shocks c.1, c.2) | c <- cols msk] in
  Ok (Frame (take (size (rows ren)).-1 (rows ren)) [seq (c.1, take (size (rows ren)).-1 c.2) | c <- cols ren]).
(** [np.array(mask)] (tools.py:432): the rows of the table, without names *)
Definition as_array (f : frame F L) : seq (seq (option F)) := [seq [seq nth None c.2 i | c <- cols f] | i <- iota 0 (size (rows f))].
End Mask.
