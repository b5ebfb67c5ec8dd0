(** Model of [pmdm_report] (stats.py:19-55): the table of the current best guess during a search for the mode. *)
Set Warnings "-all".
From Coq Require Import String Ascii.
From mathcomp Require Import all_ssreflect.
From Verif Require Import PyBase PyStr.
Set Implicit Arguments. Unset Strict Implicit. Unset Printing Implicit Defensive.
Local Open Scope py_scope.

(** numpy.array_split: [n] elements in [k] chunks, the first [n mod k] of them with one element more *)
Fixpoint split_sizes (T : Type) (l : seq T) (sizes : seq nat) : seq (seq T) :=
  if sizes is n :: sizes' then take n l :: split_sizes (drop n l) sizes' else [::].
Definition array_split (T : Type) (l : seq T) (k : nat) : res (seq (seq T)) :=
  assert* (0 < k) else ValueError in
  Ok (split_sizes l (nseq (size l %% k) (size l %/ k).+1 ++ nseq (k - size l %% k) (size l %/ k))).
(** ["{:>8}".format(s)] *)
Fixpoint blanks (n : nat) : string := if n is n'.+1 then String " " (blanks n') else EmptyString.
Definition pad8 (s : string) : string := String.append (blanks (8 - String.length s)) s.
(** ["{:>8}" * n] applied to [args]: too few arguments raise IndexError, others are ignored *)
Definition row_format (n : nat) (args : seq string) : res string :=
  assert* (n <= size args) else IndexError in Ok (foldr (fun s acc => String.append (pad8 s) acc) ""%string (take n args)).
(** stats.py:42: [(n * 8) // (cols - 8) + 1]; a number that is not positive is given as 0 *)
Definition lnum (n cols : nat) : res nat :=
  if cols == 8 then Err ZeroDivErr
  else if cols < 8 then Ok (if n == 0 then 1 else 0)
  else Ok ((n * 8) %/ (cols - 8)).+1.
(** stats.py:46-51, one pass *)
Definition chunk (c : seq string * seq string) : res (seq string) :=
  let* a := row_format (size c.1).+1 (""%string :: c.1) in
  let* b := row_format (size c.1).+1 (""%string :: c.2) in
  Ok [:: a; b; ""%string].
(** stats.py:19-55; [stty] is what [stty size] says about the columns (None: no terminal, the second word is missing), [names] are
    [prior_names], [vals] the values rounded to three digits, both as texts, [msg] the first line.  Simplified: if an exception is raised,
    what was printed before is not recorded; [len(self.prior)] is the number of names (M_Params). *)
Definition pmdm_report (stty : option nat) (msg : string) (names vals : seq string) : res (seq string) :=
  if stty is Some cols then
    let* k := lnum (size names) cols in
    let* ps := array_split names k in
    let* vs := array_split vals k in
    let* rows := mapM chunk (zip ps vs) in
    Ok (msg :: flatten rows ++ [:: ""%string])
  else Err IndexError.
