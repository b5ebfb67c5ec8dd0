(** Vocabulary of the property about two texts that say the same model. *)
Set Warnings "-all".
From Coq Require Import String Ascii.
From mathcomp Require Import all_ssreflect all_algebra.
From Verif Require Import PyBase PyStr M_Parser S_Parser M_Pipe S_Pipe M_Text S_Text S_Whole.
Set Implicit Arguments. Unset Strict Implicit. Unset Printing Implicit Defensive.
Import GRing.Theory Num.Theory.
Local Open Scope ring_scope.

Section Spec.
Variable F : realFieldType.
Variable ptree : text -> option (rawexpr F).

(** the names of the variables of a file *)
Definition variable_names (f : rawfile F) : seq string := [seq str v | v <- f_vars f].
(** all model lines are true in all periods from 0 on *)
Definition true_lines (f : rawfile F) (par : string -> F) (X E : path F) : Prop :=
  forall (t : nat) s, s \in model_lines f -> true_line ptree f par X E t s.

(** Two files, each with values for its own parameters, say the same model: the same variables and shocks, in any order; the paths that
    make the lines of one true are those that make the lines of the other true; one constraint each, for the same variable of the file,
    true in the same periods of all paths; the same bound.  Parameters may have other names, and there may be more or fewer of them. *)
Record same_text (f1 f2 : rawfile F) (par1 par2 : string -> F) : Prop := SameText {
  st_vars : variable_names f1 =i variable_names f2;
  st_shks : f_shks f1 =i f_shks f2;
  st_lines : forall X E, true_lines f1 par1 X E <-> true_lines f2 par2 X E;
  st_cons : exists s1 s2 v, [/\ constraint_lines f1 = Some [:: s1], constraint_lines f2 = Some [:: s2], left_name s1 v /\ left_name s2 v,
    v \in variable_names f1 & forall X E t, true_line ptree f1 par1 X E t s1 <-> true_line ptree f2 par2 X E t s2];
  st_bound : bound f1 par1 = bound f2 par2 }.

(** the observables have the same values, in the order of the files, on every path *)
Definition same_observed (f1 f2 : rawfile F) (par1 par2 : string -> F) : Prop :=
  forall X E t ys1 ys2, pairwise (fun (o : string * text) y => has_value ptree f1 par1 X E t o.2 y) (observable_lines f1) ys1 ->
    pairwise (fun (o : string * text) y => has_value ptree f2 par2 X E t o.2 y) (observable_lines f2) ys2 -> ys1 = ys2.
End Spec.
