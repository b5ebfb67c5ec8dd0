(** Vocabulary of the property that connects the text of a model file with what is reported. *)
Set Warnings "-all".
From Coq Require Import String Ascii.
From mathcomp Require Import all_ssreflect all_algebra.
From Verif Require Import PyBase PyStr M_Parser S_Parser M_Pipe S_Pipe M_Full S_Full M_Text S_Text.
Set Implicit Arguments. Unset Strict Implicit. Unset Printing Implicit Defensive.
Import GRing.Theory Num.Theory.
Local Open Scope ring_scope.

Section Spec.
Variable F : realFieldType.
Variable ptree : text -> option (rawexpr F).
Variable refs : rawfile F -> string -> seq string.
Variable dfun : rawfile F -> string -> seq F -> F.

(** no name is declared twice in the file *)
Definition distinct_names (f : rawfile F) : Prop :=
  uniq ([seq str v | v <- f_vars f] ++ [seq p.1 | p <- f_pars f] ++ f_shks f ++ f_oths f).

(** [par] gives the parameters the numbers of the list [v], in the order of the file, and every entry of parafunc the value of its
    own text *)
Definition calibrated (f : rawfile F) (v : seq F) (par : string -> F) : Prop :=
  [/\ size v = size (f_pars f), [seq par p.1 | p <- f_pars f] = v &
      forall n, n \in f_oths f -> par n = dfun f n [seq par r | r <- refs f n] /\
                                  forall r, r \in refs f n -> (r \in [seq p.1 | p <- f_pars f]) || (r \in f_oths f)].
(** the bound of the constrained variable *)
Definition bound (f : rawfile F) (par : string -> F) : F :=
  if ("x_bar"%string \in [seq p.1 | p <- f_pars f]) || ("x_bar"%string \in f_oths f) then par "x_bar"%string else -1.

(** the value in period [t] of a name as written in a line of the file, possibly with a lead or lag: a variable or shock has the value
    of the period meant, any other name is a parameter *)
Definition written (f : rawfile F) (par : string -> F) (X E : path F) (t : int) (l : leaf) : F :=
  if l.1 \in [seq str v | v <- f_vars f] then X l.1 (t + odflt 0 l.2)
  else if l.1 \in f_shks f then E l.1 (t + odflt 0 l.2)
  else par l.1.
(** the line [s] of the file is true in period [t] *)
Definition true_line (f : rawfile F) (par : string -> F) (X E : path F) (t : int) (s : text) : Prop :=
  exists q, reads ptree s q /\ eval (written f par X E t) q.1 = eval (written f par X E t) q.2.
(** the text [s] has the value [x] in period [t] *)
Definition has_value (f : rawfile F) (par : string -> F) (X E : path F) (t : int) (s : text) (x : F) : Prop :=
  exists e, ptree s = Some e /\ eval (written f par X E t) e = x.
(** the name that stands before the equality sign of the line [s] *)
Definition left_name (s : text) (v : string) : Prop := 
  exists l r n, [/\ s = l ++ "="%char :: r, "="%char \notin l, trimmed l n & v = str n].

(** all lines of the file are true in all periods from 0 on, except that the constraint is given up in the periods in which it binds:
    then the variable on its left is at the bound *)
Definition solves_text (f : rawfile F) (par : string -> F) (binding : nat -> bool) (X E : path F) : Prop :=
  forall t : nat, (forall s, s \in model_lines f -> true_line f par X E t s) /\
    exists s v, [/\ constraint_lines f = Some [:: s], left_name s v &
      if binding t then X v t = bound f par else true_line f par X E t s].

(** the names from which a derived parameter can be computed without going round in a circle *)
Inductive grounded (f : rawfile F) : string -> Prop :=
| gr_par n : n \in [seq p.1 | p <- f_pars f] -> grounded f n
| gr_oth n : n \in f_oths f -> (forall r, r \in refs f n -> grounded f r) -> grounded f n.

(** the conditions of S_Full on the model that the text declares, at the parameters [v] *)
Definition regular_text (tol : F) (f : rawfile F) (v : seq F) : Prop :=
  forall m p par, declares ptree f m -> parse m = Ok p -> calibrated f v par ->
    exists eqs ceq g (c : 'I_(size (p_vars p))), regular_file tol m eqs ceq par g c (bound f par).
End Spec.
