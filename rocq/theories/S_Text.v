(** Vocabulary for the text of a model file. *)
Set Warnings "-all".
From Coq Require Import String Ascii.
From mathcomp Require Import all_ssreflect all_algebra.
From Verif Require Import PyBase PyStr M_Parser M_Text.
Set Implicit Arguments. Unset Strict Implicit. Unset Printing Implicit Defensive.
Local Open Scope ring_scope.

(** the text ends in a continuation mark: in [@] or [@ ], not counting semicolons *)
Definition bare (t : text) : text := [seq x <- t | x != ";"%char].
Definition continued (t : text) : bool := suffix (chars "@") (bare t) || suffix (chars "@ ") (bare t).
(** two texts are read in the same way, whatever the YAML loader and the grammar *)
Definition same_file (t t' : text) : Prop :=
  forall (F : fieldType) (ptree : text -> option (rawexpr F)) (yaml : text -> res (rawfile F)), parse_text ptree yaml t = parse_text ptree yaml t'.

(** [u] is [t] without the blanks (spaces, tabs, line ends and separators) at both ends *)
Definition blank (c : ascii) : bool := c \in [:: " "; "009"; "010"; "011"; "012"; "013"; "028"; "029"; "030"; "031"]%char.
Definition trimmed (t u : text) : Prop :=
  exists a b, [/\ t = a ++ u ++ b, all blank a, all blank b & forall c w, u = c :: w \/ u = rcons w c -> ~~ blank c].

Section Spec.
Variable F : fieldType.
Variable ptree : text -> option (rawexpr F).

(** the text [s] of an equation reads [q]: two sides separated by the only equality sign, or one side, meant to be zero *)
Definition reads (s : text) (q : raweqn F) : Prop :=
  (exists l r, [/\ s = l ++ "="%char :: r, "="%char \notin l, "="%char \notin r, ptree l = Some q.1 & ptree r = Some q.2]) \/
  [/\ "="%char \notin s, ptree s = Some q.1 & q.2 = Cst 0].

(** the line [s] constrains the variable [v] by [q]: a name without spaces inside, the equality sign, a right-hand side *)
Definition constrains (s : text) (v : string) (q : raweqn F) : Prop :=
  exists l r n, [/\ s = l ++ "="%char :: r, "="%char \notin l, "="%char \notin r, trimmed l n &
    [/\ v = str n, " "%char \notin n, ptree l = Some q.1 & ptree r = Some q.2]].

(** pairwise, in order *)
Fixpoint pairwise (A B : Type) (R : A -> B -> Prop) (xs : seq A) (ys : seq B) : Prop :=
  match xs, ys with [::], [::] => True | x :: xs', y :: ys' => R x y /\ pairwise R xs' ys' | _, _ => False end.

(** the lines of the section [equations]: a list of model equations, or a dictionary with the entries [model], [constraint] and
    [observables]; without [model] its keys are the equations *)
Definition model_lines (f : rawfile F) : seq text :=
  match f_eqs f with Plain l => l | Entries m _ _ keys => odflt keys m end.
Definition constraint_lines (f : rawfile F) : option (seq text) := match f_eqs f with Plain _ => None | Entries _ c _ _ => c end.
Definition observable_lines (f : rawfile F) : seq (string * text) := match f_eqs f with Plain _ => [::] | Entries _ _ o _ => o end.

(** the file declares the model [m] *)
Record declares (f : rawfile F) (m : rawmodel F) : Prop := Declares {
  d_vars : r_vars m = [seq str v | v <- f_vars f];
  d_spaces : forall v, v \in f_vars f -> " "%char \notin v;
  d_pars : r_pars m = [seq p.1 | p <- f_pars f];
  d_shks : r_shks m = f_shks f;
  d_oths : r_oths m = f_oths f;
  d_eqs : pairwise reads (model_lines f) (r_eqs m);
  d_cons : exists s, constraint_lines f = Some [:: s] /\ constrains s (r_cvar m) (r_ceq m);
  d_obs : pairwise (fun (o : string * text) (e : string * rawexpr F) => e.1 = o.1 /\ ptree o.2 = Some e.2) (observable_lines f) (r_obs m) }.

(** the same file with other equations, or with other lines under [constraint] *)
Definition with_equations (f : rawfile F) (l : seq text) : rawfile F :=
  RawFile (f_vars f) (f_pars f) (f_shks f) (f_oths f) (match f_eqs f with Plain _ => Plain l | Entries _ c o k => Entries (Some l) c o k end) (f_prior f).
Definition with_constraints (f : rawfile F) (c : seq text) : rawfile F :=
  RawFile (f_vars f) (f_pars f) (f_shks f) (f_oths f)
    (match f_eqs f with Plain l => Entries (Some l) (Some c) [::] [::] | Entries m _ o k => Entries m (Some c) o k end) (f_prior f).
End Spec.
