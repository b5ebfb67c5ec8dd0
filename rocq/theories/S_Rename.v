(** Vocabulary of the property that names do not matter: renaming all names of a model file. *)
Set Warnings "-all".
From Coq Require Import String Ascii.
From mathcomp Require Import all_ssreflect all_algebra.
From Verif Require Import PyBase PyStr M_Parser M_Engine M_Tools.
Set Implicit Arguments. Unset Strict Implicit. Unset Printing Implicit Defensive.
Import GRing.Theory Num.Theory.
Local Open Scope ring_scope.

(** endings of the names which the program makes up for copies: of a lagged shock, of lags and leads of more than one period, of the
    lags of variables in the reported states, and of copies of copies *)
Inductive ending : string -> Prop :=
| end_VAR : ending "_VAR"
| end_LAG i : ending (append "_LAG" (py_str_nat i))
| end_LEAD i : ending (append "_LEAD" (py_str_nat i))
| end_lag : ending "_lag"
| end_app a b : ending a -> ending b -> ending (append a b).

Section Spec.
Variable F : realFieldType.

(** the expression with [new n] written instead of each name [n] *)
Fixpoint rename_expr (new : string -> string) (e : rawexpr F) : rawexpr F :=
  match e with
  | Cst c => Cst c
  | At (n, d) => At (new n, d)
  | Add a b => Add (rename_expr new a) (rename_expr new b)
  | Sub a b => Sub (rename_expr new a) (rename_expr new b)
  | Mul a b => Mul (rename_expr new a) (rename_expr new b)
  | Opp a => Opp (rename_expr new a)
  | Inv a => Inv (rename_expr new a)
  end.
Definition rename_eqn (new : string -> string) (q : raweqn F) : raweqn F := (rename_expr new q.1, rename_expr new q.2).

(** the file with all variables, shocks and parameters renamed *)
Definition rename_file (new : string -> string) (m : rawmodel F) : rawmodel F :=
  RawModel (map new (r_vars m)) (map new (r_pars m)) (map new (r_shks m)) (map new (r_oths m))
    (map (rename_eqn new) (r_eqs m)) (new (r_cvar m)) (rename_eqn new (r_ceq m)) [seq (o.1, rename_expr new o.2) | o <- r_obs m].

(** different names get different new names, and the copies of a renamed variable or shock have the names of copies *)
Definition renames (m : rawmodel F) (new : string -> string) : Prop :=
  injective new /\
  forall a e, (a \in r_vars m) || (a \in r_shks m) -> ending e -> new (append a e) = append (new a) e.

(** the solved model with renamed variables and shocks: the numbers are the same *)
Definition rename_model (new : string -> string) (mdl : tmodel F) : tmodel F :=
  @TM F (dq mdl) (dp mdl) (tab mdl) (btab mdl) (lmx mdl) (kmx mdl) (xb mdl) (map new (shk mdl)) (nobs mdl) (nsv mdl) (hxp mdl) (hxq mdl) (hxc mdl)
    (map new (vvs mdl)).

Definition rename_shock (new : string -> string) (a : shockarg F) : shockarg F :=
  match a with SName s => @SName F (new s) | SPair s x => SPair (new s) x | STriple s x t => STriple (new s) x t end.
End Spec.

(** renaming only what stands before the first underscore of a name *)
Fixpoint head_of (s : string) : string :=
  match s with String "_"%char _ => EmptyString | String c r => String c (head_of r) | EmptyString => EmptyString end.
Fixpoint rest_of (s : string) : string :=
  match s with String "_"%char _ => s | String _ r => rest_of r | EmptyString => EmptyString end.
Definition at_head (new : string -> string) (s : string) : string := append (new (head_of s)) (rest_of s).
Definition plain (s : string) : Prop := rest_of s = EmptyString.
