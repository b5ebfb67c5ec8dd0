(** Model of the sections about measurement errors of a model file (parser.py:733-736, 898-916). *)
Set Warnings "-all".
From Coq Require Import String Ascii.
From mathcomp Require Import all_ssreflect all_algebra.
From Verif Require Import PyBase PyStr M_Parser M_Text M_ParaFunc.
Set Implicit Arguments. Unset Strict Implicit. Unset Printing Implicit Defensive.
Local Open Scope seq_scope.
Local Open Scope py_scope.

(** a value in the section calibration/measurement_errors: text, or what YAML reads as a number, a list or nothing *)
Inductive mval := MText (t : text) | MOther.

(** Python's [str.split(",")] *)
Fixpoint split_at_comma (t : text) : seq text :=
  match t with
  | [::] => [:: [::]]
  | c :: t' => if c == ","%char then [::] :: split_at_comma t'
               else match split_at_comma t' with p :: ps => (c :: p) :: ps | [::] => [:: [:: c]] end
  end.

Section Meas.
Variable T : Type.                  (** sympy expressions *)
Variable ev : text -> res T.        (** [eval(value, context)] of a text *)

(** [eval(value, context)]: TypeError unless the value is a text *)
Definition eval_value (v : mval) : res T := match v with MText t => ev t | MOther => Err TypeError end.

(** parser.py:902-916: one pass of the loop; [ms] is measurement_errors, [nobs] the size of HH.  sympy raises IndexError for an
    index outside of the matrix; the right-hand side of the assignment is evaluated first. *)
Definition meas_step (ms : seq string) (nobs : nat) (M : mat T) (kv : text * mval) : res (mat T) :=
  let l := split_at_comma kv.1 in
  let l := if size l == 1 then l ++ [:: head [::] l] else l in
  if size l == 2 then
    let a := str (M_Text.strip (nth [::] l 0)) in let b := str (M_Text.strip (nth [::] l 1)) in
    assert* a \in ms else ValueError in
    assert* b \in ms else ValueError in
    let i := index a ms in let j := index b ms in
    let* v := eval_value kv.2 in
    assert* (i < nobs) && (j < nobs) else IndexError in
    let M1 := put M i j v in
    Ok (put M1 j i (M1 i j))
  else Ok M.

(** parser.py:733-736, 898-916: [decl] is declarations/measurement_errors, [cal] is calibration/measurement_errors *)
Definition meas_matrix (zero : T) (nobs : nat) (decl : option (seq string)) (cal : option (seq (text * mval))) : res (mat T) :=
  match decl with
  | None => Ok (fun _ _ => zero)
  | Some ms => let* es := of_opt KeyError cal in foldM (meas_step ms nobs) es (fun _ _ => zero)
  end.
End Meas.

Section Read.
Variable F : fieldType.
Variable ptree : text -> option (rawexpr F).
Variable T : Type.
Variable ev : text -> res T.

(** parser.py:665-950: the model of a file and the matrix of measurement errors.  Simplified: if both this section and an observable
    are at fault, the code reports this section. *)
Definition read_model (zero : T) (f : rawfile F) (decl : option (seq string)) (cal : option (seq (text * mval))) :=
  let* p := parse_file ptree f in
  let* M := meas_matrix ev zero (size (observables f)) decl cal in
  Ok (p, M).
End Read.
