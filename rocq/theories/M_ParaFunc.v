(** Model of the resolution of derived parameters (parser.py:354-432) and of the covariance section
    (parser.py:874-896). *)
Set Warnings "-all".
From Coq Require Import String Ascii.
From mathcomp Require Import all_ssreflect.
From Verif Require Import PyBase PyStr.
Set Implicit Arguments. Unset Strict Implicit. Unset Printing Implicit Defensive.
Local Open Scope py_scope.

Section ParaFunc.
Variable T : Type.   (** values: sympy expressions in the parameters *)

(** one entry of calibration/parafunc: its name, the names its text refers to, and the value of the text as a
    function of the values of these names.  Python evaluates the whole text, so every name is looked up;
    an exception other than NameError in the text is not modelled. *)
Record defn := Defn { d_name : string; d_refs : seq string; d_fun : seq T -> T }.

(** the dictionary [context] *)
Definition ctx := seq (string * T).
Definition get (c : ctx) (n : string) : option T := ohead [seq x.2 | x <- c & x.1 == n].

(** parser.py:417-418: [eval(str(self["para_func"][p.name]), context)] *)
Definition eval_def (c : ctx) (d : defn) : res T :=
  let* vs := mapM (fun n => of_opt NameError (get c n)) (d_refs d) in Ok (d_fun d vs).

(** parser.py:414-432: one pass of the for loop; [ds] pairs each definition with its [checker] flag *)
Fixpoint pass (raise_error : bool) (ds : seq (defn * bool)) (c : ctx) (suc : bool)
    : res (seq (defn * bool) * ctx * bool) :=
  match ds with
  | [::] => Ok ([::], c, suc)
  | (d, true) :: ds' =>
      let* r := pass raise_error ds' c suc in let: (ds1, c1, s1) := r in Ok ((d, true) :: ds1, c1, s1)
  | (d, false) :: ds' =>
      match eval_def c d with
      | Ok v => let* r := pass raise_error ds' ((d_name d, v) :: c) true in
                let: (ds1, c1, s1) := r in Ok ((d, true) :: ds1, c1, s1)
      | Err NameError => if raise_error then Err NameError
                else let* r := pass raise_error ds' c suc in let: (ds1, c1, s1) := r in Ok ((d, false) :: ds1, c1, s1)
      | Err x => Err x
      end
  end.

(** parser.py:404-413: the while loop.  [None]: the fuel does not suffice *)
Fixpoint loop (fuel : nat) (suc : bool) (ds : seq (defn * bool)) (c : ctx) : option (res ctx) :=
  if all (fun x => x.2) ds then Some (Ok c) else
  match fuel with
  | 0 => None
  | n.+1 => match pass (~~ suc) ds c false with
            | Err e => Some (Err e)
            | Ok (ds', c', suc') => loop n suc' ds' c'
            end
  end.

(** parser.py:404-432 *)
Definition resolve_defs (fuel : nat) (ds : seq defn) (c : ctx) : option (res ctx) :=
  loop fuel true [seq (d, false) | d <- ds] c.

End ParaFunc.

(** ** the covariance section *)

(** Python's [str.strip] on spaces *)
Definition is_space (a : ascii) : bool := Ascii.eqb a " "%char.
Fixpoint lstrip (s : string) : string :=
  match s with String a s' => if is_space a then lstrip s' else s | EmptyString => s end.
Fixpoint rstrip (s : string) : string :=
  match s with
  | EmptyString => EmptyString
  | String a s' => match rstrip s' with
                   | EmptyString => if is_space a then EmptyString else String a EmptyString
                   | r => String a r end
  end.
Definition strip (s : string) : string := rstrip (lstrip s).

(** [key.split(",")] *)
Fixpoint split_comma (s : string) : seq string :=
  match s with
  | EmptyString => [:: EmptyString]
  | String a s' =>
      if Ascii.eqb a ","%char then EmptyString :: split_comma s'
      else match split_comma s' with h :: t => String a h :: t | [::] => [:: String a EmptyString] end
  end.

Section Cov.
Variable T : Type.
Definition mat := nat -> nat -> T.
Definition put (M : mat) (i j : nat) (v : T) : mat := fun a b => if (a == i) && (b == j) then v else M a b.

(** parser.py:882-896: one pass of the loop; [shks] is shk_ordering *)
Definition cov_step (shks : seq string) (M : mat) (kv : string * T) : res mat :=
  let l := split_comma kv.1 in
  let l := if size l == 1 then l ++ [:: head EmptyString l] else l in
  if size l == 2 then
    let i := strip (head EmptyString l) in let j := strip (nth EmptyString l 1) in
    assert* i \in shks else ValueError in
    assert* j \in shks else ValueError in
    let M1 := put M (index i shks) (index j shks) kv.2 in
    Ok (put M1 (index j shks) (index i shks) (M1 (index i shks) (index j shks)))
  else Ok M.

(** parser.py:874-896: [zero] is sympy's 0 *)
Definition covariance (zero : T) (cov : seq (string * T)) : res mat :=
  foldM (cov_step [seq kv.1 | kv <- cov]) cov (fun _ _ => zero).
End Cov.
