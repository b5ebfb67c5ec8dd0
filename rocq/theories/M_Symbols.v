(** Model of pydsge/symbols.py: dated symbols. *)
From Coq Require Import String ZArith DecimalString.
Local Open Scope Z_scope.

(** symbols.py:82-135: the classes of dated symbols used by the parser ([LaggedExpectation] is never used) *)
Inductive cls := CVariable | CShock.

(** symbols.py:26-45: class, name, date and expectation date of a symbol *)
Record tsym := TSym { ts_cls : cls; ts_name : string; ts_date : Z; ts_exp : Z }.

(** Python's [str] of an integer *)
Definition py_str_Z (z : Z) : string := NilZero.string_of_int (Z.to_int z).

(** symbols.py:26-45: the constructor; both dates are optional and 0 by default *)
Definition mk (c : cls) (name : string) (date exp : option Z) : tsym :=
  TSym c name (match date with Some d => d | None => 0 end) (match exp with Some d => d | None => 0 end).

(** symbols.py:47-51: calling a symbol *)
Definition call (v : tsym) (lead : Z) : tsym := mk (ts_cls v) (ts_name v) (Some (ts_date v + lead)) None.

(** symbols.py:61-62 and sympy's [Basic.__eq__]: same class and same hashable content *)
Definition hashable (v : tsym) : string * string * string := (ts_name v, py_str_Z (ts_date v), py_str_Z (ts_exp v)).
Definition sym_eq (v w : tsym) : Prop := ts_cls v = ts_cls w /\ hashable v = hashable w.

(** symbols.py:74-79 [TSymbol.__str__] *)
Definition tstr (v : tsym) : string :=
  if ts_date v =? 0 then ts_name v else (ts_name v ++ "(" ++ py_str_Z (ts_date v) ++ ")")%string.
(** symbols.py:90-97 [Variable.__str__] *)
Definition py_str (v : tsym) : string :=
  match ts_cls v with
  | CVariable => if ts_exp v =? 0 then tstr v else ("E[" ++ py_str_Z (ts_exp v) ++ "]" ++ tstr v)%string
  | CShock => tstr v
  end.
