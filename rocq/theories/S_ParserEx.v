(** Example model files. *)
Set Warnings "-all".
From Coq Require Import String.
From mathcomp Require Import all_ssreflect all_algebra.
From Verif Require Import PyBase PyStr M_Parser S_Parser.
Set Implicit Arguments. Unset Strict Implicit. Unset Printing Implicit Defensive.
Import GRing.Theory.
Local Open Scope ring_scope.
Local Open Scope string_scope.

Definition n_ (s : string) : rawexpr rat_fieldType := At (s, None).
Definition l_ (s : string) (d : int) : rawexpr rat_fieldType := At (s, Some d).

(** variables x, z, r; x = a*x(-2) - r + 1, z = e(-1) + z(+2); constraint r = 2*x + e; observable o = x + 3 *)
Definition ex_m : rawmodel rat_fieldType := RawModel
  [:: "x"; "z"; "r"] [:: "a"] [:: "e"] [::]
  [:: (n_ "x", Add (Sub (Mul (n_ "a") (l_ "x" (-2))) (n_ "r")) (Cst 1));
      (n_ "z", Add (l_ "e" (-1)) (l_ "z" 2))]
  "r" (n_ "r", Add (Mul (Cst 2%:Q) (n_ "x")) (n_ "e"))
  [:: ("o", Add (n_ "x") (Cst 3%:Q))].

(** the same with z(+3) and without the lag of the shock: x = a*x(-2) - r + 1, z = e + z(+3) *)
Definition ex_lead : rawmodel rat_fieldType := RawModel
  [:: "x"; "z"; "r"] [:: "a"] [:: "e"] [::]
  [:: (n_ "x", Sub (l_ "x" (-1)) (n_ "r"));
      (n_ "z", Add (n_ "e") (l_ "z" 3))]
  "r" (n_ "r", n_ "x")
  [:: ("o", Add (n_ "x") (l_ "x" (-1)))].
