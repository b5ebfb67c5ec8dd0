(** From the compiled lists of coefficients to the arguments of [gen_sys]. *)
Set Warnings "-all".
From Coq Require Import String.
From mathcomp Require Import all_ssreflect all_algebra.
From Verif Require Import PyBase PyStr M_Parser M_Engine M_GenSys.
Set Implicit Arguments. Unset Strict Implicit. Unset Printing Implicit Defensive.
Import GRing.Theory Num.Theory.
Local Open Scope ring_scope.

Section Pipe.
Variable F : realFieldType.

(** the numerical array of a list of rows (parser.py:301-331 builds sympy matrices of fixed size, which the compiled
    functions of gensys.py:141-149 return as arrays) *)
Definition mx_of (r c : nat) (rows : seq (seq F)) : 'M[F]_(r, c) := \matrix_(i, j) nth 0 (nth [::] rows i) j.
Definition row_of (c : nat) (row : seq F) : 'rV[F]_c := \row_j nth 0 row j.

(** gensys.py:139-151 and the call of [gen_sys] at 157-175: the arguments built from the compiled matrices [g] of a
    parsed model [p]; [c] is the position of the constrained variable (gensys.py:244), [xb] the bound (121-135) *)
Definition usys_of_file (p : parsed F) (g : matrices F) (c : 'I_(size (p_vars p))) (xb : F) :
    usys F (size (p_eqs p)) (size (p_vars p)) (size (p_shks p)) :=
  usys_of_yaml (mx_of _ _ (g_AA g)) (mx_of _ _ (g_BB g)) (mx_of _ _ (g_CC g)) (mx_of _ _ (g_PSI g))
    (row_of (size (p_vars p) + size (p_vars p)) (g_bb g)) (row_of _ (g_bbPSI g)) c xb.
End Pipe.

Section Hx.
Variable F : realFieldType.
Variable tol : F.
Variables m n e o : nat.
Variable u : usys F m n e.

(** gensys.py:271-272: zero columns for the auxiliary variables (none are added if there are no such variables) *)
Definition ZZpad (ZZ0 : 'M[F]_(o, n)) : 'M[F]_(o, n + na tol u) := row_mx ZZ0 0.
(** gensys.py:319-321: the columns of the controls and of the states without shocks ([dropeps], M_GenSys.v) *)
Definition zp (ZZ0 : 'M[F]_(o, n)) : 'M[F]_(o, #|dropeps (inp (tol:=tol) (u:=u))|) := selc (dropeps (inp (tol:=tol) (u:=u))) (ZZpad ZZ0).
Definition zq (ZZ0 : 'M[F]_(o, n)) : 'M[F]_(o, #|dropeps (inq (tol:=tol) (u:=u))|) := selc (dropeps (inq (tol:=tol) (u:=u))) (ZZpad ZZ0).
End Hx.
