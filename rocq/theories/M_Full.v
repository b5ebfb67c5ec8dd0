(** The whole way from a parsed file to the model object used by tools.py: [gen_sys_from_yaml] and [gen_sys]
    (gensys.py:103-394), put together from the steps modelled in M_Parser, M_Pipe, M_GenSys and M_Engine.
    Not modelled: printing and timing, [get_hx_only], [solution] given by the caller, models without observables (the dummies of
    gensys.py:310-314). *)
Set Warnings "-all".
From Coq Require Import String.
From mathcomp Require Import all_ssreflect all_algebra.
From Verif Require Import PyBase PyStr M_Parser M_Engine M_GenSys M_Pipe M_Tools.
Set Implicit Arguments. Unset Strict Implicit. Unset Printing Implicit Defensive.
Import GRing.Theory Num.Theory.
Local Open Scope ring_scope.
Local Open Scope py_scope.

Section Full.
Variable F : realFieldType.
(** zero tolerance of [fast0]; [scipy.linalg.rq]; [klein(PU, MU, nstates=dimq)], external (grgrlib), which returns (omg, lam) or raises *)
Variable tol : F.
Variable rq : forall d, 'M[F]_d -> 'M[F]_d * 'M[F]_d.
Variable klein : forall a b, 'M[F]_(a + b) -> 'M[F]_(a + b) -> res ('M[F]_(b, a) * 'M[F]_a).

(** gensys.py:236-394.  [hx] (319-321, 336): [zp] has one column per control that is not a shock.  If a shock has zero loading it
    is among the controls, and the product of [zp] with the controls raises ValueError in the code; here [zp] is
    then replaced by zeros (the theorems exclude this case, which is C18's). *)
Definition gen_sys (m n e o : nat) (u : usys F m n e) (names : n.-tuple string) (shks : seq string)
    (ZZ0 : 'M[F]_(o, n)) (ZZ1 : 'cV[F]_o) (l_max k_max : nat) : res (tmodel F) :=
  let* vv := new_vv tol u names in
  let* sm := sys_of tol u rq in
  let* ol := klein (mS sm) (mT sm) in
  let* tb := preprocess sm (ff tol u) ol.1 ol.2 l_max k_max in
  Ok (@TM F (dimq tol u) (dimp tol u) tb.1 tb.2 l_max k_max (x_bar u) shks
        o #|dropeps (inq (tol:=tol) (u:=u))| (conform_mx 0 (zp tol u ZZ0)) (zq tol u ZZ0) ZZ1 vv.2).

(** parser.py:665-951 and gensys.py:103-175: the file is parsed, the bound [xb] is checked (137-138), the compiled
    matrices are evaluated at the parameters, and [list.index] finds the constrained variable (244) *)
Definition solve_file (m : rawmodel F) (par : string -> F) (xb : F) (l_max k_max : nat) : res (tmodel F) :=
  let* p := parse m in
  assert* xb <= 0 else NotImplementedErr in
  let* g := get_matrices p par in
  match insub (index (r_cvar m) (p_vars p)) with
  | Some c => gen_sys (usys_of_file g c xb) (in_tuple (p_vars p)) (p_shks p)
                (mx_of (size (p_obs p)) (size (p_vars p)) (g_ZZ0 g)) (\col_i nth 0 (g_ZZ1 g) i) l_max k_max
  | None => Err ValueError
  end.
End Full.
