(** Models given as a dict of matrices: [gen_sys_from_dict] without its cache (gensys.py:43-96; the cache is in M_Cache.v). *)
Set Warnings "-all".
From Coq Require Import String.
From mathcomp Require Import all_ssreflect all_algebra.
From Verif Require Import PyBase PyStr M_Parser M_Engine M_GenSys M_Pipe M_Tools M_Full.
Set Implicit Arguments. Unset Strict Implicit. Unset Printing Implicit Defensive.
Import GRing.Theory Num.Theory.
Local Open Scope ring_scope.
Local Open Scope py_scope.

Section Dict.
Variable F : realFieldType.
Variable tol : F.
Variable rq : forall d, 'M[F]_d -> 'M[F]_d * 'M[F]_d.
Variable klein : forall a b, 'M[F]_(a + b) -> 'M[F]_(a + b) -> res ('M[F]_(b, a) * 'M[F]_a).
Variables m n e o : nat.   (* number of equations, variables, shocks, observables *)

(** a matrix of any shape *)
Record anymx := AnyMx { nr : nat; nc : nat; mx_val : 'M[F]_(nr, nc) }.

(** the entries of the dict (gensys.py:50-91); [None]: no such entry.  The entries that are always needed are there and have matching
    shapes; ZZ0 and ZZ1 are given together.  [k_array]: is "vars" a numpy array?  (else a list) *)
Record mdict := MDict {
  k_vars : n.-tuple string; k_array : bool; k_shocks : e.-tuple string; k_cvar : string; k_xbar : option F;
  k_AA : 'M[F]_(m, n); k_BB : 'M[F]_(m, n); k_CC : 'M[F]_(m, n); k_DD : 'M[F]_(m, e);
  k_fb : 'rV[F]_n; k_fc : 'rV[F]_n; k_fd : option 'rV[F]_e;
  k_ZZ : option ('M[F]_(o, n) * 'cV[F]_o); k_gx : option anymx; k_hx : option anymx }.

(** gensys.py:53-60 *)
Definition bound_of (d : mdict) : F := odflt (-1) (k_xbar d).
Definition usys_of_dict (d : mdict) (c : 'I_n) : usys F m n e :=
  USys (k_AA d) (k_BB d) (k_CC d) (k_DD d) (k_fb d) (k_fc d) (k_fd d) c (bound_of d).

(** gensys.py:75-77 and 358-368: where omg and lam come from.  Only "gx" is asked for.  Matrices of wrong shapes, or None, are
    refused by the compiled function [preprocess_jittable] (its TypingError is given as TypeError here) *)
Definition solution (d : mdict) a b (S T : 'M[F]_(a + b)) : res ('M[F]_(b, a) * 'M[F]_a) :=
  match k_gx d with
  | None => klein S T
  | Some gx => match k_hx d with
      | None => Err TypeError
      | Some hx => if [&& nr gx == b, nc gx == a, nr hx == a & nc hx == a]
                   then Ok (conform_mx 0 (mx_val gx), conform_mx 0 (mx_val hx)) else Err TypeError
      end
  end.

(** gensys.py:43-100.  238: [len(ZZ0)] raises TypeError for None.  244: [list.index].  264 or 327: a list is indexed with an array.
    The bound is not checked. *)
Definition solve_dict (d : mdict) (l_max k_max : nat) : res (tmodel F) :=
  let* zz := of_opt TypeError (k_ZZ d) in
  match insub (index (k_cvar d) (k_vars d)) with
  | None => Err ValueError
  | Some c =>
      assert* k_array d else TypeError in
      gen_sys tol rq (solution d) (usys_of_dict d c) (k_vars d) (k_shocks d) zz.1 zz.2 l_max k_max
  end.

(** methods of the result.  [self.set_par] is None (gensys.py:49): [simulate] then leaves the model as it is (tools.py:434), [irfs] with
    parameters calls None *)
Definition dict_simulate (mdl : tmodel F) P (op : F -> F -> F) mask linear (par : P) eps st := sim_run (fun _ : P => Ok mdl) op mask linear par eps st.
Definition no_set_par (P : Type) (par : P) : res (tmodel F) := Err TypeError.
End Dict.
