(** Vocabulary of the property about models given as a dict. *)
Set Warnings "-all".
From Coq Require Import String.
From mathcomp Require Import all_ssreflect all_algebra.
From Verif Require Import PyBase PyStr M_Parser M_Engine S_Engine M_GenSys S_GenSys S_GenSys2 M_Pipe M_Tools S_Tools M_Full S_Full M_Dict.
Set Implicit Arguments. Unset Strict Implicit. Unset Printing Implicit Defensive.
Import GRing.Theory Num.Theory.
Local Open Scope ring_scope.

Section Spec.
Variable F : realFieldType.

(** the entry of [x] under the name [a] *)
Definition named n (names : n.-tuple string) (x : 'cV[F]_n) (a : string) : F := \sum_(j | tnth names j == a) x j 0.

(** the dict with the matrices of a parsed file at given parameters: coefficients of leads, current values, lags and shocks of the
    equations (all on the left side) and of the constraint, the observables and the bound *)
Definition dict_of_file (mf : rawmodel F) (p : parsed F) (g : matrices F) (xb : F) :
    mdict F (size (p_eqs p)) (size (p_vars p)) (size (p_shks p)) (size (p_obs p)) :=
  let bb := row_of (size (p_vars p) + size (p_vars p)) (g_bb g) in
  MDict (in_tuple (p_vars p)) true (in_tuple (p_shks p)) (r_cvar mf) (Some xb)
    (mx_of _ _ (g_AA g)) (mx_of _ _ (g_BB g)) (mx_of _ _ (g_CC g)) (- mx_of _ _ (g_PSI g))
    (- lsubmx bb) (- rsubmx bb) (Some (- row_of _ (g_bbPSI g)))
    (Some (mx_of _ _ (g_ZZ0 g), \col_i nth 0 (g_ZZ1 g) i)) None None.

Variables m n e o : nat.
Implicit Type d : mdict F m n e o.

(** entries replaced *)
Definition with_fc d fc fd : mdict F m n e o :=
  MDict (k_vars d) (k_array d) (k_shocks d) (k_cvar d) (k_xbar d) (k_AA d) (k_BB d) (k_CC d) (k_DD d) (k_fb d) fc fd (k_ZZ d) (k_gx d) (k_hx d).
Definition with_xbar d xb : mdict F m n e o :=
  MDict (k_vars d) (k_array d) (k_shocks d) (k_cvar d) xb (k_AA d) (k_BB d) (k_CC d) (k_DD d) (k_fb d) (k_fc d) (k_fd d) (k_ZZ d) (k_gx d) (k_hx d).
Definition with_solution d gx hx : mdict F m n e o :=
  MDict (k_vars d) (k_array d) (k_shocks d) (k_cvar d) (k_xbar d) (k_AA d) (k_BB d) (k_CC d) (k_DD d) (k_fb d) (k_fc d) (k_fd d) (k_ZZ d) gx hx.

(** Conditions on the entries, as for files: names differ, the coefficients are zero or clearly not, every shock has an effect, the
    variables of the constraint occur in the equations.  Lags in the constraint are allowed if there is no entry "fd".  A solution "gx",
    "hx" that is given solves the system. *)
Record regular_dict (tol : F) (rq : forall r, 'M[F]_r -> 'M[F]_r * 'M[F]_r) d (c : 'I_n) : Prop := RegularDict {
  rd_cvar : tnth (k_vars d) c = k_cvar d;
  rd_scale : well_scaled (usys_of_dict d c) tol;
  rd_conn : constraint_connected (usys_of_dict d c);
  rd_nll : no_lead_lag (usys_of_dict d c);
  rd_enc : encodable (usys_of_dict d c);
  rd_load : shocks_loaded tol (usys_of_dict d c);
  rd_names : uniq (vv0 tol (usys_of_dict d c) (k_vars d));
  rd_given : forall gx hx sm, k_gx d = Some gx -> k_hx d = Some hx -> sys_of tol (usys_of_dict d c) rq = Ok sm ->
    linear_solution (mS sm) (mT sm) (conform_mx 0 (mx_val gx)) (conform_mx 0 (mx_val hx)) }.

(** What a period means.  The model [mdl] is in the reported state [st], is hit by the shocks [sh], and reports [x] and the durations
    (l,k).  Then there are paths [xs] of the variables (xs 0: the period before, xs 1: this period, ...) and [eps] of the shocks such that
    - they have the past [st] and the shocks [sh], and [x] reports the values of this period;
    - AA x(t+1) + BB x(t) + CC x(t-1) + DD eps(t) = 0 in this and all later periods; the constrained variable is at the bound in periods
      l, ..., l+k-1, and fb x(t) + fc x(t-1) + fd eps(t) = 0 in all others. *)
Definition period_solves_dict d (c : 'I_n) (mdl : tmodel F) (st sh x : seq F) (l k : nat)
    (xs : nat -> 'cV[F]_n) (eps : nat -> 'cV[F]_e) : Prop :=
  let rep t := [seq named (k_vars d) (xs t) (original (k_vars d) a) | a <- vvs mdl] in
  [/\ no_future_shocks eps /\ (forall j : 'I_e, eps 0%N j 0 = nth 0 sh j), drop (dp mdl) (rep 0%N) = last_n (nq mdl) st, rep 1%N = x &
      solves (k_AA d) (k_BB d) (k_CC d) (k_DD d) (k_fb d) (k_fc d) (odflt 0 (k_fd d)) c (odflt (-1) (k_xbar d)) (binds l k) xs eps].
End Spec.
