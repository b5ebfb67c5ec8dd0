(** Vocabulary of the property that connects the file with simulated periods. *)
Set Warnings "-all".
From Coq Require Import String.
From mathcomp Require Import all_ssreflect all_algebra.
From Verif Require Import PyBase PyStr M_Parser S_Parser M_Engine S_Engine M_GenSys S_GenSys S_GenSys2 M_Pipe S_Pipe M_Tools S_Tools.
Set Implicit Arguments. Unset Strict Implicit. Unset Printing Implicit Defensive.
Import GRing.Theory Num.Theory.
Local Open Scope ring_scope.

(** the variable behind a reported name: itself, or v for the copy v_lag *)
Definition original (names : seq string) (a : string) : string :=
  if a \in names then a else nth a names (index a [seq append v "_lag" | v <- names]).

Section Spec.
Variable F : realFieldType.

(** the values in period [t] under the reported names [vv] *)
Definition report (names vv : seq string) (X : path F) (t : int) : seq F := [seq X (original names a) t | a <- vv].

(** every shock has a coefficient, in a model equation or in the constraint, that is not numerically zero *)
Definition shocks_loaded (tol : F) (m n e : nat) (u : usys F m n e) : Prop :=
  forall k, (exists i, tol <= `|DD0 u i k|) \/ (exists fd, fd0 u = Some fd /\ tol <= `|fd 0 k|).
End Spec.

(** Conditions on a file and its parameters: [p] the parsed file, [eqs] and [ceq] its equations and its constraint
    equation after all names have been resolved, [g] the matrices, [c] the place of the constrained variable, [xb] the bound. *)
Record regular_file (F : realFieldType) (tol : F) (m : rawmodel F) (p : parsed F) (eqs : seq (eqn F)) (ceq : eqn F)
    (par : string -> F) (g : matrices F) (c : 'I_(size (p_vars p))) (xb : F) : Prop := Regular {
  (* the file can be parsed, no name is declared twice *)
  rf_parse : parse m = Ok p;
  rf_eqs : declared_eqs m = Ok eqs;
  rf_ceq : resolve_eqn (context m) (r_ceq m) = Ok ceq;
  rf_vars : uniq (p_vars p);
  rf_shks : uniq (r_shks m);
  rf_cvar : nth EmptyString (p_vars p) c = r_cvar m;
  (* the equations are linear without constant; the constraint has no leads and at most one lag *)
  rf_aff : each (fun q => affine_eqn q) eqs;
  rf_lead : no_shock_lead eqs;
  rf_leads : leads_upto 2 eqs;
  rf_caff : affine_eqn ceq;
  rf_cdates : dates_in (-1) 0 0 0 (set_eq_zero ceq);
  rf_const : each (fun q => const_of par q = 0) (p_eqs p);
  rf_cconst : const_of par ceq = 0;
  (* an observable is a linear function of variables of its period *)
  rf_obs : forall o, List.In o (p_obs p) -> [/\ affine o.2, no_shocks o.2 & dates_in 0 0 0 0 o.2];
  (* no coefficient is so small that it counts as zero, every shock has an effect, and the variables of the constraint occur in the model *)
  rf_mats : get_matrices p par = Ok g;
  rf_scale : well_scaled (usys_of_file g c xb) tol;
  rf_conn : constraint_connected (usys_of_file g c xb);
  (* lagged terms of the constraint are excluded, because the code gets them wrong (C12, C13) *)
  rf_nll : no_lead_lag (usys_of_file g c xb);
  rf_enc : encodable (usys_of_file g c xb);
  rf_load : shocks_loaded tol (usys_of_file g c xb);
  (* the copies v_lag made by the code do not clash with names of the file *)
  rf_names : uniq (vv0 tol (usys_of_file g c xb) (in_tuple (p_vars p))) }.

(** The past and the shocks of a period: nobody expects shocks after period 0, in which they are [sh]; the states of period -1 are those
    of [st]; earlier values, and earlier shocks, are those of the auxiliary variables x_LAG1, x_LAG2, ..., e_VAR that the parser adds. *)
Definition starts_from (F : realFieldType) (m : rawmodel F) (p : parsed F) (mdl : tmodel F) (st sh : seq F) (X E : path F) : Prop :=
  [/\ surprise_only (r_shks m) E, [seq E s 0 | s <- r_shks m] = sh,
      drop (dp mdl) (report (p_vars p) (vvs mdl) X (-1)) = last_n (nq mdl) st,
      forall v i, X v (-1 - i.+1%:Z) = X (var_lag v i.+1) (-1) &
      forall s t, t < 0 -> E s t = X (var_s s) t].

(** What a simulated period means.  The model [mdl] is in the reported state [st], is hit by the shocks [sh], and reports [x] and the
    durations (l,k).  Then there are paths [X] of the variables and [E] of the shocks such that
    - they have the past [st] and the shocks [sh];
    - the equations of the file hold in this and all later periods; the constraint binds in periods l, ..., l+k-1;
    - [x] reports the values of period 0;
    - if no shocks hit and the expectations are carried on, the model reports the values of periods 1, 2, ...;
    - the observables computed from the report of a period have the values of the expressions declared in the file *)
Definition period_solves (F : realFieldType) (m : rawmodel F) (p : parsed F) (eqs : seq (eqn F)) (ceq : eqn F) (par : string -> F)
    (xb : F) (mdl : tmodel F) (st sh x : seq F) (l k : nat) (X E : path F) : Prop :=
  let rep := report (p_vars p) (vvs mdl) X in
  [/\ starts_from m p mdl st sh X E,
      solves_file par eqs ceq (r_cvar m) xb (binds l k) X E,
      rep 0 = x,
      forall s : nat, t_func mdl (rep s%:Z) None (KTuple (remaining l k s.+1).1 (remaining l k s.+1).2) false =
                Ok (rep (s%:Z + 1), lkz (remaining l k s.+1), 0%N) &
      forall t : int, obs_row mdl (rep t) = Ok [seq eval (value par X E t) o.2 | o <- p_obs p]].

(** what is assumed of the two external routines: [rq] factorises, and what [klein] returns is a linear solution (or it raises) *)
Definition rq_ok (F : realFieldType) (rq : forall d, 'M[F]_d -> 'M[F]_d * 'M[F]_d) : Prop := forall d, is_rq (@rq d).
Definition klein_ok (F : realFieldType) (klein : forall a b, 'M[F]_(a + b) -> 'M[F]_(a + b) -> res ('M[F]_(b, a) * 'M[F]_a)) : Prop :=
  forall a b (S T : 'M[F]_(a + b)) omg lam, klein a b S T = Ok (omg, lam) -> linear_solution S T omg lam.
