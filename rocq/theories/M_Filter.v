(** Model of filtering.py: the matrices handed to the filters, initial covariances, recovery of shocks, extraction with the
    linear filter, and the control flow of [create_filter], [run_filter] and of the attempts in [extract].
    Not modelled: the filters themselves (package econsieve), timing, printing, progress bars, process pools. *)
Set Warnings "-all".
From Coq Require Import String.
From mathcomp Require Import all_ssreflect all_algebra.
From Verif Require Import PyBase PyStr M_FindLk M_Engine M_Tools.
Set Implicit Arguments. Unset Strict Implicit. Unset Printing Implicit Defensive.
Import GRing.Theory Num.Theory Order.TTheory.
Local Open Scope ring_scope.
Local Open Scope py_scope.

(** floating-point results: numbers, the two infinities, not-a-number *)
Inductive xr (F : Type) := Fin (x : F) | PInf | NInf | NaN.
Arguments PInf {F}. Arguments NInf {F}. Arguments NaN {F}.
Definition isnan {F} (x : xr F) : bool := if x is NaN then true else false.
Definition isinf {F} (x : xr F) : bool := match x with PInf | NInf => true | _ => false end.

Section Slices.
Variable F : ringType.
(** entry of a matrix by position, and [A[i0:i0+r, j0:j0+c]] for slices inside the matrix *)
Definition mget (a b : nat) (A : 'M[F]_(a, b)) (i j : nat) : F :=
  match insub i, insub j with Some i', Some j' => A i' j' | _, _ => 0 end.
Definition slice (a b : nat) (A : 'M[F]_(a, b)) (i0 r j0 c : nat) : 'M[F]_(r, c) := \matrix_(i, j) mget A (i0 + i) (j0 + j).
End Slices.

Section Filter.
Variable F : realFieldType.
(** scipy.linalg.solve_discrete_lyapunov and numpy.linalg.pinv (with its [rcond]) *)
Variable lyap : forall n, 'M[F]_n -> 'M[F]_n -> res 'M[F]_n.
Variable pinv : forall a b, 'M[F]_(a, b) -> 'M[F]_(b, a).

(** number of endogenous states [dimq - neps] and of variables [dimx] *)
Definition ns (m : tmodel F) : nat := (dq m - neps m)%N.
Definition dx (m : tmodel F) : nat := (dp m + ns m)%N.

(** [pmat[1, 0]], [qmat[1, 0]] *)
Definition cell10 (m : tmodel F) : res (cell F (dq m) (dp m)) :=
  let* l := py_index IndexError (lmx m).+1 1 in of_opt UninitRead (tab m l 0%N).

(** filtering.py:28-29, 175-178: [np.vstack((pmat[1, 0][:, :-neps], qmat[1, 0][:-neps, :-neps]))], for neps > 0 *)
Definition F_of (m : tmodel F) (c : cell F (dq m) (dp m)) : 'M[F]_(dx m, ns m) :=
  col_mx (slice (pm c) 0 (dp m) 0 (ns m)) (slice (qm c) 0 (ns m) 0 (ns m)).
(** filtering.py:31-32, 49-51, 185-188: [np.vstack((pmat[1, 0][:, -neps:], qmat[1, 0][:-neps, -neps:]))] *)
Definition E_of (m : tmodel F) (c : cell F (dq m) (dp m)) : 'M[F]_(dx m, neps m) :=
  col_mx (slice (pm c) 0 (dp m) (ns m) (neps m)) (slice (qm c) 0 (ns m) (ns m) (neps m)).

(** a square matrix with its size: [filter.Q] *)
Definition sqmat := {d : nat & 'M[F]_d}.
Definition Sq (d : nat) (A : 'M[F]_d) : sqmat := existT (fun d => 'M[F]_d) d A.
Definition as_size (d : nat) (q : sqmat) : option 'M[F]_d :=
  match projT1 q =P d with ReflectT e => Some (castmx (e, e) (projT2 q)) | ReflectF _ => None end.

(** filtering.py:184-189 *)
Definition kf_Q (m : tmodel F) (c : cell F (dq m) (dp m)) (q : sqmat) : sqmat :=
  match as_size (neps m) q with
  | Some Q => Sq (E_of c *m Q *m (E_of c)^T)
  | None => q
  end.

(** the attributes of the linear filter set by run_filter *)
Record kf (m : tmodel F) := KFs {
  k_F : 'M[F]_(dx m); k_H : 'M[F]_(nobs m, dp m + nsv m) * 'cV[F]_(nobs m); k_Q : sqmat; k_P : 'M[F]_(dx m) }.

(** filtering.py:170-197; [init_cov] is [self.filter.init_cov] *)
Definition setup_kf (m : tmodel F) (q : sqmat) (init_cov : option 'M[F]_(dx m)) : res (kf m) :=
  let* c := cell10 m in
  let F1 := F_of c in
  let Fp : 'M[F]_(dx m) := row_mx 0 F1 in                         (* np.pad(F, ((0, 0), (dimp, 0))) *)
  let q' := kf_Q c q in
  let* P := match init_cov with
            | Some P => Ok P
            | None =>
                let* Q := of_opt ValueError (as_size (dx m) q') in
                let* p4 := lyap (drsubmx (Fp : 'M[F]_(dp m + ns m))) (drsubmx (Q : 'M[F]_(dp m + ns m))) in
                Ok (rsubmx Fp *m p4 *m dsubmx Fp^T + Q)
            end in
  Ok (KFs Fp (row_mx (hxp m) (hxq m), hxc m) q' P).

(** filtering.py:23-38 *)
Definition get_p_init_lyapunov (m : tmodel F) (Q : 'M[F]_(neps m)) : res 'M[F]_(dx m) :=
  let* c := cell10 m in
  let QE := E_of c *m Q *m (E_of c)^T in
  let* p4 := lyap (dsubmx (F_of c)) (drsubmx (QE : 'M[F]_(dp m + ns m))) in
  Ok (F_of c *m p4 *m (F_of c)^T + QE).

(** filtering.py:217-224, the filter in reduced form *)
Definition init_reduced (m : tmodel F) (Q : 'M[F]_(neps m)) : res 'M[F]_(ns m) :=
  let* c := cell10 m in
  let E2 := slice (qm c) 0 (ns m) (ns m) (neps m) in
  lyap (slice (qm c) 0 (ns m) 0 (ns m)) (E2 *m Q *m E2^T).

(** filtering.py:41-57 for the linear filter with [filter.F] *)
Definition get_eps_lin (m : tmodel F) (Ff : 'M[F]_(dx m)) (x xp : seq F) : res (seq F) :=
  let* c := cell10 m in
  let* fx := matvec Ff xp in
  let* d := vadd x [seq - y | y <- fx] in
  matvec (pinv (E_of c)) d.
(** the same for all other filters *)
Definition get_eps_other (m : tmodel F) (x xp : seq F) : res (seq F) :=
  let* c := cell10 m in
  let* fx := matvec (slice (qm c) 0 (dq m) 0 (ns m)) xp in
  let* d := vadd x [seq - y | y <- fx] in
  matvec (pinv (slice (qm c) 0 (dq m) (ns m) (neps m))) d.

(** filtering.py:422-430: [res] after the current period, the smoothed means of the remaining periods; the shocks and the
    states that the loop stores in [resid] and [res] *)
Fixpoint extract_loop (m : tmodel F) (Ff : 'M[F]_(dx m)) (cur : seq F) (means : seq (seq F)) : res (seq (seq F) * seq (seq F)) :=
  match means with
  | [::] => Ok ([::], [::])
  | x :: means' =>
      let* e := get_eps_lin Ff x cur in
      let* r := t_func m cur (Some e) KNone true in
      let* rest := extract_loop Ff r.1.1 means' in
      Ok (e :: rest.1, r.1.1 :: rest.2)
  end.
(** returns [res[0]], [resid], and the array [res] *)
Definition extract_kf (m : tmodel F) (Ff : 'M[F]_(dx m)) (means : seq (seq F)) : res (seq F * seq (seq F) * seq (seq F)) :=
  match means with
  | [::] => Err IndexError
  | x0 :: means' => let* r := extract_loop Ff x0 means' in Ok (x0, r.1, x0 :: r.2)
  end.

(** filtering.py:14-20: [np.diagflat(np.var(Z, axis=0) * scale_obs ** 2)] for data with [n] rows and [k] columns *)
Definition mean (n : nat) (f : 'I_n -> F) : F := (\sum_i f i) / n%:R.
Definition var (n : nat) (f : 'I_n -> F) : F := mean (fun i => (f i - mean f) ^+ 2).
Definition create_obs_cov (n k : nat) (Z : 'M[F]_(n, k)) (scale : F) : 'M[F]_k :=
  diag_mx (\row_j (var (fun i => Z i j) * scale ^+ 2)).
End Filter.

(** * Control flow *)
Inductive fkind := KalmanF | InversionF | ParticleF | EnsembleF.
(** filtering.py:73-119; [fargs] are the names of the extra keyword arguments with their values as text, [have_wip] tells
    whether the package grgrwip is installed; the module pydsge.pfilter does not exist.  Errors of the constructors of
    econsieve are not modelled. *)
Definition canon (ftype : option string) : option string :=
  if ftype == Some "KalmanFilter"%string then Some "KF"%string
  else if ftype == Some "ParticleFilter"%string then Some "PF"%string
  else if ftype == Some "AuxiliaryParticleFilter"%string then Some "APF"%string
  else if ftype == Some "InversionFilter"%string then Some "IF"%string
  else ftype.
Definition lookup (k : string) (l : seq (string * string)) : res string :=
  of_opt KeyError (ohead [seq x.2 | x <- l & x.1 == k]).
Definition create_filter (have_wip : bool) (observables shocks : seq string) (ftype : option string) (fargs : seq (string * string)) : res fkind :=
  let t := canon ftype in
  if t == Some "KF"%string then Ok KalmanF
  else if t == Some "IF"%string then
    (if ~~ have_wip then Err ImportErr else
     let* oo := lookup "omitted_obs" fargs in
     let* _ := py_find oo observables in
     let* os := lookup "omitted_shock" fargs in
     let* _ := py_find os shocks in
     let* _ := lookup "x_bar" fargs in
     if "x_bar"%string \in [seq x.1 | x <- fargs] then Err TypeError else Ok InversionF)  (* x_bar=..., **fargs *)
  else if t \in [:: Some "PF"; Some "APF"]%string then Err ImportErr
  else Ok EnsembleF.
(** filtering.py:114-115, the default number of ensemble members: [int((dimq - dimeps) ** 2 / 2) + 1] *)
Definition default_N (dimq dimeps : nat) : nat := ((dimq - dimeps) ^ 2)./2.+1.

Section Run.
Variables F S : Type.
(** filtering.py:140-307.  [setup] is the assignment of matrices and functions for this kind of filter, [ll] the likelihood
    and [states] the (smoothed) states as computed by the filter object.  Returns the likelihood or the states. *)
Definition run_filter (ncols neps : nat) (kind : fkind) (smoother get_ll dispatch : bool)
    (setup : res unit) (ll : res (xr F)) (states : res S) : res (xr F + S) :=
  if ncols == 1%N then Err NotImplementedErr else
  if ncols != neps then Err NotImplementedErr else
  let* _ := match kind with
            | KalmanF => setup
            | InversionF => Ok tt
            | ParticleF => Err ImportErr                              (* lines 205-206 *)
            | EnsembleF => if dispatch then Err ImportErr else setup
            end in
  let* _ := (if (if kind is InversionF then smoother else false) then Err NotImplementedErr else Ok tt) in
  let* r := (if get_ll then rmap inl ll else rmap inr states) in
  Ok (match r with inl x => inl (if isnan x then NInf else x) | inr s => inr s end).
(** filtering.py:136-137 *)
Definition get_ll (ncols neps : nat) (kind : fkind) (dispatch : bool) (setup : res unit) (ll : res (xr F)) (states : res S) :=
  run_filter ncols neps kind false true dispatch setup ll states.
End Run.

Section Attempts.
Variables W A R : Type.
(** the sampling smoother [filter.npas]: depends on its arguments (with the seed) and on the global state (random numbers) *)
Variable npas : W -> A -> res R * W.
(** filtering.py:442-457: the loop; the last error, if all failed *)
Fixpoint attempts (n : nat) (w : W) (a : A) (last : option exn) : (res R + option exn) * W :=
  match n with
  | 0%N => (inr last, w)
  | n'.+1 =>
      let: (r, w') := npas w a in
      match r with
      | Ok x => (inl (Ok x), w')
      | Err KeyboardInterruptExn => (inl (Err KeyboardInterruptExn), w')  (* not an Exception *)
      | Err e => attempts n' w' a (Some e)
      end
  end.
(** filtering.py:442-472; [None] is returned for a failure that is accepted *)
Definition attempt (nattemps : nat) (accept_failure : bool) (w : W) (a : A) : res (option R) :=
  match (attempts nattemps w a None).1 with
  | inl r => rmap (@Some R) r
  | inr None => Err UnboundLocal
  | inr (Some e) => if accept_failure then Ok None else Err e
  end.
End Attempts.
