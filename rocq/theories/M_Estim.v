(** Model of estimation.py (prep_estim with the functions llike and lprob it builds) and of mcmc.py.  Process pools: M_Pool.
    Not modelled: printing, timing, the prior distributions ([lprior], [bptrans] are oracles), the sampler itself. *)
Set Warnings "-all".
From Coq Require Import String ZArith.
From mathcomp Require Import all_ssreflect all_algebra.
From Verif Require Import PyBase PyStr M_Solve M_Filter M_Params.
Set Implicit Arguments. Unset Strict Implicit. Unset Printing Implicit Defensive.
Import GRing.Theory Num.Theory Order.TTheory.
Local Open Scope ring_scope.
Local Open Scope py_scope.

Section XR.
Variable F : realFieldType.
(** numpy floats: product with a number and sum (no rounding, no overflow) *)
Definition xmul (x : xr F) (t : F) : xr F :=
  match x with
  | Fin a => Fin (a * t)
  | PInf => if 0 < t then PInf else if t < 0 then NInf else NaN
  | NInf => if 0 < t then NInf else if t < 0 then PInf else NaN
  | NaN => NaN
  end.
Definition xadd (x y : xr F) : xr F :=
  match x, y with
  | Fin a, Fin b => Fin (a + b)
  | NaN, _ | _, NaN => NaN
  | PInf, NInf | NInf, PInf => NaN
  | PInf, _ | _, PInf => PInf
  | NInf, _ | _, NInf => NInf
  end.
(** [b] beats [a] in numpy's argmax: NaN beats everything else *)
Definition beats (b a : xr F) : bool :=
  match a, b with
  | NaN, _ => false
  | _, NaN => true
  | PInf, _ => false
  | _, PInf => true
  | Fin x, Fin y => x < y
  | NInf, Fin _ => true
  | _, NInf => false
  end.
End XR.

Section Estim.
Variable F : realFieldType.
Notation vec := (seq F).
(** types and steps of the solve as in M_Solve *)
Variables PP X V M L S T : Type.
Variable p0 : vec.
Variable pcompile : vec -> res PP.
Variable has_constraint : bool.
Variable xbar_of : vec -> res X.
Variable positive : X -> bool.
Variable names : V.
Variable mats : PP -> res M.
Variable layout : M -> res L.
Variable order : L -> V.
Variable linsol : M -> X -> res S.
Variable tables : M -> X -> S -> Z * Z -> res T.
Notation mstate := (mstate vec PP X V L S T).
Notation solve := (@solve vec PP X V M L S T p0 pcompile has_constraint xbar_of positive names mats layout order linsol tables).
(** covariance matrices, states of numpy's random number generator *)
Variables C R : Type.
Variable seed_rng : nat -> R.
(** squared compiled standard deviations [QQ(ppar) @ QQ(ppar)] *)
Variable sqQQ : PP -> res C.
(** [run_filter] up to line 291 for likelihoods (M_Filter): it depends on the settings of the filter (initial and measurement
    covariances), on Q, on the solved model and on random numbers, overwrites Q and draws random numbers *)
Record fset := Fset { f_init : option C; f_R : option C }.
Variable lik : fset -> C -> PP -> X -> L -> S -> T -> R -> res (xr F) * C * R.
(** data columns, shocks, kind of filter, dispatch *)
Variables (ncols neps : nat) (kind : fkind) (dispatch : bool).
(** fixed by prep_estim: positions of the estimated parameters, horizons, seed *)
Variable prior_arg : option (seq nat).
Variables (l_max k_max : Z) (seed : nat).

(** the model object, the filter, the random numbers, and the copy of the calibration that belongs to [lprob]
    (estimation.py:129 and the default argument in line 191) *)
Record est := Est { e_ms : mstate; e_f : fset; e_Q : option C; e_rng : R; e_pfix : vec }.
Definition put_rng (r : R) (s : est) := Est (e_ms s) (e_f s) (e_Q s) r (e_pfix s).

(** the part of the state [lik] reads; attributes that were never set raise *)
Definition run_lik (s : est) : est * res (xr F) :=
  match e_Q s, m_ppar (e_ms s), m_xbar (e_ms s), m_layout (e_ms s), m_sys (e_ms s), m_tab (e_ms s) with
  | Some q, Some pp, Some x, Some l, Some so, Some t =>
      let: (r, q', rng') := lik (e_f s) q pp x l so t (e_rng s) in
      (Est (e_ms s) (e_f s) (Some q') rng' (e_pfix s), r)
  | _, _, _, _, _, _ => (s, Err AttributeError)
  end.
(** filtering.py:136-137 and 292-295 *)
Definition get_ll_st (s : est) : est * res (xr F) :=
  if ncols == 1%N then (s, Err NotImplementedErr) else
  if ncols != neps then (s, Err NotImplementedErr) else
  if (if kind is ParticleF then true else if kind is EnsembleF then dispatch else false) then (s, Err ImportErr) else
  let: (s', r) := run_lik s in (s', rmap (fun x => if isnan x then NInf else x) r).

(** estimation.py:157-168: the body of [try] in [llike] *)
Definition try_ll (s : est) (parameters : vec) : est * res (xr F) :=
  let s := put_rng (seed_rng seed) s in
  match put_at prior_arg parameters (e_pfix s) with Err e => (s, Err e) | Ok pf =>
  let: (ms, r) := solve (e_ms s) (Some pf) (Some l_max) (Some k_max) false in
  let s := Est ms (e_f s) (e_Q s) (e_rng s) pf in
  match r with Err e => (s, Err e) | Ok _ =>
  match m_ppar ms with None => (s, Err AttributeError) | Some pp =>
  match sqQQ pp with Err e => (s, Err e) | Ok q =>
  get_ll_st (Est (e_ms s) (e_f s) (Some q) (e_rng s) (e_pfix s))
  end end end end.

(** estimation.py:181-183: what the handler runs if [verbose > 1]; it may raise *)
Variable report : est -> res unit.
(** estimation.py:150-186 *)
Definition llike (s : est) (parameters : vec) (verbose : nat) : est * res (xr F) :=
  let saved := e_rng s in
  let: (s', r) := try_ll s parameters in
  match r with
  | Ok x => (put_rng saved s', Ok x)
  | Err KeyboardInterruptExn => (s', Err KeyboardInterruptExn)
  | Err e =>
      if (1 < verbose)%N then match report s' with Err e' => (s', Err e') | Ok _ => (put_rng saved s', Ok NInf) end
      else (put_rng saved s', Ok NInf)
  end.

Variable bptrans : vec -> vec.
Variable lprior : vec -> res (xr F).
(** estimation.py:190-223; the argument [linear] has no effect; [temp] is a number *)
Definition lprob (s : est) (par : vec) (verbose : nat) (temp : F) (upt : bool) : est * res (xr F) :=
  let par := if upt then bptrans par else par in
  match lprior par with Err e => (s, Err e) | Ok lp =>
  if isinf lp then (s, Ok lp) else
  let: (s', r) := if temp != 0 then let: (s', r) := llike s par verbose in (s', rmap (fun ll => xmul ll temp) r)
                  else (s, Ok (Fin 0)) in
  match r with
  | Err e => (s', Err e)
  | Ok ll => if isinf ll then (s', Ok ll) else (s', Ok (xadd ll lp))
  end end.

(** what a user may do between two evaluations: evaluate, solve the model anew (set_par, gen_sys, irfs with parameters), assign
    filter.Q, draw or seed random numbers *)
Inductive act :=
| AEval (par : vec) (verbose : nat) (temp : F) (upt : bool)
| ASolve (c : call vec)
| AQ (q : C)
| ARng (r : R).
Definition do_act (s : est) (a : act) : est :=
  match a with
  | AEval p v t u => (lprob s p v t u).1
  | ASolve c => Est (solve (e_ms s) (c_par c) (c_l c) (c_k c) (c_hx c)).1 (e_f s) (e_Q s) (e_rng s) (e_pfix s)
  | AQ q => Est (e_ms s) (e_f s) (Some q) (e_rng s) (e_pfix s)
  | ARng r => put_rng r s
  end.
(** filtering.py:166-167: [run_filter(init_cov=P)], also reached from [extract] *)
Definition pass_init_cov (P : C) (s : est) : est := Est (e_ms s) (Fset (Some P) (f_R (e_f s))) (e_Q s) (e_rng s) (e_pfix s).
End Estim.

(** estimation.py:61-93: arguments and remembered settings *)
Inductive lin := LinFalse | LinTrue | LinIF.
Record fdict := FD { d_n : option nat; d_linear : option lin; d_seed : option nat; d_upt : option bool }.
Record pargs := PArgs { a_n : option nat; a_linear : option lin; a_seed : option nat; a_upt : option bool; a_l : Z; a_k : Z }.
(** number of members, filter type requested, horizons, seed of the likelihood, prior transform; [g_start] is the seed given to numpy
    in line 59 ([None]: entropy of the operating system) *)
Record settings := Settings { g_n : nat; g_linear : lin; g_l : Z; g_k : Z; g_seed : nat; g_upt : bool; g_start : option nat }.
Definition is_lin (l : lin) : bool := if l is LinTrue then true else false.     (* [linear and linear != 'IF'] *)
Definition resolve (d : fdict) (a : pargs) : fdict * settings :=
  let n := odflt (odflt 300%N (d_n d)) (a_n a) in
  let linear := odflt (odflt LinFalse (d_linear d)) (a_linear a) in
  let: (l, k) := match a_linear a with
                 | None => (a_l a, a_k a)
                 | Some x => if is_lin x then (Zpos xH, Z0) else (a_l a, a_k a)
                 end in
  let seed := odflt (odflt 0%N (d_seed d)) (a_seed a) in
  let upt := odflt (odflt false (d_upt d)) (a_upt a) in
  (FD (Some n) (Some linear) (Some seed) (Some upt), Settings n linear l k seed upt (a_seed a)).
(** estimation.py:99-104 *)
Definition ftype_of (l : lin) : string :=
  match l with LinTrue => "KalmanFilter" | LinIF => "IF" | LinFalse => "EnKF" end%string.
(** one call of prep_estim up to the creation of the filter: the settings are remembered even if something raises later *)
Definition prep (have_wip : bool) (observables shocks : seq string) (fargs : seq (string * string)) (set_par : settings -> res unit)
    (d : fdict) (a : pargs) : fdict * res (settings * fkind) :=
  let: (d', g) := resolve d a in
  (d', let* _ := set_par g in let* f := create_filter have_wip observables shocks (Some (ftype_of (g_linear g))) fargs in Ok (g, f)).
Definition preps hw obs sh fargs sp (d : fdict) (h : seq pargs) : fdict := foldl (fun d a => (prep hw obs sh fargs sp d a).1) d h.
(** estimation.py:15-30, the call [prep_estim()] *)
Definition no_args : pargs := PArgs None None None None 3 16.

Section Mcmc.
Variable F : realFieldType.
Notation vec := (seq F).
(** mcmc.py:106-119: the number of walkers is passed as [nsample], a keyword get_par does not know, so that one sample is requested;
    [gp name full nsamples] is [get_par] *)
Definition initial_ensemble (A : Type) (gp : string -> bool -> nat -> A) (temp : F) (nwalks : option nat) : A :=
  gp (if temp < 1 then "prior_mean" else "best")%string false 1%N.
(** numpy argmax of a non-empty flat array: the first position nothing beats *)
Fixpoint argmax_from (best : nat) (bv : xr F) (i : nat) (l : seq (xr F)) : nat :=
  match l with
  | [::] => best
  | x :: l' => if beats x bv then argmax_from i x i.+1 l' else argmax_from best bv i.+1 l'
  end.
Definition argmax (l : seq (xr F)) : res nat := match l with [::] => Err ValueError | x :: l' => Ok (argmax_from 0 x 1 l') end.
(** mcmc.py:163-174: after the sampler has run, [lps] and [chain] are its log-probabilities and positions (steps x walkers); [tune] is
    the argument.  The result is the stored mode. *)
Definition store_mode (temp : F) (tune : option nat) (lps : seq (seq (xr F))) (chain : seq (seq vec)) : res (option (vec * xr F)) :=
  if temp != 1 then Ok None else
  match tune with
  | None => Err TypeError                                          (* [-None] *)
  | Some t =>
      let lp := flatten (last_rows t lps) in
      let ch := flatten (last_rows t chain) in
      let* i := argmax lp in
      Ok (Some (nth [::] ch i, nth NaN lp i))
  end.
(** clsmethods.py:90-99: [get_chain] applies the prior transform if there is one *)
Definition chain_of (bptrans : option (vec -> vec)) (chain : seq (seq vec)) : seq (seq vec) :=
  if bptrans is Some f then [seq [seq f v | v <- r] | r <- chain] else chain.
End Mcmc.
