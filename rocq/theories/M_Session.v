(** Model of an estimation session: what prep_estim, mcmc, save_meta, load, get_chain, get_log_prob and info do to the object, to its
    metadata (fdict) and to files (estimation.py:15-235, mcmc.py:61-177, clsmethods.py:54-146 and 249-283, parser.py:563-642).
    The parts are those of M_Estim (settings), M_Cls (where chains are found) and M_Mcmc (runs); solving, filtering, the prior
    distributions and the sampler are oracles.
    Not modelled: printing, pools (M_Pool), random numbers, the functions lprob and llike (M_Estim), the text of the model in the
    metadata (M_Cache). *)
Set Warnings "-all".
From Coq Require Import String ZArith.
From mathcomp Require Import all_ssreflect all_algebra.
From Verif Require Import PyBase PyStr M_Solve M_Filter M_Params M_Estim M_Cls M_Mcmc.
Set Implicit Arguments. Unset Strict Implicit. Unset Printing Implicit Defensive.
Local Open Scope py_scope.
Local Open Scope string_scope.
Local Open Scope seq_scope.

Section Session.
(** draws, content of a chain, parameters with the solved model, covariance matrices, starting values and bounds *)
Variables (V K PS RR I B : Type).
(** emcee: the draws (steps x walkers), the log-probabilities and the acceptance rate of a chain; they raise if nothing is stored *)
Variable draws : K -> res (seq (seq V)).
Variable log_probs : K -> res (seq (seq V)).
Variable acceptance : K -> res (seq V).
(** [chain.shape]: steps, walkers, parameters *)
Variable shape : K -> nat * nat * nat.

(** the filter: kind requested, number of members, measurement covariance ([None]: no such attribute) *)
Record flt := Flt { f_kind : lin; f_n : nat; f_cov : option RR }.
(** estimation.py:97: [set_par("prior_mean", l_max, k_max)] *)
Variable to_prior_mean : settings -> PS -> PS * res unit.
(** estimation.py:99-104: the filter made by [create_filter], from the solved model and the data *)
Variable new_filter : settings -> PS -> res (option RR).
(** estimation.py:113-118: does the dry run raise?  (estimation of the likelihood, or the likelihood is zero) *)
Variable dry : flt -> PS -> res unit.
(** estimation.py:132-141: names and number of the estimated parameters, and what [get_prior] makes of the priors: transform, starting
    values and bounds *)
Variable names : seq string.
Variable get_prior : res ((V -> V) * I * B).
(** estimation.py:230-233: creating the pool may raise *)
Variable make_pool : res unit.

(** the metadata as far as it matters here *)
Record meta := Meta {
  d_set : fdict; d_R : option RR; d_names : option (seq string); d_start : option I; d_bounds : option B;
  d_backend : option string; d_tune : option nat; d_name : option string; d_desc : option string; d_date : option string }.
(** the object and the files.  [o_bp]: the attribute bptrans ([None]: absent; [Some None]: None).  [o_disk]: the file of save_meta *)
Record sess := Sess {
  o_meta : meta; o_par : PS; o_filter : option flt; o_ndim : option nat; o_bp : option (option (V -> V));
  o_sampler : option K; o_tune : option nat; o_name : string; o_desc : option string; o_path : string;
  o_chains : string -> option K; o_disk : option meta }.

Definition with_meta (s : sess) (m : meta) : sess :=
  Sess m (o_par s) (o_filter s) (o_ndim s) (o_bp s) (o_sampler s) (o_tune s) (o_name s) (o_desc s) (o_path s) (o_chains s) (o_disk s).
Definition with_par (s : sess) (p : PS) : sess :=
  Sess (o_meta s) p (o_filter s) (o_ndim s) (o_bp s) (o_sampler s) (o_tune s) (o_name s) (o_desc s) (o_path s) (o_chains s) (o_disk s).
Definition with_filter (s : sess) (f : option flt) : sess :=
  Sess (o_meta s) (o_par s) f (o_ndim s) (o_bp s) (o_sampler s) (o_tune s) (o_name s) (o_desc s) (o_path s) (o_chains s) (o_disk s).
Definition with_ndim (s : sess) (n : option nat) : sess :=
  Sess (o_meta s) (o_par s) (o_filter s) n (o_bp s) (o_sampler s) (o_tune s) (o_name s) (o_desc s) (o_path s) (o_chains s) (o_disk s).
Definition with_bp (s : sess) (b : option (option (V -> V))) : sess :=
  Sess (o_meta s) (o_par s) (o_filter s) (o_ndim s) b (o_sampler s) (o_tune s) (o_name s) (o_desc s) (o_path s) (o_chains s) (o_disk s).
Definition set_settings (m : meta) (d : fdict) : meta :=
  Meta d (d_R m) (d_names m) (d_start m) (d_bounds m) (d_backend m) (d_tune m) (d_name m) (d_desc m) (d_date m).
Definition set_names (m : meta) (l : seq string) : meta :=
  Meta (d_set m) (d_R m) (Some l) (d_start m) (d_bounds m) (d_backend m) (d_tune m) (d_name m) (d_desc m) (d_date m).
Definition set_prior (m : meta) (i : I) (b : B) : meta :=
  Meta (d_set m) (d_R m) (d_names m) (Some i) (Some b) (d_backend m) (d_tune m) (d_name m) (d_desc m) (d_date m).

(** estimation.py:15-235 with the arguments that concern the session; [load_R], [dry_run] as in the signature *)
Record pcall := PCall { p_args : pargs; p_loadR : bool; p_dry : bool }.
Definition default_call : pcall := PCall no_args false true.
Definition prep_estim (s : sess) (a : pcall) : sess * res unit :=
  let: (d, g) := resolve (d_set (o_meta s)) (p_args a) in
  let s := with_meta s (set_settings (o_meta s) d) in                                (* 61-93 *)
  let: (p, r) := to_prior_mean g (o_par s) in                                        (* 97 *)
  let s := with_par s p in
  match r with Err e => (s, Err e) | Ok _ =>
  match new_filter g p with Err e => (s, Err e) | Ok R =>                            (* 99-104 *)
  let s := with_filter s (Some (Flt (g_linear g) (g_n g) R)) in
  match (match d_R (o_meta s) with                                                   (* 106-111 *)
         | Some R => Ok (with_filter s (Some (Flt (g_linear g) (g_n g) (Some R))))
         | None => if p_loadR a then Err AttributeError else Ok s
         end) with Err e => (s, Err e) | Ok s =>
  match (if p_dry a then match o_filter s with Some f => dry f p | None => Err AttributeError end else Ok tt) with
  | Err e => (s, Err e) | Ok _ =>                                                    (* 113-118 *)
  let s := with_ndim (with_meta s (set_names (o_meta s) names)) (Some (size names)) in  (* 133-135 *)
  match get_prior with Err e => (s, Err e) | Ok (bp, i, b) =>                        (* 137-141 *)
  let s := with_meta s (set_prior (o_meta s) i b) in
  let s := with_bp s (Some (if g_upt g then Some bp else None)) in                   (* 225-228 *)
  (s, make_pool)                                                                     (* 230-233 *)
  end end end end end.

(** the part of the object M_Cls and M_Mcmc work on *)
Definition cst_of (s : sess) : cst K := Cst (o_sampler s) (d_backend (o_meta s)) (o_path s) (o_name s) (o_chains s).
Definition put_mst (s : sess) (m : mst K) : sess :=
  let c := m_c m in
  let m' := o_meta s in
  Sess (Meta (d_set m') (d_R m') (d_names m') (d_start m') (d_bounds m') (backend c) (d_tune m') (d_name m') (d_desc m') (d_date m'))
       (o_par s) (o_filter s) (o_ndim s) (o_bp s) (sampler c) (m_tune m) (o_name s) (o_desc s) (o_path s) (c_files c) (o_disk s).
Definition with_desc (s : sess) (d : option string) : sess :=
  Sess (o_meta s) (o_par s) (o_filter s) (o_ndim s) (o_bp s) (o_sampler s) (o_tune s) (o_name s) d (o_path s) (o_chains s) (o_disk s).
Definition dated (s : sess) (t : string) : sess :=
  let m := o_meta s in
  with_meta s (Meta (d_set m) (d_R m) (d_names m) (d_start m) (d_bounds m) (d_backend m) (d_tune m) (d_name m) (d_desc m) (Some t)).

(** the external side of a run (M_Mcmc): starting point, [reset], the sampler, storing the mode, and the time *)
Record ext := Ext {
  x_start : res unit; x_reset : option K -> nat -> res K; x_run : option K -> option K * res K; x_mode : option nat -> K -> res unit;
  x_time : string }.
(** mcmc.py:61-177 *)
Definition mcmc_call (s : sess) (a : margs) (x : ext) : sess * res unit :=
  let: (s, r) := match o_ndim s with None => prep_estim s (PCall no_args true true) | Some _ => (s, Ok tt) end in   (* 61-64 *)
  match r with Err e => (s, Err e) | Ok _ =>
  let s := match d_desc (o_meta s) with Some t => with_desc s (Some t) | None => s end in                           (* 75-76 *)
  let: (m, r) := M_Mcmc.mcmc (x_start x) (x_reset x) (x_run x) (x_mode x) (Mst (cst_of s) (o_tune s)) a in
  let s := put_mst s m in
  match r with Err e => (s, Err e) | Ok _ => (dated s (x_time x), Ok tt) end                                        (* 176 *)
  end.

(** clsmethods.py:54-101.  The variable [verbose] has no effect here, [flat] only changes the arrangement of the result *)
Definition apply_bp (b : option (V -> V)) (c : seq (seq V)) : seq (seq V) :=
  if b is Some f then [seq [seq f v | v <- r] | r <- c] else c.
Definition get_chain (s : sess) (file : option string) : sess * res (seq (seq V)) :=
  match get_reader (cst_of s) file with Err e => (s, Err e) | Ok k =>
  match draws k with Err e => (s, Err e) | Ok c =>
  let: (s, r) := match o_bp s with None => prep_estim s default_call | Some _ => (s, Ok tt) end in     (* 93-95 *)
  match r with Err e => (s, Err e) | Ok _ =>
  match o_bp s with None => (s, Err AttributeError) | Some b => (s, Ok (apply_bp b c)) end
  end end end.
(** clsmethods.py:81-88 and 104-107 *)
Definition get_log_prob (s : sess) (file : option string) : sess * res (seq (seq V)) :=
  (s, let* k := get_reader (cst_of s) file in log_probs k).
Definition get_acceptance (s : sess) (file : option string) : sess * res (seq V) :=
  (s, let* k := get_reader (cst_of s) file in acceptance k).

(** clsmethods.py:249-283: the lines of the text *)
Inductive line := Title (t : string) | Date (t : string) | Descr (t : string) | NPar (n : nat) | NChains (n : nat) | Window (t n : nat).
Definition info (s : sess) : sess * res (seq line) :=
  match (match o_desc s with Some t => Ok t | None => of_opt KeyError (d_desc (o_meta s)) end) with
  | Err e => (s, Err e)
  | Ok desc =>
      let res := [:: Title (o_name s)] ++
                 (match d_date (o_meta s) with Some (String c t) => [:: Date (String c t)] | _ => [::] end) ++ [:: Descr desc] in
      let: (s, r) := get_chain s None in
      match (match r with
             | Err e => Err e
             | Ok _ =>
                 let* k := get_reader (cst_of s) None in
                 let* t := M_Cls.get_tune (o_tune s) (d_tune (o_meta s)) in
                 let: (n, w, p) := shape k in Ok [:: NPar p; NChains w; Window t n]
             end) with
      | Ok l => (s, Ok (res ++ l))
      | Err AttributeError | Err KeyError => (s, Ok res)
      | Err e => (s, Err e)
      end
  end.

(** clsmethods.py:123-146.  Nothing sets an attribute backend_file *)
Definition save_meta (s : sess) : sess :=
  let m := o_meta s in
  let R := match o_filter s with Some f => (match f_cov f with Some R => Some R | None => d_R m end) | None => d_R m end in
  let m := Meta (d_set m) R (d_names m) (d_start m) (d_bounds m) (d_backend m)
             (match o_tune s with Some t => Some t | None => d_tune m end) (Some (o_name s))
             (match o_desc s with Some t => Some t | None => d_desc m end) (d_date m) in
  Sess m (o_par s) (o_filter s) (o_ndim s) (o_bp s) (o_sampler s) (o_tune s) (o_name s) (o_desc s) (o_path s) (o_chains s) (Some m).
(** parser.py:563-642 in a new process: metadata and files survive.  [p] is the state of a model that has not been solved; the name is
    the saved one, there is no description.  (That data must be in the file: M_Cache.) *)
Definition load (s : sess) (p : PS) : sess * res unit :=
  match o_disk s with
  | None => (s, Err FileNotFound)
  | Some m => match d_name m with
              | None => (s, Err KeyError)
              | Some n => (Sess m p None None None None None n None (o_path s) (o_chains s) (o_disk s), Ok tt)
              end
  end.
(** mpile.py:235-239: the starting values; the number of parameters is an attribute *)
Definition get_init (s : sess) : res I :=
  match d_start (o_meta s) with
  | None => Err KeyError
  | Some i => match o_ndim s with None => Err AttributeError | Some _ => Ok i end
  end.

(** what a user may do; [OParams]: anything that only changes parameters and the solution (set_par, gen_sys, irfs, simulate, likelihoods),
    [OCov]: assign the measurement covariance of the filter (also with create_obs_cov) *)
Inductive op :=
| OPrep (a : pcall) | OMcmc (a : margs) (x : ext) | OChain (file : option string) | OLogProb (file : option string)
| OAccept (file : option string) | OInfo | OSave | OLoad (p : PS) | OParams (p : PS) | OCov (R : RR).
Definition ignore {A : Type} (x : sess * res A) : sess * res unit := (x.1, rmap (fun _ => tt) x.2).
Definition do (s : sess) (o : op) : sess * res unit :=
  match o with
  | OPrep a => prep_estim s a
  | OMcmc a x => mcmc_call s a x
  | OChain f => ignore (get_chain s f)
  | OLogProb f => ignore (get_log_prob s f)
  | OAccept f => ignore (get_acceptance s f)
  | OInfo => ignore (info s)
  | OSave => (save_meta s, Ok tt)
  | OLoad p => load s p
  | OParams p => (with_par s p, Ok tt)
  | OCov R => match o_filter s with
              | None => (s, Err AttributeError)
              | Some f => (with_filter s (Some (Flt (f_kind f) (f_n f) (Some R))), Ok tt)
              end
  end.
Definition after (s : sess) (h : seq op) : sess := foldl (fun s o => (do s o).1) s h.
(** parser.py:531-544: a model just read from a file in directory [path], with name [n] *)
Definition fresh (n path : string) (p : PS) (chains : string -> option K) : sess :=
  Sess (Meta (FD None None None None) None None None None None None None None None) p None None None None None n (Some n) path chains None.
End Session.
