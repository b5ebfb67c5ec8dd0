(** Model of reading and setting parameters (mpile.py) and of [o_func] with several parameter vectors (tools.py:107-129).
    Not modelled here: printing, process pools.  Rounding ([roundto]), [asdict] and jittered samples (mpile.py:255-268) are in
    M_AsDict, prior sampling (an oracle here) in M_Prior. *)
Set Warnings "-all".
From Coq Require Import String.
From mathcomp Require Import all_ssreflect all_algebra.
From Verif Require Import PyBase PyStr.
Set Implicit Arguments. Unset Strict Implicit. Unset Printing Implicit Defensive.
Import GRing.Theory Num.Theory.
Local Open Scope ring_scope.
Local Open Scope py_scope.

Section Params.
Variable F : realFieldType.
Notation vec := (seq F).
Variables H T C W : Type.
(** what never changes: declared names, names of derived parameters, calibration, positions of the estimated parameters
    in the list of all parameters and their names; [None] if there is no estimation section (parser.py:962-970) *)
Record static := Static {
  c_names : seq string; c_pfnames : seq string; c_fix : vec; c_prior_arg : option (seq nat); c_prior_names : option (seq string) }.
Variable M : static.
(** External or modelled elsewhere: value of the derived parameters, observation matrices and tables computed by gen_sys
    for a parameter vector (M_Solve), compiled covariance, variable order *)
Variable pffunc : vec -> vec.
Variable hx_of : vec -> res H.
Variable tab_of : vec -> res T.
Variable cov_of : vec -> C.
Variable sq : C -> C.
Variable vv : W.

(** The attribute [par]: a vector, or what is left there if a text or a list of vectors was passed to gen_sys *)
Inductive parv := PV (v : vec) | PText (s : string) | PRows (r : seq vec).
(** attributes that change: current parameters, observation matrices, tables, filter.Q ([None] = not set; the outer
    option: there is no filter), and the metadata entries mode_x and init_value *)
Record st := St {
  s_par : option parv; s_hx : option H; s_tab : option T; s_filter : option (option C);
  s_mode : option vec; s_init : option (seq (option F)) }.
Definition set_parv (s : st) (p : parv) := St (Some p) (s_hx s) (s_tab s) (s_filter s) (s_mode s) (s_init s).

(** numpy fancy indexing [v[idx]] and [v[idx] = cand]; an index of None adds an axis, and a candidate of one element
    is broadcast *)
Definition take_at (idx : option (seq nat)) (v : vec) : res vec :=
  match idx with
  | None => Ok v
  | Some l => if all (fun i => (i < size v)%N) l then Ok [seq nth 0 v i | i <- l] else Err IndexError
  end.
Definition put_at (idx : option (seq nat)) (cand v : vec) : res vec :=
  let l := match idx with Some l => l | None => iota 0 (size v) end in
  if ~~ all (fun i => (i < size v)%N) l then Err IndexError
  else if size cand == size l then Ok (foldl (fun b ic => set_nth 0 b ic.1 ic.2) v (zip l cand))
  else if size cand == 1%N then Ok (foldl (fun b i => set_nth 0 b i (head 0 cand)) v l)
  else Err ValueError.

(** gensys.py:103-175 with the order of assignments of M_Solve: [par] first, then the observation matrices, then the
    tables.  Texts and lists of vectors do not compile. *)
Definition gen_sys (s : st) (p : parv) (hx_only : bool) : st * res unit :=
  let s := set_parv s p in
  match p with
  | PV v =>
      if size v != size (c_fix M) then (s, Err ValueError) else
      match hx_of v with
      | Err e => (s, Err e)
      | Ok h =>
          let s := St (s_par s) (Some h) (s_tab s) (s_filter s) (s_mode s) (s_init s) in
          if hx_only then (s, Ok tt) else
          match tab_of v with
          | Err e => (s, Err e)
          | Ok t => (St (s_par s) (s_hx s) (Some t) (s_filter s) (s_mode s) (s_init s), Ok tt)
          end
      end
  | PText _ => (s, Err TypeError)
  | PRows _ => (s, Err ValueError)
  end.

(** the current parameters as a numpy array; anything but a vector makes the operations below fail *)
Definition cur (s : st) : res vec :=
  match s_par s with
  | Some (PV v) => Ok v
  | Some (PText _) => Err TypeError
  | Some (PRows _) => Err ValueError
  | None => Ok (c_fix M)
  end.

(** mpile.py:92: the argument [dummy] *)
Inductive arg := ANone | AName (s : string) | AVec (v : vec).
(** results: a number, a vector, a covariance matrix, a list of vectors *)
Inductive out := ONum (x : F) | OVec (v : vec) | OCov (c : C) | ORows (r : seq vec).

(** prior section: distribution name in position 3 and the last two entries *)
Record prior := Prior { pr_dist : string; pr_uniform : bool; pr_a : F; pr_b : F }.
Variable priors : option (seq prior).
(** mpile.py:211-219 and 221-232 *)
Definition prior_mean1 (p : prior) : F := if pr_uniform p then 2%:R^-1 * pr_a p + 2%:R^-1 * pr_b p else pr_a p.
Definition adj_prior_mean1 (p : prior) : F :=
  if pr_dist p == "inv_gamma_dynare"%string then pr_a p * 10%:R else prior_mean1 p.

(** the chain (steps x walkers x parameters), tune; [choices pop k]: positions drawn by random.choices *)
Variable chain : res (seq (seq vec)).
Variable tune : nat.
Variable choices : nat -> nat -> seq nat.
(** [prior_sampler] (M_Prior): it may change the parameters and tables of the model *)
Variable prior_draw : st -> nat -> st * res (seq vec).
(** numpy [c[-tune:]] *)
Definition last_rows {A : Type} (n : nat) (c : seq A) : seq A := if n == 0%N then c else drop (size c - n) c.
(** mpile.py:16-34 *)
Definition posterior_sampler (k : nat) : res (seq vec) :=
  let* c := chain in
  let pop := flatten (last_rows tune c) in
  if size pop == 0%N then Err IndexError else Ok [seq nth [::] pop i | i <- choices (size pop) k].
(** stats.py:264-270 *)
Definition vadd (a b : vec) : vec := [seq x.1 + x.2 | x <- zip a b].
Definition post_mean : res vec :=
  let* c := chain in
  let pop := flatten (last_rows tune c) in
  match pop with
  | [::] => Err ValueError
  | r :: rs => Ok [seq x / (size pop)%:R | x <- foldl vadd r rs]
  end.

Definition is_mode (n : string) : bool := n \in [:: "mode"; "mcmc_mode"; "mode_mcmc"; "posterior_mode"; "post_mode"]%string.

(** mpile.py:196-245: the candidate values of the estimated parameters for a named set; [self.par] has been replaced by
    the calibration.  [fix0] is [self.par_fix[self.prior_arg]]. *)
Definition named_set (s : st) (n : string) (nsamples : nat) : st * res (vec + seq vec) :=
  if n == "prior"%string then (let: (s1, r) := prior_draw s nsamples in (s1, rmap inr r))
  else if n \in [:: "post"; "posterior"]%string then (s, rmap inr (posterior_sampler nsamples))
  else if n \in [:: "posterior_mean"; "post_mean"]%string then (s, rmap inl post_mean)
  else if is_mode n then (s, match s_mode s with Some v => Ok (inl v) | None => Err KeyError end)
  else if n == "calib"%string then (s, rmap inl (take_at (c_prior_arg M) (c_fix M)))
  else if n == "prior_mean"%string then
    (s, match priors with Some l => Ok (inl [seq prior_mean1 p | p <- l]) | None => Err AttributeError end)
  else if n == "adj_prior_mean"%string then
    (s, match priors with Some l => Ok (inl [seq adj_prior_mean1 p | p <- l]) | None => Err AttributeError end)
  else if n == "init"%string then
    match s_init s with
    | None => (s, Err KeyError)
    | Some l =>
        match take_at (c_prior_arg M) (c_fix M) with
        | Err e => (s, Err e)
        | Ok f => let l' := [seq Some (odflt x.2 x.1) | x <- zip l f] in
                  (St (s_par s) (s_hx s) (s_tab s) (s_filter s) (s_mode s) (Some l'), Ok (inl [seq odflt 0 o | o <- l']))
        end
    end
  else (s, Err KeyError).
Definition set_names : seq string :=
  [:: "prior"; "post"; "posterior"; "posterior_mean"; "post_mean"; "mode"; "mcmc_mode"; "mode_mcmc"; "posterior_mode"; "post_mode";
      "calib"; "prior_mean"; "adj_prior_mean"; "init"]%string.

(** mpile.py:247-269: assemble the result from the base vector and the candidate *)
Definition assemble (base : vec) (cand : vec + seq vec) (full : bool) : res out :=
  if ~~ full then Ok (match cand with inl v => OVec v | inr r => ORows r end)
  else match cand with
       | inl v => rmap OVec (put_at (c_prior_arg M) v base)
       | inr r => rmap ORows (mapM (fun v => put_at (c_prior_arg M) v base) r)
       end.

(** mpile.py:188-245, the branch for a named set: [self.par] becomes the calibration; restored only if the name is
    unknown *)
Definition get_named (s : st) (n : string) (full : bool) (nsamples : nat) : st * res out :=
  if n \notin set_names then (s, Err KeyError) else
  let: (s1, r) := named_set (set_parv s (PV (c_fix M))) n nsamples in
  (s1, let* c := r in assemble (c_fix M) c full).

(** mpile.py:150-159: the base vector *)
Definition base_of (s : st) (npar : option vec) : res vec :=
  let* v := cur s in
  match npar with
  | None => Ok v
  | Some w => if size w != size (c_fix M) then put_at (c_prior_arg M) w v else Ok w
  end.

(** mpile.py:92-269 *)
Definition get_par (s : st) (a : arg) (npar : option vec) (full : bool) (nsamples : nat) (hx_only : bool) : st * res out :=
  let: (s, r0) := match s_par s with None => gen_sys s (PV (c_fix M)) hx_only | Some _ => (s, Ok tt) end in
  match r0 with Err e => (s, Err e) | Ok _ =>
  match base_of s npar with Err e => (s, Err e) | Ok base =>
  match a with
  | ANone => (s, let* c := take_at (c_prior_arg M) base in assemble base (inl c) full)
  | AVec v =>
      if size v == size (c_fix M) then (s, let* c := take_at (c_prior_arg M) v in assemble base (inl c) full)
      else match c_prior_arg M with
           | None => (s, Err TypeError)
           | Some l => if size v == size l then (s, assemble base (inl v) full) else (s, Err ValueError)
           end
  | AName n =>
      if n \in c_names M then (s, Ok (ONum (nth 0 base (index n (c_names M)))))
      else if n \in c_pfnames M then (s, Ok (ONum (nth 0 (pffunc base) (index n (c_pfnames M)))))
      else if n == "cov_mat"%string then
        let: (s1, r) := gen_sys s (PV base) hx_only in (s1, let* _ := r in Ok (OCov (cov_of base)))
      else if n == "best"%string then
        let: (s1, r) := get_named s "mode"%string false nsamples in
        match r with
        | Ok (OVec v) => (s1, assemble base (inl v) full)
        | _ => let: (s2, r2) := get_named s1 "init"%string false nsamples in
               (s2, let* o := r2 in match o with OVec v => assemble base (inl v) full | _ => Err TypeError end)
        end
      else get_named s n full nsamples
  end end end.

(** mpile.py:272-274 *)
Definition get_cov (s : st) (npar : option vec) (hx_only : bool) : st * res out := get_par s (AName "cov_mat") npar true 1 hx_only.

(** mpile.py:339-359: compile, update the filter, return the parameters *)
Definition finish (s : st) (p : parv) (hx_only : bool) : st * res out :=
  let: (s1, r) := gen_sys s p hx_only in
  match r, p with
  | Err e, _ => (s1, Err e)
  | Ok _, PV v =>
      let s2 := St (s_par s1) (s_hx s1) (s_tab s1) (match s_filter s1 with Some _ => Some (Some (sq (cov_of v))) | None => None end)
                   (s_mode s1) (s_init s1) in
      get_par s2 ANone None true 1 hx_only
  | Ok _, _ => (s1, Err TypeError)
  end.
Definition as_parv (o : out) : parv :=
  match o with OVec v => PV v | ORows r => PRows r | ONum x => PV [:: x] | OCov _ => PText "" end.

(** mpile.py:277-359; [setpar] and [npar] as in the signature.  The result for [return_vv] adds the variable order and
    is not modelled. *)
Definition set_par (s : st) (a : arg) (setpar : option F) (npar : option vec) (hx_only : bool) : st * res out :=
  let forward s := let: (s1, r) := get_par s a None true 1 hx_only in
                   match r with Err e => (s1, Err e) | Ok o => finish s1 (as_parv o) hx_only end in
  match cur s with Err e => (s, Err e) | Ok par =>
  match setpar with
  | None =>
      match a with
      | ANone => forward s
      | AVec v =>
          if size v == size (c_fix M) then finish s (PV v) hx_only
          else match c_prior_arg M with
               | None => (s, Err TypeError)
               | Some l => if size v == size l then
                             match put_at (Some l) v par with Err e => (s, Err e) | Ok p => finish s (PV p) hx_only end
                           else forward s
               end
      | AName n =>
          if String.length n == size (c_fix M) then finish s (PText n) hx_only
          else match c_prior_arg M with
               | None => (s, Err TypeError)
               | Some l => if String.length n == size l then (s, Err ValueError) else forward s
               end
      end
  | Some x =>
      match a with
      | AName n =>
          if n \in c_names M then
            match npar with
            | Some w =>
                match c_prior_arg M with
                | None => (s, Err TypeError)
                | Some l =>
                    if size w == size l then
                      match c_prior_names M with
                      | None => (s, Err AttributeError)
                      | Some pn => if n \in pn then (s, Ok (OVec (set_nth 0 w (index n pn) x))) else (s, Err ValueError)
                      end
                    else if (index n (c_names M) < size w)%N then (s, Ok (OVec (set_nth 0 w (index n (c_names M)) x)))
                    else (s, Err IndexError)
                end
            | None => finish s (PV (set_nth 0 par (index n (c_names M)) x)) hx_only
            end
          else (s, Err SyntaxErr)
      | _ => (s, Err SyntaxErr)
      end
  end end.

(** mpile.py:362-392; [true] = lower than lb, [false] = higher than ub, with the position of the prior *)
Inductive report := Lower (i : nat) | Higher (i : nat).
Definition box_check (s : st) (par : option vec) (nprior : nat) (lb ub : vec) : res (seq report) :=
  let* v := match par with Some v => Ok v | None => cur s end in
  foldM (fun acc i =>
    assert* (i < size v)%N && (i < size lb)%N && (i < size ub)%N else IndexError in
    Ok (acc ++ (if nth 0 v i < nth 0 lb i then [:: Lower i] else [::]) ++ (if nth 0 ub i < nth 0 v i then [:: Higher i] else [::])))
    (iota 0 nprior) [::].

(** tools.py:117-129: observables for several parameter vectors; [observe h x] applies the observation matrices *)
Variables X O : Type.
Variable observe : H -> X -> O.
Fixpoint o_func_pars (s : st) (xs : seq (X * vec)) : st * res (seq O) :=
  match xs with
  | [::] => (s, Ok [::])
  | (x, p) :: xs' =>
      let: (s1, r) := set_par s (AVec p) None None true in
      match r with
      | Err e => (s1, Err e)
      | Ok _ => match s_hx s1 with
                | None => (s1, Err AttributeError)
                | Some h => let: (s2, r2) := o_func_pars s1 xs' in (s2, rmap (cons (observe h x)) r2)
                end
      end
  end.
End Params.
