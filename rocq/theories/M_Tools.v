(** Model of tools.py and of [t_func_jit] (engine.py:226-263): transition
    function, observation function, impulse responses, simulation,
    trajectories.  numpy vectors are sequences; an operation on vectors of
    the wrong length raises ValueError as numpy and numba do.
    Not modelled: printing, timing, [covs] of o_func, process pools. *)
Set Warnings "-all".
From Coq Require Import String.
From mathcomp Require Import all_ssreflect all_algebra.
From Verif Require Import PyBase PyStr M_FindLk M_Engine.
Set Implicit Arguments. Unset Strict Implicit. Unset Printing Implicit Defensive.
Import GRing.Theory Num.Theory Order.TTheory.
Local Open Scope ring_scope.
Local Open Scope py_scope.

(** Python slices [s[i:]] and [s[:i]] *)
Definition py_from (A : Type) (i : int) (s : seq A) : seq A :=
  match i with Posz n => drop n s | Negz n => drop (size s - n.+1) s end.
Definition py_to (A : Type) (i : int) (s : seq A) : seq A :=
  match i with Posz n => take n s | Negz n => take (size s - n.+1) s end.

(** index [i] of an axis of length [n]: negative indices count from the end.
    numba does not check bounds ([OutOfBounds]); numpy raises IndexError *)
Definition py_index (oob : exn) (n : nat) (i : int) : res nat :=
  match i with
  | Posz j => if (j < n)%N then Ok j else Err oob
  | Negz j => if (j < n)%N then Ok (n - j.+1)%N else Err oob
  end.

(** [list.index]: ValueError if absent *)
Definition py_find (x : string) (s : seq string) : res nat :=
  if x \in s then Ok (index x s) else Err ValueError.

(** the argument [set_k] *)
Inductive setk := KNone | KBool of bool | KTuple of int & int | KInt of int.

Section Vec.
Variable F : ringType.
Definition col_of (n : nat) (s : seq F) : 'cV[F]_n := \col_i nth 0 s i.
Definition seq_of (n : nat) (v : 'cV[F]_n) : seq F := [seq v i 0 | i <- enum 'I_n].
(** [A @ v] *)
Definition matvec (m n : nat) (A : 'M[F]_(m, n)) (v : seq F) : res (seq F) :=
  if size v == n then Ok (seq_of (A *m col_of n v)) else Err ValueError.
(** [u + v] for equal lengths (broadcasting a length-1 vector is not modelled) *)
Definition vadd (u v : seq F) : res (seq F) :=
  if size u == size v then Ok [seq x.1 + x.2 | x <- zip u v] else Err ValueError.
End Vec.

Section Tools.
Variable F : realFieldType.

(** the attributes read by the functions below: [dimp, dimq = omg.shape], the tables with
    horizons [lks], [x_bar], [shocks] (neps = len(shocks)), [hx], [vv] *)
Record tmodel := TM {
  dq : nat; dp : nat; tab : table (cell F dq dp); btab : btable F dq;
  lmx : nat; kmx : nat; xb : F; shk : seq string;
  nobs : nat; nsv : nat; hxp : 'M[F]_(nobs, dp); hxq : 'M[F]_(nobs, nsv); hxc : 'cV[F]_nobs;
  vvs : seq string }.

Definition neps (m : tmodel) : nat := size (shk m).

(** result of t_func_jit: p or the observables, q (without the shocks), l, k, flag *)
Record tout := TOut { o_p : seq F; o_q : seq F; o_l : int; o_k : int; o_flag : nat }.

(** engine.py:226-263.  The rows of [qmat], [qterm] were cut by the caller
    with [[:-dimeps]] (tools.py:76-77). *)
Definition t_func_jit (m : tmodel) (state shocks : seq F) (set_l set_k : int) (x_space : bool) : res tout :=
  let s := state ++ shocks in
  assert* size s == dq m else ValueError in
  let v := col_of (dq m) s in
  let* lkf := (if set_k == -1 then
                 let* r := find_lk (check_cnst (btab m) (lmx m).+1 (kmx m).+1 v) (xb m) (lmx m).+1 (kmx m).+1 in
                 Ok (Posz r.1.1, Posz r.1.2, r.2)
               else Ok (set_l, set_k, 0%N)) in
  let: (l, k, flag) := lkf in
  let* l' := py_index OutOfBounds (lmx m).+1 l in
  let* k' := py_index OutOfBounds (kmx m).+1 k in
  let* c := of_opt UninitRead (tab m l' k') in
  let p := seq_of (pm c *m v + pt c) in
  let q := py_to (- (neps m)%:Z) (seq_of (qm c *m v + qt c)) in
  if x_space then
    let* a := matvec (hxp m) p in
    let* b := matvec (hxq m) q in
    let* ab := vadd a b in
    let* o := vadd ab (seq_of (hxc m)) in
    Ok (TOut o q l k flag)
  else Ok (TOut p q l k flag).

(** tools.py:57-67 *)
Definition decode (set_k : setk) (linear : bool) : int * int :=
  if linear then (0, 0) else
  match set_k with
  | KNone | KBool _ => (-1, -1)
  | KTuple l k => (l, k)
  | KInt n => ((n == 0)%:Z, n)
  end.

(** tools.py:17-104; [shocks = None] is the zero vector *)
Definition t_func_raw (m : tmodel) (state : seq F) (shocks : option (seq F)) (set_k : setk) (linear get_obs : bool)
  : res tout :=
  let sh := odflt (nseq (neps m) 0) shocks in
  let: (l, k) := decode set_k linear in
  t_func_jit m (py_from (- (dq m)%:Z + (neps m)%:Z) state) sh l k get_obs.

(** return_k=True, get_obs=False: [np.hstack((p, q)), (l, k), flag] *)
Definition t_func (m : tmodel) (state : seq F) (shocks : option (seq F)) (set_k : setk) (linear : bool)
  : res (seq F * (int * int) * nat) :=
  let* r := t_func_raw m state shocks set_k linear false in
  Ok (o_p r ++ o_q r, (o_l r, o_k r), o_flag r).

(** return_k=True, get_obs=True: [(q, obs), (l, k), flag] *)
Definition t_func_obs (m : tmodel) (state : seq F) (shocks : option (seq F)) (set_k : setk) (linear : bool)
  : res (seq F * seq F * (int * int) * nat) :=
  let* r := t_func_raw m state shocks set_k linear true in
  Ok (o_q r, o_p r, (o_l r, o_k r), o_flag r).

(** tools.py:131-135, one row of a two-dimensional [state] *)
Definition obs_row (m : tmodel) (st : seq F) : res (seq F) :=
  let* a := matvec (hxp m) (take (dp m) st) in
  let* b := matvec (hxq m) (drop (dp m) st) in
  let* ab := vadd a b in
  vadd ab (seq_of (hxc m)).

(** tools.py:107-146 with covs=None, pars=None and a two-dimensional [state] *)
Definition o_func2 (m : tmodel) (st : seq (seq F)) : res (seq (seq F)) := mapM (obs_row m) st.

(** the same with a one-dimensional [state]: lines 142-144 put the vector
    of observables, one column, into a DataFrame with [nobs] column names and [ndata] row labels
    (None: no data loaded); pandas raises ValueError unless the shapes agree *)
Definition o_func1 (m : tmodel) (ndata : option nat) (st : seq F) : res (seq F) :=
  let* o := obs_row m st in
  if (nobs m == 1%N) && (if ndata is Some n then n == size o else true) then Ok o else Err ValueError.

(** elements of the argument [shocklist] *)
Inductive shockarg := SName of string | SPair of string & F | STriple of string & F & int.

(** tools.py:213-221 *)
Definition norm_shock (a : shockarg) : string * F * int :=
  match a with
  | SName s => (s, 1, 0)
  | SPair s x => (s, x, 0)
  | STriple s x t => (s, x, t)
  end.

(** tools.py:247-256 *)
Definition shock_vec (names : seq string) (sl : seq (string * F * int)) (t : nat) : res (seq F) :=
  foldM (fun v (a : string * F * int) =>
    let: (s, x, per) := a in
    if per == t%:Z then let* i := py_find s names in Ok (set_nth 0 v i x) else Ok v)
    sl (nseq (size names) 0).

Definition np_any (v : seq F) : bool := has (fun x => x != 0) v.
Definition np_anyz (v : seq int) : bool := has (fun x => x != 0) v.

(** tools.py:190-191: [not bool(np.any(set_k))] *)
Definition default_force (set_k : setk) : bool :=
  match set_k with
  | KNone => true
  | KBool b => ~~ b
  | KTuple l k => (l == 0) && (k == 0)
  | KInt n => n == 0
  end.

(** tools.py:281-292, the branches without forcing; [True - t] counts as [1 - t] *)
Definition set_k_at (set_k : setk) (t : nat) : setk :=
  match set_k with
  | KNone => KNone
  | KTuple l k => if 0 <= l - t%:Z then KTuple (l - t%:Z) k else KTuple 0 (Order.max (k + l - t%:Z) 0)
  | KBool true => KTuple 0 (Order.max (1 - t%:Z) 0)
  | KBool false => KBool false
  | KInt n => if n != 0 then KTuple 0 (Order.max (n - t%:Z) 0) else KInt n
  end.

(** tools.py:261 *)
Definition elapse (lk : int * int) : int * int :=
  let: (l, k) := lk in if l != 0 then (l - 1, k) else (l, Order.max (k - 1) 0).

(** local variables of the loop over t: st_vec, (l, k), the two flags, and
    the rows written to X, L, K (last first) *)
Record irf_st := IS { i_st : seq F; i_lk : int * int; i_err : nat; i_mult : bool;
                      i_rows : seq (seq F * (int * int)) }.

(** tools.py:245-320, body of the loop *)
Definition irf_step (m : tmodel) (nstates : nat) (l_max k_max : nat) (sl : seq (string * F * int))
    (linear : bool) (set_k : setk) (force : bool) (s : irf_st) (t : nat) : res irf_st :=
  let* sv := shock_vec (shk m) sl t in
  let short := py_from (- ((dq m)%:Z - (neps m)%:Z)) (i_st s) in
  let* em := (if [&& force, ~~ np_any sv & np_anyz [seq a.2 | a <- sl]] then
                let e := elapse (i_lk s) in
                let* r := t_func m short (Some sv) KNone linear in
                Ok (KTuple e.1 e.2, i_mult s || (r.1.2 != e))
              else Ok (set_k_at set_k t, i_mult s)) in
  let: (eff, mult) := em in
  assert* (if eff is KTuple l k then (l <= l_max%:Z) && (k <= k_max%:Z) else true) else IndexError in
  let* r := t_func m short (Some sv) eff linear in
  let: (st', lk', flag) := r in
  assert* size st' == nstates else ValueError in
  Ok (IS st' lk' (Nat.lor (i_err s) flag) mult ((st', lk') :: i_rows s)).

(** tools.py:239-323; [None] = the filled NaN result with flags 4, 4 (lines 232-237) *)
Definition irf_run (m : tmodel) (nstates : nat) (state : option (seq F)) (T : nat) (l_max k_max : nat)
    (sl : seq (string * F * int)) (linear : bool) (set_k : setk) (force : bool) : res irf_st :=
  foldM (irf_step m nstates l_max k_max sl linear set_k force) (iota 0 T)
    (IS (odflt (nseq nstates 0) state) (0, 0) 0 false [::]).

(** a result of irfs: rows (state, (l, k)), error flag, multiplicity flag; [INan] is the NaN
    result with flags 4, 4 *)
Inductive irf_res := IRows of seq (seq F * (int * int)) & nat & bool | INan.

(** tools.py:160-354 for one parameter vector; [setpar] is [pelf.set_par] on
    a fresh copy (external here); [any_par] is [np.any(par)] *)
Definition irfs (P : Type) (m : tmodel) (setpar : P -> res tmodel) (any_par : P -> bool) (shocklist : seq shockarg)
    (par : option P) (state : option (seq F)) (T : nat) (linear : bool) (set_k : setk)
    (force_init_equil : option bool) : res irf_res :=
  let force := odflt (default_force set_k) force_init_equil in
  let sl := [seq norm_shock a | a <- shocklist] in
  let go m' :=
    let* r := irf_run m' (size (vvs m)) state T (lmx m) (kmx m) sl linear set_k force in
    Ok (IRows (rev (i_rows r)) (i_err r) (i_mult r)) in
  match par with
  | Some p => if any_par p then
                match setpar p with Ok m' => go m' | Err ValueError => Ok INan | Err e => Err e end
              else go m
  | None => go m
  end.

(** tools.py:357-364 *)
Definition shock2state (m : tmodel) (stype : string) (ssize : F) : res (seq F) :=
  let st := nseq (dq m) 0 in
  let off := (size st - size (py_from (- (neps m)%:Z) st))%N in
  let* i := py_find stype (shk m) in
  (* assignment to the view [state[-dimeps:]] *)
  if (i < size (py_from (- (neps m)%:Z) st))%N then Ok (set_nth 0 st (off + i) ssize) else Err IndexError.

(** tools.py:431-432: [np.where(np.isnan(mask), eps, operation(mask, eps))],
    [None] = NaN; shapes must agree *)
Definition mask_row (op : F -> F -> F) (mk : seq (option F)) (eps : seq F) : res (seq F) :=
  if size mk == size eps
  then Ok [seq (if x.1 is Some a then op a x.2 else x.2) | x <- zip mk eps] else Err ValueError.
Fixpoint mask_eps (op : F -> F -> F) (mk : seq (seq (option F))) (eps : seq (seq F)) : res (seq (seq F)) :=
  match mk, eps with
  | [::], [::] => Ok [::]
  | r :: mk', e :: eps' => let* x := mask_row op r e in let* xs := mask_eps op mk' eps' in Ok (x :: xs)
  | _, _ => Err ValueError
  end.

(** tools.py:441-457, the loop over [eps]: states after the initial one, with (l, k); flags *)
Fixpoint sim_loop (m : tmodel) (linear : bool) (state : seq F) (eps : seq (seq F))
  : res (seq (seq F * (int * int)) * nat) :=
  match eps with
  | [::] => Ok ([::], 0%N)
  | e :: eps' =>
      let* r := t_func m state (Some e) KNone linear in
      let: (st', lk, flag) := r in
      let* xs := sim_loop m linear st' eps' in
      Ok ((st', lk) :: xs.1, Nat.lor flag xs.2)
  end.

(** tools.py:424-463; [setpar p] returns the re-solved model; the guard of lines 436-439
    compares [vv] returned by set_par, which is [self.vv] (mpile.py:355-356), with [pelf.vv] *)
Definition sim_run (P : Type) (setpar : P -> res tmodel) (op : F -> F -> F) (mask : option (seq (seq (option F))))
    (linear : bool) (par : P) (eps : seq (seq F)) (state : seq F) : res (seq (seq F) * seq (int * int) * nat) :=
  let* eps' := (if mask is Some mk then mask_eps op mk eps else Ok eps) in
  let* m := setpar par in
  let ret_vv := vvs m in
  assert* ret_vv == vvs m else GenericException in
  let* r := sim_loop m linear state eps' in
  Ok (state :: [seq x.1 | x <- r.1], [seq x.2 | x <- r.1], r.2).

(** tools.py:386-485: [pars], [resid], [init] come from the arguments, else from
    [source] (subscripting [source = None] raises TypeError); [zip] stops at the shortest; line 468 takes
    [len(source["pars"])] in any case *)
Record simsrc (P : Type) := SimSrc { s_pars : seq P; s_resid : seq (seq (seq F)); s_init : seq (seq F) }.
Definition simulate (P : Type) (setpar : P -> res tmodel) (source : option (simsrc P))
    (mask : option (seq (seq (option F)))) (pars : option (seq P)) (resid : option (seq (seq (seq F))))
    (init : option (seq (seq F))) (op : F -> F -> F) (linear : bool)
  : res (seq (seq (seq F) * seq (int * int) * nat)) :=
  let pick A (a : option A) (g : simsrc P -> A) : res A :=
    match a with Some x => Ok x | None => match source with Some s => Ok (g s) | None => Err TypeError end end in
  let* ps := pick _ pars (@s_pars P) in
  let* rs := pick _ resid (@s_resid P) in
  let* ins := pick _ init (@s_init P) in
  let* _ := (if source is Some _ then Ok tt else Err TypeError) in
  mapM (fun a => sim_run setpar op mask linear a.1 a.2.1 a.2.2) (zip ps (zip rs ins)).

(** tools.py:488-516 with [l], [k] given; [tb] is [self.precalc_tmat],
    whose first axis has length [l_max + k_max + 2] (engine.py:196-200) *)
Definition read_tm (m : tmodel) (tb : btable F (dq m)) (state : seq F) (s l k : nat) : res F :=
  let* v := of_opt UninitRead (tb s l k) in
  if size state == dq m then Ok ((v.1 *m col_of (dq m) state) 0 0 + v.2) else Err ValueError.

Definition traj (m : tmodel) (tb : btable F (dq m)) (state : seq F) (l k : int) : res (seq F) :=
  let* l' := py_index IndexError (lmx m).+1 l in
  let* k' := py_index IndexError (kmx m).+1 (k - 1) in
  mapM (fun s => read_tm tb state s l' k') (iota 0 ((lmx m).+1 + (kmx m).+1)).

(** tools.py:519-558; [l], [k] as in the arguments, [None] = omitted.  Lines 553, 556 index with
    [tmat[i + k, i, k]] and [tmat[l + i, l, i]] *)
Definition k_map (m : tmodel) (tb : btable F (dq m)) (state : seq F) (l k : option int) : res (seq F * seq F) :=
  let* lk := match k with
    | None =>
        assert* size state == dq m else ValueError in
        let* r := find_lk (check_cnst (btab m) (lmx m).+1 (kmx m).+1 (col_of (dq m) state)) (xb m) (lmx m).+1 (kmx m).+1 in
        Ok (if l is Some l' then if l' != 0 then l' else Posz r.1.1 else Posz r.1.1, Posz r.1.2)
    | Some k => Ok (odflt 0 l, k)
    end in
  let: (l, k) := lk in
  let at3 (a b c : int) : res F :=
    let* a' := py_index IndexError ((lmx m).+1 + (kmx m).+1) a in
    let* b' := py_index IndexError (lmx m).+1 b in
    let* c' := py_index IndexError (kmx m).+1 c in
    let* x := read_tm tb state a' b' c' in Ok (x - xb m) in
  let* LS := mapM (fun i : nat => at3 (i%:Z + k) i%:Z k) (iota 0 (lmx m)) in
  let* KS := mapM (fun i : nat => at3 (l + i%:Z) l i%:Z) (iota 0 (kmx m)) in
  Ok (LS, KS).
End Tools.

Section TmatCache.
(** the attribute [precalc_tmat] (tools.py:508-513, 541-546): written by the first call of traj or k_map
    from the tables of the current solve, [build] (M_Engine.preprocess_tmats, engine.py:205-224), and by
    nothing else; [A] is the outcome of a solve, which replaces [sys], [ff] and [precalc_mat] only *)
Variables (A TB : Type) (build : A -> res TB).
Inductive tm_op := OpSolve of A | OpUse.
Record tm_state := TmSt { tm_cur : A; tm_memo : option TB }.
(** new state, and the tables used, if the operation is traj or k_map *)
Definition tm_step (s : tm_state) (o : tm_op) : tm_state * option (res TB) :=
  match o with
  | OpSolve a => (TmSt a (tm_memo s), None)
  | OpUse =>
      match tm_memo s with
      | Some tb => (s, Some (Ok tb))
      | None => match build (tm_cur s) with
                | Ok tb => (TmSt (tm_cur s) (Some tb), Some (Ok tb))
                | Err e => (s, Some (Err e))
                end
      end
  end.
Definition tm_run (s : tm_state) (os : seq tm_op) : tm_state := foldl (fun s o => (tm_step s o).1) s os.
End TmatCache.
Arguments OpSolve {A}. Arguments OpUse {A}.
