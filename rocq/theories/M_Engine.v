(** Model of the preprocessing in engine.py (lines 13-181, 333-336). *)
Set Warnings "-all".
From mathcomp Require Import all_ssreflect all_algebra.
From Verif Require Import PyBase M_FindLk.
Set Implicit Arguments. Unset Strict Implicit. Unset Printing Implicit Defensive.
Import GRing.Theory Num.Theory.
Local Open Scope ring_scope.
Local Open Scope py_scope.

(** [nl.inv]: raises LinAlgError on a singular matrix (numpy.linalg, external). *)
Definition nl_inv (F : fieldType) n (A : 'M[F]_n) : res 'M[F]_n :=
  if A \in unitmx then Ok (invmx A) else Err LinAlgErr.

(** A two-dimensional [np.empty] table; [None] = cell never written. *)
Definition table (A : Type) := nat -> nat -> option A.
Definition empty_table {A} : table A := fun _ _ => None.
Definition tupd {A} (t : table A) (i j : nat) (v : A) : table A :=
  fun i' j' => if (i' == i) && (j' == j) then Some v else t i' j'.

Section Engine.
Variable F : fieldType.
Variables dimq dimp : nat.

(** The five arrays S, T, V, W, h that the functions take as arguments.  The
    state block has size [dimq] (rows/columns [:dimq]), the control block size
    [dimp] (rows/columns [dimq:]). *)
Record sysmats := SysMats {
  mS : 'M[F]_(dimq + dimp); mT : 'M[F]_(dimq + dimp);
  mV : 'M[F]_(dimq + dimp); mW : 'M[F]_(dimq + dimp);
  mh : 'cV[F]_(dimq + dimp) }.

(** One cell of the four tables pmat, pterm, qmat, qterm.  Simplification: the
    four arrays are always written together (engine.py:74-77 and 87-102), so
    they are one table of records. *)
Record cell := Cell {
  pm : 'M[F]_(dimp, dimq); pt : 'cV[F]_dimp;
  qm : 'M[F]_(dimq, dimq); qt : 'cV[F]_dimq }.

(** engine.py:13-26 *)
Definition get_lam (omg : 'M[F]_(dimp, dimq)) (psi : 'cV[F]_dimp) (sm : sysmats) (l : nat)
  : res ('M[F]_dimq * 'cV[F]_dimq) :=
  let A := if l != 0%N then mS sm else mV sm in
  let B := if l != 0%N then mT sm else mW sm in
  let c := if l != 0%N then 0 else usubmx (mh sm) in
  let* inv := nl_inv (ulsubmx A + ursubmx A *m omg) in
  Ok (inv *m ulsubmx B, inv *m (c - ursubmx A *m psi)).

(** engine.py:29-42 *)
Definition get_omg (omg : 'M[F]_(dimp, dimq)) (psi : 'cV[F]_dimp)
    (lam : 'M[F]_dimq) (xi : 'cV[F]_dimq) (sm : sysmats) (l : nat)
  : 'M[F]_(dimp, dimq) * 'cV[F]_dimp :=
  let A := if l != 0%N then mS sm else mV sm in
  let B := if l != 0%N then mT sm else mW sm in
  let c := if l != 0%N then 0 else dsubmx (mh sm) in
  let dum := dlsubmx A + drsubmx A *m omg in
  (dum *m lam - dlsubmx B, dum *m xi + drsubmx A *m psi - c).

(** engine.py:52-67.  Premultiplies the lower rows of (T,S) by T22^-1 and of
    (W,V,h) by W22^-1.  The conditioning warning (53-57) only prints. *)
Definition normalise (sm : sysmats) : res sysmats :=
  let* T22i := nl_inv (drsubmx (mT sm)) in
  let T' := col_mx (usubmx (mT sm)) (T22i *m dsubmx (mT sm)) in
  let S' := col_mx (usubmx (mS sm)) (T22i *m dsubmx (mS sm)) in
  let* W22i := nl_inv (drsubmx (mW sm)) in
  let W' := col_mx (usubmx (mW sm)) (W22i *m dsubmx (mW sm)) in
  let V' := col_mx (usubmx (mV sm)) (W22i *m dsubmx (mV sm)) in
  let h' := col_mx (usubmx (mh sm)) (W22i *m dsubmx (mh sm)) in
  Ok (SysMats S' T' V' W' h').

(** engine.py:82-102, body of the first double loop *)
Definition stage1_body (sm : sysmats) (t : table cell) (lk : nat * nat) : res (table cell) :=
  let: (l, k) := lk in
  if (k != 0%N) || (l != 0%N) then
    let l_last := l.-1 in
    let k_last := if l != 0%N then k else k.-1 in
    let* c := of_opt UninitRead (t l_last k_last) in
    let* lx := get_lam (pm c) (pt c) sm l in
    let op := get_omg (pm c) (pt c) lx.1 lx.2 sm l in
    Ok (tupd t l k (Cell op.1 op.2 lx.1 lx.2))
  else Ok t.

(** iteration space of [for l in range(0, l_max): for k in range(0, k_max)] *)
Definition lk_range (Lm Km : nat) : seq (nat * nat) :=
  [seq (l, k) | l <- iota 0 Lm, k <- iota 0 Km].

(** engine.py:69-102 *)
Definition stage1 (sm : sysmats) (omg : 'M[F]_(dimp, dimq)) (lam : 'M[F]_dimq) (Lm Km : nat)
  : res (table cell) :=
  foldM (stage1_body sm) (lk_range Lm Km) (tupd empty_table 0 0 (Cell omg 0 lam 0)).

(** fq1, fp1, fq0: the rows of the constraint equation *)
Record cnst := Cnst { fq1 : 'rV[F]_dimq; fp1 : 'rV[F]_dimp; fq0 : 'rV[F]_dimq }.

(** One cell of bmat/bterm: row vector and constant, always written together. *)
Definition bcell := ('rV[F]_dimq * F)%type.

(** bmat/bterm: first index (check point 0..4), then l, then k *)
Definition btable := nat -> table bcell.
Definition empty_btable : btable := fun _ => empty_table.
Definition bupd (b : btable) (i l k : nat) (v : bcell) : btable :=
  fun i' => if i' == i then tupd (b i') l k v else b i'.

(** the loop indices of engine.py:116-117, 170-171.  On naturals
    [max(l - s, 0)] is truncated subtraction and [max(min(k, k + l - s), 0)]
    is [min(k, k + l - s)] with truncated subtraction. *)
Definition l_loc (l k s : nat) : nat := (l - s)%N.
Definition k_loc (l k s : nat) : nat := minn k (k + l - s).

(** local variables of one iteration of the (p)range over k: s, lam, xi *)
Record local := Local { lo_s : nat; lo_lam : 'M[F]_dimq; lo_xi : 'cV[F]_dimq }.
Definition local0 : local := Local 0 1%:M 0.      (* engine.py:111-114, 165-168 *)

(** engine.py:119-120 / 173-174 *)
Definition y2r (f : cnst) (c : cell) : 'rV[F]_dimq := fp1 f *m pm c + fq1 f *m qm c + fq0 f.
Definition crv (f : cnst) (c : cell) : F := (fp1 f *m pt c + fq1 f *m qt c) 0 0.

(** engine.py:114-139, one pass of the loop over s for the pair (l,k): reads the
    transition tables, writes at most the five cells (.,l,k), updates lam, xi. *)
Definition stage2_step (f : cnst) (t : table cell) (l k : nat) (st : local * btable)
  : res (local * btable) :=
  let: (Local s lam xi, b) := st in
  let* c := of_opt UninitRead (t (l_loc l k s) (k_loc l k s)) in
  let v : bcell := (y2r f c *m lam, crv f c + (y2r f c *m xi) 0 0) in
  let b := if s == 0%N then bupd b 0 l k v else b in
  let b := if s.+1 == l then bupd b 1 l k v else b in              (* s == l - 1 *)
  let b := if s == l then bupd b 2 l k v else b in
  let b := if s.+1 == (l + k)%N then bupd b 3 l k v else b in      (* s == l + k - 1 *)
  let b := if s == (l + k)%N then bupd b 4 l k v else b in
  Ok (Local s.+1 (qm c *m lam) (qm c *m xi + qt c), b).

(** engine.py:110-139, sequential execution of one iteration (l,k) *)
Definition stage2_body (f : cnst) (t : table cell) (b : btable) (lk : nat * nat) : res btable :=
  let: (l, k) := lk in
  let* st := foldM (fun st _ => stage2_step f t l k st) (iota 0 (l + k + 1)) (local0, b) in
  Ok st.2.

(** engine.py:104-139, sequential version (parallel=False, [preprocess_jit]) *)
Definition stage2 (f : cnst) (t : table cell) (Lm Km : nat) : res btable :=
  foldM (stage2_body f t) (lk_range Lm Km) empty_btable.

(** Parallel version (parallel=True, [preprocess_jit_parallel]): for a fixed l,
    the iterations over k run as threads.  A schedule is a list of thread
    identifiers k; each entry lets that thread execute one pass of its loop
    over s.  lam, xi, s are private (numba privatises variables assigned in a
    prange body); bmat/bterm are shared; threads of the next l start when all
    of this l have finished. *)
Definition par_step (f : cnst) (t : table cell) (l : nat)
    (st : (nat -> local) * btable) (k : nat) : res ((nat -> local) * btable) :=
  let: (loc, b) := st in
  if (lo_s (loc k) <= l + k)%N then
    let* lb := stage2_step f t l k (loc k, b) in
    Ok ((fun k' => if k' == k then lb.1 else loc k'), lb.2)
  else Ok (loc, b).

Definition par_l (f : cnst) (t : table cell) (sched : nat -> seq nat) (b : btable) (l : nat)
  : res btable :=
  let* st := foldM (par_step f t l) (sched l) ((fun _ => local0), b) in
  Ok st.2.

Definition stage2_par (f : cnst) (t : table cell) (sched : nat -> seq nat) (Lm : nat) : res btable :=
  foldM (par_l f t sched) (iota 0 Lm) empty_btable.

(** engine.py:45-141; [l_max], [k_max] are the arguments, the table sizes are
    [l_max + 1], [k_max + 1] (lines 49-50).  x_bar is not used by the code. *)
Definition preprocess (sm0 : sysmats) (f : cnst) (omg : 'M[F]_(dimp, dimq)) (lam : 'M[F]_dimq)
    (l_max k_max : nat) : res (table cell * btable) :=
  let* sm := normalise sm0 in
  let* t := stage1 sm omg lam l_max.+1 k_max.+1 in
  let* b := stage2 f t l_max.+1 k_max.+1 in
  Ok (t, b).

Definition preprocess_par (sched : nat -> seq nat) (sm0 : sysmats) (f : cnst)
    (omg : 'M[F]_(dimp, dimq)) (lam : 'M[F]_dimq)
    (l_max k_max : nat) : res (table cell * btable) :=
  let* sm := normalise sm0 in
  let* t := stage1 sm omg lam l_max.+1 k_max.+1 in
  let* b := stage2_par f t sched l_max.+1 in
  Ok (t, b).

(** tmat/tterm: first index (period s), then l, then k; engine.py:150-181 *)
Definition tstep (f : cnst) (t : table cell) (l k : nat) (st : local * btable)
  : res (local * btable) :=
  let: (Local s lam xi, b) := st in
  let* c := of_opt UninitRead (t (l_loc l k s) (k_loc l k s)) in
  let v : bcell := (y2r f c *m lam, crv f c + (y2r f c *m xi) 0 0) in
  Ok (Local s.+1 (qm c *m lam) (qm c *m xi + qt c), bupd b s l k v).

Definition tmats_body (f : cnst) (t : table cell) (Lm Km : nat) (b : btable) (lk : nat * nat)
  : res btable :=
  let: (l, k) := lk in
  let* st := foldM (fun st _ => tstep f t l k st) (iota 0 (Lm + Km)) (local0, b) in
  Ok st.2.

Definition preprocess_tmats (f : cnst) (t : table cell) (l_max k_max : nat) : res btable :=
  foldM (tmats_body f t l_max.+1 k_max.+1) (lk_range l_max.+1 k_max.+1) empty_btable.

(** engine.py:333-336; numba does not check bounds: an index outside the shape
    (5, Lm, Km) is [OutOfBounds], a cell never written is [UninitRead]. *)
Definition check_cnst (b : btable) (Lm Km : nat) (q : 'cV[F]_dimq) (s l k : nat) : res F :=
  if [&& (s < 5)%N, (l < Lm)%N & (k < Km)%N] then
    let* v := of_opt UninitRead (b s l k) in
    Ok ((v.1 *m q) 0 0 + v.2)
  else Err OutOfBounds.

End Engine.
