(** Model of the horizons (gensys.py:216-239) and of the order in which
    [gen_sys_from_yaml] (gensys.py:103-175) and [gen_sys] (gensys.py:178-394)
    write the attributes of the model object. *)
From Coq Require Import List ZArith Bool.
From Verif Require Import PyBase.
Import ListNotations.
Local Open Scope py_scope.
Local Open Scope Z_scope.

(** gensys.py:217-239: value stored in [self.lks]; [lks] is the attribute before
    the call, [None] if the model was never solved.  [k_max > 0] with [k_max =
    None] raises TypeError. *)
Definition horizons (lks : option (Z * Z)) (l_max k_max : option Z) : res (Z * Z) :=
  let* l :=
    match l_max with
    | Some l =>
        if l <? 2 then
          match k_max with
          | None => Err TypeError
          | Some k => if 0 <? k then Ok (2 + 1) else Ok (l + 1)
          end
        else Ok (l + 1)
    | None => match lks with Some lk => Ok (fst lk) | None => Ok 3 end
    end in
  let k :=
    match k_max with
    | Some k => k
    | None => match lks with Some lk => snd lk | None => 17 end
    end in
  Ok (l, k).

Section Solve.
(** parameters, compiled parameters, bounds, names, matrices, layout (svv, cvv,
    dimx, dimq, dimp, dimy, dimeps, hx), linear solution with constraint
    row (sys, ff), tables *)
Variables P PP X V M L S T : Type.
(** External or modelled elsewhere: [p0] (calibration), [pcompile], value of x_bar
    (lines 125-136), test [x_bar > 0], declared names, compiled matrices (lines 141-153),
    masks and observation matrices (lines 243-338), rotation and linear solver
    (341-383), [preprocess]. *)
Variable p0 : P.
Variable pcompile : P -> res PP.
Variable has_constraint : bool.
Variable xbar_of : P -> res X.
Variable positive : X -> bool.
Variable names : V.
Variable mats : PP -> res M.
Variable layout : M -> res L.
(** the variable order stored with the layout (line 329) *)
Variable order : L -> V.
Variable linsol : M -> X -> res S.
Variable tables : M -> X -> S -> Z * Z -> res T.

(** attributes of the model object; [None] = not yet set *)
Record mstate := MS {
  m_par : option P; m_ppar : option PP; m_xbar : option X; m_vv : option V;
  m_lks : option (Z * Z); m_layout : option L; m_sys : option S; m_tab : option T }.

Definition fresh : mstate := MS None None None None None None None None.

(** attribute assignments *)
Definition put_par (v : P) (s : mstate) : mstate :=
  MS (Some v) (m_ppar s) (m_xbar s) (m_vv s) (m_lks s) (m_layout s) (m_sys s) (m_tab s).
Definition put_ppar (v : PP) (s : mstate) : mstate :=
  MS (m_par s) (Some v) (m_xbar s) (m_vv s) (m_lks s) (m_layout s) (m_sys s) (m_tab s).
Definition put_xbar (v : X) (s : mstate) : mstate :=
  MS (m_par s) (m_ppar s) (Some v) (m_vv s) (m_lks s) (m_layout s) (m_sys s) (m_tab s).
Definition put_vv (v : V) (s : mstate) : mstate :=
  MS (m_par s) (m_ppar s) (m_xbar s) (Some v) (m_lks s) (m_layout s) (m_sys s) (m_tab s).
Definition put_lks (v : (Z * Z)) (s : mstate) : mstate :=
  MS (m_par s) (m_ppar s) (m_xbar s) (m_vv s) (Some v) (m_layout s) (m_sys s) (m_tab s).
Definition put_layout (v : L) (s : mstate) : mstate :=
  MS (m_par s) (m_ppar s) (m_xbar s) (m_vv s) (m_lks s) (Some v) (m_sys s) (m_tab s).
Definition put_sys (v : S) (s : mstate) : mstate :=
  MS (m_par s) (m_ppar s) (m_xbar s) (m_vv s) (m_lks s) (m_layout s) (Some v) (m_tab s).
Definition put_tab (v : T) (s : mstate) : mstate :=
  MS (m_par s) (m_ppar s) (m_xbar s) (m_vv s) (m_lks s) (m_layout s) (m_sys s) (Some v).

(** gensys.py:103-175 followed by gen_sys: returns the new state also when an
    exception is raised.  Simplification: the layout attributes (lines
    327-338) are written together, as are [sys] and [ff] (385-386): no call
    that can fail lies between these assignments. *)
Definition solve (s : mstate) (par : option P) (l_max k_max : option Z) (hx_only : bool)
  : mstate * res unit :=
  let p := match par with Some p => p | None => p0 end in
  let s := put_par p s in
  match pcompile p with Err e => (s, Err e) | Ok pp =>
  let s := put_ppar pp s in
  if negb has_constraint then (s, Err NotImplementedErr) else
  match xbar_of p with Err e => (s, Err e) | Ok x =>
  let s := put_xbar x s in
  if positive x then (s, Err NotImplementedErr) else
  let s := put_vv names s in
  match mats pp with Err e => (s, Err e) | Ok mm =>
  match horizons (m_lks s) l_max k_max with Err e => (s, Err e) | Ok lk =>
  let s := put_lks lk s in
  match layout mm with Err e => (s, Err e) | Ok ly =>
  let s := put_vv (order ly) (put_layout ly s) in
  if hx_only then (s, Ok tt) else
  match linsol mm x with Err e => (s, Err e) | Ok so =>
  let s := put_sys so s in
  match tables mm x so lk with Err e => (s, Err e) | Ok tb =>
  (put_tab tb s, Ok tt)
  end end end end end end end.

(** a history of calls; exceptions are caught by the caller *)
Record call := Call { c_par : option P; c_l : option Z; c_k : option Z; c_hx : bool }.
Definition do_call (s : mstate) (c : call) : mstate := fst (solve s (c_par c) (c_l c) (c_k c) (c_hx c)).
Definition run (s : mstate) (h : list call) : mstate := fold_left do_call h s.
End Solve.
Arguments MS {P PP X V L S T}.
Arguments m_par {P PP X V L S T}. Arguments m_ppar {P PP X V L S T}. Arguments m_xbar {P PP X V L S T}.
Arguments m_vv {P PP X V L S T}. Arguments m_lks {P PP X V L S T}. Arguments m_layout {P PP X V L S T}.
Arguments m_sys {P PP X V L S T}. Arguments m_tab {P PP X V L S T}.
Arguments Call {P}. Arguments c_par {P}. Arguments c_l {P}. Arguments c_k {P}. Arguments c_hx {P}.
