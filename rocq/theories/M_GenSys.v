(** Model of gensys.py: [gen_sys] (lines 178-394), the compression of the
    user's system to states [q] and controls [p], and the way
    [gen_sys_from_yaml] (lines 103-175) prepares its inputs.
    Not modelled here: timing and printing, [klein]/[speed_kills] (the linear
    solution is an argument), the horizons (M_Horizon.v) and the order in which
    attributes are written (M_Solve.v). *)
Set Warnings "-all".
From Coq Require Import String.
From mathcomp Require Import all_ssreflect all_algebra.
From Verif Require Import PyBase M_Engine.
Set Implicit Arguments. Unset Strict Implicit. Unset Printing Implicit Defensive.
Import GRing.Theory Num.Theory.
Local Open Scope ring_scope.
Local Open Scope py_scope.

Section GenSys.
Variable F : realFieldType.
Variable tol : F.        (* zero tolerance of grgrlib.fast0, 1e-8 there *)
Variables m n e : nat.   (* number of equations, variables, shocks *)

(** arguments of [gen_sys], gensys.py:178-195; [cv] is the position of
    [self.const_var] in [self.vv] (line 244) *)
Record usys := USys {
  AA0 : 'M[F]_(m, n); BB0 : 'M[F]_(m, n); CC0 : 'M[F]_(m, n); DD0 : 'M[F]_(m, e);
  fb0 : 'rV[F]_n; fc0 : 'rV[F]_n; fd0 : option 'rV[F]_e;
  cv : 'I_n; x_bar : F }.

(** [fast0(A, 0)]: which columns are numerically zero (external: grgrlib) *)
Definition fast0 (r c : nat) (A : 'M[F]_(r, c)) (j : 'I_c) : bool :=
  [forall i, `|A i j| < tol].

Variable u : usys.

(** gensys.py:245-246 *)
Definition fcn : 'rV[F]_n := - (fb0 u 0 (cv u))^-1 *: fc0 u.
Definition fbn : 'rV[F]_n := - (fb0 u 0 (cv u))^-1 *: fb0 u.

(** gensys.py:257 *)
Definition inall (j : 'I_n) : bool := ~~ fast0 (AA0 u) j && ~~ fast0 (CC0 u) j.
Definition na : nat := #|inall|.

(** rows of the identity selected by [inall], lines 275-277 *)
Definition lagsel : 'M[F]_(na, n) := rowsub (@enum_val _ inall) 1%:M.

(** gensys.py:263-278; if [inall] is empty ([na = 0]) the code skips the block,
    which is the same as adding nothing *)
Definition AA1 : 'M[F]_(m + na, n + na) := block_mx (AA0 u) 0 0 0.
Definition BB1 : 'M[F]_(m + na, n + na) := block_mx (BB0 u) 0 (- lagsel) 1%:M.
Definition CC1 : 'M[F]_(m + na, n + na) :=
  block_mx (\matrix_(i, j) (if inall j then 0 else CC0 u i j))
           (colsub (@enum_val _ inall) (CC0 u)) 0 0.
Definition DD1 : 'M[F]_(m + na, e) := col_mx (DD0 u) 0.

(** gensys.py:284-286 *)
Definition AA2 : 'M[F]_(m + na + e, n + na + e) := block_mx AA1 0 0 0.
Definition BB2 : 'M[F]_(m + na + e, n + na + e) := block_mx BB1 0 0 1%:M.
Definition CC2 : 'M[F]_(m + na + e, n + na + e) := block_mx CC1 DD1 0 0.
(** gensys.py:287-291 *)
Definition fb2 : 'rV[F]_(n + na + e) := row_mx (row_mx fbn 0) 0.
Definition fc2 : 'rV[F]_(n + na + e) :=
  if fd0 u is Some fd then - row_mx (row_mx fcn 0) fd else row_mx (row_mx fcn 0) 0.

(** gensys.py:296-301 *)
Definition inq (j : 'I_(n + na + e)) : bool := ~~ fast0 CC2 j || ~~ (`|fc2 0 j| < tol).
Definition inp (j : 'I_(n + na + e)) : bool := (~~ fast0 AA2 j || ~~ fast0 BB2 j) && ~~ inq j.
Definition dimq : nat := #|inq|.
Definition dimp : nat := #|inp|.

(** gensys.py:318-323 *)
Definition AA : 'M[F]_(m + na + e + 1, n + na + e) := col_mx AA2 0.
Definition BBU : 'M[F]_(m + na + e + 1, n + na + e) := col_mx BB2 fb2.
Definition CCU : 'M[F]_(m + na + e + 1, n + na + e) := col_mx CC2 fc2.
Definition cv2 : 'I_(n + na + e) := lshift e (lshift na (cv u)).
Definition BBR : 'M[F]_(m + na + e + 1, n + na + e) := col_mx BB2 (- delta_mx 0 cv2).
Definition CCR : 'M[F]_(m + na + e + 1, n + na + e) := col_mx CC2 0.

(** boolean indexing of columns, [M[:, mask]] *)
Definition selc (r c : nat) (P : pred 'I_c) (A : 'M[F]_(r, c)) : 'M[F]_(r, #|P|) := colsub (@enum_val _ P) A.

(** gensys.py:341-346 *)
Definition PU : 'M[F]_(m + na + e + 1, dimq + dimp) := - row_mx (selc inq BBU) (selc inp AA).
Definition MU : 'M[F]_(m + na + e + 1, dimq + dimp) := row_mx (selc inq CCU) (selc inp BBU).
Definition PR : 'M[F]_(m + na + e + 1, dimq + dimp) := - row_mx (selc inq BBR) (selc inp AA).
Definition MR : 'M[F]_(m + na + e + 1, dimq + dimp) := row_mx (selc inq CCR) (selc inp BBR).
Definition gg : 'cV[F]_(m + na + e + 1) := col_mx 0 (x_bar u)%:M.

(** gensys.py:349-356, [R, Q = sl.rq(M.T); M = R.T; P = Q @ P]; [rq] is
    scipy.linalg.rq on square matrices *)
Definition rotate (d : nat) (rq : 'M[F]_d -> 'M[F]_d * 'M[F]_d) (P M : 'M[F]_d) (g : 'cV[F]_d) :
    'M[F]_d * 'M[F]_d * 'cV[F]_d :=
  let: (R, Q) := rq M^T in (Q *m P, R^T, Q *m g).

(** gensys.py:349-356 for both regimes.  [gg] has [dimp+dimq] entries and [Q] as
    many columns as there are equations; [Q @ gg] (line 357) raises ValueError unless
    these agree.  Line 373-375: the constraint row handed to preprocess, with
    the entry of the constrained variable set to 0 (line 325). *)
Definition sys_of (rq : forall d, 'M[F]_d -> 'M[F]_d * 'M[F]_d) : res (sysmats F dimq dimp) :=
  match @eqP _ (m + na + e + 1)%N (dimq + dimp)%N with
  | ReflectT pf =>
      let sq (A : 'M[F]_(m + na + e + 1, dimq + dimp)) := castmx (pf, erefl) A in
      let: (PU', MU', _) := rotate (rq _) (sq PU) (sq MU) 0 in
      let: (PR', MR', gg') := rotate (rq _) (sq PR) (sq MR) (castmx (pf, erefl) gg) in
      Ok (SysMats PU' MU' PR' MR' gg')
  | ReflectF _ => Err ValueError
  end.

Definition fb2' : 'rV[F]_(n + na + e) := \row_j (if j == cv2 then 0 else fb2 0 j).
Definition ff : cnst F dimq dimp :=
  @Cnst F dimq dimp (selc inq fb2') (selc inp fb2') (selc inq fc2).

(** names, gensys.py:264 and 327-329; with [e = 0] the slice [[:-dimeps]] is
    empty and boolean indexing raises IndexError.  numpy fixed-width string
    arrays: [np.hstack] widens the dtype, so no truncation. *)
Definition vv0 (names : n.-tuple string) : seq string :=
  tval names ++ [seq (tnth names j ++ "_lag")%string | j <- enum inall].
Definition dropeps (P : pred 'I_(n + na + e)) : pred 'I_(n + na) := fun j => P (lshift e j).
Definition masked (names : n.-tuple string) (P : pred 'I_(n + na + e)) : res (seq string) :=
  if e == 0%N then Err IndexError
  else Ok [seq nth ""%string (vv0 names) (nat_of_ord j) | j <- enum (dropeps P)].
Definition new_vv (names : n.-tuple string) : res (seq string * seq string * seq string) :=
  let* svv := masked names inq in
  let* cvv := masked names inp in
  Ok (svv, cvv, cvv ++ svv).
End GenSys.

Section FromYaml.
Variable F : realFieldType.
Variables m n e : nat.

(** gensys.py:143-151: signs between the compiled matrices (parser.py:276-331)
    and the arguments of [gen_sys].  [bb] is the compiled constraint row of
    length 2n (current, lagged), [bb_psi] the compiled row of the shocks. *)
Definition usys_of_yaml (AAm BBm CCm : 'M[F]_(m, n)) (PSI : 'M[F]_(m, e))
    (bb : 'rV[F]_(n + n)) (bb_psi : 'rV[F]_e) (c : 'I_n) (xb : F) : usys F m n e :=
  USys AAm BBm CCm (- PSI) (- lsubmx bb) (- rsubmx bb) (Some (- bb_psi)) c xb.
End FromYaml.

Section Meaning.
Variable F : realFieldType.
Variable tol : F.
Variables m n e : nat.
Variable u : usys F m n e.

(** What the entries of [q] and [p] stand for, as reported in [self.svv] and
    [self.cvv] (gensys.py:264, 327-328): the vector of all variables, followed
    by copies (named _lag) of those marked by [inall], followed by the shocks,
    is masked by [inq] and [inp]. *)
Definition yvec (x : 'cV[F]_n) (eps : 'cV[F]_e) : 'cV[F]_(n + na tol u + e) :=
  col_mx (col_mx x (rowsub (@enum_val _ (inall tol u)) x)) eps.
Definition q_of (x : 'cV[F]_n) (eps : 'cV[F]_e) : 'cV[F]_(dimq tol u) :=
  rowsub (@enum_val _ (inq (tol:=tol) (u:=u))) (yvec x eps).
Definition p_of (x : 'cV[F]_n) (eps : 'cV[F]_e) : 'cV[F]_(dimp tol u) :=
  rowsub (@enum_val _ (inp (tol:=tol) (u:=u))) (yvec x eps).
End Meaning.
