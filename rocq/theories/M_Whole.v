(** From the text of a model file to the model object: [DSGE.read]/[parse] (parser.py:645-951), the compiled derived parameters
    (parser.py:354-453) and [gen_sys_from_yaml] (gensys.py:103-175), put together from M_Text, M_ParaFunc, M_Solve and M_Full.
    External, besides what M_Text and M_Full name: the texts of calibration/parafunc.  The entry [n] is given by the names it refers to,
    [refs], and its value as a function of the values of these names, [dfun]; the functions exp, log, ... of parser.py:373-403 are part of
    [dfun], and no parameter carries the name of one of them. *)
Set Warnings "-all".
From Coq Require Import String Ascii ZArith.
From mathcomp Require Import all_ssreflect all_algebra.
From Verif Require Import PyBase PyStr M_ParaFunc M_Parser M_Text M_Solve M_Engine M_GenSys M_Pipe M_Tools M_Full.
Set Implicit Arguments. Unset Strict Implicit. Unset Printing Implicit Defensive.
Import GRing.Theory Num.Theory.
Local Open Scope ring_scope.
Local Open Scope py_scope.

Section Whole.
Variable F : realFieldType.
Variable tol : F.
Variable rq : forall d, 'M[F]_d -> 'M[F]_d * 'M[F]_d.
Variable klein : forall a b, 'M[F]_(a + b) -> 'M[F]_(a + b) -> res ('M[F]_(b, a) * 'M[F]_a).
Variable ptree : text -> option (rawexpr F).
Variable yaml : text -> res (rawfile F).
Variable refs : rawfile F -> string -> seq string.
Variable dfun : rawfile F -> string -> seq F -> F.

(** the expressions of parser.py:417 as functions of the list of the parameters *)
Definition fpars (f : rawfile F) : seq string := [seq p.1 | p <- f_pars f].
Definition defs_of (f : rawfile F) : seq (defn (seq F -> F)) :=
  [seq Defn n (refs f n) (fun us v => dfun f n [seq u v | u <- us]) | n <- f_oths f].
(** parser.py:356 *)
Definition known (f : rawfile F) : seq (string * (seq F -> F)) :=
  [seq (n, fun v => nth 0 v (index n (fpars f))) | n <- fpars f].
(** parser.py:404-432, 445-447: [psi].  The fuel suffices (C39). *)
Definition psi_of (f : rawfile F) : res (seq F -> seq F) :=
  match resolve_defs (size (f_oths f)).+1 (defs_of f) (known f) with
  | Some (Ok c) => Ok (fun v => [seq odflt (fun _ => 0) (get c n) v | n <- f_oths f])
  | Some (Err e) => Err e
  | None => Err NameError
  end.

(** what reading a file leaves behind: the file, the parsed equations ([None] without a constraint), [psi] *)
Definition read_text (t : text) : res (rawfile F * option (parsed F) * (seq F -> seq F)) :=
  let* f := yaml (normalize t) in
  let* o := parse_file ptree f in
  let* ps := psi_of f in
  Ok (f, o, ps).

(** parser.py:434-443, 449-450: the compiled matrices take the list [pcompile(par)] by position *)
Definition par_at (f : rawfile F) (ps : seq F -> seq F) (v : seq F) (n : string) : F :=
  nth 0 (v ++ ps v) (index n (fpars f ++ f_oths f)).
(** gensys.py:128-140 *)
Definition xbar_of (f : rawfile F) (ps : seq F -> seq F) (v : seq F) : F :=
  if "x_bar"%string \in fpars f then nth 0 v (index "x_bar"%string (fpars f))
  else if "x_bar"%string \in f_oths f then nth 0 (ps v) (index "x_bar"%string (f_oths f))
  else -1.

(** gensys.py:146-175 and [gen_sys]; the length of the horizon tables is a natural number (a negative one raises ValueError in numpy) *)
Definition solve_parsed (p : parsed F) (par : string -> F) (xb : F) (lk : Z * Z) : res (tmodel F) :=
  let* g := get_matrices p par in
  assert* Z.leb Z0 lk.1 && Z.leb Z0 lk.2 else ValueError in
  match insub (index (p_cvar p) (p_vars p)) with
  | Some c => gen_sys tol rq klein (usys_of_file g c xb) (in_tuple (p_vars p)) (p_shks p)
                (mx_of (size (p_obs p)) (size (p_vars p)) (g_ZZ0 g)) (\col_i nth 0 (g_ZZ1 g) i) (Z.to_nat lk.1) (Z.to_nat lk.2)
  | None => Err ValueError
  end.

(** gensys.py:103-175: [par=None] means the calibration of the file; [psi] unpacks the list of the parameters, a list of another
    length raises ValueError *)
Definition solve_read (r : rawfile F * option (parsed F) * (seq F -> seq F)) (par : option (seq F)) (lks : option (Z * Z))
    (l_max k_max : option Z) : res (tmodel F) :=
  let: (f, o, ps) := r in
  let v := odflt [seq p.2 | p <- f_pars f] par in
  assert* size v == size (f_pars f) else ValueError in
  match o with
  | None => Err NotImplementedErr
  | Some p => let xb := xbar_of f ps v in
              if 0 < xb then Err NotImplementedErr else
              let* lk := horizons lks l_max k_max in
              solve_parsed p (par_at f ps v) xb lk
  end.
(** reading a file and solving the model *)
Definition solve_text (t : text) (par : option (seq F)) (lks : option (Z * Z)) (l_max k_max : option Z) : res (tmodel F) :=
  let* r := read_text t in solve_read r par lks l_max k_max.
End Whole.
