(** Model of pydsge/parser.py: from the declared equations to the coefficient matrices.

    Expressions are syntax trees over atoms; sympy's automatic simplification is not modelled, except that
    differentiation drops zero terms.  A raw equation is already a tree whose leaves are names, possibly
    called with a lead/lag; the text of the file is in M_Text. *)
Set Warnings "-all".
From Coq Require Import String DecimalString.
From mathcomp Require Import all_ssreflect all_algebra.
From Verif Require Import PyBase PyStr.
Set Implicit Arguments. Unset Strict Implicit. Unset Printing Implicit Defensive.
Import GRing.Theory.
Local Open Scope ring_scope.
Local Open Scope py_scope.

(** symbols.py:12-61, 82-135: classes of symbols *)
Inductive kind := KVar | KShk | KPar.
Definition kind_eq_dec (x y : kind) : {x = y} + {x <> y}. Proof. decide equality. Defined.
Definition kind_eqMixin := EqMixin (compareP kind_eq_dec).
Canonical kind_eqType := EqType kind kind_eqMixin.

(** symbols.py:24-62: class, name and date; equality is by these (line 61-62, [_hashable_content]; the
    expectation date, never set by the parser, is in M_Symbols).  Parameters carry date 0. *)
Definition sym := (kind * string * int)%type.
Definition knd (a : sym) := a.1.1.
Definition nam (a : sym) := a.1.2.
Definition dat (a : sym) := a.2.
(** symbols.py:47-51 *)
Definition shift (a : sym) (d : int) : sym := (a.1, a.2 + d).

(** decimal printing of a natural number, Python's [str] *)
Definition py_str_nat (n : nat) : string := NilZero.string_of_uint (Nat.to_uint n).

Definition strcat (a b : string) : string := String.append a b.

Section Parser.
Variable F : fieldType.

Inductive expr (A : Type) :=
| Cst (c : F) | At (a : A) | Add (e f : expr A) | Sub (e f : expr A) | Mul (e f : expr A) | Opp (e : expr A) | Inv (e : expr A).
Arguments Cst {A}. Arguments At {A}.

Fixpoint eval (A : Type) (v : A -> F) (e : expr A) : F :=
  match e with
  | Cst c => c
  | At a => v a
  | Add e f => eval v e + eval v f
  | Sub e f => eval v e - eval v f
  | Mul e f => eval v e * eval v f
  | Opp e => - eval v e
  | Inv e => (eval v e)^-1
  end.

Fixpoint atoms (A : Type) (e : expr A) : seq A :=
  match e with
  | Cst _ => [::]
  | At a => [:: a]
  | Add e f | Sub e f | Mul e f => atoms e ++ atoms f
  | Opp e | Inv e => atoms e
  end.

Fixpoint emap (A B : Type) (g : A -> B) (e : expr A) : expr B :=
  match e with
  | Cst c => Cst c
  | At a => At (g a)
  | Add e f => Add (emap g e) (emap g f)
  | Sub e f => Sub (emap g e) (emap g f)
  | Mul e f => Mul (emap g e) (emap g f)
  | Opp e => Opp (emap g e)
  | Inv e => Inv (emap g e)
  end.

(** symbols.py:138-145 [Equation] *)
Definition eqn := (expr sym * expr sym)%type.
Definition eatoms (q : eqn) : seq sym := atoms q.1 ++ atoms q.2.
Definition set_eq_zero (q : eqn) : expr sym := Sub q.1 q.2.

(** parser.py, [eq.subs(subs_dict)]: the dictionary maps symbols to symbols.  Sympy replaces the keys one after
    the other; no value is itself a key in the dictionaries built below, so this is the simultaneous replacement. *)
Definition dict := seq (sym * sym).
Definition lookup (d : dict) (a : sym) : sym := odflt a (ohead [seq x.2 | x <- d & x.1 == a]).
Definition subs (d : dict) (q : eqn) : eqn := (emap (lookup d) q.1, emap (lookup d) q.2).

(** a raw leaf: a name, or a name called with a number, e.g. [x(-1)] *)
Definition leaf := (string * option int)%type.
Definition rawexpr := expr leaf.
Definition raweqn := (rawexpr * rawexpr)%type.

(** a model file: declarations, calibration and equations *)
Record rawmodel := RawModel {
  r_vars : seq string;                      (** declarations/variables *)
  r_pars : seq string;                      (** calibration/parameters *)
  r_shks : seq string;                      (** keys of calibration/covariances *)
  r_oths : seq string;                      (** keys of calibration/parafunc *)
  r_eqs : seq raweqn;                       (** equations/model *)
  r_cvar : string; r_ceq : raweqn;          (** equations/constraint *)
  r_obs : seq (string * rawexpr) }.         (** equations/observables *)

(** parser.py:678-690: [context]; a later entry of the same name replaces an earlier one *)
Definition context (m : rawmodel) : seq (string * kind) :=
  [seq (n, KVar) | n <- r_vars m] ++ [seq (n, KPar) | n <- r_pars m] ++ [seq (n, KShk) | n <- r_shks m] ++ [seq (n, KPar) | n <- r_oths m].
Definition ctx_get (c : seq (string * kind)) (n : string) : option kind := ohead (rev [seq x.2 | x <- c & x.1 == n]).

(** evaluation of a leaf in the context: an unknown name raises NameError, calling a parameter TypeError; both are
    caught and reported as SyntaxError (parser.py:719-726, 767-778) *)
Definition resolve_leaf (c : seq (string * kind)) (l : leaf) : res sym :=
  match ctx_get c l.1, l.2 with
  | None, _ => Err SyntaxErr
  | Some k, None => Ok (k, l.1, 0)
  | Some KPar, Some _ => Err SyntaxErr
  | Some k, Some d => Ok (shift (k, l.1, 0) d)
  end.

Fixpoint resolve (c : seq (string * kind)) (e : rawexpr) : res (expr sym) :=
  match e with
  | Cst x => Ok (Cst x)
  | At l => let* a := resolve_leaf c l in Ok (At a)
  | Add e f => let* e' := resolve c e in let* f' := resolve c f in Ok (Add e' f')
  | Sub e f => let* e' := resolve c e in let* f' := resolve c f in Ok (Sub e' f')
  | Mul e f => let* e' := resolve c e in let* f' := resolve c f in Ok (Mul e' f')
  | Opp e => let* e' := resolve c e in Ok (Opp e')
  | Inv e => let* e' := resolve c e in Ok (Inv e')
  end.

Definition resolve_eqn (c : seq (string * kind)) (q : raweqn) : res eqn :=
  let* l := resolve c q.1 in let* r := resolve c q.2 in Ok (l, r).

(** Python's [max]/[min] of a list of dates; empty: ValueError, caught and reported as SyntaxError *)
Definition py_max (l : seq int) : res int := if l is x :: xs then Ok (foldl Num.max x xs) else Err SyntaxErr.
Definition py_min (l : seq int) : res int := if l is x :: xs then Ok (foldl Num.min x xs) else Err SyntaxErr.

Definition dates_of (k : kind) (n : string) (eqs : seq eqn) : seq int :=
  [seq dat a | a <- flatten [seq eatoms q | q <- eqs] & (knd a == k) && (nam a == n)].

(** parser.py:796-810: largest lead and lag of each shock *)
Definition shock_dates (eqs : seq eqn) (s : string) : res (string * int) :=
  let* _ := py_max (dates_of KShk s eqs) in
  let* lag := py_min (dates_of KShk s eqs) in Ok (s, lag).

Definition var_s (s : string) : string := strcat s "_VAR".

(** parser.py:812-823: one pass of the loop over the shocks *)
Definition expand_shock (st : seq eqn * seq string) (sl : string * int) : seq eqn * seq string :=
  let: (eqs, vars) := st in let: (s, lag) := sl in
  if (0 < absz lag)%N then
    let d := [seq ((KShk, s, - i%:Z), (KVar, var_s s, - i%:Z)) | i <- iota 1 (absz lag)] in
    ([seq subs d q | q <- rcons eqs (At (KVar, var_s s, 0), At (KShk, s, 0))], rcons vars (var_s s))
  else st.

(** parser.py:825-838: largest lead and lag of each variable *)
Definition var_dates (eqs : seq eqn) (v : string) : res (string * (int * int)) :=
  let* lead := py_max (dates_of KVar v eqs) in
  let* lag := py_min (dates_of KVar v eqs) in Ok (v, (lead, lag)).

Definition var_lag (v : string) (i : nat) : string := strcat v (strcat "_LAG" (py_str_nat i)).
Definition var_lead (v : string) (i : nat) : string := strcat v (strcat "_LEAD" (py_str_nat i)).

(** what one pass of the inner loops of parser.py:845-870 adds: dictionary entry, variable, equation *)
Definition lag_step (v : string) (i : nat) : sym * sym * string * eqn :=
  let vl := var_lag v i.-1 in
  let prev := if i == 2%N then (KVar, v, -1) else (KVar, var_lag v i.-2, -1) in
  ((KVar, v, - i%:Z), (KVar, vl, -1), vl, (At (KVar, vl, 0), At prev)).
Definition lead_step (v : string) (i : nat) : sym * sym * string * eqn :=
  let vl := var_lead v i.-1 in
  ((KVar, v, i%:Z), (KVar, vl, 1), vl, (At (KVar, vl, 0), At (KVar, v, 1))).

(** np.arange(2, n+1) *)
Definition arange2 (n : nat) : seq nat := iota 2 n.-1.

(** parser.py:845-870: all passes for one variable *)
Definition var_steps (vd : string * (int * int)) : seq (sym * sym * string * eqn) :=
  [seq lag_step vd.1 i | i <- arange2 (absz vd.2.2)] ++ [seq lead_step vd.1 i | i <- arange2 (absz vd.2.1)].

Definition step_dict (x : sym * sym * string * eqn) : sym * sym := x.1.1.
Definition step_var (x : sym * sym * string * eqn) : string := x.1.2.
Definition step_eq (x : sym * sym * string * eqn) : eqn := x.2.

(** parser.py:796-872: expansion of leads and lags; result: equations and variables *)
Definition expand (eqs0 : seq eqn) (vars0 shks : seq string) : res (seq eqn * seq string) :=
  let* sl := mapM (shock_dates eqs0) shks in
  let: (eqs1, vars1) := foldl expand_shock (eqs0, vars0) sl in
  let* vd := mapM (var_dates eqs1) vars1 in
  let steps := flatten [seq var_steps x | x <- vd] in
  let d := [seq step_dict x | x <- steps] in
  Ok ([seq subs d q | q <- eqs1 ++ [seq step_eq x | x <- steps]], vars1 ++ [seq step_var x | x <- steps]).

Record parsed := Parsed {
  p_eqs : seq eqn; p_vars : seq string; p_pars : seq string; p_oths : seq string; p_shks : seq string;
  p_cvar : string; p_ceq : eqn; p_obs : seq (string * expr sym) }.

(** parser.py:907-910: the right hand sides of the observables, evaluated outside of any [try] in a context without built-ins;
    an unknown name and a called parameter both raise TypeError *)
Definition resolve_obs (c : seq (string * kind)) (o : string * rawexpr) : res (string * expr sym) :=
  match resolve c o.2 with Ok e => Ok (o.1, e) | Err _ => Err TypeError end.

(** parser.py:665-951, the parts concerning equations; the text of the file is in M_Text *)
Definition parse (m : rawmodel) : res parsed :=
  let c := context m in
  let* ceq := resolve_eqn c (r_ceq m) in
  assert* ((size (r_eqs m)).+1 == size (r_vars m))%N else SyntaxErr in
  let* eqs := mapM (resolve_eqn c) (r_eqs m) in
  let* ev := expand eqs (r_vars m) (r_shks m) in
  let* obs := mapM (resolve_obs c) (r_obs m) in
  Ok (Parsed ev.1 ev.2 (r_pars m) (r_oths m) (r_shks m) (r_cvar m) ceq obs).

(** sympy's derivative; terms equal to 0 are dropped as sympy does *)
Definition is0 (e : expr sym) : bool := if e is Cst c then c == 0 else false.
Definition sadd (e f : expr sym) : expr sym := if is0 e then f else if is0 f then e else Add e f.
Definition sopp (e : expr sym) : expr sym := if e is Cst c then Cst (- c) else Opp e.
Definition smul (e f : expr sym) : expr sym := if is0 e || is0 f then Cst 0 else Mul e f.

Fixpoint diff (a : sym) (e : expr sym) : expr sym :=
  match e with
  | Cst _ => Cst 0
  | At b => Cst (a == b)%:R
  | Add e f => sadd (diff a e) (diff a f)
  | Sub e f => sadd (diff a e) (sopp (diff a f))
  | Mul e f => sadd (smul (diff a e) f) (smul e (diff a f))
  | Opp e => sopp (diff a e)
  | Inv e => smul (sopp (diff a e)) (Inv (Mul e e))
  end.

(** parser.py:253-256: variables in [var_ordering] at dates -1, 0, 1 are replaced by 0 *)
Definition in_subs0 (vars : seq string) (a : sym) : bool :=
  (knd a == KVar) && (nam a \in vars) && (dat a \in [:: -1; 0; 1]).

(** [lambdify] of one entry and its evaluation at parameter values [par]: a leftover symbol raises NameError *)
Definition entry (vars : seq string) (par : string -> F) (e : expr sym) : res F :=
  assert* all (fun a => (knd a == KPar) || in_subs0 vars a) (atoms e) else NameError in
  Ok (eval (fun a => if knd a == KPar then par (nam a) else 0) e).

(** [list.index] *)
Definition py_index_of (l : seq sym) (a : sym) : res nat := assert* a \in l else ValueError in Ok (index a l).

(** the loops [for v in ...: M[i, list.index(v)] = f(eq.diff(v).subs(subs_dict))] of parser.py:291-350, for one
    equation: [sel] selects the atoms, [cols] is the list, [e] the differentiated expression *)
Definition fill_row (vars : seq string) (par : string -> F) (cols : seq sym) (f : F -> F) (e : expr sym)
    (row : seq F) (a : sym) : res (seq F) :=
  let* j := py_index_of cols a in
  let* x := entry vars par (diff a e) in
  Ok (set_nth 0 row j (f x)).
Definition coef_row (vars : seq string) (par : string -> F) (cols : seq sym) (sel : pred sym) (f : F -> F)
    (ats : seq sym) (e : expr sym) : res (seq F) :=
  foldM (fill_row vars par cols f e) [seq a <- undup ats | sel a] (nseq (size cols) 0).

Record matrices := Mats {
  g_AA : seq (seq F); g_BB : seq (seq F); g_CC : seq (seq F); g_PSI : seq (seq F);
  g_bb : seq F; g_bbPSI : seq F; g_ZZ0 : seq (seq F); g_ZZ1 : seq F }.

Definition at_date (d : int) (vars : seq string) : seq sym := [seq (KVar, v, d) | v <- vars].
Definition shk_list (shks : seq string) : seq sym := [seq (KShk, s, 0) | s <- shks].

(** keep the first of equal names (parser.py:232-242) *)
Fixpoint dedup (seen : seq string) (l : seq string) : seq string :=
  match l with
  | [::] => [::]
  | x :: l' => if x \in seen then dedup seen l' else x :: dedup (rcons seen x) l'
  end.

Definition is_var (a : sym) := knd a == KVar.
Definition is_shk (a : sym) := knd a == KShk.

(** parser.py:130-142: atoms with a lead in the model equations, [self["fvars"]] (a set) *)
Definition fvars (eqs : seq eqn) : seq sym :=
  [seq a <- undup (flatten [seq eatoms q | q <- eqs]) | ((knd a == KVar) || (knd a == KShk)) && (0 < dat a)].

(** parser.py:228-352 and the evaluation of the compiled functions at the parameter values [par]
    (gensys.py:143-155); a constraint is present.  The matrices have one row less than there are different variables;
    writing outside a matrix raises IndexError, an equation without variables and shocks writes nothing.  When several
    errors apply, which one is reported first is not modelled. *)
Definition get_matrices (m : parsed) (par : string -> F) : res matrices :=
  let vars := dedup [::] (p_vars m) in
  let fv := at_date 1 vars in let cv := at_date 0 vars in let lv := at_date (-1) vars in
  let sl := shk_list (p_shks m) in
  assert* ~~ has (fun a => is_var a && (0 < dat a)) (eatoms (p_ceq m)) else NotImplementedErr in
  let ce := set_eq_zero (p_ceq m) in
  let* bb := coef_row vars par (cv ++ lv) (fun a => is_var a && (dat a <= 0)) -%R (eatoms (p_ceq m)) ce in
  let* bp := coef_row vars par sl is_shk -%R (eatoms (p_ceq m)) ce in
  assert* ~~ has (fun q => has (fun a => is_var a || is_shk a) (eatoms q)) (drop (size vars).-1 (p_eqs m)) else IndexError in
  let* rows := mapM (fun q =>
    let e := set_eq_zero q in
    let* a := coef_row vars par fv (fun a => is_var a && (0 < dat a)) id (eatoms q) e in
    let* b := coef_row vars par cv (fun a => is_var a && (dat a == 0)) id (eatoms q) e in
    let* c := coef_row vars par lv (fun a => is_var a && (dat a < 0)) id (eatoms q) e in
    let* s := coef_row vars par sl is_shk -%R (eatoms q) e in
    Ok (a, b, c, s)) (take (size vars).-1 (p_eqs m)) in
  let* obs := mapM (fun o =>
    let* z1 := entry vars par o.2 in
    let* z0 := coef_row vars par (cv ++ fvars (p_eqs m)) (fun a => is_var a && (0 <= dat a)) id (atoms o.2) o.2 in
    assert* all (fun a => a \notin fvars (p_eqs m)) (atoms o.2) else IndexError in
    Ok (take (size vars) z0, z1)) (p_obs m) in
  Ok (Mats [seq r.1.1.1 | r <- rows] [seq r.1.1.2 | r <- rows] [seq r.1.2 | r <- rows] [seq r.2 | r <- rows]
        bb bp [seq o.1 | o <- obs] [seq o.2 | o <- obs]).

End Parser.
Arguments Cst {F A}. Arguments At {F A}. Arguments Add {F A}. Arguments Sub {F A}. Arguments Mul {F A}.
Arguments Opp {F A}. Arguments Inv {F A}.
