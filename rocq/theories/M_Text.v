(** Model of the front end of pydsge/parser.py (lines 645-780, 907-910, 953-970): from the text of a model file to the declared
    equations, the calibration and the positions of the priors.
    External: [yaml.safe_load] and the grammar of Python expressions (an equation side is a text, [ptree] its syntax tree, [None]
    a syntax error).  Simplified: the sections of the file have the expected types; Python's built-in functions, available in the
    constraint only, and the names [sum] and [range], available in observables only, are not used. *)
Set Warnings "-all".
From Coq Require Import String Ascii.
From mathcomp Require Import all_ssreflect all_algebra.
From Verif Require Import PyBase PyStr M_Parser M_Params.
Set Implicit Arguments. Unset Strict Implicit. Unset Printing Implicit Defensive.
Import GRing.Theory.
Local Open Scope seq_scope.
Local Open Scope py_scope.

(** texts as sequences of characters *)
Definition ascii_eqMixin := EqMixin Ascii.eqb_spec.
Canonical ascii_eqType := EqType ascii ascii_eqMixin.
Definition text := seq ascii.
Fixpoint chars (s : string) : text := if s is String c s' then c :: chars s' else [::].
Fixpoint str (t : text) : string := if t is c :: t' then String c (str t') else EmptyString.
Definition nl : ascii := "010"%char.

(** Python's [t.replace(old, new)] for a nonempty [old]: leftmost matches that do not overlap; [skip] counts the characters of the
    match still to be passed over *)
Fixpoint replace_from (old new : text) (skip : nat) (t : text) : text :=
  match t with
  | [::] => [::]
  | c :: t' => if skip is k.+1 then replace_from old new k t'
               else if prefix old t then new ++ replace_from old new (size old).-1 t'
               else c :: replace_from old new 0 t'
  end.
Definition replace (old new : text) (t : text) : text := replace_from old new 0 t.
(** [re.sub(r"@ ?\n", " ", t)] *)
Fixpoint join_lines (t : text) : text :=
  match t with
  | [::] => [::]
  | c :: t' =>
      if c == "@"%char then
        match t' with
        | c1 :: t1 => if c1 == nl then " "%char :: join_lines t1
                      else match t1 with
                           | c2 :: t2 => if (c1 == " "%char) && (c2 == nl) then " "%char :: join_lines t2 else c :: join_lines t'
                           | [::] => c :: join_lines t'
                           end
        | [::] => [:: c]
        end
      else c :: join_lines t'
  end.
(** parser.py:654-660 *)
Definition normalize (t : text) : text :=
  let t := replace (chars "^") (chars "**") t in
  let t := replace (chars ";") [::] t in
  let t := join_lines t in
  let t := replace (nl :: chars " ~ ") (nl :: chars " - ") t in
  let t := replace (nl :: chars "  ~ ") (nl :: chars "  - ") t in
  replace (chars "   ~ ") (chars "   - ") t.

(** Python's [str.split(t, "=")] *)
Fixpoint split_eq (t : text) : seq text :=
  match t with
  | [::] => [:: [::]]
  | c :: t' => if c == "="%char then [::] :: split_eq t'
               else match split_eq t' with p :: ps => (c :: p) :: ps | [::] => [:: [:: c]] end
  end.
(** Python's [strip] *)
Definition is_ws (c : ascii) : bool := c \in [:: " "; "009"; "010"; "011"; "012"; "013"; "028"; "029"; "030"; "031"]%char.
Fixpoint lstrip (t : text) : text := if t is c :: t' then (if is_ws c then lstrip t' else t) else [::].
Definition strip (t : text) : text := rev (lstrip (rev (lstrip t))).
Definition has_space (t : text) : bool := " "%char \in t.

Section Front.
Variable F : fieldType.
(** Python's grammar *)
Variable ptree : text -> option (rawexpr F).

(** the section [equations]: a plain list, or with the entries model, constraint, observables; [keys] are all its entries *)
Inductive eqsec := Plain (eqs : seq text)
  | Entries (model : option (seq text)) (cons : option (seq text)) (obs : seq (string * text)) (keys : seq text).
Record rawfile := RawFile {
  f_vars : seq text;              (** declarations/variables *)
  f_pars : seq (string * F);      (** calibration/parameters *)
  f_shks : seq string;            (** keys of calibration/covariances *)
  f_oths : seq string;            (** keys of calibration/parafunc *)
  f_eqs : eqsec;
  f_prior : option (seq string)   (** keys of estimation/prior *) }.

Definition f_ctx (f : rawfile) : seq (string * kind) :=
  context (@RawModel F [seq str v | v <- f_vars f] [seq p.1 | p <- f_pars f] (f_shks f) (f_oths f) [::] EmptyString (Cst 0%R, Cst 0%R) [::]).

(** both sides evaluated in the context; exceptions are reported as SyntaxError (parser.py:718-726, 766-778) *)
Definition sides (c : seq (string * kind)) (l r : text) : res (raweqn F) :=
  match ptree l, ptree r with
  | Some a, Some b => let* _ := resolve_eqn c (a, b) in Ok (a, b)
  | _, _ => Err SyntaxErr
  end.
(** parser.py:706-728 *)
Definition constraint (c : seq (string * kind)) (s : text) : res (string * raweqn F) :=
  match split_eq s with
  | [:: l; r] => if has_space (strip l) then Err SyntaxErr else let* q := sides c l r in Ok (str (strip l), q)
  | _ => Err SyntaxErr
  end.
(** parser.py:760-780; more than one [=]: ValueError *)
Definition equation (c : seq (string * kind)) (s : text) : res (raweqn F) :=
  if "="%char \in s then match split_eq s with [:: l; r] => sides c l r | _ => Err ValueError end
  else sides c s (chars "0").
(** parser.py:909-910; not reported as SyntaxError *)
Definition observable (c : seq (string * kind)) (o : string * text) : res (string * rawexpr F) :=
  match ptree o.2 with
  | Some e => match resolve c e with Ok _ => Ok (o.1, e) | Err _ => Err TypeError end
  | None => Err SyntaxErr
  end.

Definition constraints (f : rawfile) : option (seq text) := match f_eqs f with Plain _ => None | Entries _ c _ _ => c end.
Definition equations (f : rawfile) : seq text :=
  match f_eqs f with Plain l => l | Entries (Some l) _ _ _ => l | Entries None _ _ keys => keys end.
Definition observables (f : rawfile) : seq (string * text) := match f_eqs f with Plain _ => [::] | Entries _ _ o _ => o end.

(** parser.py:665-910 without the covariances (M_ParaFunc); [None]: a model without constraint *)
Definition parse_file (f : rawfile) : res (option (parsed F)) :=
  let c := f_ctx f in
  let vars := [seq str v | v <- f_vars f] in
  let raw eqs v q obs := RawModel vars [seq p.1 | p <- f_pars f] (f_shks f) (f_oths f) eqs v q obs in
  assert* ~~ has has_space (f_vars f) else SyntaxErr in
  let* con := match constraints f with
              | None => Ok None
              | Some [:: s] => let* x := constraint c s in Ok (Some x)
              | Some [::] => Err IndexError
              | Some _ => Err NotImplementedErr
              end in
  assert* (size (equations f)).+1 == size (f_vars f) else SyntaxErr in
  let* eqs := mapM (equation c) (equations f) in
  match con with
  | None => let* ev := (let* es := mapM (resolve_eqn c) eqs in expand es vars (f_shks f)) in
            let* _ := mapM (observable c) (observables f) in Ok None
  | Some (v, q) => let* _ := parse (raw eqs v q [::]) in
                   let* obs := mapM (observable c) (observables f) in
                   let* p := parse (raw eqs v q obs) in Ok (Some p)
  end.

(** parser.py:645-663 *)
Variable yaml : text -> res rawfile.
Definition parse_text (t : text) : res (option (parsed F)) := let* f := yaml (normalize t) in parse_file f.
End Front.

Section Static.
Variable F : realFieldType.
(** parser.py:225-226, 957-970: names and values of the parameters, positions and names of the priors; a prior for a name that is
    not a parameter raises ValueError *)
Definition static_of (f : rawfile F) : res (static F) :=
  let names := [seq p.1 | p <- f_pars f] in
  let fix0 := [seq p.2 | p <- f_pars f] in
  match f_prior f with
  | None => Ok (Static names (f_oths f) fix0 None None)
  | Some l => let* idx := mapM (fun n => assert* n \in names else ValueError in Ok (index n names)) l in
              Ok (Static names (f_oths f) fix0 (Some idx) (Some l))
  end.
End Static.
