(** Model of the caches of parsed models (parser.py:22-44, 475-561), of dict models (gensys.py:19-100) and of saving
    and loading metadata (parser.py:563-642, clsmethods.py:121-150, 320-330). *)
Set Warnings "-all".
From Coq Require Import String Ascii.
From mathcomp Require Import all_ssreflect.
From Verif Require Import PyBase PyStr.
Set Implicit Arguments. Unset Strict Implicit. Unset Printing Implicit Defensive.
Local Open Scope py_scope.
Local Open Scope string_scope.

Section Cache.
(** [P]: what parse builds from a text: equations, compiled matrices, calibration, prior, ...
    [U]: any other value stored in a dictionary (numbers, arrays, data frames). *)
Variables P U : Type.
(** parser.py:644-975, modelled in M_Parser: the model parsed from a text with (or without) the text of a functions
    file, which is imported while parsing (parser.py:388-398) *)
Variable parse : string -> option string -> res P.
Variable mod_name : P -> string.

(** Values of attributes and dictionary entries.  [VPick v] is the bytes [cpickle.dumps(v)], [VDump p a d] the bytes
    [cpickle.dumps(pmodel)] of a model object with attributes [a] and dictionary [d].  A 0-d numpy array is identified
    with its content. *)
Inductive val : Type :=
| VNone | VStr (s : string) | VObj (x : U) | VPick (v : val)
| VDump (p : P) (attrs fd : seq (string * val)).
Definition dict := seq (string * val).

Fixpoint dget (d : dict) (k : string) : option val :=
  match d with [::] => None | (k', v) :: d' => if k' == k then Some v else dget d' k end.
Fixpoint dset (d : dict) (k : string) (v : val) : dict :=
  match d with
  | [::] => [:: (k, v)]
  | (k', v') :: d' => if k' == k then (k', v) :: d' else (k', v') :: dset d' k v
  end.

(** ** file names *)
(** parser.py:500: [mfile[:-5] + "_funcs.py"] *)
Definition func_file (f : string) : string := substring 0 (length f - 5) f ++ "_funcs.py".

(** [os.path.dirname] (posix): everything before the last slash, without trailing slashes (unless there is nothing
    else).  [dir_split f] is the pair (head up to and including the last slash, rest). *)
Definition is_slash (a : ascii) : bool := Ascii.eqb a "/"%char.
Fixpoint dir_head (f : string) : string :=
  match f with
  | EmptyString => EmptyString
  | String a f' => match dir_head f' with
                   | EmptyString => if is_slash a then String a EmptyString else EmptyString
                   | h => String a h end
  end.
Fixpoint rstrip_slash (s : string) : string :=
  match s with
  | EmptyString => EmptyString
  | String a s' => match rstrip_slash s' with
                   | EmptyString => if is_slash a then EmptyString else String a EmptyString
                   | r => String a r end
  end.
Definition dirname (f : string) : string :=
  let h := dir_head f in match rstrip_slash h with EmptyString => h | r => r end.

(** ** objects: two levels, a model object and the dictionary [fdict] it refers to *)
Record obj := Obj { o_pay : P; o_attr : dict; o_fd : nat }.
Record heap := Heap { h_objs : seq obj; h_dicts : seq dict }.
Definition obj_at (h : heap) (r : nat) : option obj := List.nth_error (h_objs h) r.
Definition dict_at (h : heap) (r : nat) : option dict := List.nth_error (h_dicts h) r.
Fixpoint upd (T : Type) (s : seq T) (i : nat) (f : T -> T) : seq T :=
  match s, i with
  | [::], _ => [::]
  | x :: s', 0 => f x :: s'
  | x :: s', i'.+1 => x :: upd s' i' f
  end.

(** the observable content of a model object: payload, attributes, metadata *)
Definition content := (P * dict * dict)%type.
Definition look (h : heap) (r : nat) : option content :=
  match obj_at h r with
  | Some o => match dict_at h (o_fd o) with Some d => Some (o_pay o, o_attr o, d) | None => None end
  | None => None
  end.
(** a new object with a new dictionary *)
Definition alloc (h : heap) (c : content) : heap * nat :=
  let: (p, a, d) := c in
  (Heap (h_objs h ++ [:: Obj p a (size (h_dicts h))]) (h_dicts h ++ [:: d]), size (h_objs h)).
(** [copy.deepcopy]: a new object with equal content, sharing nothing *)
Definition deepcopy (h : heap) (r : nat) : option (heap * nat) :=
  match look h r with Some c => Some (alloc h c) | None => None end.

(** ** DSGE.read *)
Record world := World {
  w_fs : string -> option string;   (** file contents *)
  w_heap : heap;
  w_cache : seq nat;                (** cached_models: entry i is the object stored under key i *)
  w_user : seq nat }.               (** objects returned to the user *)

(** parser.py:32-35: [use_cached] *)
Definition use_cached (h : heap) (mtxt : string) (ftxt : option string) (r : nat) : bool :=
  match look h r with
  | Some (_, _, d) =>
      match dget d "yaml_raw" with Some (VStr s) => s == mtxt | _ => false end &&
      match ftxt with
      | None => true
      | Some ft => match dget d "ffile_raw" with Some (VStr s) => s == ft | _ => false end
      end
  | None => false
  end.

(** parser.py:22-44: the first match in order of the keys *)
Definition crawl (h : heap) (cache : seq nat) (mtxt : string) (ftxt : option string) : option nat :=
  ohead [seq r <- cache | use_cached h mtxt ftxt r].

(** parser.py:531-543: parse and attach metadata.  The dump is taken before name, description, path and debug are set *)
Definition parsed_model (mtxt : string) (ftxt : option string) (path : string) : res content :=
  let* p := parse mtxt ftxt in
  let d := [:: ("yaml_raw", VStr mtxt)] in
  let d := match ftxt with Some ft => dset d "ffile_raw" (VStr ft) | None => d end in
  let d := dset d "model_dump" (VDump p [::] d) in
  Ok (p, [:: ("name", VStr (mod_name p)); ("description", VStr (mod_name p)); ("path", VStr path)], d).

(** parser.py:475-561 *)
Definition read (w : world) (mfile : string) (nocache : bool) : world * res nat :=
  match w_fs w mfile with
  | None => (w, Err FileNotFound)
  | Some mtxt =>
      let ftxt := w_fs w (func_file mfile) in
      let fresh :=
        match parsed_model mtxt ftxt (dirname mfile) with
        | Err e => (w, Err e)
        | Ok c =>
            let: (h1, r) := alloc (w_heap w) c in
            match deepcopy h1 r with
            | Some (h2, r') => (World (w_fs w) h2 (w_cache w ++ [:: r']) (w_user w ++ [:: r]), Ok r)
            | None => (w, Err GenericException)
            end
        end in
      match crawl (w_heap w) (w_cache w) mtxt ftxt with
      | Some r0 =>
          if nocache then fresh else
          match deepcopy (w_heap w) r0 with
          | Some (h1, r) => (World (w_fs w) h1 (w_cache w) (w_user w ++ [:: r]), Ok r)
          | None => (w, Err GenericException)
          end
      | None => fresh
      end
  end.

(** What happens between reads: files change, and the user changes models they were given (any attribute, any entry of
    the metadata, any part of the parsed model).  [u] counts the models returned so far. *)
Inductive op : Type :=
| OFile (f : string) (t : option string)
| ORead (f : string) (nocache : bool)
| OAttr (u : nat) (k : string) (v : val)
| OMeta (u : nat) (k : string) (v : val)
| OPay (u : nat) (f : P -> P).

Definition on_user (w : world) (u : nat) (f : heap -> nat -> heap) : world :=
  match List.nth_error (w_user w) u with
  | Some r => World (w_fs w) (f (w_heap w) r) (w_cache w) (w_user w)
  | None => w
  end.
Definition set_file (fs : string -> option string) (f : string) (t : option string) : string -> option string :=
  fun g => if g == f then t else fs g.

Definition step (w : world) (o : op) : world * option (res content) :=
  match o with
  | OFile f t => (World (set_file (w_fs w) f t) (w_heap w) (w_cache w) (w_user w), None)
  | ORead f n => let: (w', r) := read w f n in
                 (w', Some (let* x := r in of_opt GenericException (look (w_heap w') x)))
  | OAttr u k v => (on_user w u (fun h r =>
      Heap (upd (h_objs h) r (fun o => Obj (o_pay o) (dset (o_attr o) k v) (o_fd o))) (h_dicts h)), None)
  | OMeta u k v => (on_user w u (fun h r => match obj_at h r with
      | Some o => Heap (h_objs h) (upd (h_dicts h) (o_fd o) (fun d => dset d k v))
      | None => h end), None)
  | OPay u f => (on_user w u (fun h r =>
      Heap (upd (h_objs h) r (fun o => Obj (f (o_pay o)) (o_attr o) (o_fd o))) (h_dicts h)), None)
  end.
Definition init (fs : string -> option string) : world := World fs (Heap [::] [::]) [::] [::].
(** the results of the reads of a history, in order: the content of the returned model when it is returned *)
Fixpoint run (w : world) (ops : seq op) : seq (res content) :=
  match ops with
  | [::] => [::]
  | o :: ops' => let: (w', out) := step w o in
                 match out with Some r => r :: run w' ops' | None => run w' ops' end
  end.

(** ** saving and loading *)
(** [str(v)] as far as lines 579, 580, 619, 633 need it: text of strings, "None" for None; otherwise some other text *)
Variable other_text : val -> string.
Definition str_of (v : val) : string :=
  match v with VNone => "None" | VStr s => s | v => other_text v end.
(** [cpickle.loads] *)
Definition loads (v : val) : res val := match v with VPick x => Ok x | _ => Err TypeError end.

(** clsmethods.py:327-328 (load_data): data and metadata of the model *)
Definition store_data (c : content) (x obs : U) : content :=
  let: (p, a, d) := c in (p, dset a "data" (VObj x), dset (dset d "data" (VPick (VObj x))) "obs" (VObj obs)).

(** clsmethods.py:121-150 (save_meta): copies the attributes description, backend_file, tune and name into the
    metadata; the metadata is what the file holds.  The filter's R and P (lines 135-140) are not modelled. *)
Definition saved (c : content) : dict :=
  let: (p, a, d) := c in
  foldl (fun d k => match dget a k with Some v => dset d k v | None => d end) d
    [:: "description"; "backend_file"; "tune"; "name"].
Definition save_meta (c : content) : content := let: (p, a, d) := c in (p, a, saved c).

(** parser.py:563-642 on a file holding [fd] in directory [path].  [force]: force_parse is set, python is older than
    3.10 or unpickling fails; [hit]: the model the cache offers for given texts (lines 591-594). *)
Definition load (force : bool) (hit : string -> option string -> option content) (fd : dict) (path : string) : res content :=
  let* y := of_opt KeyError (dget fd "yaml_raw") in
  let mtxt := str_of y in
  let ftxt := match dget fd "ffile_raw" with Some v => str_of v | None => "None" end in
  let reparse :=
    match hit mtxt (Some ftxt) with
    | Some (p, a, _) => Ok (p, a)
    | None => let* p := parse mtxt (match dget fd "ffile_raw" with Some v => Some (str_of v) | None => None end) in
              Ok (p, [::])
    end in
  let* pa := match force, dget fd "model_dump" with
             | false, Some (VDump p a _) => Ok (p, a)
             | _, _ => reparse
             end in
  let: (p, a) := pa in
  let* n := of_opt KeyError (dget fd "name") in
  let a := dset (dset a "name" (VStr (str_of n))) "path" (VStr path) in
  let* dv := of_opt KeyError (dget fd "data") in
  let* x := loads dv in
  let a := dset a "data" x in
  let fd := dset fd "model_dump" (VDump p a fd) in
  Ok (p, a, [seq (kv.1, if str_of kv.2 == "None" then VNone else kv.2) | kv <- fd]).

End Cache.
Arguments VNone {P U}. Arguments VStr {P U}. Arguments VObj {P U}. Arguments VPick {P U}. Arguments VDump {P U}.
Arguments OFile {P U}. Arguments ORead {P U}. Arguments OAttr {P U}. Arguments OMeta {P U}. Arguments OPay {P U}.
Arguments init {P U}.

(** ** gen_sys_from_dict *)
Section DictCache.
(** [D]: the user's dict without the entries l_max, k_max; [L]: their values; [S]: content of a solved model *)
Variables (D L : eqType) (S : Type).
(** gensys.py:178-394 on the entries of the dict *)
Variable gen_sys : D -> L -> res S.

(** [g_cache = None]: the global does not exist yet.  Keys are pickles of the dict, i.e. its content. *)
Record dworld := DWorld { g_cache : option (seq ((D * L) * nat)); g_objs : seq S }.

Definition dlookup (c : seq ((D * L) * nat)) (k : D * L) : option nat := ohead [seq x.2 | x <- c & x.1 == k].

(** gensys.py:19-100.  [L] = (l_max, k_max), which lines 26-27 write into the dict before it is used as key *)
Definition gen_sys_from_dict (w : dworld) (d : D) (lk : L) (force : bool) : dworld * res nat :=
  let fresh c :=
    match gen_sys d lk with
    | Err e => (DWorld (Some c) (g_objs w), Err e)
    | Ok s => (DWorld (Some (((d, lk), size (g_objs w)) :: [seq x <- c | x.1 != (d, lk)])) (g_objs w ++ [:: s]), Ok (size (g_objs w)))
    end in
  match g_cache w with
  | Some c => if force then fresh [::] else
              match dlookup c (d, lk) with Some r => (w, Ok r) | None => fresh c end
  | None => fresh [::]
  end.
End DictCache.
