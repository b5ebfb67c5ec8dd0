(** Model of clsmethods.py: lookup of variables, result files, data, samples from the chain, location of chains; and of the choice of
    method in stats.py:mdd.  Not modelled: plotting, summaries, printing, HDF5 and npz encodings (files hold values). *)
Set Warnings "-all".
From Coq Require Import String Ascii.
From mathcomp Require Import all_ssreflect.
From Verif Require Import PyBase PyStr.
Set Implicit Arguments. Unset Strict Implicit. Unset Printing Implicit Defensive.
Local Open Scope py_scope.
Local Open Scope string_scope.
Local Open Scope seq_scope.
Notation "a +++ b" := (String.append a b) (at level 60, right associativity).

(** clsmethods.py:22-23: a single text is one name *)
Inductive names_arg := OneName (s : string) | Names (l : seq string).
Definition as_names (a : names_arg) : seq string := match a with OneName s => [:: s] | Names l => l end.
(** [list(vv).index(v)] *)
Definition py_index (v : string) (vv : seq string) : res nat := if v \in vv then Ok (index v vv) else Err ValueError.
(** clsmethods.py:19-33 *)
Fixpoint vix_loop (vv : seq string) (dontfail : bool) (l : seq string) (acc : seq nat) : res (seq nat) :=
  match l with
  | [::] => Ok acc
  | v :: l' =>
      match py_index v vv with
      | Ok i => vix_loop vv dontfail l' (rcons acc i)
      | Err e => if dontfail then vix_loop vv dontfail l' acc else Err e
      end
  end.
Definition vix (vv : seq string) (a : names_arg) (dontfail : bool) : res (seq nat) := vix_loop vv dontfail (as_names a) [::].
(** clsmethods.py:36-42 *)
Definition oix (observables : seq string) (a : names_arg) : res (seq nat) := mapM (fun v => py_index v observables) (as_names a).

(** [s.endswith(suf)], also [s[-4:] == suf] for a text [suf] of four characters *)
Fixpoint ends_with (suf s : string) : bool :=
  (s == suf) || match s with String _ s' => ends_with suf s' | EmptyString => false end.
(** [s[:-4]] *)
Definition cut4 (s : string) : string := substring 0 (String.length s - 4) s.
(** [os.path.isabs] and [os.path.join] (posix) *)
Definition isabs (s : string) : bool := if s is String c _ then Ascii.eqb c "/"%char else false.
Definition os_join (a b : string) : string :=
  if isabs b then b else if (a == EmptyString) || ends_with "/" a then a +++ b else a +++ "/" +++ b.
(** numpy.savez_compressed adds the extension if it is missing *)
Definition npz_name (f : string) : string := if ends_with ".npz" f then f else f +++ ".npz".

Section Files.
Variable D : Type.
Definition files := string -> option D.
(** clsmethods.py:151-173; [path = None] also stands for every path that is not a text *)
Definition save_target (dir name : string) (path : option string) (suffix : string) : string :=
  let p := odflt (name +++ "_res") path in
  let p := if ends_with ".npz" p then cut4 p else p in
  let p := if isabs p then p else os_join dir p in
  npz_name (p +++ suffix).
Definition save_rdict (dir name : string) (fs : files) (path : option string) (suffix : string) (d : D) : files :=
  fun f => if f == save_target dir name path suffix then Some d else fs f.
(** clsmethods.py:176-193: line 187 compares one character with ".npz", which always differs *)
Definition load_rdict (dir name : string) (fs : files) (path : option string) (suffix : string) : res D :=
  let p := odflt (name +++ "_res") path +++ suffix in
  if (String.length p < 4)%N then Err IndexError else
  let p := p +++ ".npz" in
  let p := if isabs p then p else os_join dir p in
  of_opt FileNotFound (fs p).
End Files.

Section Data.
Variables (F L : Type).
(** a table: row labels and named columns; [None] is a missing value *)
Record frame := Frame { rows : seq L; cols : seq (string * seq (option F)) }.
Inductive pyobj := DataFrame (f : frame) | OtherObject.
(** what load_data changes: data, fdict["data"], fdict["obs"] *)
Record dst := Dst { data : option frame; d_dump : option frame; d_obs : option (seq string) }.
(** pandas [.loc[start:end]] on row labels: the selected positions, or an error *)
Variable loc : seq L -> option string -> option string -> res (seq nat).
Variable dl : L.
Definition column (f : frame) (o : string) : option (seq (option F)) := ohead [seq c.2 | c <- cols f & c.1 == o].
(** clsmethods.py:286-330 *)
Definition load_data (observables : seq string) (s : dst) (df : pyobj) (start stop : option string) : dst * res frame :=
  match df with
  | OtherObject => (s, Err TypeError)
  | DataFrame f =>
      if ~~ all (fun o => o \in [seq c.1 | c <- cols f]) observables then (s, Err KeyError) else
      let sel := [seq (o, odflt [::] (column f o)) | o <- observables] in
      match loc (rows f) start stop with
      | Err e => (s, Err e)
      | Ok idx =>
          let d := Frame [seq nth dl (rows f) i | i <- idx] [seq (c.1, [seq nth None c.2 i | i <- idx]) | c <- sel] in
          if has (fun c => has (fun x => ~~ isSome x) c.2) (cols d) then (s, Err GenericException)
          else (Dst (Some d) (Some d) (Some observables), Ok d)
      end
  end.
End Data.

Section Sample.
Variable V : Type.
(** the chain: steps x walkers; [None] for the empty argument *)
Notation chain := (seq (seq V)).
(** [int(np.ceil(60 / nwalks))] *)
Definition ceil_div (a b : nat) : nat := (a %/ b + (a %% b != 0))%N.
(** numpy.random.choice without replacement: positions below the first argument *)
Variable choice : nat -> nat -> seq nat.
Variable dv : V.
(** clsmethods.py:333-346 *)
Definition get_sample (own : res chain) (arg : option chain) (size : nat) : res (seq V) :=
  let* c := own in                                                   (* [None or self.get_chain()] *)
  let clen := seq.size c in
  let nwalks := seq.size (head [::] c) in
  if nwalks == 0 then Err ZeroDivErr else
  let recent := ceil_div 60 nwalks in
  if (clen < recent)%N then Err GenericException else
  if (nwalks < recent)%N then Err IndexError else                    (* chain[:, -recent, :] *)
  let sample := [seq nth dv r (nwalks - recent) | r <- c] in
  if (recent * nwalks < size)%N then Err ValueError else
  let draws := choice (recent * nwalks) size in
  if all (fun i => i < clen)%N draws then Ok [seq nth dv sample i | i <- draws] else Err IndexError.
End Sample.

Section Chain.
Variable K : Type.
(** the sampler in memory, the entry backend_file of the metadata, directory and name of the model, files *)
Record cst := Cst { sampler : option K; backend : option string; c_path : string; c_name : string; c_files : string -> option K }.
(** clsmethods.py:54-79 *)
Definition get_reader (s : cst) (backend_file : option string) : res K :=
  let file : option (option string) :=                               (* None: the sampler; Some f: the variable backend_file *)
    if backend_file is Some (String _ _) then Some backend_file
    else match sampler s, backend s with
         | Some _, _ => None
         | None, Some f => Some (Some f)
         | None, None => Some (Some (os_join (c_path s) (c_name s +++ "_sampler.h5")))
         end in
  match file with
  | None => of_opt UnboundLocal (sampler s)
  | Some (Some (String c f)) => of_opt NameError (c_files s (String c f))
  | Some _ => Err UnboundLocal                                       (* an empty name was recorded *)
  end.

(** clsmethods.py:45-51 *)
Definition get_tune (attr fd : option nat) : res nat := match attr with Some t => Ok t | None => of_opt KeyError fd end.
End Chain.

(** stats.py:237-252 *)
Inductive mdd_method := Laplace (hess : bool) | HarmonicMean.
Definition mdd_choice (method : string) : res mdd_method :=
  if method \in [:: "laplace"; "lp"] then Ok (Laplace false)
  else if method == "hess" then Ok (Laplace true)
  else if method == "mhm" then Ok HarmonicMean
  else Err NotImplementedErr.
