(** Cached, saved and loaded models: C41-C44. *)
Set Warnings "-all".
From Coq Require Import String Ascii.
From mathcomp Require Import all_ssreflect.
From Verif Require Import PyBase PyStr M_Cache S_Cache P_Cache P_Cache2 P_Cache3.
Set Implicit Arguments. Unset Strict Implicit. Unset Printing Implicit Defensive.
Local Open Scope string_scope.
Local Open Scope seq_scope.

(** C41: what a read returns after an arbitrary history of reads, file changes and modifications of models.  The model is
    parsed from the text of the file, and from its functions file if there is one; with nocache it is exactly the
    model of the file; otherwise it is that of the file or that of an earlier read of the same text. *)
Theorem C41_read : forall (P U : Type) parse (mod_name : P -> string) fs (ops : seq (op P U)) f nocache,
  match files fs ops f with
  | None => read_after parse mod_name fs ops f nocache = Err FileNotFound
  | Some t =>
      let ft := files fs ops (func_file f) in
      match read_after parse mod_name fs ops f nocache with
      | Ok c => exists ft' path, is_parse_of parse mod_name t ft' path c /\ (ft <> None -> ft' = ft) /\
                  (nocache = true -> ft' = ft /\ path = dirname f) /\
                  ((ft' = ft /\ path = dirname f) \/ (t, ft', path) \in read_log fs ops)
      | Err e => parse t ft = Err e
      end
  end.
Proof.
move=> P U parse mod_name fs ops f n; have [w [_ ew]] := read_afterP parse mod_name fs ops f n.
rewrite /read_ok ew; case: (files fs ops f) => [t|] //=; case: read_after => [c|e] //.
by case=> ft' [pa [h1 h2 h3 h4]]; exists ft', pa.
Qed.
Print Assumptions C41_read.

(** Hence caching is invisible as long as one text always comes with the same functions and the same directory. *)
Theorem C41_transparent : forall (P U : Type) parse (mod_name : P -> string) fs (ops : seq (op P U)) f nocache t,
  files fs ops f = Some t ->
  (forall e, e \in read_log fs ops -> e.1.1 = t -> e = (t, files fs ops (func_file f), dirname f)) ->
  match read_after parse mod_name fs ops f nocache with
  | Ok c => is_parse_of parse mod_name t (files fs ops (func_file f)) (dirname f) c
  | Err e => parse t (files fs ops (func_file f)) = Err e
  end.
Proof.
move=> P U parse mod_name fs ops f n t et H; have := C41_read parse mod_name fs ops f n; rewrite et.
case: read_after => [c|//] [ft' [pa [h1 [_ [_ [[e1 e2]|li]]]]]]; first by rewrite -e1 -e2.
by have [] := H _ li erefl => e1 e2; rewrite -e1 -e2.
Qed.
Print Assumptions C41_transparent.

(** parsing succeeds on every text; the model remembers what it was parsed from *)
Definition ex_parse (t : string) (ft : option string) : res (string * option string) := Ok (t, ft).
Definition ex_fs (f : string) : option string :=
  if f == "a/m.yaml" then Some "text" else if f == "a/m_funcs.py" then Some "def f" else if f == "b/m.yaml" then Some "text" else None.
Definition ex_ops : seq (op (string * option string) unit) := [:: ORead "a/m.yaml" false].
Example C41_ex : files ex_fs ex_ops "a/m.yaml" = Some "text" /\
  (forall e, e \in read_log ex_fs ex_ops -> e.1.1 = "text" -> e = ("text", files ex_fs ex_ops (func_file "a/m.yaml"), dirname "a/m.yaml")) /\
  is_ok (read_after ex_parse fst ex_fs ex_ops "a/m.yaml" false).
Proof. by split=> //; split=> // e; rewrite inE => /eqP ->. Qed.

(** The directory of a file, in terms of its name: nothing if there is no slash, the slashes if only they come before the rest, else
    what comes before the last slashes. *)
Theorem C41_directory : forall dir n base, (forall i, String.get i base <> Some "/"%char) ->
  dirname base = "" /\ dirname (append (slashes n.+1) base) = slashes n.+1 /\
  ((exists c d, dir = append d (String c "") /\ c <> "/"%char) -> dirname (append dir (append (slashes n.+1) base)) = dir).
Proof.
move=> dir n base h; have hb : dir_head base = "".
  elim: base h => [|c b IH] //= h; rewrite IH => [|i]; last exact: (h i.+1).
  by rewrite /is_slash; case: Ascii.eqb_spec (h 0) => // -> [].
have hs k : dir_head (append (slashes k) base) = slashes k by elim: k => [|k IH] //=; rewrite IH; case: k {IH}.
have rs k : rstrip_slash (slashes k) = "" by elim: k => [|k IH] //=; rewrite IH.
split; first by rewrite /dirname hb.
split; first by rewrite /dirname hs rs.
move=> [c [d [-> nc]]]; rewrite /dirname.
have hd x : dir_head (append x (append (slashes n.+1) base)) = append x (slashes n.+1) by elim: x => [|a x IH]; [exact: (hs n.+1)| rewrite /= IH; case: x {IH}].
have rd x : rstrip_slash (append (append x (String c "")) (slashes n.+1)) = append x (String c "").
  elim: x => [|a x IH]; last by rewrite /= IH; case: x {IH}.
  have E : rstrip_slash (String c (slashes n.+1)) = match rstrip_slash (slashes n.+1) with "" => if is_slash c then "" else String c "" | r => String c r end by [].
  by rewrite [append _ _]/= E (rs n.+1) /is_slash; case: Ascii.eqb_spec nc.
by rewrite hd rd; case: d {hd rd}.
Qed.
Print Assumptions C41_directory.
Example C41_directory_ex : dirname "/home/me/models/nk.yaml" = "/home/me/models" /\ dirname "models//nk.yaml" = "models" /\ dirname "/nk.yaml" = "/" /\ dirname "nk.yaml" = "".
Proof. by []. Qed.

(** It is visible otherwise: a copy of a file in another directory gets the directory of the original, and a file
    without functions file is given the model compiled with the functions of another file. *)
Theorem C41_path_refuted : forall (P : Type) (p : P), exists parse mod_name fs (ops : seq (op P unit)) f c,
  files fs ops f <> None /\ read_after parse mod_name fs ops f false = Ok c /\ dget c.1.2 "path" <> Some (VStr (dirname f)).
Proof.
move=> P p; exists (fun _ _ => Ok p), (fun _ => "n"), ex_fs, [:: ORead "a/m.yaml" true], "b/m.yaml"; eexists.
by split; [|split; [reflexivity|]].
Qed.
Print Assumptions C41_path_refuted.
Theorem C41_functions_refuted : exists parse mod_name fs (ops : seq (op (string * option string) unit)) f t c,
  files fs ops f = Some t /\ files fs ops (func_file f) = None /\
  read_after parse mod_name fs ops f false = Ok c /\ Ok c.1.1 <> parse t None.
Proof.
exists ex_parse, fst, ex_fs, [:: ORead "a/m.yaml" false], "b/m.yaml", "text"; eexists.
by do 3!split=> //.
Qed.
Print Assumptions C41_functions_refuted.

(** C42: nothing the user does to models they were given changes what later reads return. *)
Theorem C42_isolated : forall (P U : Type) parse (mod_name : P -> string) fs (ops : seq (op P U)),
  run parse mod_name (init fs) ops = run parse mod_name (init fs) [seq o <- ops | ~~ is_modification o].
Proof. move=> P U parse mod_name fs ops; exact: sim_run (sim_refl _ _ _ _). Qed.
Print Assumptions C42_isolated.
Example C42_ex : let ops := [:: ORead "a/m.yaml" false; OMeta 0 "yaml_raw" (VStr "other"); OAttr 0 "path" VNone; OPay 0 (fun x => x); ORead "a/m.yaml" false; OMeta 1 "name" (VObj tt); ORead "b/m.yaml" false] in
  has (@is_modification _ _) ops /\ size (run ex_parse fst (init ex_fs) ops) = 3.
Proof. by []. Qed.

(** Dict models are shared: once a call has returned an object, every later call with an equal dict returns the same
    object, with all modifications made to it, until some call is forced. *)
Theorem C42_dicts_shared : forall (D L : eqType) (S : Type) gen_sys (w0 : dworld D L S) d lk force w1 r ops,
  gen_sys_from_dict gen_sys w0 d lk force = (w1, Ok r) -> ~~ has (@forced D L S) ops ->
  let w2 := foldl (dstep gen_sys) w1 ops in gen_sys_from_dict gen_sys w2 d lk false = (w2, Ok r).
Proof.
move=> D L S gen_sys w0 d lk force w1 r ops E nf /=.
have hit w : (exists2 c, g_cache w = Some c & dlookup c (d, lk) = Some r) -> gen_sys_from_dict gen_sys w d lk false = (w, Ok r).
  by case=> c e1 e2; rewrite /gen_sys_from_dict e1 e2.
apply: hit; have : exists2 c, g_cache w1 = Some c & dlookup c (d, lk) = Some r.
  have fr c : match gen_sys d lk with
    | Err e => (DWorld (Some c) (g_objs w0), Err e)
    | Ok s => (DWorld (Some (((d, lk), size (g_objs w0)) :: [seq x <- c | x.1 != (d, lk)])) (g_objs w0 ++ [:: s]), Ok (size (g_objs w0)))
    end = (w1, Ok r) -> exists2 c', g_cache w1 = Some c' & dlookup c' (d, lk) = Some r.
    by case: (gen_sys d lk) => [s|] // [<- <-]; eexists; first reflexivity; rewrite /dlookup /= eqxx.
  move: E; rewrite /gen_sys_from_dict; case eg: (g_cache w0) => [c|]; last exact: fr.
  case: force => /=; first exact: fr.
  case el: dlookup => [r'|]; last exact: fr.
  by case=> <- <-; exists c.
elim: ops w1 nf {E} => [|o ops IH] w1 //= /norP [no nf] [c e1 e2]; apply: IH => //.
case: o no => [d' lk' [] //|r' f] _ /=; last by exists c.
rewrite /gen_sys_from_dict e1; case el: dlookup => [r'|] /=; first by exists c.
case: (gen_sys d' lk') => [s|e] /=; last by exists c.
eexists; first reflexivity; rewrite /dlookup /=; case: eqP => [e|ne]; first by move: e2; rewrite -e el.
rewrite -filter_predI; move: e2; rewrite /dlookup => <-; congr (ohead [seq _ | _ <- _]); apply: eq_filter => x /=.
by case: eqP => [->|//]; apply/eqP=> e; case: ne; rewrite e.
Qed.
Print Assumptions C42_dicts_shared.
(** A forced call returns a new object and forgets every other dict. *)
Theorem C42_force_forgets : forall (D L : eqType) (S : Type) gen_sys (w : dworld D L S) d lk w1 r,
  gen_sys_from_dict gen_sys w d lk true = (w1, Ok r) -> r = size (g_objs w) /\
  forall d' lk' r', (d', lk') <> (d, lk) -> (gen_sys_from_dict gen_sys w1 d' lk' false).2 = Ok r' -> r' = (size (g_objs w)).+1.
Proof.
move=> D L S gen_sys w d lk w1 r; rewrite /gen_sys_from_dict.
case: (g_cache w) => [c|]; case: (gen_sys d lk) => [s|//] [<- <-]; split=> // d' lk' r' ne /=; rewrite /dlookup /=.
  by case: eqP => [e|_]; [case: ne | case: (gen_sys d' lk') => [s'|] //= [<-]; rewrite size_cat addn1].
by case: eqP => [e|_]; [case: ne | case: (gen_sys d' lk') => [s'|] //= [<-]; rewrite size_cat addn1].
Qed.
Print Assumptions C42_force_forgets.
Example C42_dict_ex : let gs (d l : nat) := Ok (d + l) in
  let w1 := (gen_sys_from_dict gs (DWorld None [::]) 1 2 false).1 in
  let w2 := foldl (dstep gs) w1 [:: DCall 5 6 false; DModify 0 (fun x => x + 100)] in
  gen_sys_from_dict gs (DWorld None [::]) 1 2 false = (w1, Ok 0) /\ nth 0 (g_objs w2) 0 = 103.
Proof. by []. Qed.

(** C43: loading a saved model succeeds exactly if data had been loaded into it; then the model, its name, its data and
    all entries of the metadata are those saved (except that the text "None" becomes None). *)
Theorem C43_load_needs_data : forall (P U : Type) parse mod_name (other_text : val P U -> string) force hit c path,
  (forall v, other_text v <> "None") -> held parse mod_name other_text c -> sound_cache parse hit ->
  if has_data c then
    exists p a d, load parse other_text force hit (saved c) path = Ok (p, a, d) /\ p = c.1.1 /\
      dget a "data" = dget c.1.2 "data" /\ dget a "name" = dget c.1.2 "name" /\
      forall k, k != "model_dump" -> dget d k = omap (@reread P U) (dget (saved c) k)
  else load parse other_text force hit (saved c) path = Err KeyError.
Proof.
move=> P U parse mod_name other_text force hit c path ot /(held_good ot) [t [ft g]] sc.
have := load_good ot force path g sc; case: ifP => // _ [p [a [d [x [e _ [h1 [h2 h3]] h4 _]]]]].
by exists p, a, d.
Qed.
Print Assumptions C43_load_needs_data.
(** A loaded model belongs to the directory of the file it was loaded from, whatever directory the saved model belonged to. *)
Theorem C43_path : forall (P U : Type) parse (other_text : val P U -> string) force hit fd path p a d,
  load parse other_text force hit fd path = Ok (p, a, d) -> dget a "path" = Some (VStr path).
Proof.
move=> P U parse other_text force hit fd path p a d; rewrite /load; case: (dget fd "yaml_raw") => [y|] //.
rewrite [rbind (Ok y) _]/=; set X := (X in rbind X _); case: X => [[p' a']|] //=.
case: (dget fd "name") => [n|] //=; case: (dget fd "data") => [v|] //=; case: loads => [x|] //= [_ <- _].
by rewrite !dget_dset.
Qed.
Print Assumptions C43_path.
(** What is saved: the metadata, with name, description, tune and backend file of the model. *)
Theorem C43_saved : forall (P U : Type) (p : P) (a d : dict P U) k,
  dget (saved (p, a, d)) k =
  if (k \in [:: "description"; "backend_file"; "tune"; "name"]) && dget a k then dget a k else dget d k.
Proof. move=> P U p a d k; exact: savedE. Qed.
Print Assumptions C43_saved.

Definition ex_c : content (string * option string) nat :=
  if parsed_model nat ex_parse fst "text" None "dir" is Ok c then c else (("", None), [::], [::]).
Example C43_ex : held ex_parse fst (fun _ => "b") ex_c /\ ~~ has_data ex_c /\
  held ex_parse fst (fun _ => "b") (store_data ex_c 5 6) /\ has_data (store_data ex_c 5 6) /\
  sound_cache ex_parse (fun _ _ => @None (content (string * option string) nat)).
Proof.
have h : held ex_parse fst (fun _ => "b") ex_c by apply: (@held_read _ _ _ _ _ "text" None "dir").
by split=> //; split=> //; split; [exact: held_data|].
Qed.

(** C44: every save/load cycle stores the previous dump (and the data) inside the new one. *)
Theorem C44_grows : forall (P U : Type) parse mod_name (other_text : val P U -> string) n c c' x,
  (forall v, other_text v <> "None") -> held parse mod_name other_text c -> cycles parse other_text n c c' ->
  dget c.1.2 "data" = Some x -> (dump_size c + n * (vsize x).+1 <= dump_size c')%N.
Proof.
move=> P U parse mod_name other_text n c c' x ot hc cy ex.
by have [_ _ _] := cycles_grow ot hc cy; apply.
Qed.
Print Assumptions C44_grows.
Example C44_ex : exists c', cycles ex_parse (fun _ => "b") 2 (store_data ex_c 5 6) c' /\ dget (store_data ex_c 5 6).1.2 "data" = Some (VObj 5) /\
  dump_size (store_data ex_c 5 6) = 2 /\ dump_size c' = 22.
Proof.
have sc : sound_cache ex_parse (fun _ _ => @None (content (string * option string) nat)) by [].
eexists; split.
- eapply (@cyclesS _ _ _ _ _ false (fun _ _ => None) _ "x"); [|exact: sc|].
    by eapply (@cyclesS _ _ _ _ _ false (fun _ _ => None) _ "x"); [exact: cycles0|exact: sc|reflexivity].
  by reflexivity.
- by vm_compute.
Qed.
