(** Property theorems C129: writing a model file. *)
Set Warnings "-all".
From Coq Require Import String Ascii.
From mathcomp Require Import all_ssreflect.
From Verif Require Import PyBase PyStr M_Cache S_Cache P_Cache M_Write S_Write T_Cache.
Set Implicit Arguments. Unset Strict Implicit. Unset Printing Implicit Defensive.
Local Open Scope string_scope.
Local Open Scope seq_scope.

Lemma len_app (a b : string) : length (append a b) = (length a + length b)%N.
Proof. by elim: a => //= c a ->. Qed.
Lemma sub_all (b : string) : substring 0 (length b) b = b.
Proof. by elim: b => //= c b ->. Qed.
Lemma sub_app (a b : string) : substring (length a) (length b) (append a b) = b.
Proof. by elim: a => [|c a IH] /=; [exact: sub_all | exact: IH]. Qed.
Lemma split_at n (f : string) : (n <= length f)%N -> exists a, f = append a (substring n (length f - n) f) /\ length a = n.
Proof.
elim: n f => [|n IH] f; first by move=> _; exists EmptyString; rewrite subn0 sub_all.
case: f => //= c f /IH[a [e l]]; exists (String c a); rewrite /= subSS l; split=> //; by rewrite {1}e.
Qed.
Lemma yaml_nameP f : yaml_file f (yaml_name f).
Proof.
rewrite /yaml_name; case: eqP => h.
  left; have ge : (5 <= length f)%N.
    rewrite leqNgt; apply/negP => lt; have e0 : (length f - 5)%N = 0%N by apply/eqP; rewrite subn_eq0 ltnW.
    move: h lt; rewrite e0 => h; have : (length (substring 0 5 f) <= length f)%N by elim: (5) (f) => [|n IH] [|c g] //=; exact: IH.
    by rewrite h /= => h5; rewrite ltnNge h5.
  have [a [e _]] := @split_at (length f - 5) f (leq_subr _ _).
  by exists a; split=> //; rewrite subKn // h in e.
right; split=> // g e; apply: h; by rewrite e len_app /= addnK; exact: (sub_app g ".yaml").
Qed.

Section Hist.
Variables P U : Type.
Variable parse : string -> option string -> res P.
Variable mod_name : P -> string.
Variable other_text : val P U -> string.
Definition no_raw (c : content P U) : Prop :=
  dget c.1.2 "raw_yaml" = None /\ forall (p : P) (a d : dict P U), dget c.2 "model_dump" = Some (VDump p a d) -> dget a "raw_yaml" = None.
Lemma parsed_no_raw t ft path c : parsed_model U parse mod_name t ft path = Ok c -> no_raw c.
Proof.
rewrite /parsed_model; case: (parse t ft) => //= p [<-]; split=> //= p' a d.
by rewrite dget_dset eqxx => -[_ <- _].
Qed.
Lemma saved_get (c : content P U) k : k \notin [:: "description"; "backend_file"; "tune"; "name"] -> dget (saved c) k = dget c.2 k.
Proof.
case: c => [[p a] d] /=; rewrite /saved /= !inE !negb_or => /and4P[k1 k2 k3 k4].
have S d' k' : k != k' -> dget (match dget a k' with Some v => dset d' k' v | None => d' end) k = dget d' k.
  by move=> ne; case: (dget a k') => // v; rewrite dget_dset eq_sym (negbTE ne).
by rewrite !S.
Qed.
Lemma dget_map (f : string * val P U -> val P U) (d : dict P U) k :
  dget [seq (kv.1, f kv) | kv <- d] k = omap (fun v => f (k, v)) (dget d k).
Proof. by elim: d => //= -[k' v] d IH /=; case: eqP => // ->. Qed.
Lemma ordinary_no_raw c : ordinary parse mod_name other_text c -> no_raw c.
Proof.
elim=> {c}.
- exact: parsed_no_raw.
- move=> [[p a] d] x obs _ [/= h1 h2]; split=> /=; first by rewrite dget_dset.
  by move=> p' a' d'; rewrite !dget_dset /=; exact: h2.
- move=> p a d k v _ [/= h1 h2] nr; split=> //= p' a' d'; rewrite dget_dset; case: eqP => [e|_]; last exact: h2.
  by move: nr; rewrite e.
- by move=> p a d k v _ [/= h1 h2] /eqP nk; split=> //=; rewrite dget_dset (negbTE nk).
- move=> [[p a] d] _ [h1 h2]; split=> //= p' a' d'; rewrite (@saved_get (p, a, d)) //; exact: h2.
- move=> force hit c path c' _ [h1 h2] Hh; rewrite /load.
  case ey: (dget (saved c) "yaml_raw") => [y|] //=.
  set rp := match hit _ _ with Some _ => _ | None => _ end.
  have rpP p a : rp = Ok (p, a) -> dget a "raw_yaml" = None.
    rewrite /rp; case eh: (hit _ _) => [[[p1 a1] d1]|]; last by case: (parse _ _) => //= q [_ <-].
    by case=> _ <-; have [pa /parsed_no_raw[]] := Hh _ _ _ eh.
  set pa := match force with true => _ | false => _ end.
  have paP p a : pa = Ok (p, a) -> dget a "raw_yaml" = None.
    rewrite /pa; case: (force) => //; first exact: rpP.
    rewrite saved_get //; case ed: (dget c.2 "model_dump") => [v|]; last exact: rpP.
    case: v ed => [|s|x|v|q b e] ed; try exact: rpP.
    by case=> _ <-; exact: (h2 _ _ _ ed).
  case: pa paP => [[p a]|] //= /(_ p a erefl) ha.
  case: (dget (saved c) "name") => [n|] //=; case: (dget (saved c) "data") => [dv|] //=; case: (loads dv) => [x|] //= [<-].
  split=> /=; first by rewrite !dget_dset.
  move=> p' a' d'; rewrite (@dget_map (fun kv => if str_of other_text kv.2 == "None" then VNone else kv.2)) dget_dset eqxx /=.
  by case: ifP => // _ [_ <- _]; rewrite !dget_dset.
Qed.

(** C129.  write_yaml never succeeds: for every model that a user holds and every name, the file is created or emptied, whatever it
    contained, and AttributeError is raised; no other file changes. *)
Theorem C129_never_writes fs (c : content P U) name file : ordinary parse mod_name other_text c -> yaml_file name file ->
  let: (fs', r) := write_yaml fs c name in r = Err AttributeError /\ fs' file = Some "" /\ forall g, g <> file -> fs' g = fs g.
Proof.
move=> /ordinary_no_raw[h1 _] yf.
have -> : file = yaml_name name.
  case: yf (yaml_nameP name) => [[g [-> ->]]|[ng ->]] [[g' [e e']]|[ng' e']] //; first by case: (ng' g).
  by case: (ng g').
rewrite /write_yaml h1; split=> //; split; first by rewrite /set_file eqxx.
by move=> g /eqP ng; rewrite /set_file (negbTE ng).
Qed.
End Hist.
Print Assumptions C129_never_writes.

(** So the model file itself is lost if its own name is given: whatever was done to the model since it was read, the file is then empty,
    and reading it in a new session means parsing the empty text. *)
Theorem C129_source_lost (P U : Type) (parse : string -> option string -> res P) mod_name (other_text : val P U -> string) fs c name nocache e :
  ordinary parse mod_name other_text c -> (forall ft, parse "" ft = Err e) ->
  read_after parse mod_name (write_yaml fs c (append name ".yaml")).1 ([::] : seq (op P U)) (append name ".yaml") nocache = Err e.
Proof.
move=> oc pe; have yf : yaml_file (append name ".yaml") (append name ".yaml") by left; exists name.
have := C129_never_writes fs oc yf; case: (write_yaml _ _ _) => fs' r [_ [h _]] /=.
by rewrite /read_after /= /read /= h /parsed_model pe.
Qed.
Print Assumptions C129_source_lost.

(** An attribute raw_yaml that is no text does not help: TypeError, and the file is empty as well. *)
Theorem C129_no_text (P U : Type) fs (c : content P U) v name file : dget c.1.2 "raw_yaml" = Some v -> (forall t, v <> VStr t) -> yaml_file name file ->
  let: (fs', r) := write_yaml fs c name in r = Err TypeError /\ fs' file = Some "" /\ forall g, g <> file -> fs' g = fs g.
Proof.
move=> ev nt yf; have -> : file = yaml_name name.
  case: yf (yaml_nameP name) => [[g [-> ->]]|[ng ->]] [[g' [e e']]|[ng' e']] //; first by case: (ng' g).
  by case: (ng g').
rewrite /write_yaml ev; case: v nt {ev} => [_|t h|? _|? _|? ? ? _]; try (by case: (h t)); (split=> //; split; [by rewrite /set_file eqxx|]);
  by move=> g /eqP ng; rewrite /set_file (negbTE ng).
Qed.
Print Assumptions C129_no_text.

(** The text is not lost as long as the model is held: it is in the metadata.  If the user makes it the attribute raw_yaml, write_yaml
    writes it, and the file read in a new session gives the model parsed from this text. *)
Theorem C129_workaround (P U : Type) (parse : string -> option string -> res P) mod_name fs (p : P) (a d : dict P U) t ft path name file nocache :
  is_parse_of parse mod_name t ft path (p, a, d) -> yaml_file name file -> 
  let: (fs', r) := write_yaml fs (p, dset a "raw_yaml" (VStr t), d) name in
  [/\ r = Ok tt, fs' file = Some t, forall g, g <> file -> fs' g = fs g &
      fs (func_file file) = ft -> func_file file <> file ->
      exists c, read_after parse mod_name fs' ([::] : seq (op P U)) file nocache = Ok c /\ c.1.1 = p].
Proof.
move=> [hp _] yf.
have -> : file = yaml_name name.
  case: yf (yaml_nameP name) => [[g [-> ->]]|[ng ->]] [[g' [e e']]|[ng' e']] //; first by case: (ng' g).
  by case: (ng g').
rewrite /write_yaml /= dget_dset eqxx; set f := yaml_name name.
have oth g : g <> f -> set_file (set_file fs f (Some "")) f (Some t) g = fs g by move=> /eqP ng; rewrite /set_file (negbTE ng).
have own : set_file (set_file fs f (Some "")) f (Some t) f = Some t by rewrite /set_file eqxx.
split=> // ff nf; rewrite /read_after /= /read /= own oth // ff /parsed_model hp /=.
by eexists; split.
Qed.
Print Assumptions C129_workaround.

(** a model file, read, calibrated by the user, saved under its own name *)
Example C129_example : let fs := fun f => if f == "model.yaml" then Some "text" else None in
  let parse := fun t (_ : option string) => if t == "" then Err TypeError else Ok t in
  exists c, [/\ read_after parse id fs ([::] : seq (op string unit)) "model.yaml" false = Ok c,
    ordinary parse id (fun _ => "") c,
    (write_yaml fs c "model").2 = Err AttributeError, (write_yaml fs c "model").1 "model.yaml" = Some "" &
    read_after parse id (write_yaml fs c "model").1 ([::] : seq (op string unit)) "model.yaml" false = Err TypeError].
Proof.
move=> fs parse; eexists; split; [reflexivity | | by [] | by [] | by []].
by apply: (@or_read _ _ _ _ _ "text" None "").
Qed.
Print Assumptions C129_example.
