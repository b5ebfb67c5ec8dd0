(** C68-C72, C92: result files, data, samples, lookup, chains. *)
Set Warnings "-all".
From Coq Require Import String Ascii.
From mathcomp Require Import all_ssreflect.
From Verif Require Import PyBase PyStr M_Cls S_Cls.
Set Implicit Arguments. Unset Strict Implicit. Unset Printing Implicit Defensive.
Local Open Scope string_scope.
Local Open Scope seq_scope.

Lemma app_assoc a b c : (a +++ b) +++ c = a +++ b +++ c. Proof. by elim: a => //= x a ->. Qed.
Lemma app_nil a : a +++ "" = a. Proof. by elim: a => //= x a ->. Qed.
Lemma len_app a b : String.length (a +++ b) = (String.length a + String.length b)%N. Proof. by elim: a => //= x a ->. Qed.
Lemma app_inj a b c : a +++ c = b +++ c -> a = b.
Proof.
elim: a b => [|x a IH] [|y b] //= e.
- by have := f_equal String.length e; rewrite /= len_app => /eqP; rewrite -[X in X == _]add0n -addSn eqn_add2r.
- by have := f_equal String.length e; rewrite /= len_app => /eqP; rewrite -[X in _ == X]add0n -addSn eqn_add2r.
by case: e => -> /IH ->.
Qed.
Lemma ends_withP suf s : reflect (exists t, s = t +++ suf) (ends_with suf s).
Proof.
elim: s => [|c s IH] /=.
  rewrite orbF; apply: (iffP eqP) => [->|[t]]; first by exists "".
  by case: t => //= <-.
apply: (iffP orP) => [[/eqP ->|/IH [t ->]]|[t]]; [by exists ""|by exists (String c t)|].
by case: t => [|d t] /= e; [left; rewrite e | right; apply/IH; exists t; case: e].
Qed.
(** the end of a long text decides *)
Lemma ends_app suf a b : (String.length suf <= String.length b)%N -> ends_with suf (a +++ b) = ends_with suf b.
Proof.
move=> le; apply/ends_withP/ends_withP => [[t e]|[t ->]]; last by exists (a +++ t); rewrite app_assoc.
elim: a t e => [|c a IH] t /=; first by move=> ->; exists t.
case: t => [|d t] /=; last by case=> _ /IH.
move=> e; have := f_equal String.length e; rewrite /= len_app => h; exfalso; move: le.
by rewrite -h ltnNge leq_addl.
Qed.
Lemma isabs_app a b : a <> "" -> isabs (a +++ b) = isabs a. Proof. by case: a. Qed.
Lemma join_app d a b : a <> "" -> ~~ isabs a -> os_join d (a +++ b) = os_join d a +++ b.
Proof.
move=> ne na; rewrite /os_join isabs_app // (negbTE na); case: ifP => _; by rewrite ?app_assoc.
Qed.
Lemma abs_join d a b : a <> "" ->
  (if isabs (a +++ b) then a +++ b else os_join d (a +++ b)) = (if isabs a then a else os_join d a) +++ b.
Proof. by move=> ne; rewrite isabs_app //; case: ifP => // /negbT h; rewrite join_app. Qed.
Lemma len_join d a : ~~ isabs a -> exists2 k, forall b, ~~ isabs b -> String.length (os_join d b) = (k + String.length b)%N & True.
Proof.
move=> _; rewrite /os_join; exists (if (d == "") || ends_with "/" d then String.length d else (String.length d).+1) => // b /negbTE ->.
by case: ifP => _; rewrite !len_app //= addnS addSn.
Qed.
Lemma join_ends suf d b : (String.length suf <= String.length b)%N -> ends_with suf (os_join d b) = ends_with suf b.
Proof.
move=> le; rewrite /os_join; case: ifP => // _; case: ifP => _; rewrite !ends_app //= ltnW // ltnS.
Qed.
Lemma cut4E t : cut4 (t +++ ".npz") = t.
Proof. by rewrite /cut4 len_app addnK; elim: t => //= c t ->. Qed.

(** C68: without an extension in path or path+suffix and with at least four characters, what was saved is read back *)
Theorem C68_roundtrip (D : Type) dir name (fs : files D) p suffix (d : D) :
  p <> "" -> ~ has_ext p -> ~ has_ext (p +++ suffix) -> (4 <= String.length (p +++ suffix))%N ->
  load_rdict dir name (save_rdict dir name fs (Some p) suffix d) (Some p) suffix = Ok d.
Proof.
move=> ne h1 h2 h4; rewrite /load_rdict /save_rdict /save_target /= ltnNge h4 /=.
have n1 : ends_with ".npz" p = false by apply/negP=> /ends_withP.
have n2 : ends_with ".npz" (p +++ suffix) = false by apply/negP=> /ends_withP.
rewrite n1 app_assoc abs_join // /npz_name.
suff -> : ends_with ".npz" ((if isabs p then p else os_join dir p) +++ suffix) = false by rewrite app_assoc eqxx.
rewrite -abs_join //; case: ifP => // _; by rewrite join_ends.
Qed.
(** the default path works with every suffix that does not end in .npz *)
Theorem C68_default_path (D : Type) dir name (fs : files D) suffix (d : D) : ~ has_ext suffix -> 
  load_rdict dir name (save_rdict dir name fs None suffix d) None suffix = Ok d.
Proof.
move=> h; have e1 : ~ has_ext (name +++ "_res").
  case=> t; have : ends_with ".npz" (name +++ "_res") = false by rewrite ends_app.
  by move=> + e; rewrite e; move/negP; apply; apply/ends_withP; exists t.
apply: (@C68_roundtrip D dir name fs (name +++ "_res") suffix d) => //; first by case: (name).
- case: (leqP 4 (String.length suffix)) => [le|lt] [t e].
    by apply: h; apply/ends_withP; rewrite -(@ends_app ".npz" (name +++ "_res") suffix le); apply/ends_withP; exists t.
  have : ends_with ".npz" (name +++ ("_res" +++ suffix)) by apply/ends_withP; exists t; rewrite -app_assoc.
  rewrite ends_app /=; last by [].
  case: suffix lt {h e} => [|a [|b [|c [|x s]]]] //= _; rewrite ?orbF //;
    by repeat (case/orP => [/eqP //|]); rewrite ?orbF => /eqP.
by rewrite !len_app; apply: leq_trans (leq_addr _ _); apply: leq_addl.
Qed.
(** a path with extension: the results are written under another name than the one that is read *)
Theorem C68_extension_lost (D : Type) dir name (fs : files D) p suffix (d : D) : has_ext p ->
  load_rdict dir name (save_rdict dir name fs (Some p) suffix d) (Some p) suffix = load_rdict dir name fs (Some p) suffix.
Proof.
case=> t ->; rewrite /load_rdict /save_rdict /=; case: ifP => // _; rewrite /save_target /=.
have -> : ends_with ".npz" (t +++ ".npz") by apply/ends_withP; exists t.
rewrite cut4E; set f := if isabs _ then _ else _; set g := npz_name _; suff /negbTE -> : f != g by [].
apply/eqP => e; have := f_equal String.length e; apply/eqP; rewrite {e} gtn_eqF //.
have le : (String.length g <= String.length (if isabs t then t else os_join dir t) + String.length suffix + 4)%N.
  by rewrite /g /npz_name; case: ifP => _; rewrite !len_app //= leq_addr.
apply: leq_ltn_trans le _; rewrite /f !app_assoc.
case: t {f g} => [|c t] /=.
  have [k h _] := @len_join dir "" isT; rewrite !h //= addn0 -!addnA ltn_add2l len_app /=; exact: leq_addl 3 _.
case: ifP => ca.
  by rewrite /= !len_app /= !len_app /= -addnA addSn ltnS ltn_add2l; exact: leq_addl 3 _.
have [k h _] := @len_join dir "" isT; rewrite !h /= ?ca // !len_app /= !len_app /= -!addnA ltn_add2l addSn ltnS ltn_add2l.
exact: leq_addl 3 _.
Qed.
(** a suffix that completes an extension: likewise *)
Theorem C68_suffix_extension_lost (D : Type) dir name (fs : files D) p suffix (d : D) :
  p <> "" -> ~ has_ext p -> has_ext (p +++ suffix) ->
  load_rdict dir name (save_rdict dir name fs (Some p) suffix d) (Some p) suffix = load_rdict dir name fs (Some p) suffix.
Proof.
move=> ne h1 [t et]; rewrite /load_rdict /save_rdict /save_target /=; case: ifP => // _.
have n1 : ends_with ".npz" p = false by apply/negP=> /ends_withP.
rewrite n1 app_assoc abs_join // /npz_name.
have -> : ends_with ".npz" ((if isabs p then p else os_join dir p) +++ suffix).
  rewrite -abs_join //; case: ifP => _; first by apply/ends_withP; exists t.
  have b : ends_with ".npz" (p +++ suffix) by apply/ends_withP; exists t.
  have l4 : (4 <= String.length (p +++ suffix))%N by rewrite et len_app leq_addl.
  by rewrite join_ends.
rewrite -app_assoc; set x := _ +++ suffix; suff /negbTE -> : x +++ ".npz" != x by [].
by apply/eqP=> /(f_equal String.length); rewrite len_app /= => /eqP; rewrite -[X in _ == X]addn0 eqn_add2l.
Qed.
(** fewer than four characters: an index error *)
Theorem C68_short (D : Type) dir name (fs : files D) p suffix :
  (String.length (p +++ suffix) < 4)%N -> load_rdict dir name fs (Some p) suffix = Err IndexError.
Proof. by rewrite /load_rdict /= => ->. Qed.
Example C68_met : ("chain" <> "" /\ ~ has_ext "chain") /\ (~ has_ext ("chain" +++ "_1") /\ (4 <= String.length ("chain" +++ "_1"))%N) /\
  has_ext "chain.npz".
Proof.
split; first by split=> // /ends_withP.
by split; [split=> // /ends_withP | exists "chain"].
Qed.

Lemma ohead_filter (F : Type) (cs : seq (string * seq F)) o : o \in [seq c.1 | c <- cs] -> exists c, ohead [seq c.2 | c <- cs & c.1 == o] = Some c.
Proof. by elim: cs => //= c cs IH; rewrite inE; case: (c.1 =P o) => [<- _ /=|ne]; [exists c.2 | case/orP => [/eqP e|/IH //]; case: ne]. Qed.
Lemma sel_col (F : Type) (obs : seq string) (g : string -> seq F) o : o \in obs -> 
  ohead [seq c.2 | c <- [seq (o, g o) | o <- obs] & c.1 == o] = Some (g o).
Proof. by elim: obs => //= a obs IH; rewrite inE; case: (a =P o) => [->|ne] //= /orP [/eqP e|/IH //]; case: ne. Qed.

(** C69: if load_data returns, the stored data consist of the observables in declared order and of the requested rows, cell by cell, without
    missing values *)
Theorem C69_complete (F L : Type) loc (dl : L) obs (s s' : dst F L) df start stop d :
  load_data loc dl obs s df start stop = (s', Ok d) ->
  exists f idx, [/\ df = DataFrame f, loc (rows f) start stop = Ok idx,
    data s' = Some d /\ d_dump s' = Some d /\ d_obs s' = Some obs,
    [seq c.1 | c <- cols d] = obs /\ rows d = [seq nth dl (rows f) i | i <- idx] &
    forall o i, o \in obs -> (i < size idx)%N -> cell d o i = cell f o (nth 0 idx i) /\ isSome (cell d o i)].
Proof.
case: df => [f|] //=; case: ifP => // /negbFE al; case E: loc => [idx|e] //; case: ifP => // /negbT na [<- ed].
exists f, idx; split=> //; first (by rewrite ed); first by rewrite -ed /= -!map_comp; split=> //; rewrite -[RHS]map_id; apply: eq_map.
move=> o i oo li.
set g := fun o => [seq nth None (odflt [::] (column f o)) i | i <- idx].
have es : cols d = [seq (o, g o) | o <- obs] by rewrite -ed /= -map_comp.
have hc : cell d o i = nth None (g o) i by rewrite /cell es sel_col.
split; first by rewrite hc /g (nth_map 0) // /cell /column.
rewrite hc; case E2: (isSome _) => //; case/negP: na; rewrite !has_map; apply/hasP; exists o => //=; rewrite has_map; apply/hasP.
by exists (nth 0 idx i); [exact: mem_nth | move: E2; rewrite /= /g (nth_map 0) // => ->].
Qed.
(** it returns whenever the object is a table that has the columns, the range is valid and the selected values are not missing *)
Theorem C69_succeeds (F L : Type) loc (dl : L) obs (s : dst F L) f start stop idx :
  {subset obs <= [seq c.1 | c <- cols f]} -> loc (rows f) start stop = Ok idx ->
  (forall o i, o \in obs -> i \in idx -> isSome (cell f o i)) ->
  is_ok (load_data loc dl obs s (DataFrame f) start stop).2.
Proof.
move=> su hl nm; rewrite /load_data; have -> : all (fun o => o \in [seq c.1 | c <- cols f]) obs by apply/allP=> o /su.
rewrite /= hl; case: ifP => //; rewrite !has_map => /hasP [o oo] /=; rewrite has_map => /hasP [i ii] /=.
by have := nm o i oo ii; rewrite /cell /column; case: nth.
Qed.
(** otherwise it raises and nothing is stored *)
Theorem C69_atomic (F L : Type) loc (dl : L) obs (s s' : dst F L) df start stop e :
  load_data loc dl obs s df start stop = (s', Err e) -> s' = s.
Proof. case: df => [f|] /=; last by case.
by case: ifP => _; [case | case: loc => [idx|e']; [case: ifP => _ []|case]]. Qed.
Theorem C69_missing_column (F L : Type) loc (dl : L) obs (s : dst F L) f start stop o :
  o \in obs -> o \notin [seq c.1 | c <- cols f] -> load_data loc dl obs s (DataFrame f) start stop = (s, Err KeyError).
Proof. by move=> oo no; rewrite /load_data; case: ifP => // /negbFE /allP /(_ o oo); rewrite (negbTE no). Qed.
Theorem C69_missing_value (F L : Type) loc (dl : L) obs (s : dst F L) f start stop idx o i :
  {subset obs <= [seq c.1 | c <- cols f]} -> loc (rows f) start stop = Ok idx -> o \in obs -> i \in idx -> cell f o i = None ->
  load_data loc dl obs s (DataFrame f) start stop = (s, Err GenericException).
Proof.
move=> su hl oo ii hn; case E: (load_data _ _ _ _ _ _ _) => [s' [d|e]].
  have [f' [idx' [[<-]]]] := C69_complete E; rewrite hl => -[<-] _ _ /(_ o (index i idx) oo); rewrite index_mem => /(_ ii) [].
  by rewrite nth_index // => ->; rewrite hn.
move: E; rewrite /load_data; have -> : all (fun o => o \in [seq c.1 | c <- cols f]) obs by apply/allP=> a /su.
by rewrite /= hl; case: ifP => // _ [<- <-].
Qed.
Example C69_met :
  let f := Frame [:: 0; 1; 2] [:: ("y", [:: Some 1; Some 2; None]); ("x", [:: Some 3; Some 4; Some 5])] in
  (load_data (fun r a b => Ok [:: 0; 1]) 0 [:: "x"; "y"] (Dst None None None) (DataFrame f) None (Some "1")).2 =
  Ok (Frame [:: 0; 1] [:: ("x", [:: Some 3; Some 4]); ("y", [:: Some 1; Some 2])]).
Proof. by []. Qed.

(** C70: whatever comes out of get_sample belongs to one and the same walker, at arbitrary steps of the whole history; the argument
    [chain] has no effect *)
Theorem C70_one_walker (V : Type) choice (dv : V) c arg n r :
  get_sample choice dv (Ok c) arg n = Ok r ->
  exists w ts, r = [seq nth dv (nth [::] c t) w | t <- ts] /\ all (fun t => t < size c)%N ts.
Proof.
rewrite /get_sample /=; do 4 case: ifP => // _; case: ifP => // al [<-].
set w := (_ - _)%N; exists w, (choice (ceil_div 60 (size (head [::] c)) * size (head [::] c)) n); split=> //.
by apply/eq_in_map=> t /(allP al) lt; rewrite (nth_map [::]).
Qed.
Theorem C70_argument_ignored (V : Type) choice (dv : V) own arg arg' n : get_sample choice dv own arg n = get_sample choice dv own arg' n.
Proof. by []. Qed.
Lemma ceil_unique a w r : (0 < w)%N -> (a <= r * w)%N -> (r.-1 * w < a)%N -> ceil_div a w = r.
Proof.
move=> w0; rewrite /ceil_div; have := ltn_pmod a w0; have e := divn_eq a w; move=> lm0 h1 h2; move: lm0 h1 h2; rewrite [in (a <= _)%N]e [in (_ < a)%N]e; move: (a %/ w) (a %% w) {e} => q m.
case: r => [|r] /= lm; first by rewrite mul0n leqn0 => /eqP ->.
case: (posnP m) => [->|m0]; first by rewrite !addn0 leq_pmul2r // ltn_pmul2r // => h1 h2; apply/eqP; rewrite eqn_leq h1 h2.
move=> h1 h2.
rewrite addn1; congr S; apply/eqP; rewrite eqn_leq; apply/andP; split.
  by rewrite -ltnS -(ltn_pmul2r w0); apply: leq_trans h1; rewrite -[X in (X < _)%N]addn0 ltn_add2l.
by rewrite -ltnS -(ltn_pmul2r w0) mulSnr; apply: (leq_trans h2); rewrite leq_add2l ltnW.
Qed.
(** with [r], sixty divided by the number of walkers and rounded up: the walker is the one with number [w - r], and these are all cases of failure *)
Theorem C70_exact (V : Type) choice (dv : V) c arg n w r :
  size (head [::] c) = w -> (0 < w)%N -> (60 <= r * w)%N -> (r.-1 * w < 60)%N ->
  get_sample choice dv (Ok c) arg n =
  if (size c < r)%N then Err GenericException else if (w < r)%N then Err IndexError else if (r * w < n)%N then Err ValueError else
  let steps := choice (r * w)%N n in
  if all (fun t => t < size c)%N steps then Ok [seq nth dv (nth [::] c t) (w - r) | t <- steps] else Err IndexError.
Proof.
move=> sw w0 h1 h2; rewrite /get_sample /= sw; case: eqP w0 => [->|_ w0] //.
rewrite (ceil_unique w0 h1 h2).
case: ifP => // _; case: ifP => // _; case: ifP => // _; case: ifP => // /allP al; congr Ok; apply/eq_in_map => t /al lt.
by rewrite (nth_map [::]).
Qed.
(** it fails with fewer than eight walkers, and whenever a draw lies beyond the length of the history *)
Theorem C70_fails (V : Type) choice (dv : V) c arg n :
  (size (head [::] c) < 8)%N \/ ~~ all (fun t => t < size c)%N (choice (ceil_div 60 (size (head [::] c)) * size (head [::] c)) n) ->
  is_ok (get_sample choice dv (Ok c) arg n) = false.
Proof.
case=> [|h]; rewrite /get_sample /=.
  by case: (size (head [::] c)) => [|[|[|[|[|[|[|[|k]]]]]]]] // _; case: ifP.
by do 4 case: ifP => // _; rewrite (negbTE h).
Qed.
(** e.g. if all draws are requested from a chain shorter than sixty steps *)
Theorem C70_short_chain (V : Type) choice (dv : V) c arg n :
  (forall m k, (k <= m)%N -> uniq (choice m k) /\ size (choice m k) = k /\ all (fun i => i < m)%N (choice m k)) ->
  (size c < n)%N -> is_ok (get_sample choice dv (Ok c) arg n) = false.
Proof.
move=> H lt; rewrite /get_sample /=; do 3 case: ifP => // _; case: ifP => // /negbT; rewrite -leqNgt => le.
have [u [sz _]] := H _ _ le; case: ifP => // /allP al.
have : (size (choice (ceil_div 60 (size (head [::] c)) * size (head [::] c)) n) <= size (iota 0 (size c)))%N.
  by apply: uniq_leq_size => // i /al; rewrite mem_iota.
by rewrite sz size_iota leqNgt lt.
Qed.
Example C70_ex : get_sample (fun m k => iota 0 k) 0 (Ok (nseq 60 (iota 0 8))) None 2 = Ok [:: 0; 0].
Proof. by []. Qed.
Example C70_exact_met : let c := nseq 60 (iota 0 16) in [/\ size (head [::] c) = 16, (60 <= 4 * 16)%N & (4.-1 * 16 < 60)%N].
Proof. by []. Qed.
Example C70_met : forall m k, (k <= m)%N -> uniq (iota 0 k) /\ size (iota 0 k) = k /\ all (fun i => i < m)%N (iota 0 k).
Proof. by move=> m k le; rewrite iota_uniq size_iota; do 2!split=> //; apply/allP=> i; rewrite mem_iota => /andP [_ /leq_trans ->]. Qed.

Lemma py_indexP v vv : match py_index v vv with Ok i => first_at vv v i | Err e => e = ValueError /\ v \notin vv end.
Proof.
rewrite /py_index; case: ifP => [vi|/negbT nv] //; split; first by rewrite index_mem.
by split; [exact: nth_index | move=> j /(before_find "") /= /eqP].
Qed.
Lemma vix_loopE vv b l acc : vix_loop vv b l acc =
  if b || all (mem vv) l then Ok (acc ++ [seq index v vv | v <- l & v \in vv]) else Err ValueError.
Proof.
elim: l acc => [|v l IH] acc /=; first by rewrite orbT cats0.
rewrite /py_index; case: (v \in vv); rewrite /= ?IH ?cat_rcons //.
by case: b IH => //= IH; rewrite ?IH.
Qed.
(** C71: the first position of each name, in order; a text is one name; unknown names raise ValueError or are skipped *)
Theorem C71_vix vv a dontfail :
  match vix vv a dontfail with
  | Ok r => exists l, [/\ l = [seq v <- as_names a | v \in vv], dontfail \/ l = as_names a, size r = size l &
                          forall i, (i < size l)%N -> first_at vv (nth "" l i) (nth 0 r i)]
  | Err e => [/\ e = ValueError, dontfail = false & exists2 v, v \in as_names a & v \notin vv]
  end.
Proof.
rewrite /vix vix_loopE cat0s; case: ifP => H; last first.
  case: dontfail H => //= /negbT; rewrite -has_predC => /hasP [v vi nv]; by split=> //; exists v.
exists [seq v <- as_names a | v \in vv]; split=> //; last first.
- move=> i li; rewrite (nth_map "") //; have := mem_nth "" li; rewrite mem_filter => /andP [h _].
  by have := py_indexP (nth "" [seq v <- as_names a | v \in vv] i) vv; rewrite /py_index h.
- by rewrite size_map.
by case: dontfail H => /= H; [left | right; apply/all_filterP].
Qed.
Theorem C71_oix obs a :
  match oix obs a with
  | Ok r => size r = size (as_names a) /\ forall i, (i < size r)%N -> first_at obs (nth "" (as_names a) i) (nth 0 r i)
  | Err e => e = ValueError /\ exists2 v, v \in as_names a & v \notin obs
  end.
Proof.
rewrite /oix; elim: (as_names a) => //= v l IH; have := py_indexP v obs; case: py_index => [i fi|e [-> nv]]; last first.
  by split=> //; exists v; rewrite ?inE ?eqxx.
case: mapM IH => [r [sz h]|e [-> [w wi nw]]] /=; last by split=> //; exists w; rewrite ?inE ?wi ?orbT.
by split; [rewrite sz | case].
Qed.
Theorem C71_text_is_one_name vv s dontfail : vix vv (OneName s) dontfail = vix vv (Names [:: s]) dontfail /\ oix vv (OneName s) = oix vv (Names [:: s]).
Proof. by []. Qed.
Example C71_ex : vix [:: "y"; "c"; "pi"; "c"] (Names [:: "pi"; "r"; "c"]) true = Ok [:: 2; 1] /\ vix [:: "y"; "c"] (OneName "cy") false = Err ValueError.
Proof. by []. Qed.

(** C72: a given file, else the sampler, else the recorded file, else the default file; a missing file raises NameError *)
Theorem C72_precedence (K : Type) (s : cst K) :
  [/\ forall f, f <> "" -> get_reader s (Some f) = of_opt NameError (c_files s f),
      forall k, sampler s = Some k -> get_reader s None = Ok k,
      forall f, sampler s = None -> backend s = Some f -> f <> "" -> get_reader s None = of_opt NameError (c_files s f) &
      sampler s = None -> backend s = None ->
      get_reader s None = of_opt NameError (c_files s (os_join (c_path s) (c_name s +++ "_sampler.h5")))].
Proof.
case: s => sa be p n fs; rewrite /get_reader /=; split.
- by case.
- by move=> k ->.
- by move=> [|c f] -> -> .
move=> -> ->; case E: os_join => [|c f] //; have := f_equal String.length E; rewrite /os_join.
by case: ifP => _; [case: (n) | case: ifP => _; rewrite !len_app /= ?len_app /= ?addnS].
Qed.
(** an empty file name counts as none given *)
Theorem C72_empty_name (K : Type) (s : cst K) : get_reader s (Some "") = get_reader s None.
Proof. by []. Qed.

(** the result depends on nothing but the entry that is consulted: in particular a failing source is not replaced by the next one *)
Theorem C72_no_fallback (K : Type) (s : cst K) f e : get_reader s (Some f) = Err e -> f <> "" -> e = NameError /\ c_files s f = None.
Proof. by move=> h ne; have [/(_ f ne)] := C72_precedence s; rewrite h; case: (c_files s f) => // -[->]. Qed.
(** the tune in use hides the recorded one *)
Theorem C72_tune t fd : get_tune (Some t) fd = Ok t /\ get_tune None fd = of_opt KeyError fd.
Proof. by []. Qed.
Example C72_ex : 
  let s b := Cst None b "/d" "m" (fun f => if f == "/d/m_sampler.h5" then Some 1 else if f == "x.h5" then Some 2 else None) in
  [/\ get_reader (s None) None = Ok 1, get_reader (s (Some "x.h5")) None = Ok 2, get_reader (s (Some "y.h5")) None = Err NameError &
      get_reader (Cst (Some 3) (Some "y.h5") "/d" "m" (fun _ => None)) None = Ok 3].
Proof. by []. Qed.

(** C92: mdd accepts exactly four method names, two of which are synonyms *)
Theorem C92_methods m :
  [/\ mdd_choice "laplace" = mdd_choice "lp",
      (exists k, mdd_choice m = Ok k) <-> m \in [:: "laplace"; "lp"; "hess"; "mhm"] &
      m \notin [:: "laplace"; "lp"; "hess"; "mhm"] -> mdd_choice m = Err NotImplementedErr].
Proof.
rewrite /mdd_choice !inE; split=> //; last first.
  by case: (m == "laplace"); case: (m == "lp"); case: (m == "hess"); case: (m == "mhm").
case: (m == "laplace"); case: (m == "lp"); case: (m == "hess"); case: (m == "mhm"); split=> // h; try (by eexists);
  by case: h.
Qed.
Example C92_ex : mdd_choice "mhm" = Ok HarmonicMean /\ mdd_choice "hess" = Ok (Laplace true) /\ mdd_choice "MHM" = Err NotImplementedErr.
Proof. by []. Qed.
Print Assumptions C68_roundtrip.
Print Assumptions C68_default_path.
Print Assumptions C68_extension_lost.
Print Assumptions C68_suffix_extension_lost.
Print Assumptions C68_short.
Print Assumptions C69_complete.
Print Assumptions C69_succeeds.
Print Assumptions C69_atomic.
Print Assumptions C69_missing_column.
Print Assumptions C69_missing_value.
Print Assumptions C70_one_walker.
Print Assumptions C70_argument_ignored.
Print Assumptions C70_exact.
Print Assumptions C70_fails.
Print Assumptions C70_short_chain.
Print Assumptions C71_vix.
Print Assumptions C71_oix.
Print Assumptions C71_text_is_one_name.
Print Assumptions C72_precedence.
Print Assumptions C72_empty_name.
Print Assumptions C72_no_fallback.
Print Assumptions C72_tune.
Print Assumptions C92_methods.
