(** Proofs about the caches. *)
Set Warnings "-all".
From Coq Require Import String.
From mathcomp Require Import all_ssreflect.
From Verif Require Import PyBase PyStr M_Cache S_Cache.
Set Implicit Arguments. Unset Strict Implicit. Unset Printing Implicit Defensive.
Local Open Scope string_scope.
Local Open Scope seq_scope.

Lemma size_upd T (s : seq T) i f : size (upd s i f) = size s.
Proof. by elim: s i => [|x s IH] [|i] //=; rewrite IH. Qed.
Lemma upd_eq T (s : seq T) i f : List.nth_error (upd s i f) i = omap f (List.nth_error s i).
Proof. by elim: s i => [|x s IH] [|i] //=. Qed.
Lemma upd_neq T (s : seq T) i j f : i != j -> List.nth_error (upd s i f) j = List.nth_error s j.
Proof. by elim: s i j => [|x s IH] [|i] [|j] //= ij; apply: IH. Qed.
Lemma onth_cat T (s1 s2 : seq T) i :
  List.nth_error (s1 ++ s2) i = if (i < size s1)%N then List.nth_error s1 i else List.nth_error s2 (i - size s1).
Proof. by elim: s1 i => [|x s IH] [|i] //=; rewrite IH. Qed.
Lemma onth_size T (s : seq T) i x : List.nth_error s i = Some x -> (i < size s)%N.
Proof. by elim: s i => [|y s IH] [|i] //= /IH. Qed.
Lemma onth_lt T (s : seq T) i : (i < size s)%N -> exists x, List.nth_error s i = Some x.
Proof. by elim: s i => [|y s IH] [|i] //=; [exists y | apply: IH]. Qed.
Lemma onth_in (T : eqType) (s : seq T) i x : List.nth_error s i = Some x -> x \in s.
Proof. by elim: s i => [|y s IH] [|i] //=; [case=> <-; rewrite inE eqxx | move/IH; rewrite inE => ->; rewrite orbT]. Qed.

Section Proofs.
Variables P U : Type.
Variable parse : string -> option string -> res P.
Variable mod_name : P -> string.
Notation dict := (dict P U). Notation heap := (heap P U). Notation world := (world P U). Notation op := (op P U).

Lemma dget_dset (d : dict) k v k' : dget (dset d k v) k' = if k == k' then Some v else dget d k'.
Proof.
elim: d => [|[k1 v1] d IH] //=; case: (eqVneq k1 k) => [->|n1] /=; first by case: (k == k').
by rewrite IH; case: (eqVneq k k') => [<-|//]; rewrite (negbTE n1).
Qed.

(** every object refers to the dictionary allocated with it *)
Definition wf (h : heap) := size (h_objs h) = size (h_dicts h) /\ forall r o, obj_at h r = Some o -> o_fd o = r.

Lemma look_lt (h : heap) r : wf h -> (r < size (h_objs h))%N -> exists c, look h r = Some c.
Proof.
move=> [e w] lt; have [o eo] := onth_lt lt; rewrite /look /obj_at eo (w _ _ eo) /dict_at.
by have [|d ->] := @onth_lt _ (h_dicts h) r; [rewrite -e | eexists].
Qed.
Lemma look_size (h : heap) r c : look h r = Some c -> (r < size (h_objs h))%N.
Proof. by rewrite /look; case e: obj_at => [o|] // _; exact: onth_size e. Qed.

Lemma alloc_wf (h : heap) c : wf h -> wf (alloc h c).1.
Proof.
case: c => [[p a] d] [e w]; split; first by rewrite /= !size_cat /= e.
move=> r o; rewrite /obj_at /= onth_cat; case: ifP => [_|nl]; first exact: w.
case er: (r - size (h_objs h)) => [|[|n]] //= [<-] /=; rewrite -e; apply/eqP; rewrite eqn_leq leqNgt nl /=.
by rewrite -subn_eq0 er.
Qed.
Lemma alloc_ref (h : heap) c : (alloc h c).2 = size (h_objs h). Proof. by case: c => [[p a] d]. Qed.
Lemma alloc_size (h : heap) c : size (h_objs (alloc h c).1) = (size (h_objs h)).+1.
Proof. by case: c => [[p a] d] /=; rewrite size_cat addn1. Qed.
Lemma look_alloc (h : heap) c r : wf h -> look (alloc h c).1 r = if r == size (h_objs h) then Some c else look h r.
Proof.
case: c => [[p a] d] [e w]; rewrite /look /obj_at /dict_at /= onth_cat.
case: ifP => [lt|nl].
  rewrite (ltn_eqF lt); case eo: List.nth_error => [o|] //.
  by rewrite (w _ _ eo) onth_cat -e lt.
case: eqP => [->|nr]; first by rewrite subnn /= onth_cat ltnn subnn.
have gt : (size (h_objs h) < r)%N by rewrite ltn_neqAle leqNgt nl andbT; apply/eqP=> h1; apply: nr.
have -> : List.nth_error (h_objs h) r = None.
  by case er: List.nth_error => [o|] //; move: (onth_size er); rewrite ltnNge (ltnW gt).
by case er: (r - size (h_objs h)) => [|[|n]] //=; move: gt; rewrite -subn_gt0 er.
Qed.

Lemma deepcopyE (h : heap) r c : look h r = Some c -> deepcopy h r = Some (alloc h c).
Proof. by rewrite /deepcopy => ->. Qed.

Lemma parsed_is t ft path c : parsed_model U parse mod_name t ft path = Ok c -> is_parse_of parse mod_name t ft path c.
Proof.
rewrite /parsed_model; case ep: parse => [p|] //= [<-]; rewrite /is_parse_of ep; do 3!split=> //.
by case: ft ep.
Qed.
Lemma parsed_err t ft path e : parsed_model U parse mod_name t ft path = Err e -> parse t ft = Err e.
Proof. by rewrite /parsed_model; case ep: parse => [p|] //= [<-]. Qed.

Definition entry := (string * option string * string)%type.
Definition from_log (log : seq entry) (c : content P U) : Prop :=
  exists t ft path, (t, ft, path) \in log /\ is_parse_of parse mod_name t ft path c.

Record inv (log : seq entry) (w : world) : Prop := Inv {
  inv_wf : wf (w_heap w);
  inv_lt : forall r, r \in w_user w -> (r < size (h_objs (w_heap w)))%N;
  inv_cache : forall r, r \in w_cache w -> exists2 c, look (w_heap w) r = Some c & from_log log c;
  inv_disj : forall r, r \in w_cache w -> r \notin w_user w }.

Lemma from_log_sub log log' c : {subset log <= log'} -> from_log log c -> from_log log' c.
Proof. by move=> s [t [ft [pa [i h]]]]; exists t, ft, pa; split=> //; apply: s. Qed.

(** modifications leave the cached models alone *)
Definition same_cached (h h' : heap) (cache : seq nat) := forall r, r \in cache -> look h' r = look h r.

Lemma upd_objs_wf (h : heap) r (f : obj P U -> obj P U) : (forall o, o_fd (f o) = o_fd o) -> wf h -> wf (Heap (upd (h_objs h) r f) (h_dicts h)).
Proof.
move=> ef [e w]; split; first by rewrite /= size_upd.
move=> r' o; rewrite /obj_at /=; case: (eqVneq r r') => [<-|ne]; last by rewrite upd_neq //; apply: w.
by rewrite upd_eq; case er: List.nth_error => [o'|] //= [<-]; rewrite ef; apply: w er.
Qed.
Lemma look_upd_objs (h : heap) r f r' : r != r' -> look (Heap (upd (h_objs h) r f) (h_dicts h)) r' = look h r'.
Proof. by move=> ne; rewrite /look /obj_at /= upd_neq. Qed.
Lemma look_upd_dicts (h : heap) r f r' : wf h -> r != r' -> look (Heap (h_objs h) (upd (h_dicts h) r f)) r' = look h r'.
Proof.
move=> [e w] ne; rewrite /look /obj_at /dict_at /=; case eo: List.nth_error => [o|] //.
by rewrite (w _ _ eo) upd_neq.
Qed.

Lemma step_mod w o log : inv log w -> is_modification o ->
  let w' := (step parse mod_name w o).1 in
  [/\ (step parse mod_name w o).2 = None, inv log w', same_cached (w_heap w) (w_heap w') (w_cache w),
      w_fs w' = w_fs w & w_cache w' = w_cache w /\ w_user w' = w_user w /\ size (h_objs (w_heap w')) = size (h_objs (w_heap w))].
Proof.
case=> iw il ic id0.
suff gen u (f : heap -> nat -> heap) :
    (forall r, wf (f (w_heap w) r) /\ size (h_objs (f (w_heap w) r)) = size (h_objs (w_heap w))) ->
    (forall r r', r != r' -> look (f (w_heap w) r) r' = look (w_heap w) r') ->
    let w' := on_user w u f in
  [/\ inv log w', same_cached (w_heap w) (w_heap w') (w_cache w),
      w_fs w' = w_fs w, w_cache w' = w_cache w & w_user w' = w_user w /\ size (h_objs (w_heap w')) = size (h_objs (w_heap w))].
  case: o => // [u k v|u k v|u f] _.
  - have [r|r r' ne|h1 h2 h3 h4 h5] := gen u (fun h r => Heap (upd (h_objs h) r (fun o => Obj (o_pay o) (dset (o_attr o) k v) (o_fd o))) (h_dicts h)).
    + by split; [apply: upd_objs_wf | rewrite /= size_upd].
    + exact: look_upd_objs.
    by split.
  - have [r|r r' ne|h1 h2 h3 h4 h5] := gen u (fun h r => match obj_at h r with
      | Some o => Heap (h_objs h) (upd (h_dicts h) (o_fd o) (fun d => dset d k v))
      | None => h end).
    + case: obj_at => [o|] //; split=> //; case: iw => e ww.
      by split; [rewrite /= size_upd | exact: ww].
    + by case eo: obj_at => [o|] //; rewrite look_upd_dicts // (iw.2 _ _ eo).
    by split.
  - have [r|r r' ne|h1 h2 h3 h4 h5] := gen u (fun h r => Heap (upd (h_objs h) r (fun o => Obj (f (o_pay o)) (o_attr o) (o_fd o))) (h_dicts h)).
    + by split; [apply: upd_objs_wf | rewrite /= size_upd].
    + exact: look_upd_objs.
    by split.
move=> hf hl; rewrite /on_user; case eu: List.nth_error => [r|] //=.
have nr r' : r' \in w_cache w -> r != r'.
  by move=> ri; apply: contra (id0 _ ri) => /eqP <-; exact: onth_in eu.
have [h1 h2] := hf r.
split=> //; last by move=> r' ri; rewrite hl // nr.
split=> //=; first by move=> r' ri; rewrite h2; apply: il.
by move=> r' ri; rewrite hl ?nr //; apply: ic.
Qed.

Lemma crawl_in (h : heap) cache t ft r : crawl h cache t ft = Some r -> (r \in cache) && use_cached h t ft r.
Proof.
rewrite /crawl; case e: [seq _ <- _ | _] => [|r' l] //= [<-].
have : r' \in [seq x <- cache | use_cached h t ft x] by rewrite e inE eqxx.
by rewrite mem_filter andbC.
Qed.
Lemma crawl_same (h h' : heap) cache t ft : same_cached h h' cache -> crawl h' cache t ft = crawl h cache t ft.
Proof.
move=> s; rewrite /crawl; congr ohead; apply: eq_in_filter => r ri; by rewrite /use_cached s.
Qed.

Lemma use_cachedP (h : heap) t ft r c t' ft' pa : look h r = Some c -> is_parse_of parse mod_name t' ft' pa c ->
  use_cached h t ft r -> t' = t /\ (ft <> None -> ft' = ft).
Proof.
case: c => [[p a] d] el [_ [_ [_ [ey ef]]]]; rewrite /use_cached el ey ef => /andP [/eqP -> hf]; split=> //.
by case: ft ft' hf {ef} => [f|] [f'|] //= /eqP ->.
Qed.

(** outcome of one read *)
Definition read_ok (log : seq entry) (w : world) f nocache (r : res (content P U)) : Prop :=
  match w_fs w f with
  | None => r = Err FileNotFound
  | Some t => let ft := w_fs w (func_file f) in
    match r with
    | Ok c => exists ft' pa, [/\ is_parse_of parse mod_name t ft' pa c, ft <> None -> ft' = ft,
                (nocache : bool) -> ft' = ft /\ pa = dirname f &
                (ft' = ft /\ pa = dirname f) \/ (t, ft', pa) \in log]
    | Err e => parse t ft = Err e
    end
  end.

Definition log_of (w : world) f : seq entry :=
  match w_fs w f with Some t => [:: (t, w_fs w (func_file f), dirname f)] | None => [::] end.

Lemma mem_rconsr (T : eqType) (s : seq T) x : x \in s ++ [:: x]. Proof. by rewrite mem_cat inE eqxx orbT. Qed.

Lemma step_read w f n log : inv log w ->
  let w' := (step parse mod_name w (ORead f n)).1 in
  [/\ exists2 r, (step parse mod_name w (ORead f n)).2 = Some r & read_ok log w f n r,
      inv (log ++ log_of w f) w', w_fs w' = w_fs w & same_cached (w_heap w) (w_heap w') (w_cache w)].
Proof.
move=> I; case: (I) => iw il ic id0; rewrite /= /read /read_ok /log_of.
case ef: (w_fs w f) => [t|] /=; last by split=> //; [exists (Err FileNotFound) | rewrite cats0].
set ft := w_fs w (func_file f); set fr := match parsed_model _ _ _ _ _ _ with Ok _ => _ | Err _ => _ end.
set L := log ++ [:: _]; have sub : {subset log <= L} by move=> x xi; rewrite mem_cat xi.
have fresh : [/\ exists2 r, Some (rbind fr.2 (fun x => of_opt GenericException (look (w_heap fr.1) x))) = Some r &
     match r with Ok c => is_parse_of parse mod_name t ft (dirname f) c | Err e => parse t ft = Err e end,
     inv L fr.1, w_fs fr.1 = w_fs w & same_cached (w_heap w) (w_heap fr.1) (w_cache w)].
  rewrite /fr; case ep: parsed_model => [c|e] /=; last first.
    split=> //; first by exists (Err e) => //; exact: parsed_err ep.
    by split=> // r /ic [c h1 h2]; exists c => //; apply: from_log_sub h2.
  have h1 := alloc_wf c iw; have l1 := fun r => look_alloc c r iw; have s1 := alloc_size (w_heap w) c; have r1 := alloc_ref (w_heap w) c.
  case: (alloc _ c) h1 l1 s1 r1 => [hh rr] /= h1 l1 s1 r1; subst rr.
  have lc : look hh (size (h_objs (w_heap w))) = Some c by rewrite l1 eqxx.
  rewrite (deepcopyE lc).
  have h2 := alloc_wf c h1; have l2 := fun r => look_alloc c r h1; have s2 := alloc_size hh c; have r2 := alloc_ref hh c.
  case: (alloc _ c) h2 l2 s2 r2 => [hh' rr] /= h2 l2 s2 r2; subst rr.
  have keep r : (r < size (h_objs (w_heap w)))%N -> look hh' r = look (w_heap w) r.
    by move=> lt; rewrite l2 l1 (ltn_eqF lt) s1 (ltn_eqF (leqW lt)).
  have clt r : r \in w_cache w -> (r < size (h_objs (w_heap w)))%N by move=> /ic [c' e' _]; exact: look_size e'.
  split=> //=; last by move=> r ri; apply: keep; apply: clt.
    by exists (Ok c); [rewrite l2 s1 ltn_eqF // l1 eqxx | exact: parsed_is ep].
  split=> //=.
  - move=> r; rewrite mem_cat inE s2 s1 => /orP [/il lt|/eqP ->]; last exact: leqW.
    by do 2!apply: leqW.
  - move=> r; rewrite mem_cat inE => /orP [ri|/eqP ->].
      have [c' e' h'] := ic r ri; exists c'; first by rewrite keep // clt.
      exact: from_log_sub h'.
    exists c; first by rewrite l2 eqxx.
    by exists t, ft, (dirname f); split; [exact: mem_rconsr | exact: parsed_is ep].
  - move=> r; rewrite !mem_cat !inE => /orP [ri|/eqP ->].
      by rewrite negb_or id0 //= (ltn_eqF (clt _ ri)).
    rewrite negb_or s1 (gtn_eqF (leqnn _)) andbT; apply/negP => /il; rewrite ltnNge; by rewrite leqW.
have freshE : [/\ exists2 r, Some (rbind fr.2 (fun x => of_opt GenericException (look (w_heap fr.1) x))) = Some r &
     match r with
    | Ok c => exists ft' pa, [/\ is_parse_of parse mod_name t ft' pa c, ft <> None -> ft' = ft,
                (n : bool) -> ft' = ft /\ pa = dirname f &
                (ft' = ft /\ pa = dirname f) \/ (t, ft', pa) \in log]
    | Err e => parse t ft = Err e
    end,
     inv L fr.1, w_fs fr.1 = w_fs w & same_cached (w_heap w) (w_heap fr.1) (w_cache w)].
  case: fresh => [[r e h] h2 h3 h4]; split=> //; exists r => //.
  by case: r {e} h => [c|e] // h; exists ft, (dirname f); split=> //; left.
case ec: crawl => [r0|]; last by case: (fr) freshE => w' r'.
case: ifP => nn; first by case: (fr) freshE => w' r'; rewrite nn.
have /andP [ri ru] := crawl_in ec; have [c lc lg] := ic _ ri; rewrite (deepcopyE lc).
have h1 := alloc_wf c iw; have l1 := fun r => look_alloc c r iw; have s1 := alloc_size (w_heap w) c; have r1 := alloc_ref (w_heap w) c.
case: (alloc _ c) h1 l1 s1 r1 => [hh rr] /= h1 l1 s1 r1; subst rr.
have clt r : r \in w_cache w -> (r < size (h_objs (w_heap w)))%N by move=> /ic [c' e' _]; exact: look_size e'.
split=> //=; last by move=> r rc; rewrite l1 (ltn_eqF (clt _ rc)).
  rewrite l1 eqxx /=; exists (Ok c) => //.
  case: lg => [t' [ft' [pa [li hp]]]]; have [et hf] := use_cachedP lc hp ru; subst t'.
  by exists ft', pa; split=> //; right.
split=> //=.
- by move=> r; rewrite mem_cat inE s1 => /orP [/il lt|/eqP -> //]; apply: leqW.
- move=> r rc; have [c' e' h'] := ic r rc; exists c'; first by rewrite l1 (ltn_eqF (clt _ rc)).
  exact: from_log_sub h'.
- by move=> r rc; rewrite mem_cat inE negb_or id0 //= (ltn_eqF (clt _ rc)).
Qed.
End Proofs.
