(** Property theorems C97-C100: storage of chains, reports on chains. *)
Set Warnings "-all".
From Coq Require Import String.
From mathcomp Require Import all_ssreflect.
From Verif Require Import PyBase PyStr M_Cls T_Cls M_Mcmc S_Mcmc.
Set Implicit Arguments. Unset Strict Implicit. Unset Printing Implicit Defensive.
Local Open Scope string_scope.
Local Open Scope seq_scope.

Section C97.
Variable K : Type.
Variable start : res unit.
Variable reset : option K -> nat -> res K.
Variable run : option K -> option K * res K.
Variable mode : option nat -> K -> res unit.
Notation mcmc := (mcmc start reset run mode).

Lemma keepP a : reflect (continues a) (keep a).
Proof. by rewrite /keep; apply: (iffP orP). Qed.
Lemma walkersE a : walkers a = nwalkers a.
Proof. by rewrite /walkers /nwalkers; case: (a_p0 a) => [n|]; case: (a_resume a). Qed.
Lemma defaultE (c : cst K) a : default_file c a = suffix_file c (a_suffix a).
Proof. by rewrite /default_file /suffix_file; case: (a_suffix a) => [[|x s]|]. Qed.
Lemma r0P a : starts start a -> (if (if a_p0 a is Some _ then false else true) && ~~ a_resume a then start else Ok tt) = Ok tt.
Proof. by rewrite /starts; case: (a_p0 a); case: (a_resume a) => //= ->. Qed.
(** what open_backend does, in terms of [place] *)
Lemma open_none c a : place c a = None -> open_backend reset c a = (c, Ok None).
Proof.
by rewrite /place /open_backend; case: (a_backend a) => [[]|f|] //=; case: eqP.
Qed.
Lemma openE c a f : place c a = Some f -> exists c1,
  [/\ sampler c1 = sampler c, c_path c1 = c_path c /\ c_name c1 = c_name c,
      (named c a -> backend c1 = Some f) /\ (~ named c a -> backend c1 = None),
      (forall g, g <> f -> c_files c1 g = c_files c g) /\ (keep a \/ named c a -> c_files c1 f = c_files c f) &
      (~~ keep a -> ~ named c a -> c_files c1 f = None)] /\
  open_backend reset c a =
  if keep a then (c1, Ok (Some f)) else
  match nwalkers a with
  | None | Some 0 => (c1, Err TypeError)
  | Some n => match reset (c_files c1 f) n with Ok k => (set_file c1 f (Some k), Ok (Some f)) | Err e => (c1, Err e) end
  end.
Proof.
rewrite /place /open_backend /named walkersE.
have D (T : Prop) b : b = true \/ T -> b \/ T by [].
case Ea: (a_backend a) => [[]|g|] //=.
- case Eb: (backend c) => [h|] [<-]; first by exists c; split=> //; split=> //; [split=> // nn|move=> _ nn]; case: nn; right.
  rewrite defaultE; exists (if (if c_files c (suffix_file c (a_suffix a)) is Some _ then true else false) && ~~ keep a then set_file c (suffix_file c (a_suffix a)) None else c); split=> //.
  have nn : ~ ((exists2 f0, BFlag true = BName f0 & f0 <> "") \/ None <> None :> option string) by move=> [[]|].
  case Ek: (keep a); rewrite ?andbF ?andbT; case Ef: (c_files c _) => [k|]; split=> //=; try (by split=> // ; case=> //); try by rewrite eqxx.
  split=> [g ng|]; first by case: eqP.
  by case.
- case: eqP => //= /eqP ng [<-]; exists (set_backend c g); split=> //; split=> //; [split=> // nn|move=> _ nn]; case: nn; left; by exists g => //; exact/eqP.
- case Eb: (backend c) => [h|] [<-]; first by exists c; split=> //; split=> //; [split=> // nn|move=> _ nn]; case: nn; right.
  rewrite defaultE; exists (if (if c_files c (suffix_file c (a_suffix a)) is Some _ then true else false) && ~~ keep a then set_file c (suffix_file c (a_suffix a)) None else c); split=> //.
  have nn : ~ ((exists2 f0, BObject = BName f0 & f0 <> "") \/ None <> None :> option string) by move=> [[]|].
  case Ek: (keep a); rewrite ?andbF ?andbT; case Ef: (c_files c _) => [k|]; split=> //=; try (by split=> // ; case=> //); try by rewrite eqxx.
  split=> [g ng|]; first by case: eqP.
  by case.
Qed.

Lemma named_dec (c : cst K) a : named c a \/ ~ named c a.
Proof.
rewrite /named; case: (backend c) => [b|]; first by left; right.
case: (a_backend a) => [b|f|]; try by right; case=> // -[].
by case: (f =P "") => [->|ne]; [right; case=> // -[g [<-]]|left; left; exists f].
Qed.

(** C97: only the file of the run can change *)
Theorem C97_other_files s a g : place (m_c s) a <> Some g -> c_files (m_c (mcmc s a).1) g = c_files (m_c s) g.
Proof.
rewrite /M_Mcmc.mcmc; set r0 := (if _ then _ else _); case: r0 => // _.
case E: (place (m_c s) a) => [f|] nf.
  have {}nf : g <> f by move=> e; apply: nf; rewrite e.
  have [c1 [[_ _ _ [h _] _] ->]] := openE E.
  have W k r : c_files (m_c (let: (k', r0) := k : option K * res K in
     let c2 := set_file r f k' in match r0 with Ok k0 => (Mst (set_sampler c2 k0) (Some (tune_of a)), mode (a_tune a) k0) | Err e => (Mst c2 (Some (tune_of a)), Err e) end).1) g = c_files r g.
    by case: k => k' [k0|e] /=; case: eqP.
  case: (keep a); first by rewrite W h.
  case: (nwalkers a) => [[|n]|] /=; try exact: h.
  case: (reset _ _) => [k|e] /=; last exact: h.
  by rewrite W /=; case: eqP => // _; exact: h.
by rewrite (open_none E) /=; case: (run None) => _ [k|e].
Qed.

(** with resume or append the run goes on from the stored chain, if there is one; nothing else is done to the file *)
Theorem C97_continued s a f : continues a -> starts start a -> place (m_c s) a = Some f ->
  c_files (m_c (mcmc s a).1) f = (run (c_files (m_c s) f)).1.
Proof.
move=> /keepP k /r0P st E; rewrite /M_Mcmc.mcmc st; have [c1 [[_ _ _ [_ h] _] ->]] := openE E; rewrite k h; last by left.
by case: (run _) => k' [k0|e] /=; rewrite eqxx.
Qed.

(** otherwise the run starts from a chain reset to the requested number of walkers: the named file is reset, any other is deleted
    before *)
Theorem C97_fresh s a f n k : ~ continues a -> starts start a -> place (m_c s) a = Some f -> nwalkers a = Some n.+1 ->
  (named (m_c s) a -> reset (c_files (m_c s) f) n.+1 = Ok k) -> (~ named (m_c s) a -> reset None n.+1 = Ok k) ->
  c_files (m_c (mcmc s a).1) f = (run (Some k)).1.
Proof.
move=> /keepP /negPf nk /r0P st E W R R'; rewrite /M_Mcmc.mcmc st; have [c1 [[_ _ _ [_ h] h'] ->]] := openE E.
rewrite nk W.
have -> : reset (c_files c1 f) n.+1 = Ok k.
  by case: (named_dec (m_c s) a) => nn; [rewrite h ?R //; right|rewrite h' ?R' ?nk].
by rewrite /= eqxx; case: (run _) => k' [k0|e] /=; rewrite eqxx.
Qed.

(** If the number of walkers is not known, the call raises TypeError; a chain in a file that was named survives, a chain in a file
    chosen by the model is gone. *)
Theorem C97_missing_walkers s a f : ~ continues a -> starts start a -> place (m_c s) a = Some f ->
  nwalkers a = None \/ nwalkers a = Some 0 ->
  (mcmc s a).2 = Err TypeError /\
  (named (m_c s) a -> forall g, c_files (m_c (mcmc s a).1) g = c_files (m_c s) g) /\
  (~ named (m_c s) a -> c_files (m_c (mcmc s a).1) f = None).
Proof.
move=> /keepP /negPf nk /r0P st E W; rewrite /M_Mcmc.mcmc st; have [c1 [[_ _ _ [h0 h] h'] ->]] := openE E; rewrite nk.
have -> : match nwalkers a with | None | Some 0 => (c1, Err TypeError) | Some (_.+1 as n) =>
   match reset (c_files c1 f) n with Ok k => (set_file c1 f (Some k), Ok (Some f)) | Err e => (c1, Err e) end end = (c1, Err TypeError)
  by case: W => ->.
split=> //; split=> [nn g|nn] /=; last by apply: h' => //; rewrite nk.
by case: (eqVneq g f) => [->|/eqP ng]; [apply: h; right|apply: h0].
Qed.

(** C98: in the same session the chain of the run is the one that is read, even if the call raises after the run; if it raises before,
    or in the run, the chain of the last run that ended is read *)
Theorem C98_same_session s a : let s' := (mcmc s a).1 in
  sampler (m_c s') = sampler (m_c s) /\ (exists e, (mcmc s a).2 = Err e) \/
  exists c c' k, run c = (c', Ok k) /\ get_reader (m_c s') None = Ok k.
Proof.
rewrite /= /M_Mcmc.mcmc; set r0 := (if _ then _ else _); case: r0 => [_|e] /=; last by left; split=> //; exists e.
case E: (place (m_c s) a) => [f|].
  have [c1 [[h _ _ _ _] ->]] := openE E.
  have W r : sampler r = sampler c1 -> let x := (let: (k', r0) := run (c_files r f) in let c2 := set_file r f k' in
     match r0 with Ok k0 => (Mst (set_sampler c2 k0) (Some (tune_of a)), mode (a_tune a) k0) | Err e => (Mst c2 (Some (tune_of a)), Err e) end) in
     sampler (m_c x.1) = sampler (m_c s) /\ (exists e, x.2 = Err e) \/ exists c c' k, run c = (c', Ok k) /\ get_reader (m_c x.1) None = Ok k.
    move=> er; case Er: (run _) => [c' [k|e]] /=; first by right; exists (c_files r f), c', k.
    by left; rewrite er h; split=> //; exists e.
  case: (keep a); first exact: W.
  case: (nwalkers a) => [[|n]|]; try by left; split=> //; exists TypeError.
  case: (reset _ _) => [k|e]; last by left; split=> //; exists e.
  exact: W.
rewrite (open_none E); case Er: (run None) => [c' [k|e]] /=; first by right; exists None, c', k.
by left; split=> //; exists e.
Qed.

Lemma after s a f : starts start a -> place (m_c s) a = Some f -> let c := m_c (mcmc s a).1 in
  [/\ c_path c = c_path (m_c s), c_name c = c_name (m_c s), named (m_c s) a -> backend c = Some f & ~ named (m_c s) a -> backend c = None].
Proof.
move=> /r0P st E; rewrite /M_Mcmc.mcmc st.
have [c1 [[_ [h1 h2] [h3 h4] _ _] ->]] := openE E.
have W r : c_path r = c_path c1 -> c_name r = c_name c1 -> backend r = backend c1 ->
   let c := m_c (let: (k', r0) := run (c_files r f) in let c2 := set_file r f k' in
     match r0 with Ok k0 => (Mst (set_sampler c2 k0) (Some (tune_of a)), mode (a_tune a) k0) | Err e => (Mst c2 (Some (tune_of a)), Err e) end).1 in
  [/\ c_path c = c_path (m_c s), c_name c = c_name (m_c s), named (m_c s) a -> backend c = Some f & ~ named (m_c s) a -> backend c = None].
  by case: (run _) => k' [k0|e] //= -> -> ->; split.
case: (keep a); first exact: W.
by case: (nwalkers a) => [[|n]|] //; case: (reset _ _) => // k; exact: W.
Qed.

(** in a later session it is read again if the file was named or has the standard name *)
Theorem C98_found_again s a f : starts start a -> place (m_c s) a = Some f -> f <> "" ->
  named (m_c s) a \/ f = standard_file (m_c s) ->
  get_reader (new_session (mcmc s a).1) None = of_opt NameError (c_files (m_c (mcmc s a).1) f).
Proof.
move=> H E ne nm; have [p n b1 b2] := after H E.
have [_ _ r1 r2] := C72_precedence (new_session (mcmc s a).1).
case: (named_dec (m_c s) a) => nn; first by rewrite (r1 f) //=; exact: b1.
case: nm => // ef; rewrite r2 //=; last exact: b2.
by rewrite p n ef.
Qed.

(** with another suffix it is not: the reader looks for the standard file, which holds an older chain or nothing *)
Theorem C98_suffix s a f : starts start a -> place (m_c s) a = Some f -> ~ named (m_c s) a -> f <> standard_file (m_c s) ->
  get_reader (new_session (mcmc s a).1) None = of_opt NameError (c_files (m_c s) (standard_file (m_c s))).
Proof.
move=> H E nn ne; have [p n _ b2] := after H E.
have [_ _ _ r2] := C72_precedence (new_session (mcmc s a).1).
rewrite r2 //=; last exact: b2.
rewrite p n -/(standard_file (m_c s)) (C97_other_files (g := standard_file (m_c s))) //.
by rewrite E => -[].
Qed.

(** a run without a backend leaves no trace in later sessions *)
Theorem C98_no_backend s a : place (m_c s) a = None -> get_reader (new_session (mcmc s a).1) None = get_reader (new_session s) None.
Proof.
move=> E; rewrite /M_Mcmc.mcmc; set r0 := (if _ then _ else _); case: r0 => // _.
by rewrite (open_none E); case: (run None) => _ [].
Qed.

(** C99: every call, even one that raises, changes the window that later statistics use *)
Theorem C99_tune s a : m_tune (mcmc s a).1 = Some (if a_tune a is Some t then t else a_nsteps a %/ 5).
Proof.
rewrite /M_Mcmc.mcmc (_ : tune_of a = (if a_tune a is Some t then t else a_nsteps a %/ 5)); last by rewrite /tune_of; case: (a_tune a).
set r0 := (if _ then _ else _); case: r0 => // _; case: open_backend => c [[f|]|e] //.
  by case: (run _) => k' [].
by case: (run None) => k' [].
Qed.
End C97.

(** Examples: chains are numbers of stored steps (with the number of walkers), a run adds ten steps. *)
Section Examples.
Definition ex_reset (k : option (nat * nat)) (n : nat) : res (nat * nat) := Ok (n, 0).
Definition ex_run (k : option (nat * nat)) : option (nat * nat) * res (nat * nat) :=
  if k is Some (n, m) then (Some (n, m + 10), Ok (n, m + 10)) else (Some (4, 10), Ok (4, 10)).
Definition ex_mode (t : option nat) (k : nat * nat) : res unit := if t is Some _ then Ok tt else Err TypeError.
Definition ex_mcmc := mcmc (Ok tt) ex_reset ex_run ex_mode.
Definition ex_fs (f : string) : option (nat * nat) := if f == "/d/m_sampler.h5" then Some (3, 50) else if f == "x.h5" then Some (3, 70) else None.
Definition ex_s (b : option string) : mst (nat * nat) := Mst (Cst None b "/d" "m" ex_fs) None.
Definition ex_a (w : option nat) (b : barg) (sfx : option string) (res : bool) : margs := MArgs None 100 w (Some 5) b sfx res false.

Example C97_ex :
  [/\ c_files (m_c (ex_mcmc (ex_s None) (ex_a None (BFlag true) None true)).1) "/d/m_sampler.h5" = Some (3, 60),
      c_files (m_c (ex_mcmc (ex_s None) (ex_a (Some 8) (BFlag true) None false)).1) "/d/m_sampler.h5" = Some (8, 10),
      c_files (m_c (ex_mcmc (ex_s None) (ex_a (Some 8) (BName "x.h5") None false)).1) "/d/m_sampler.h5" = Some (3, 50),
      c_files (m_c (ex_mcmc (ex_s None) (ex_a None (BName "x.h5") None false)).1) "x.h5" = Some (3, 70) &
      (ex_mcmc (ex_s None) (ex_a None (BName "x.h5") None false)).2 = Err TypeError].
Proof. by []. Qed.
(** A call that is rejected should leave the stored chains alone.  It does not: a call that forgets the number of walkers is rejected
    after the old chain was deleted. *)
Theorem C97_rejected_keeps_chains_refuted :
  ~ forall (K : Type) start reset (run : option K -> option K * res K) mode s a f,
      (mcmc start reset run mode s a).2 = Err TypeError -> sampler (m_c (mcmc start reset run mode s a).1) = sampler (m_c s) ->
      c_files (m_c (mcmc start reset run mode s a).1) f = c_files (m_c s) f.
Proof.
by move=> /(_ _ (Ok tt) ex_reset ex_run ex_mode (ex_s None) (ex_a None (BFlag true) None false) "/d/m_sampler.h5" erefl erefl).
Qed.
Example C98_ex :
  [/\ get_reader (new_session (ex_mcmc (ex_s None) (ex_a (Some 8) (BName "y.h5") None false)).1) None = Ok (8, 10),
      get_reader (new_session (ex_mcmc (ex_s None) (ex_a (Some 8) (BFlag true) None false)).1) None = Ok (8, 10),
      get_reader (m_c (ex_mcmc (ex_s None) (ex_a (Some 8) (BFlag true) (Some "_b.h5") false)).1) None = Ok (8, 10) &
      get_reader (new_session (ex_mcmc (ex_s None) (ex_a (Some 8) (BFlag false) None false)).1) None = Ok (3, 50)].
Proof. by []. Qed.
(** A later session should read the chain of the last run that was stored.  With a suffix it reads an older one. *)
Theorem C98_last_stored_refuted :
  ~ forall (K : Type) start reset (run : option K -> option K * res K) mode s a f,
      (mcmc start reset run mode s a).2 = Ok tt -> place (m_c s) a = Some f ->
      get_reader (new_session (mcmc start reset run mode s a).1) None = of_opt NameError (c_files (m_c (mcmc start reset run mode s a).1) f).
Proof.
by move=> /(_ _ (Ok tt) ex_reset ex_run ex_mode (ex_s None) (ex_a (Some 8) (BFlag true) (Some "_b.h5") false) "/d/m_b.h5" erefl erefl).
Qed.
(** a call rejected for lack of walkers still sets the window *)
Example C99_ex : (ex_mcmc (ex_s None) (ex_a None (BFlag true) None false)).2 = Err TypeError /\
  m_tune (ex_mcmc (ex_s None) (ex_a None (BFlag true) None false)).1 = Some 5.
Proof. by []. Qed.
End Examples.

Section C100.
Variables V P X : Type.
Variable coord : V -> nat -> X.
(** C100: without arguments chain and log-probabilities come from the same place and are cut to the same steps, the last [t] ones, or
    all if there are fewer *)
Theorem C100_same_window c (l : seq (seq P)) t t' o : size c = size l -> 0 < (if t' is Some k.+1 then k.+1 else t) ->
  @summary_inputs V P (Ok c) (Ok l) (Ok t) None t' = Ok o ->
  let m := minn (if t' is Some k.+1 then k.+1 else t) (size c) in
  [/\ size o.1 = m, size o.2 = m,
      forall i, i < m -> nth [::] o.1 i = nth [::] c (size c - m + i) & forall i, i < m -> nth [::] o.2 i = nth [::] l (size l - m + i)].
Proof.
move=> e; rewrite /summary_inputs /= (_ : pick_tune (Ok t) t' = Ok (if t' is Some k.+1 then k.+1 else t)); last by case: t' => [[]|].
move: (if t' is Some k.+1 then k.+1 else t) => w w0 /= [<-]; rewrite /= -e.
have W (A : Type) (x : seq (seq A)) : size x = size c ->
  size (last_n w x) = minn w (size c) /\ forall i, i < minn w (size c) -> nth [::] (last_n w x) i = nth [::] x (size c - minn w (size c) + i).
  move=> ex; rewrite /last_n eqn0Ngt w0 /= ex size_drop ex; case: (leqP w (size c)) => h.
    by split=> [|i hi]; [rewrite subKn|rewrite nth_drop].
  have -> : size c - w = 0 by apply/eqP; exact: ltnW.
  by rewrite drop0 subnn subn0.
have [a1 a2] := W _ c erefl; have [b1 b2] := W _ l (esym e).
by split.
Qed.
(** a chain that is passed is not enough: without an own chain the call fails *)
Theorem C100_passed_chain_needs_own c0 e c t t' o : @summary_inputs V P c0 (Err e) t (Some c) t' <> Ok o.
Proof. by rewrite /summary_inputs /=; case: pick_tune. Qed.

(** the file written has one row for each parameter, in the order of the prior, with its values in the last steps, step by step and
    walker by walker *)
Theorem C100_table (c : seq (seq V)) t npar names : size names = npar -> 0 < t <= size c ->
  exists tab, posterior_table coord (Ok c) (Ok t) npar names None = Ok tab /\ [seq r.1 | r <- tab] = names /\
  forall j w, (forall row, row \in [seq size r | r <- c] -> row = w) -> j < npar ->
    exists row, nth ("", [::]) tab j = (nth "" names j, row) /\ size row = t * w /\
    forall v0 s i, s < t -> i < w -> nth (coord v0 j) row (s * w + i) = coord (nth v0 (nth [::] c (size c - t + s)) i) j.
Proof.
move=> en /andP[t0 tc]; rewrite /posterior_table /=.
have -> : last_n t c = drop (size c - t) c by rewrite /last_n eqn0Ngt t0.
rewrite en eqxx; set D := drop _ _; eexists; split; first by [].
have sD : size D = t by rewrite size_drop subKn.
split.
  by rewrite -map_comp -en; apply: (@eq_from_nth _ "") => [|i]; rewrite ?size_map ?size_iota // => hi; rewrite (nth_map 0) ?size_iota // nth_iota.
move=> j w hw jn; exists [seq coord v j | v <- flatten D]; split.
  by rewrite (nth_map 0) ?size_iota // nth_iota.
have hD r : r < t -> size (nth [::] D r) = w.
  move=> h; rewrite nth_drop; apply: hw; apply/(nthP 0); exists (size c - t + r); rewrite ?size_map; last first.
    by rewrite (nth_map [::]) // -ltn_subRL subKn.
  by rewrite -ltn_subRL subKn.
have F : forall D' : seq (seq V), (forall r, r < size D' -> size (nth [::] D' r) = w) ->
   size (flatten D') = size D' * w /\ forall v0 s i, s < size D' -> i < w -> nth v0 (flatten D') (s * w + i) = nth v0 (nth [::] D' s) i.
  elim=> [|x D' IH] h //=; have [IH1 IH2] := IH (fun r => h r.+1); have x0 := h 0 isT; rewrite /= in x0; split.
    by rewrite size_cat IH1 x0 mulSn.
  move=> v0 [|s] i /= hs hi; rewrite nth_cat x0; first by rewrite mul0n hi.
  by rewrite mulSn -addnA ltnNge leq_addr /= addKn IH2.
have [F1 F2] := F D (fun r (h : r < size D) => hD r (eq_ind _ (fun n => r < n) h _ sD)).
split; first by rewrite size_map F1 sD.
move=> v0 s i hs hi; have hl : s * w + i < size (flatten D).
  by rewrite F1 sD; apply: (@leq_trans (s.+1 * w)); [rewrite mulSn addnC ltn_add2r|rewrite leq_mul2r hs orbT].
by rewrite (nth_map v0) // F2 ?sD // nth_drop.
Qed.
Theorem C100_labels own own_t npar names tune tab : posterior_table coord own own_t npar names tune = Ok tab -> size names = npar.
Proof. by rewrite /posterior_table; case: pick_tune => //= t; case: own => //= c; case: eqP. Qed.
End C100.
Example C100_ex : posterior_table (fun v j => nth 0 v j) (Ok [:: [:: [:: 9; 9]; [:: 9; 9]]; [:: [:: 1; 2]; [:: 3; 4]]; [:: [:: 5; 6]; [:: 7; 8]]])
    (Ok 2) 2 [:: "a"; "b"] None = Ok [:: ("a", [:: 1; 3; 5; 7]); ("b", [:: 2; 4; 6; 8])].
Proof. by []. Qed.
Example C100_ex' : summary_inputs (Ok [:: [:: 1]; [:: 2]; [:: 3]]) (Ok [:: [:: true]; [:: false]; [:: true]]) (Ok 2) None None =
  Ok ([:: [:: 2]; [:: 3]], [:: [:: false]; [:: true]]).
Proof. by []. Qed.
(** a chain that is passed is combined with the log-probabilities of the model's own chain, whose length may differ *)
Theorem C100_fits_refuted :
  ~ forall (c c' : seq (seq nat)) (l : seq (seq nat)) t o, 0 < t -> size c = size l ->
      summary_inputs (Ok c) (Ok l) (Ok t) (Some c') None = Ok o -> size o.1 = size o.2.
Proof. by move=> /(_ [:: [:: 1]; [:: 2]] [:: [:: 1]] [:: [:: 1]; [:: 2]] 2 _ isT erefl erefl). Qed.

Print Assumptions C97_other_files.
Print Assumptions C97_continued.
Print Assumptions C97_fresh.
Print Assumptions C97_missing_walkers.
Print Assumptions C98_same_session.
Print Assumptions C98_found_again.
Print Assumptions C98_suffix.
Print Assumptions C98_no_backend.
Print Assumptions C99_tune.
Print Assumptions C97_rejected_keeps_chains_refuted.
Print Assumptions C98_last_stored_refuted.
Print Assumptions C100_same_window.
Print Assumptions C100_passed_chain_needs_own.
Print Assumptions C100_table.
Print Assumptions C100_labels.
Print Assumptions C100_fits_refuted.
