(** C66 and C86: the process pool and the debug flag. *)
Set Warnings "-all".
From mathcomp Require Import all_ssreflect.
From Verif Require Import PyBase M_Pool S_Pool.
Set Implicit Arguments. Unset Strict Implicit. Unset Printing Implicit Defensive.

(** C66: tasks run one after the other iff there is no pool attribute or debug is set; otherwise in the pool; they cannot
    run at all iff the attribute is None and debug is off *)
Theorem C66_mapper s :
  [/\ mapper s = Ok Sequential <-> pool s = None \/ dbg s,
      forall n, mapper s = Ok (Workers n) <-> pool s = Some (Some n) /\ ~~ dbg s &
      forall e, mapper s = Err e <-> e = AttributeError /\ pool s = Some None /\ ~~ dbg s].
Proof.
split.
- case: s => [[[n|]|] [] b]; rewrite /mapper /=; split=> H //; try (by right); try (by left); by case: H.
- move=> k; case: s => [[[n|]|] [] b]; rewrite /mapper /=; split=> H //; try (by case: H); first by case: H => ->.
  by case: H => [[->]].
move=> e; case: s => [[[n|]|] [] b]; rewrite /mapper /=; split=> H //; try (by case: H => _ []); first by case: H => <-.
by case: H => ->.
Qed.

(** the operations that store None *)
Theorem C66_drops cpus s o : drops (dbg s) o -> (forall f, o = Mcmc f -> has_ndim s) -> pool (step cpus s o).1 = Some None.
Proof.
case: o => //= [d n [] //= D _|f D H].
  by rewrite /prep_estim /= /or_debug /set_pool; case: d D => //= /eqP ->.
by rewrite (H f) // D.
Qed.

Lemma none_step cpus s o : pool s = Some None -> pool (step cpus s o).1 = Some None.
Proof.
case: s => p d nd /= ->; case: o => [n|d' n []|d' m f|d' f|d' [] f|[] f|f] //=; rewrite /prep_estim //=; first by case: ifP.
by case: nd => //=; case: d => //; case: f.
Qed.

(** ... is irreversible: no history of calls brings a pool back, and every call that needs it raises AttributeError *)
Theorem C66_permanent cpus s h : pool s = Some None ->
  pool (run cpus s h) = Some None /\ forall o, needs_pool o -> (step cpus (run cpus s h) o).2 = Err AttributeError.
Proof.
move=> P; suff E : pool (run cpus s h) = Some None.
  split=> // o; move: E; set t := run _ _ _; case: t => p d nd /= ->.
  by case: o => //= [[] f].
by elim: h s P => //= o h IH s P; apply: IH; exact: none_step.
Qed.

Lemma pool_step cpus s o n : pool s = Some (Some n) ->
  pool (step cpus s o).1 = if (if o is Mcmc f then drops (dbg s) o && has_ndim s || drops (dbg s) o && ~~ f else drops (dbg s) o) then Some None else Some (Some (odflt n (asked o))).
Proof.
case: s => p d nd /= ->; case: o => [[[|k]|]|[] [[|k]|] []|d' [] f|d' f|d' [] []|[] f|f] //=; by case: nd; case: d; case: f.
Qed.

(** with a pool present, the operations keep the number of workers: over every history in which no call drops the pool
    it is the number asked for last, or the one before the history *)
Theorem C66_worker_count cpus s h n : pool s = Some (Some n) ->
  (forall h1 o h2, h = h1 ++ o :: h2 -> ~~ drops (dbg (run cpus s h1)) o) ->
  pool (run cpus s h) = Some (Some (last_asked n h)).
Proof.
elim: h s n => //= o h IH s n P H.
have := pool_step cpus o P; have D := H [::] o h erefl.
have -> : (if o is Mcmc f then drops (dbg s) o && has_ndim s || drops (dbg s) o && ~~ f else drops (dbg s) o) = false.
  by case: (o) D => //= [d' k f|f] /negbTE ->.
move=> P'; rewrite (IH _ _ P'); first by [].
by move=> h1 o' h2 e; have := H (o :: h1) o' h2; rewrite /= e; apply.
Qed.

(** in particular every operation but prep_estim, mcmc and create_pool keeps it *)
Theorem C66_kept cpus s o n : pool s = Some (Some n) ->
  match o with Irfs _ _ _ | Simulate _ _ | Extract _ _ _ | PriorSampler _ _ => True | _ => False end ->
  pool (step cpus s o).1 = Some (Some n).
Proof. by move=> P; rewrite (pool_step cpus o P); case: o. Qed.

(** mcmc needs debug mode or a pool *)
Theorem C66_mcmc cpus s f : has_ndim s -> ~~ dbg s -> (forall n, pool s <> Some (Some n)) ->
  (step cpus s (Mcmc f)).2 = Err AttributeError.
Proof. by case: s => [[[n|]|] [] []] //= _ _ H; case: (H n). Qed.

Lemma dbg_step cpus s o : dbg s -> dbg (step cpus s o).1.
Proof.
case: s => p d nd /= ->; case: p => [[?|]|]; by case: o => [[[|k]|]|[] [[|k]|] []|d' [] f|d' f|d' [] []|[] f|f] //=; case: nd => //; case: f.
Qed.
Lemma dbg_run cpus s h : dbg s -> dbg (run cpus s h).
Proof. by elim: h s => //= o h IH s D; apply: IH; exact: dbg_step. Qed.

(** C86: debug mode is permanent: after any call with debug=True every later batch runs sequentially or fails, whatever
    the debug argument of the later calls; extracting with the linear filter ignores its debug argument, restores the
    flag if it succeeds and leaves debug on if it raises *)
Theorem C86_debug_sticks cpus s o h : asks_debug o ->
  mapper (run cpus (step cpus s o).1 h) = Ok Sequential.
Proof.
move=> A; suff D : dbg (step cpus s o).1 by have [H _ _] := C66_mapper (run cpus (step cpus s o).1 h); apply/H; right; exact: dbg_run.
case: s => [[[?|]|] d nd]; by case: o A => [[[|k]|]|[] [[|k]|] []|[] [] f|[] f|d' [] []|[] f|f] //= _; rewrite /prep_estim /or_debug /= ?orbT.
Qed.
Theorem C86_extract_linear cpus s d fails : pool s <> Some None ->
  dbg (step cpus s (Extract d true fails)).1 = if fails then true else dbg s.
Proof. by case: s => [[[n|]|] b nd] //= H; case: fails. Qed.

(** the hypotheses are met *)
Example C66_ex :
  let s := run 8 (Pst None false false) [:: CreatePool None; Irfs false true false; PrepEstim false (Some 3) false; Extract true false false] in
  pool s = Some (Some 3) /\ mapper s = Ok Sequential.
Proof. by []. Qed.
Example C66_met : forall h1 o h2, [:: Irfs false true false; PrepEstim false (Some 3) true; Simulate false false; Mcmc true] = h1 ++ o :: h2 ->
  ~~ drops (dbg (run 8 (Pst (Some (Some 4)) false true) h1)) o.
Proof. by case=> [|a [|b [|c [|d [|e h1]]]]] o h2 // [*]; subst. Qed.
Example C66_met2 : pool (run 8 (Pst None false false) [:: PrepEstim false (Some 0) false]) = Some None. Proof. by []. Qed.
Print Assumptions C66_mapper.
Print Assumptions C66_drops.
Print Assumptions C66_permanent.
Print Assumptions C66_worker_count.
Print Assumptions C66_kept.
Print Assumptions C66_mcmc.
Print Assumptions C86_debug_sticks.
Print Assumptions C86_extract_linear.
