(** Proofs about the caches: histories. *)
Set Warnings "-all".
From Coq Require Import String.
From mathcomp Require Import all_ssreflect.
From Verif Require Import PyBase PyStr M_Cache S_Cache P_Cache.
Set Implicit Arguments. Unset Strict Implicit. Unset Printing Implicit Defensive.
Local Open Scope string_scope.
Local Open Scope seq_scope.

Section Proofs.
Variables P U : Type.
Variable parse : string -> option string -> res P.
Variable mod_name : P -> string.
Notation dict := (dict P U). Notation heap := (heap P U). Notation world := (world P U). Notation op := (op P U).
Notation inv := (inv parse mod_name).
Notation step := (step parse mod_name).
Notation run := (run parse mod_name).

Lemma inv_init fs : inv [::] (init fs : world).
Proof. by split=> //; split=> // r o; rewrite /obj_at /=; case: r. Qed.

Definition log1 (fs : string -> option string) (o : op) : seq entry :=
  match o with ORead f _ => match fs f with Some t => [:: (t, fs (func_file f), dirname f)] | None => [::] end | _ => [::] end.
Definition fs1 (fs : string -> option string) (o : op) : string -> option string :=
  match o with OFile f t => fun g => if g == f then t else fs g | _ => fs end.
Lemma read_log_cons fs o ops : read_log fs (o :: ops) = log1 fs o ++ read_log (fs1 fs o) ops.
Proof. by case: o => //= f n; case: (fs f). Qed.
Lemma files_cons fs o ops : files fs (o :: ops) = files (fs1 fs o) ops.
Proof. by case: o. Qed.

Lemma step_inv (w : world) o log : inv log w -> inv (log ++ log1 (w_fs w) o) (step w o).1 /\ w_fs (step w o).1 = fs1 (w_fs w) o.
Proof.
move=> I; case em: (is_modification o).
  have [_ h1 _ h2 _] := step_mod I em; have -> : log1 (w_fs w) o = [::] by case: (o) em.
  by rewrite cats0; split=> //; rewrite h2; case: (o) em.
case: o em => // [f t _|f n _].
  by rewrite /= cats0; split=> //; case: I => *; split.
by have [_ h1 h2 _] := step_read f n I; split.
Qed.

Lemma run_cons (w : world) o ops : run w (o :: ops) = (if (step w o).2 is Some r then [:: r] else [::]) ++ run (step w o).1 ops.
Proof. by rewrite /=; case: (M_Cache.step _ _ w o) => w' [r|]. Qed.

Lemma run_rcons (ops : seq op) (w : world) log : inv log w -> exists w', [/\ inv (log ++ read_log (w_fs w) ops) w',
  w_fs w' = files (w_fs w) ops & forall o, run w (ops ++ [:: o]) = run w ops ++ run w' [:: o]].
Proof.
elim: ops w log => [|o ops IH] w log I; first by exists w; rewrite /= cats0.
have [I1 e1] := step_inv o I; have [w' [h1 h2 h3]] := IH _ _ I1; exists w'; rewrite read_log_cons files_cons -e1 catA.
by split=> // o'; rewrite cat_cons run_cons h3 (run_cons w o ops) catA.
Qed.

Lemma read_afterP fs (ops : seq op) f n : exists w, [/\ inv (read_log fs ops) w, w_fs w = files fs ops &
  read_ok parse mod_name (read_log fs ops) w f n (read_after parse mod_name fs ops f n)].
Proof.
have [w [h1 h2 h3]] := run_rcons (ops : seq op) (inv_init fs); exists w; split=> //.
rewrite /read_after h3 run_cons; have [[r -> h] _ _ _] := step_read f n h1.
by rewrite last_cat /=.
Qed.

(** two worlds that differ only in what the user did to their models *)
Record sim (w1 w2 : world) : Prop := Sim {
  sim_inv1 : exists l, inv l w1; sim_inv2 : exists l, inv l w2; sim_fs : w_fs w1 = w_fs w2; sim_cache : w_cache w1 = w_cache w2;
  sim_size : size (h_objs (w_heap w1)) = size (h_objs (w_heap w2));
  sim_look : same_cached (w_heap w1) (w_heap w2) (w_cache w1) }.

Lemma alloc_sim (h1 h2 : heap) c cache : wf h1 -> wf h2 -> size (h_objs h1) = size (h_objs h2) -> same_cached h1 h2 cache ->
  same_cached (alloc h1 c).1 (alloc h2 c).1 cache /\ (@alloc P U h1 c).2 = (alloc h2 c).2.
Proof.
move=> f1 f2 es sc; split; last by rewrite !alloc_ref.
by move=> r ri; rewrite !look_alloc // es; case: ifP => // _; apply: sc.
Qed.
Lemma look_alloc_new (h : heap) c : wf h -> look (@alloc P U h c).1 (alloc h c).2 = Some c.
Proof. by move=> w; rewrite look_alloc // alloc_ref eqxx. Qed.

Lemma sim_read (w1 w2 : world) f n : sim w1 w2 -> (step w1 (ORead f n)).2 = (step w2 (ORead f n)).2 /\ sim (step w1 (ORead f n)).1 (step w2 (ORead f n)).1.
Proof.
case=> [[l1 I1] [l2 I2] ef ec es sc].
have [_ J1 g1 _] := step_read f n I1; have [_ J2 g2 _] := step_read f n I2.
suff H : (step w1 (ORead f n)).2 = (step w2 (ORead f n)).2 /\ w_cache (step w1 (ORead f n)).1 = w_cache (step w2 (ORead f n)).1 /\
   size (h_objs (w_heap (step w1 (ORead f n)).1)) = size (h_objs (w_heap (step w2 (ORead f n)).1)) /\
   same_cached (w_heap (step w1 (ORead f n)).1) (w_heap (step w2 (ORead f n)).1) (w_cache (step w1 (ORead f n)).1).
  case: H => [h1 [h2 [h3 h4]]]; split=> //; split=> //; first by eexists; exact: J1.
  - by eexists; exact: J2.
  - by rewrite g1 g2.
clear J1 J2 g1 g2; rewrite /= /read ef; case: (w_fs w2 f) => [t|] /=; last by [].
have f1 := inv_wf I1; have f2 := inv_wf I2.
set fr1 := match parsed_model _ _ _ _ _ _ with Ok _ => _ | Err _ => _ end.
set fr2 := match parsed_model _ _ _ _ _ _ with Ok _ => _ | Err _ => _ end.
have H : let q1 := let: (w', r) := fr1 in (w', Some (rbind r (fun x => of_opt GenericException (look (w_heap w') x)))) in
         let q2 := let: (w', r) := fr2 in (w', Some (rbind r (fun x => of_opt GenericException (look (w_heap w') x)))) in
   q1.2 = q2.2 /\ w_cache q1.1 = w_cache q2.1 /\ size (h_objs (w_heap q1.1)) = size (h_objs (w_heap q2.1)) /\
   same_cached (w_heap q1.1) (w_heap q2.1) (w_cache q1.1).
  rewrite /fr1 /fr2; case ep: parsed_model => [c|e] /=; last by [].
  have [s1 r1] := alloc_sim c f1 f2 es sc.
  have w1' := alloc_wf c f1; have w2' := alloc_wf c f2.
  have n1 := look_alloc_new c f1; have n2 := look_alloc_new c f2.
  have z1 := alloc_size (w_heap w1) c; have z2 := alloc_size (w_heap w2) c.
  case: (alloc (w_heap w1) c) (alloc (w_heap w2) c) s1 r1 w1' w2' n1 n2 z1 z2 => [h1 r1] [h2 r2] /= s1 er w1' w2' n1 n2 z1 z2.
  subst r2; rewrite (deepcopyE n1) (deepcopyE n2).
  have es' : size (h_objs h1) = size (h_objs h2) by rewrite z1 z2 es.
  have [s1' r1'] := alloc_sim c w1' w2' es' s1.
  have lo1 := fun r => look_alloc c r w1'; have lo2 := fun r => look_alloc c r w2'.
  have y1 := alloc_size h1 c; have y2 := alloc_size h2 c.
  have nn1 := look_alloc_new c w1'; have nn2 := look_alloc_new c w2'.
  case: (alloc h1 c) (alloc h2 c) s1' r1' lo1 lo2 y1 y2 nn1 nn2 => [h1' q1] [h2' q2] /= s1' er' lo1 lo2 y1 y2 nn1 nn2; subst q2.
  rewrite ec y1 y2 es'; split; last split=> //; last split=> //.
    by rewrite lo1 lo2 es' n1 n2.
  by move=> r; rewrite mem_cat inE => /orP [ri|/eqP ->]; [apply: s1'; rewrite ec | rewrite nn1 nn2].
rewrite -{}ec (crawl_same _ _ sc); case ecr: crawl => [r0|]; last by case: fr1 fr2 H => [? ?] [? ?].
case: n H; first by case: fr1 fr2 => [? ?] [? ?].
move=> _; have /andP [ri _] := crawl_in ecr; have [c lc _] := inv_cache I1 ri.
rewrite (deepcopyE lc) (deepcopyE (etrans (sc _ ri) lc)).
have [s1 r1] := alloc_sim c f1 f2 es sc.
have n1 := look_alloc_new c f1; have n2 := look_alloc_new c f2.
have z1 := alloc_size (w_heap w1) c; have z2 := alloc_size (w_heap w2) c.
case: (alloc (w_heap w1) c) (alloc (w_heap w2) c) s1 r1 n1 n2 z1 z2 => [h1 q1] [h2 q2] /= s1 er n1 n2 z1 z2; subst q2.
by rewrite n1 n2 z1 z2 es.
Qed.

Lemma sim_run ops (w1 w2 : world) : sim w1 w2 -> run w1 ops = run w2 [seq o <- ops | ~~ is_modification o].
Proof.
elim: ops w1 w2 => [|o ops IH] w1 w2 S //=.
case em: (is_modification o) => /=.
  have [l1 I1] := sim_inv1 S; have [e1 i1 s1 f1 [c1 [_ z1]]] := step_mod I1 em.
  move: e1 i1 s1 f1 c1 z1; case: (M_Cache.step _ _ w1 o) => w' out /= -> i1 s1 f1 c1 z1; apply: IH.
  case: S => a1 a2 a3 a4 a5 a6; split=> //; first by exists l1.
  - by rewrite f1.
  - by rewrite c1.
  - by rewrite z1.
  - by move=> r; rewrite c1 => ri; rewrite s1 //; apply: a6.
case: o em => // [f t _|f n _].
  rewrite /=; apply: IH; case: S => [[l1 a1] [l2 a2] a3 a4 a5 a6]; split=> //; last by rewrite /= a3.
    by exists l1; case: a1 => *; split.
  by exists l2; case: a2 => *; split.
have [h1 h2] := sim_read f n S; move: h1 h2.
by case: (M_Cache.step _ _ w1 _) => w1' o1; case: (M_Cache.step _ _ w2 _) => w2' o2 /= -> /IH ->.
Qed.

Lemma sim_refl fs : sim (init fs : world) (init fs).
Proof. by split=> //; exists [::]; apply: inv_init. Qed.
End Proofs.
