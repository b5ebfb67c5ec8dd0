(** Property theorems C01-C11: decision rules, constraint checks, equilibrium search.
    Throughout: [preprocess sm f omg lam l_max k_max = Ok (t, b)] says that the
    tables [t] (transitions) and [b] (constraint checks) were computed for the
    system [sm], the constraint row [f] and the linear solution [omg], [lam];
    the two block conditions are what the RQ rotation delivers (C15). *)
Set Warnings "-all".
From mathcomp Require Import all_ssreflect all_algebra.
From Verif Require Import PyBase M_Engine M_FindLk S_Engine S_FindLk P_FindLk P_Engine3 P_EngineEx P_Engine4.
Set Implicit Arguments. Unset Strict Implicit. Unset Printing Implicit Defensive.
Import GRing.Theory Num.Theory Order.TTheory.
Local Open Scope ring_scope.

(** C01 *)
Theorem C01_announced_paths_solve_the_model (F : fieldType) (dimq dimp : nat)
    (sm : sysmats F dimq dimp) (f : cnst F dimq dimp)
    (omg : 'M[F]_(dimp, dimq)) (lam : 'M[F]_dimq) (l_max k_max : nat) t b :
  preprocess sm f omg lam l_max k_max = Ok (t, b) ->
  ursubmx (mT sm) = 0 -> ursubmx (mW sm) = 0 ->
  linear_solution (mS sm) (mT sm) omg lam ->
  exists rules, stored l_max k_max t rules /\
    forall l k, (l <= l_max)%N -> (k <= k_max)%N ->
      (forall q0, exists q p, q 0%N = q0 /\ follows rules l k q p) /\
      (forall q p, follows rules l k q p ->
         announced (mS sm) (mT sm) (mV sm) (mW sm) (mh sm) omg l k q p).
Proof. exact: c01. Qed.
Print Assumptions C01_announced_paths_solve_the_model.

Example C01_example : exists t b,
  [/\ preprocess ex1 ex1_f ex1_omg ex1_lam 2 3 = Ok (t, b),
      ursubmx (mT ex1) = 0, ursubmx (mW ex1) = 0 &
      linear_solution (mS ex1) (mT ex1) ex1_omg ex1_lam].
Proof.
have [t [b e]] := ex1_ok 2 3; have [h1 h2] := ex1_blocks.
by exists t, b; split=> //; apply: ex1_lsol.
Qed.

(** C02 *)
Theorem C02_announced_path_unique (F : fieldType) (dimq dimp : nat)
    (sm : sysmats F dimq dimp) (f : cnst F dimq dimp)
    (omg : 'M[F]_(dimp, dimq)) (lam : 'M[F]_dimq) (l_max k_max : nat) t b rules l k q p :
  preprocess sm f omg lam l_max k_max = Ok (t, b) ->
  ursubmx (mT sm) = 0 -> ursubmx (mW sm) = 0 ->
  linear_solution (mS sm) (mT sm) omg lam ->
  stored l_max k_max t rules -> (0 < l_max)%N ->
  (l <= l_max)%N -> (k <= k_max)%N ->
  announced (mS sm) (mT sm) (mV sm) (mW sm) (mh sm) omg l k q p ->
  follows rules l k q p /\
  (forall q' p', announced (mS sm) (mT sm) (mV sm) (mW sm) (mh sm) omg l k q' p' ->
     q 0%N = q' 0%N -> forall s, q s = q' s /\ p s = p' s).
Proof.
move=> pre h1 h2 ls st l0 ll kk an; split; first exact: (c02 pre).
by move=> q' p' an' e; apply: (c02' pre h1 h2 ls l0 ll kk).
Qed.
Print Assumptions C02_announced_path_unique.

Example C02_example : exists t b rules q p,
  [/\ preprocess ex1 ex1_f ex1_omg ex1_lam 2 3 = Ok (t, b), stored 2 3 t rules,
      q 0%N = (- 1%:Q)%:M &
      announced (mS ex1) (mT ex1) (mV ex1) (mW ex1) (mh ex1) ex1_omg 1 2 q p].
Proof.
have [t [b e]] := ex1_ok 2 3; have [h1 h2] := ex1_blocks.
have [rules [st /(_ 1%N 2%N isT isT) [ex an]]] := C01_announced_paths_solve_the_model e h1 h2 ex1_lsol.
have [q [p [q0 fo]]] := ex (- 1%:Q)%:M.
by exists t, b, rules, q, p; split=> //; apply: an.
Qed.

(** C03 *)
Theorem C03_checks_are_notional (F : fieldType) (dimq dimp : nat)
    (sm : sysmats F dimq dimp) (f : cnst F dimq dimp)
    (omg : 'M[F]_(dimp, dimq)) (lam : 'M[F]_dimq) (l_max k_max : nat) t b :
  preprocess sm f omg lam l_max k_max = Ok (t, b) ->
  ursubmx (mT sm) = 0 -> ursubmx (mW sm) = 0 ->
  linear_solution (mS sm) (mT sm) omg lam -> (0 < l_max)%N ->
  (forall i l k q p, (i < 5)%N -> (l <= l_max)%N -> (k <= k_max)%N ->
     (i = 1%N -> (0 < l)%N) -> (i = 3%N -> (0 < l + k)%N) ->
     announced (mS sm) (mT sm) (mV sm) (mW sm) (mh sm) omg l k q p ->
     check_cnst b l_max.+1 k_max.+1 (q 0%N) i l k =
     Ok (notional (fq1 f) (fp1 f) (fq0 f) q p (nth 0%N [:: 0%N; l.-1; l; (l + k).-1; (l + k)%N] i))) /\
  (exists2 tb, preprocess_tmats f t l_max k_max = Ok tb &
     forall s l k q p, (s < l_max + k_max + 2)%N -> (l <= l_max)%N -> (k <= k_max)%N ->
       announced (mS sm) (mT sm) (mV sm) (mW sm) (mh sm) omg l k q p ->
       exists2 v, tb s l k = Some v &
         (v.1 *m q 0%N) 0 0 + v.2 = notional (fq1 f) (fp1 f) (fq0 f) q p s).
Proof.
move=> pre h1 h2 ls l0; split; last exact: (c03t pre).
by move=> i l k q p i5 ll kk c1 c3 an; apply: (c03 pre h1 h2 ls).
Qed.
Print Assumptions C03_checks_are_notional.

(** the (1,2) path of [ex1] announced from z = -1 *)
Example C03_example : exists t b q p,
  [/\ preprocess ex1 ex1_f ex1_omg ex1_lam 2 3 = Ok (t, b), q 0%N = (- 1%:Q)%:M,
      announced (mS ex1) (mT ex1) (mV ex1) (mW ex1) (mh ex1) ex1_omg 1 2 q p &
      check_cnst b 3 4 (q 0%N) 3 1 2 = Ok (notional (fq1 ex1_f) (fp1 ex1_f) (fq0 ex1_f) q p 2)].
Proof.
have [t [b [rules [q [p [e st q0 an]]]]]] := C02_example; exists t, b, q, p; split=> //.
have [h1 h2] := ex1_blocks.
have [H _] := C03_checks_are_notional e h1 h2 ex1_lsol isT.
by rewrite (H 3%N 1%N 2%N q p).
Qed.

(** C04 *)
Theorem C04_no_uninitialised_reads (F : realFieldType) (dimq dimp : nat)
    (sm : sysmats F dimq dimp) (f : cnst F dimq dimp)
    (omg : 'M[F]_(dimp, dimq)) (lam : 'M[F]_dimq) (l_max k_max : nat) :
  (forall e, preprocess sm f omg lam l_max k_max = Err e -> e = LinAlgErr) /\
  (forall t b, preprocess sm f omg lam l_max k_max = Ok (t, b) ->
     ursubmx (mT sm) = 0 -> ursubmx (mW sm) = 0 ->
     linear_solution (mS sm) (mT sm) omg lam ->
     (0 < k_max)%N -> (0 < l_max < 999)%N ->
     forall q0 xb, exists r, find_lk (check_cnst b l_max.+1 k_max.+1 q0) xb l_max.+1 k_max.+1 = Ok r).
Proof.
split; first exact: preprocess_errors.
move=> t b pre h1 h2 ls k0 /andP [l0 l9] q0 xb.
have [N NE] := notional_ex pre h1 h2 ls q0 l0.
by have [l [k [fl [-> _]]]] := searchP pre h1 h2 ls xb NE k0 l9; eexists.
Qed.
Print Assumptions C04_no_uninitialised_reads.

(** with [k_max = 0] the search reads outside the tables exactly when the linear
    path reaches the bound *)
Theorem C04_kmax0 (F : realFieldType) (dimq dimp : nat)
    (sm : sysmats F dimq dimp) (f : cnst F dimq dimp)
    (omg : 'M[F]_(dimp, dimq)) (lam : 'M[F]_dimq) (l_max : nat) t b q0 N xb :
  preprocess sm f omg lam l_max 0 = Ok (t, b) ->
  ursubmx (mT sm) = 0 -> ursubmx (mW sm) = 0 ->
  linear_solution (mS sm) (mT sm) omg lam -> (l_max < 999)%N ->
  notional_on (mS sm) (mT sm) (mV sm) (mW sm) (mh sm) omg (fq1 f) (fp1 f) (fq0 f) l_max 0 q0 N ->
  ((exists s, (s <= l_max)%N /\ N 0%N 0%N s <= xb) <->
   find_lk (check_cnst b l_max.+1 1 q0) xb l_max.+1 1 = Err OutOfBounds).
Proof.
move=> pre h1 h2 ls l9 NE; split; first exact: (search0P pre h1 h2 ls NE).
by case: (hitP l_max N xb) => // sl; rewrite (search0_slack pre h1 h2 ls NE).
Qed.
Print Assumptions C04_kmax0.

Theorem C04_kmax0_refuted : exists t b,
  preprocess ex2 ex2_f ex2_omg ex2_lam 2 0 = Ok (t, b) /\
  find_lk (check_cnst b 3 1 (20%:Q)%:M) (-1) 3 1 = Err OutOfBounds.
Proof.
have [t [b e]] := ex2_ok 2 0; have [h1 h2] := ex2_blocks; exists t, b; split=> //.
have [H _] := C04_kmax0 (-1) e h1 h2 ex2_lsol isT (@ex2_notional 2%N 0%N).
by apply: H; exists 0%N.
Qed.
Print Assumptions C04_kmax0_refuted.

(** C05 *)
Theorem C05_slack_iff (F : realFieldType) (dimq dimp : nat)
    (sm : sysmats F dimq dimp) (f : cnst F dimq dimp)
    (omg : 'M[F]_(dimp, dimq)) (lam : 'M[F]_dimq) (l_max k_max : nat) t b q0 N xb l k flag :
  preprocess sm f omg lam l_max k_max = Ok (t, b) ->
  ursubmx (mT sm) = 0 -> ursubmx (mW sm) = 0 ->
  linear_solution (mS sm) (mT sm) omg lam ->
  notional_on (mS sm) (mT sm) (mV sm) (mW sm) (mh sm) omg (fq1 f) (fp1 f) (fq0 f) l_max k_max q0 N ->
  (0 < k_max)%N -> (l_max < 999)%N ->
  find_lk (check_cnst b l_max.+1 k_max.+1 q0) xb l_max.+1 k_max.+1 = Ok (l, k, flag) ->
  (k = 0%N <-> forall s, (s <= l_max)%N -> xb < N 0%N 0%N s) /\
  ((forall s, (s <= l_max)%N -> xb < N 0%N 0%N s) -> l = 0%N /\ flag = 0%N).
Proof. by move=> pre h1 h2 ls NE k0 l9; apply: (c05 pre). Qed.
Print Assumptions C05_slack_iff.

Example C05_example : exists t b,
  [/\ preprocess ex2 ex2_f ex2_omg ex2_lam 2 3 = Ok (t, b),
      notional_on (mS ex2) (mT ex2) (mV ex2) (mW ex2) (mh ex2) ex2_omg (fq1 ex2_f) (fp1 ex2_f) (fq0 ex2_f)
        2 3 (20%:Q)%:M ex2_N &
      find_lk (check_cnst b 3 4 (20%:Q)%:M) (-1) 3 4 = Ok (0%N, 1%N, 0%N)].
Proof.
have [t [b e]] := ex2_ok 2 3; have [h1 h2] := ex2_blocks; exists t, b.
have NE := @ex2_notional 2%N 3%N; split=> //.
have [l [k [fl [-> so]]]] := searchP e h1 h2 ex2_lsol (-1) NE isT isT.
by rewrite (ex2_outcome so).
Qed.

(** C06 *)
Theorem C06_first_admissible_selected (F : realFieldType) (dimq dimp : nat)
    (sm : sysmats F dimq dimp) (f : cnst F dimq dimp)
    (omg : 'M[F]_(dimp, dimq)) (lam : 'M[F]_dimq) (l_max k_max : nat) t b q0 N xb :
  preprocess sm f omg lam l_max k_max = Ok (t, b) ->
  ursubmx (mT sm) = 0 -> ursubmx (mW sm) = 0 ->
  linear_solution (mS sm) (mT sm) omg lam ->
  notional_on (mS sm) (mT sm) (mV sm) (mW sm) (mh sm) omg (fq1 f) (fp1 f) (fq0 f) l_max k_max q0 N ->
  (0 < k_max)%N -> (l_max < 999)%N ->
  ((exists s, (s <= l_max)%N /\ N 0%N 0%N s <= xb) ->
   (exists l k, [/\ (l <= l_max)%N, (k <= k_max)%N & admissible N xb l k]) ->
   exists l k, find_lk (check_cnst b l_max.+1 k_max.+1 q0) xb l_max.+1 k_max.+1 = Ok (l, k, 0%N) /\
               first_admissible N xb l_max.+1 k_max.+1 l k) /\
  (forall l k, find_lk (check_cnst b l_max.+1 k_max.+1 q0) xb l_max.+1 k_max.+1 = Ok (l, k, 0%N) ->
     (0 < k)%N -> first_admissible N xb l_max.+1 k_max.+1 l k).
Proof.
move=> pre h1 h2 ls NE k0 l9; split; first exact: (c06 pre).
by move=> l k; apply: (c06' pre).
Qed.
Print Assumptions C06_first_admissible_selected.

Example C06_example :
  (exists s, (s <= 2)%N /\ ex2_N 0%N 0%N s <= -1) /\
  exists l k, [/\ (l <= 2)%N, (k <= 3)%N & admissible ex2_N (-1) l k].
Proof. by split; [exists 0%N | exists 0%N, 1%N; split=> //; apply: ex2_adm]. Qed.

(** C07 *)
Theorem C07_meaning_of_flags (F : realFieldType) (dimq dimp : nat)
    (sm : sysmats F dimq dimp) (f : cnst F dimq dimp)
    (omg : 'M[F]_(dimp, dimq)) (lam : 'M[F]_dimq) (l_max k_max : nat) t b q0 N xb l k flag :
  preprocess sm f omg lam l_max k_max = Ok (t, b) ->
  ursubmx (mT sm) = 0 -> ursubmx (mW sm) = 0 ->
  linear_solution (mS sm) (mT sm) omg lam ->
  notional_on (mS sm) (mT sm) (mV sm) (mW sm) (mh sm) omg (fq1 f) (fp1 f) (fq0 f) l_max k_max q0 N ->
  (0 < k_max)%N -> (l_max < 999)%N ->
  find_lk (check_cnst b l_max.+1 k_max.+1 q0) xb l_max.+1 k_max.+1 = Ok (l, k, flag) ->
  [/\ (flag <= 2)%N,
      flag <> 0%N <->
        (exists s, (s <= l_max)%N /\ N 0%N 0%N s <= xb) /\
        (forall l' k', (l' <= l_max)%N -> (k' <= k_max)%N -> ~ admissible N xb l' k'),
      flag = 1%N -> [/\ l = 0%N, (k <= k_max)%N & first_reexit N xb k] &
      flag = 2%N -> [/\ l = 0%N, k = k_max & forall j, (j <= k_max)%N -> ~ first_reexit N xb j]].
Proof. by move=> pre h1 h2 ls NE k0 l9; apply: (c07 pre). Qed.
Print Assumptions C07_meaning_of_flags.

(** a state from which no pair is admissible: raising the bound of [ex2] far
    above the path makes the constraint bind for ever *)
Example C07_example : exists t b,
  preprocess ex2 ex2_f ex2_omg ex2_lam 2 3 = Ok (t, b) /\
  find_lk (check_cnst b 3 4 (20%:Q)%:M) 100%:Q 3 4 = Ok (0%N, 3%N, 2%N).
Proof.
have [t [b e]] := ex2_ok 2 3; have [h1 h2] := ex2_blocks; exists t, b; split=> //.
have NE := @ex2_notional 2%N 3%N.
have [l [k [fl [-> so]]]] := searchP e h1 h2 ex2_lsol 100%:Q NE isT isT; congr Ok.
have below l' k' s : (s < 6)%N -> ex2_N l' k' s < 100%:Q.
  by case: s => [|[|[|[|[|[|s]]]]]].
case: so => {l k fl}.
- by move/(_ 0%N isT); rewrite ltNge ltW // below.
- move=> l k _ [ll kk [k0 _ _ _ hh] _]; exfalso.
  have := @below l k (l + k)%N; rewrite ltNge hh => h.
  have lk : (l + k <= 2 + 3)%N by apply: leq_add.
  by have := h lk.
- move=> k _ _ kk [j [_ _ hh _]]; exfalso.
  have := @below 0%N k k; rewrite ltNge (ltW hh) => h.
  have k6 : (k < 6)%N by apply: (ltn_trans kk).
  by have := h k6.
- by [].
Qed.

(** C08 *)
Theorem C08_results_in_range (F : realFieldType) (dimq dimp : nat)
    (sm : sysmats F dimq dimp) (f : cnst F dimq dimp)
    (omg : 'M[F]_(dimp, dimq)) (lam : 'M[F]_dimq) (l_max k_max : nat) t b :
  preprocess sm f omg lam l_max k_max = Ok (t, b) ->
  ursubmx (mT sm) = 0 -> ursubmx (mW sm) = 0 ->
  linear_solution (mS sm) (mT sm) omg lam -> (0 < k_max)%N -> (0 < l_max < 999)%N ->
  forall q0 xb, exists l k flag c,
    [/\ find_lk (check_cnst b l_max.+1 k_max.+1 q0) xb l_max.+1 k_max.+1 = Ok (l, k, flag),
        (l <= l_max)%N, (k <= k_max)%N & t l k = Some c].
Proof.
move=> pre h1 h2 ls k0 /andP [l0 l9] q0 xb.
have [N NE] := notional_ex pre h1 h2 ls q0 l0.
have [l [k [fl [e ll kk]]]] := c08 pre h1 h2 ls xb NE k0 l9.
by have [c Ec] := c08' pre ll kk; exists l, k, fl, c.
Qed.
Print Assumptions C08_results_in_range.

(** with 1000 tabulated values of l the sentinel is ambiguous: the only
    admissible pair is (999,1), and it is reported as flag 2 *)
Theorem C08_sentinel_refuted :
  first_admissible sent_N 0 1000 2 999 1 /\
  find_lk (fun i l k => Ok (sent_N l k (per i l k))) 0 1000 2 = Ok (0%N, 1%N, 2%N).
Proof. exact: sentinel. Qed.
Print Assumptions C08_sentinel_refuted.

(** C09 *)
Theorem C09_flag0_is_no_equilibrium_refuted l_max k_max :
  (0 < l_max < 999)%N -> (0 < k_max)%N ->
  exists t b,
  [/\ preprocess ex2 ex2_f ex2_omg ex2_lam l_max k_max = Ok (t, b),
      find_lk (check_cnst b l_max.+1 k_max.+1 (20%:Q)%:M) (-1) l_max.+1 k_max.+1 = Ok (0%N, 1%N, 0%N) &
      exists q p, [/\ q 0%N = (20%:Q)%:M,
        announced (mS ex2) (mT ex2) (mV ex2) (mW ex2) (mh ex2) ex2_omg 0 1 q p,
        ~~ binds 0 1 2 &
        notional (fq1 ex2_f) (fp1 ex2_f) (fq0 ex2_f) q p 2 < -1]].
Proof.
move=> /andP [l0 l9] k0.
have [t [b e]] := ex2_ok l_max k_max; have [h1 h2] := ex2_blocks; exists t, b.
have NE := @ex2_notional l_max k_max; split=> //.
  have [l [k [fl [-> so]]]] := searchP e h1 h2 ex2_lsol (-1) NE k0 l9.
  case: k_max k0 so {e NE} => // k_max' _ so.
  by rewrite (ex2_outcome so).
have [rules [st /(_ 0%N 1%N isT k0) [ex an]]] := c01 e h1 h2 ex2_lsol.
have [q [p [q0 fo]]] := ex (20%:Q)%:M.
exists q, p; split=> //; first exact: an.
have <- := NE 0%N 1%N q p isT k0 (an _ _ fo) q0 2%N; by vm_compute.
Qed.
Print Assumptions C09_flag0_is_no_equilibrium_refuted.

(** C10: [sched l] is the order in which the iterations over [k] of outer
    iteration [l] perform their successive steps; any interleaving in which
    every iteration gets at least its l+k+1 steps *)
Theorem C10_parallel_equals_sequential (F : fieldType) (dimq dimp : nat)
    (sm : sysmats F dimq dimp) (f : cnst F dimq dimp)
    (omg : 'M[F]_(dimp, dimq)) (lam : 'M[F]_dimq) (l_max k_max : nat) (sched : nat -> seq nat) :
  (forall l, (l <= l_max)%N -> all (fun k => (k <= k_max)%N) (sched l)) ->
  (forall l k, (l <= l_max)%N -> (k <= k_max)%N -> (l + k + 1 <= count_mem k (sched l))%N) ->
  (forall t b, preprocess sm f omg lam l_max k_max = Ok (t, b) ->
     exists2 b', preprocess_par sched sm f omg lam l_max k_max = Ok (t, b') &
                 forall i l k, b' i l k = b i l k) /\
  (forall e, preprocess sm f omg lam l_max k_max = Err e ->
     preprocess_par sched sm f omg lam l_max k_max = Err e).
Proof.
move=> h1 h2; split; first by move=> t b; apply: preprocess_parE.
by move=> e; apply: preprocess_par_err.
Qed.
Print Assumptions C10_parallel_equals_sequential.

(** a schedule that runs the iterations backwards, one step each in turn *)
Example C10_example :
  let sched := fun l => flatten (nseq (l + 2 + 1) [:: 2%N; 1%N; 0%N]) in
  (forall l, (l <= 1)%N -> all (fun k => (k <= 2)%N) (sched l)) /\
  (forall l k, (l <= 1)%N -> (k <= 2)%N -> (l + k + 1 <= count_mem k (sched l))%N).
Proof. by split; [case=> [|[|l]] | case=> [|[|l]] [|[|[|k]]]]. Qed.

(** C11 *)
Theorem C11_k0_entries_linear (F : fieldType) (dimq dimp : nat)
    (sm : sysmats F dimq dimp) (f : cnst F dimq dimp)
    (omg : 'M[F]_(dimp, dimq)) (lam : 'M[F]_dimq) (l_max k_max : nat) t b :
  preprocess sm f omg lam l_max k_max = Ok (t, b) ->
  ursubmx (mT sm) = 0 -> ursubmx (mW sm) = 0 ->
  linear_solution (mS sm) (mT sm) omg lam ->
  forall l, (l <= l_max)%N -> t l 0%N = Some (Cell omg 0 lam 0).
Proof. by move=> pre h1 h2 ls l ll; apply: (c11 pre). Qed.
Print Assumptions C11_k0_entries_linear.

Example C11_example : exists t b,
  [/\ preprocess ex1 ex1_f ex1_omg ex1_lam 2 3 = Ok (t, b),
      t 0%N 0%N = t 1%N 0%N & exists c, t 1%N 2%N = Some c].
Proof.
have [t [b e]] := ex1_ok 2 3; have [h1 h2] := ex1_blocks; exists t, b; split=> //.
  by rewrite !(C11_k0_entries_linear e h1 h2 ex1_lsol).
exact: (c08' e).
Qed.
