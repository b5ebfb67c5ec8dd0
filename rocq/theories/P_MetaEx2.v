(** A run of the concrete model in which a later shock changes earlier responses. *)
Set Warnings "-all".
From Coq Require Import String.
From mathcomp Require Import all_ssreflect all_algebra.
From Verif Require Import PyBase PyStr P_Loops M_FindLk M_Engine S_Engine S_FindLk S_Horizon M_GenSys M_Tools S_Tools P_Tools P_Tools2 P_Tools3 P_Tools4 S_Meta P_Meta P_Meta2 P_Meta3 P_MetaEx P_Engine4 P_EngineEx P_ToolsEx T_Engine T_Horizon.
Set Implicit Arguments. Unset Strict Implicit. Unset Printing Implicit Defensive.
Import GRing.Theory Num.Theory Order.TTheory.
Local Open Scope ring_scope.

Lemma run2 (F : realFieldType) (m : tmodel F) n lm km sl lin sk fo s1 s2 :
  irf_step m n lm km sl lin sk fo (IS (nseq n 0) (0, 0) 0 false [::]) 0 = Ok s1 ->
  irf_step m n lm km sl lin sk fo s1 1 = Ok s2 -> irf_run m n None 2 lm km sl lin sk fo = Ok s2.
Proof. by move=> e1 e2; rewrite /irf_run /= e1 /= e2. Qed.

Lemma irfs_none (F : realFieldType) (m : tmodel F) P (setpar : P -> res (tmodel F)) anyp shocklist st T lin sk fo r :
  irf_run m (size (vvs m)) st T (lmx m) (kmx m) [seq norm_shock a | a <- shocklist] lin sk (odflt (default_force sk) fo) = Ok r ->
  irfs m setpar anyp shocklist None st T lin sk fo = Ok (IRows (rev (i_rows r)) (i_err r) (i_mult r)).
Proof. by rewrite /irfs => ->. Qed.

Definition late_L : seq (shockarg [realFieldType of rat]) := [:: SPair "e"%string (- 100%:Q)].
Definition late_L' : seq (shockarg [realFieldType of rat]) := [:: SPair "e"%string (- 100%:Q); STriple "e"%string 1 9%:Z].
Lemma late_agree : agree_before 2 [seq norm_shock a | a <- late_L] [seq norm_shock a | a <- late_L'].
Proof. by case=> [|[|u]]. Qed.

Section Late.
Variables (t : table (cell [realFieldType of rat] 2 1)) (b : btable [realFieldType of rat] 2).
Let m := ex3_m t b.
Hypothesis sd : @solved _ m ex3 ex3_f ex3_omg ex3_A.
Notation step sl s u := (irf_step m 2 2 3 sl false (KBool false) true s u).

Lemma big_step sl s u x y e c : tab m 0%N 3%N = Some c -> known_at (shk m) sl u -> i_st s = [:: x; y] -> shocks_at (shk m) sl u = [:: e] ->
  ~~ forced_at m sl true u -> y / 2%:Q + e <= - 50%:Q ->
  step sl s u = let X := cell_row c (inp_vec m [:: x; y] [:: e]) in
    Ok (IS X (0, 3%:Z) (Nat.lor (i_err s) 2) (i_mult s) ((X, (0, 3%:Z)) :: i_rows s)).
Proof.
move=> Ec kn es eu nf big; have sz : (nq m <= size (i_st s))%N by rewrite es.
have Es := ex3_big sd x big.
by rewrite (@step_endo_eq _ m _ _ _ _ sd sl (KBool false) true s u 0%N 3%N 2%N c isT isT kn sz nf) ?es ?eu.
Qed.
Lemma held_step sl s u x y c : tab m 0%N 2%N = Some c -> known_at (shk m) sl u -> i_st s = [:: x; y] -> i_lk s = (0, 3%:Z) ->
  forced_at m sl true u ->
  exists mu X, step sl s u = Ok (IS X (0, 2%:Z) (i_err s) mu ((X, (0, 2%:Z)) :: i_rows s)).
Proof.
move=> Ec kn es el fo; have sz : (nq m <= size (i_st s))%N by rewrite es.
have elp : elapse (i_lk s) = lkz (0, 2)%N by rewrite el.
by have [mu E] := @step_held _ m _ _ _ _ sd isT sl (KBool false) true s u 0%N 2%N c kn sz fo elp isT isT Ec; exists mu; eexists; exact: E.
Qed.

Notation L := late_L.
Notation L' := late_L'.
Notation N l := [seq norm_shock a | a <- l].
Lemma late_shocks : [/\ known_at (shk m) (N L) 0%N, known_at (shk m) (N L) 1%N, known_at (shk m) (N L') 0%N & known_at (shk m) (N L') 1%N] /\
  [/\ shocks_at (shk m) (N L) 0%N = [:: - 100%:Q], shocks_at (shk m) (N L) 1%N = [:: 0],
      shocks_at (shk m) (N L') 0%N = [:: - 100%:Q] & shocks_at (shk m) (N L') 1%N = [:: 0]] /\
  [/\ ~~ forced_at m (N L) true 0%N, ~~ forced_at m (N L) true 1%N, ~~ forced_at m (N L') true 0%N & forced_at m (N L') true 1%N].
Proof.
have e : [/\ shocks_at (shk m) (N L) 0%N = [:: - 100%:Q], shocks_at (shk m) (N L) 1%N = [:: 0],
      shocks_at (shk m) (N L') 0%N = [:: - 100%:Q] & shocks_at (shk m) (N L') 1%N = [:: 0]] by split; rewrite /shocks_at /shock_size.
case: (e) => e1 e2 e3 e4; split; first by split; rewrite /known_at /= ?orbT.
have n1 : np_any [:: - 100%:Q] = true by rewrite /np_any has_seq1 oppr_eq0 intr_eq0.
have n0 : np_any [:: 0 : rat] = false by rewrite /np_any has_seq1 eqxx.
split; first exact: e.
split; rewrite /forced_at.
- by rewrite e1 n1.
- by rewrite e2 andbF.
- by rewrite e3 n1.
- by rewrite e4 n0.
Qed.

Lemma late_runs c1 c2 : tab m 0%N 3%N = Some c1 -> tab m 0%N 2%N = Some c2 ->
  exists x x' y r r', [/\ irf_run m 2 None 2 2 3 (N L) false (KBool false) true = Ok r,
    irf_run m 2 None 2 2 3 (N L') false (KBool false) true = Ok r',
    rev (i_rows r) = [:: (x, (0, 3%:Z)); (y, (0, 3%:Z))] & rev (i_rows r') = [:: (x, (0, 3%:Z)); (x', (0, 2%:Z))]].
Proof.
move=> E1 E2; have [[k1 k2 k3 k4] [[s1 s2 s3 s4] [f1 f2 f3 f4]]] := late_shocks.
have [X Ex] := ex3_row sd (inp_vec m [:: 0; 0] [:: - 100%:Q]) (leq0n 2) (leqnn 3) E1.
have [v0 v1] := ex3_inp t b 0 0 (- 100%:Q); rewrite v0 v1 mul0r add0r in Ex.
have b0 : 0 / 2%:Q + (- 100%:Q) <= - 50%:Q by [].
have b1 : (- 100%:Q) / 2%:Q + 0 <= - 50%:Q by [].
pose S0 : irf_st [realFieldType of rat] := IS [:: 0; 0] (0, 0) 0 false [::].
have A1 := @big_step (N L) S0 0%N 0 0 _ c1 E1 k1 erefl s1 f1 b0.
have A2 := @big_step (N L') S0 0%N 0 0 _ c1 E1 k3 erefl s3 f3 b0.
cbv zeta in A1, A2; rewrite Ex in A1 A2.
pose S1 : irf_st [realFieldType of rat] := IS [:: X; - 100%:Q] (0, 3%:Z) 2 false [:: ([:: X; - 100%:Q], (0, 3%:Z))].
have {}A1 : _ = Ok S1 := A1; have {}A2 : _ = Ok S1 := A2.
have B1 := @big_step (N L) S1 1%N X (- 100%:Q) 0 c1 E1 k2 erefl s2 f2 b1.
have [mu [X' B2]] := @held_step (N L') S1 1%N X (- 100%:Q) c2 E2 k4 erefl erefl f4.
cbv zeta in B1; set Y := cell_row _ _ in B1.
exists [:: X; - 100%:Q], X', Y; do 2 eexists; split.
- exact: run2 A1 B1.
- exact: run2 A2 B2.
- reflexivity.
- reflexivity.
Qed.

Lemma late_irfs c1 c2 : tab m 0%N 3%N = Some c1 -> tab m 0%N 2%N = Some c2 ->
  exists x x' y err mult err' mult',
  let run sl := irfs m (fun _ : unit => Err ValueError) (fun _ => false) sl None None 2 false (KBool false) None in
  run L = Ok (IRows [:: (x, (0, 3%:Z)); (y, (0, 3%:Z))] err mult) /\ run L' = Ok (IRows [:: (x, (0, 3%:Z)); (x', (0, 2%:Z))] err' mult').
Proof.
move=> E1 E2; have [x [x' [y [r [r' [R R' e e']]]]]] := late_runs E1 E2.
exists x, x', y, (i_err r), (i_mult r), (i_err r'), (i_mult r') => run; rewrite /run -e -e'; split.
  exact: (@irfs_none _ m _ _ _ L None 2%N false (KBool false) None r R).
exact: (@irfs_none _ m _ _ _ L' None 2%N false (KBool false) None r' R').
Qed.
End Late.

(** the same model with the bound at zero *)
Definition ex0 : sysmats [realFieldType of rat] 2 1 := @SysMats _ 2 1 (mS ex3) (mT ex3) (mV ex3) (mW ex3) 0.
Lemma zero_bound_ex : exists (m : tmodel [realFieldType of rat]) sm f omg lam, [/\ @solved _ m sm f omg lam, xb m = 0 & mh sm = 0].
Proof.
have u1 n : (1%:M : 'M[rat]_n) \in unitmx by exact: unitmx1.
have [||||||t [b e]] := @preprocess_exog _ 2 1 ex0 ex3_f ex3_omg ex3_A 2 3; rewrite /= ?block_mxKur ?block_mxKul ?block_mxKdr //.
exists (@TM _ 2 1 t b 2 3 0 [:: "e"%string] 2 1 0 0 0 [:: "r"%string; "z"%string]), ex0, ex3_f, ex3_omg, ex3_A; split=> //.
by split=> //=; rewrite ?block_mxKur //; exact: ex3_lsol.
Qed.
