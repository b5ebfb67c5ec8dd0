(** C118: the way the equations are written does not matter. *)
Set Warnings "-all".
From Coq Require Import String.
From mathcomp Require Import all_ssreflect all_algebra all_real_closed.
From Verif Require Import PyBase PyStr M_Parser S_Parser M_Engine S_Engine M_GenSys S_GenSys S_GenSys2 M_Pipe M_Tools M_Full S_Full S_Inv S_ParserEx.
From Verif Require Import P_RQ P_GenSysEx P_PipeEx P_Inv2 P_Inv3 P_Inv4 P_Inv5 P_Small T_Parser T_Clash T_Full.
Set Implicit Arguments. Unset Strict Implicit. Unset Printing Implicit Defensive.
Import Order.Theory GRing.Theory Num.Theory.
Local Open Scope ring_scope.

(** Files that differ in the order of the model equations and in which side of an equation is written first give the same model
    object: same tables, names, observation matrices.  The RQ routine may differ as well. *)
Theorem C118_rewritten (F : realFieldType) (tol : F) (rq rq' : forall d, 'M[F]_d -> 'M[F]_d * 'M[F]_d)
    (klein : forall a b, 'M[F]_(a + b) -> 'M[F]_(a + b) -> res ('M[F]_(b, a) * 'M[F]_a))
    (m m' : rawmodel F) (p : parsed F) par xb (lm km : nat) :
  rq_ok rq -> rq_ok rq' -> klein_invariant klein -> rewritten_file m m' -> parse m = Ok p -> uniq (p_vars p) ->
  forall mdl, solve_file tol rq klein m par xb lm km = Ok mdl <-> solve_file tol rq' klein m' par xb lm km = Ok mdl.
Proof.
move=> rqP rqP' kli R Hp uv mdl; split; first exact: (rw_solve rqP rqP' kli R Hp uv).
have [e' [Hp' _]] := rw_parse R Hp.
apply: (rw_solve rqP' rqP kli _ Hp' uv).
by case: R => e1 e2 e3 e4 [R e5 e6 e7]; split=> //; split=> //; apply: rw_sym.
Qed.
Print Assumptions C118_rewritten.

(** The distinctness of names cannot be dropped: with a variable declared twice, a file with an equation of constants is accepted in one
    order and rejected in the other. *)
Definition ex_twice' : rawmodel rat_fieldType := RawModel (r_vars ex_twice) (r_pars ex_twice) (r_shks ex_twice) (r_oths ex_twice)
  (rev (r_eqs ex_twice)) (r_cvar ex_twice) (r_ceq ex_twice) (r_obs ex_twice).
Theorem C118_twice_refuted : exists p p' g, [/\ rewritten_file ex_twice ex_twice', parse ex_twice = Ok p, parse ex_twice' = Ok p',
  get_matrices p (fun _ => 0) = Ok g & get_matrices p' (fun _ => 0) = Err IndexError].
Proof.
pose p := ok_or p_dummy (parse ex_twice); pose p' := ok_or p_dummy (parse ex_twice').
have syn (A : Type) (x : res A) : (if x is Err IndexError then true else false) -> x = Err IndexError by case: x => // -[].
have ok : is_ok (get_matrices p (fun _ => 0)) by vm_compute.
case e: (get_matrices p (fun _ => 0)) ok => [g|] // _.
exists p, p', g; split; [|by apply: ok_orE; vm_compute|by apply: ok_orE; vm_compute|exact: e|by apply: syn; vm_compute].
by split=> //; split=> //; constructor.
Qed.
Print Assumptions C118_twice_refuted.

(** More generally, for the arguments of gen_sys: any invertible combination of the equations under which no column of coefficients
    becomes, or ceases to be, numerically zero leads to the same model object, or to the same error. *)
Theorem C118_recombined (F : realFieldType) (tol : F) (rq rq' : forall d, 'M[F]_d -> 'M[F]_d * 'M[F]_d)
    (klein : forall a b, 'M[F]_(a + b) -> 'M[F]_(a + b) -> res ('M[F]_(b, a) * 'M[F]_a))
    (m n e o : nat) (u : usys F m n e) (G : 'M[F]_m) names shks (ZZ0 : 'M[F]_(o, n)) ZZ1 (lm km : nat) :
  rq_ok rq -> rq_ok rq' -> klein_invariant klein -> G \in unitmx -> same_zeros tol G u ->
  gen_sys tol rq' klein (recombine G u) names shks ZZ0 ZZ1 lm km = gen_sys tol rq klein u names shks ZZ0 ZZ1 lm km.
Proof. by move=> h1 h2 h3 h4 h5; apply: gen_sys_inv. Qed.
Print Assumptions C118_recombined.

(** That condition cannot be dropped: [fast0] compares with an absolute tolerance.  Whatever the model, if some variable has no lag in the
    constraint, all its equations multiplied by the same small number make gen_sys raise ValueError. *)
Theorem C118_small_units_refuted (F : realFieldType) (tol : F) (rq : forall d, 'M[F]_d -> 'M[F]_d * 'M[F]_d)
    (klein : forall a b, 'M[F]_(a + b) -> 'M[F]_(a + b) -> res ('M[F]_(b, a) * 'M[F]_a))
    (m e o : nat) (u : usys F m m.+1 e.+1) j0 : 0 < tol -> fc0 u 0 j0 = 0 ->
  exists2 s, 0 < s & forall t, 0 < t <= s -> forall names shks (ZZ0 : 'M[F]_(o, m.+1)) ZZ1 (lm km : nat),
    gen_sys tol rq klein (recombine t%:M u) names shks ZZ0 ZZ1 lm km = Err ValueError.
Proof.
move=> tp f0; pose K := total (AA0 u) + total (BB0 u) + total (CC0 u) + 1.
have hA := total_ge0 (AA0 u); have hB := total_ge0 (BB0 u); have hC := total_ge0 (CC0 u).
have lt x : x <= total (AA0 u) + total (BB0 u) + total (CC0 u) -> x < K by move=> h; apply: (le_lt_trans h); rewrite /K ltr_addl ltr01.
have K0 : 0 < K by apply: lt; rewrite !addr_ge0.
exists (tol / K); first by rewrite divr_gt0.
move=> t ht names shks ZZ0 ZZ1 lm km.
have sm : (dimq tol (recombine t%:M u) + dimp tol (recombine t%:M u) < m.+1 + na tol (recombine t%:M u) + e.+1)%N.
  apply: (@small_masks F tol m m.+1 e.+1 _ j0) => // j; apply: (small_scale (K := K)) => //; apply: lt.
  - by rewrite -addrA ler_addl addr_ge0.
  - by rewrite addrAC ler_addr addr_ge0.
  - by rewrite ler_addr addr_ge0.
rewrite /gen_sys /new_vv /masked /= /sys_of; case: eqP => // pf.
by exfalso; move: sm; rewrite -pf addn1 !addSn ltnn.
Qed.
Print Assumptions C118_small_units_refuted.
Example C118_small_units_example (F : realFieldType) : [/\ well_scaled (exH F) (tol F), constraint_connected (exH F) & fc0 (exH F) 0 xv = 0].
Proof. by split; [exact: exH_ws|exact: exH_cc|rewrite row2x]. Qed.

(** A [klein] with the assumed properties: it solves one system, however its equations are combined, and raises for all others. *)
Section Ex.
Variable F : realFieldType.
Variables (a0 b0 : nat) (S0 T0 : 'M[F]_(a0 + b0)) (omg0 : 'M[F]_(b0, a0)) (lam0 : 'M[F]_a0).
Definition row_klein a b (S T : 'M[F]_(a + b)) : res ('M[F]_(b, a) * 'M[F]_a) :=
  if [&& a == a0, b == b0 & (row_mx (conform_mx S0 S) (conform_mx T0 T) == row_mx S0 T0)%MS]
  then Ok (conform_mx 0 omg0, conform_mx 0 lam0) else Err LinAlgErr.
Lemma row_kleinE : row_klein S0 T0 = Ok (omg0, lam0).
Proof. by rewrite /row_klein !conform_mx_id !eqxx !submx_refl. Qed.
Lemma row_klein_ok : linear_solution S0 T0 omg0 lam0 -> klein_ok row_klein.
Proof.
move=> ls a b S T omg lam; rewrite /row_klein; case: eqP => //= ea; case: eqP => //= eb; subst a b.
rewrite !conform_mx_id; case: ifP => // /andP [/submxP [D e] _] [<- <-] q.
have [-> ->] : S = D *m S0 /\ T = D *m T0 by move: e; rewrite mul_mx_row => /eq_row_mx [-> ->].
by have := ls q; rewrite /unconstrained -!mulmxA => ->.
Qed.
Lemma row_klein_invariant : klein_invariant row_klein.
Proof.
move=> a b G S T uG; rewrite /row_klein; case: eqP => //= ea; case: eqP => //= eb; subst a b.
rewrite !conform_mx_id -mul_mx_row.
suff -> : (G *m row_mx S T == row_mx S0 T0)%MS = (row_mx S T == row_mx S0 T0)%MS by [].
have f : row_full G by rewrite row_full_unit.
by have eq := eqmxMfull (row_mx S T) f; rewrite !eq.
Qed.
End Ex.

(** the file of C95 and C116, with the sides of its equation swapped *)
Definition pf' (F : realFieldType) : rawmodel F := RawModel (r_vars (pf F)) (r_pars (pf F)) (r_shks (pf F)) (r_oths (pf F))
  [seq (q.2, q.1) | q <- r_eqs (pf F)] (r_cvar (pf F)) (r_ceq (pf F)) (r_obs (pf F)).
Lemma pf_rewritten (F : realFieldType) : rewritten_file (pf F) (pf' F).
Proof. by split=> //; split=> //; constructor; constructor. Qed.
Example C118_example (par : string -> realalg) : let F := [rcfType of realalg] in let tol := P_GenSysEx.tol F in
  exists klein mdl, [/\ rq_ok (@some_rq F), klein_ok klein, klein_invariant klein, rewritten_file (pf F) (pf' F) &
    [/\ parse (pf F) = Ok (pf_p F), uniq (p_vars (pf_p F)), solve_file tol (@some_rq F) klein (pf F) par (-1) 4 17 = Ok mdl &
        solve_file tol (@some_rq F) klein (pf' F) par (-1) 4 17 = Ok mdl]].
Proof.
move=> F tol; have [g [a [b [S [T [omg [lam [h1 h2 h3 H]]]]]]]] := @pf_solve F par.
have [mdl h4 _] := H _ (row_kleinE S T omg lam).
have R : rewritten_file (pf F) (pf' F) := @pf_rewritten F.
have ki := @row_klein_invariant F _ _ S T omg lam; have ko := row_klein_ok h2.
have [Hp uv] : parse (pf F) = Ok (pf_p F) /\ uniq (p_vars (pf_p F)) by case: h3 => [e1 _ _ e2 _ _ _ _ _ _ _ _ _ _ _ _ _ _ _ _ _].
exists (row_klein S T omg lam), mdl; split; [exact: h1|exact: ko|exact: ki|exact: R|split; [exact: Hp|exact: uv|exact: h4|]].
have W := C118_rewritten tol par (-1) 4 17 h1 h1 ki R Hp uv mdl; exact: (proj1 W h4).
Qed.
Lemma rw_rev A (l : seq (A * A)) : rewritten l (rev l).
Proof.
elim: l => [|q l IH]; first by constructor.
rewrite rev_cons; apply: (rw_trans (rw_same q IH)).
elim: (rev l) => [|r k IH'] /=; first by repeat constructor.
by apply: (rw_trans (rw_order q r k)); constructor.
Qed.
(** a file with several equations, in reverse order *)
Example C118_example_order : exists m', [/\ rewritten_file ex_m m', r_eqs m' = rev (r_eqs ex_m), (1 < size (r_eqs ex_m))%N, parse ex_m = Ok ex_p & uniq (p_vars ex_p)].
Proof.
exists (RawModel (r_vars ex_m) (r_pars ex_m) (r_shks ex_m) (r_oths ex_m) (rev (r_eqs ex_m)) (r_cvar ex_m) (r_ceq ex_m) (r_obs ex_m)).
split; [|by []|by vm_compute|exact: ex_parse|by vm_compute].
split=> //; split=> //; exact: rw_rev.
Qed.
(** combinations that only reorder and change signs keep zero columns *)
Example C118_example_signs (F : realFieldType) (tol : F) m n e (u : usys F m n e) : same_zeros tol (- 1%:M) u /\ (- 1%:M : 'M[F]_m) \in unitmx.
Proof.
split; last by rewrite unitmxE -scaleN1r detZ det1 mulr1 unitrX // unitrN1.
by split=> j; rewrite mulNmx mul1mx; apply: eq_forallb => i; rewrite mxE normrN.
Qed.
