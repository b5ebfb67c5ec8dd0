(** Solving files whose equations are written in another order or with swapped sides. *)
Set Warnings "-all".
From Coq Require Import String.
From mathcomp Require Import all_ssreflect all_fingroup all_algebra.
From Verif Require Import PyBase PyStr M_Parser S_Parser P_Parser P_Parser3 P_Parser5 M_Engine M_GenSys M_Pipe M_Tools M_Full S_Full S_Inv P_Inv2 P_Inv3 P_Inv4.
Set Implicit Arguments. Unset Strict Implicit. Unset Printing Implicit Defensive.
Import GRing.Theory Num.Theory Order.TTheory.
Local Open Scope ring_scope.
Local Open Scope py_scope.

Lemma mapM_imp A B (f g : A -> res B) l ys : (forall x y, f x = Ok y -> g x = Ok y) -> mapM f l = Ok ys -> mapM g l = Ok ys.
Proof.
move=> h; elim: l ys => [|x l IH] ys //=; case E: (f x) => [y|] //; case E2: mapM => [zs|] // [<-].
by rewrite (h _ _ E) (IH _ E2).
Qed.

Section S.
Variable F : realFieldType.
Variable tol : F.

Definition with_eqs (p : parsed F) e' := Parsed e' (p_vars p) (p_pars p) (p_oths p) (p_shks p) (p_cvar p) (p_ceq p) (p_obs p).

Lemma rw_fvars (eqs eqs' : seq (eqn F)) : rewritten eqs eqs' -> fvars eqs =i fvars eqs'.
Proof. by move=> R a; rewrite !mem_filter !mem_undup (perm_mem (rw_atoms R)). Qed.

Lemma rw_matrices (p : parsed F) e' par g : rewritten (p_eqs p) e' -> uniq (p_vars p) -> (size (p_eqs p)).+1 = size (p_vars p) ->
  get_matrices p par = Ok g ->
  exists g' (G : 'M[F]_(size (p_eqs p))), [/\ get_matrices (with_eqs p e') par = Ok g', signed tol G,
    [/\ g_bb g' = g_bb g, g_bbPSI g' = g_bbPSI g, g_ZZ0 g' = g_ZZ0 g & g_ZZ1 g' = g_ZZ1 g],
    [/\ forall c, mx_of _ c (g_AA g') = G *m mx_of _ c (g_AA g), forall c, mx_of _ c (g_BB g') = G *m mx_of _ c (g_BB g) &
        forall c, mx_of _ c (g_CC g') = G *m mx_of _ c (g_CC g)] & forall c, mx_of _ c (g_PSI g') = G *m mx_of _ c (g_PSI g)].
Proof.
move=> R uv sz; rewrite /get_matrices /with_eqs /=.
have dd : dedup [::] (p_vars p) = p_vars p by apply: dedupE.
rewrite dd -sz /=.
have sz' := rw_size R.
have [d1 t1] : drop (size (p_eqs p)) (p_eqs p) = [::] /\ take (size (p_eqs p)) (p_eqs p) = p_eqs p by rewrite drop_size take_size.
have [d2 t2] : drop (size (p_eqs p)) e' = [::] /\ take (size (p_eqs p)) e' = e' by rewrite -sz' drop_size take_size.
rewrite d1 t1 d2 t2 /=.
case: (~~ has _ _) => //=.
case: coef_row => [bb|] //=; case: coef_row => [bp|] //=.
set f4 := (X in mapM X (p_eqs p)); have e4 : f4 = row4 (p_vars p) par (p_shks p) by [].
case E4: mapM => [rows|] //=; rewrite {}e4 in E4 *.
have [rows' [G [E4' sG H]]] := @rw_rows _ tol _ _ _ _ _ R _ _ erefl E4.
rewrite E4' /=.
set fo := (X in mapM X (p_obs p)).
case Eo: mapM => [obs|] //= [<-].
rewrite (mapM_imp _ Eo) /=; last first.
  move=> o z; rewrite /fo; case: entry => //= z1.
  case Ez: coef_row => [z0|] //=; case nf: all => //= -[<-].
  have [z0' -> et] := coef_cols (fvars e') Ez nf.
  have -> : all (fun a => a \notin fvars e') (atoms o.2) = true.
    by rewrite -nf; apply: eq_all => a; rewrite (rw_fvars R).
  rewrite /=; congr (Ok (_, _)); move: et; rewrite size_map -sz; exact.
eexists; exists G; split; [reflexivity|exact: sG|by []| |]; rewrite /=.
  by split=> c; apply: (H (fun r => _)) => r.
by move=> c; apply: (H (fun r => _)) => r.
Qed.

Lemma rw_solve rq rq' klein (m m' : rawmodel F) p par xb lm km mdl :
  rq_ok rq -> rq_ok rq' -> klein_invariant klein -> rewritten_file m m' -> parse m = Ok p -> uniq (p_vars p) ->
  solve_file tol rq klein m par xb lm km = Ok mdl -> solve_file tol rq' klein m' par xb lm km = Ok mdl.
Proof.
move=> rqP rqP' kli Rm Hp uv; rewrite /solve_file Hp.
have [e' [-> R]] := rw_parse Rm Hp; rewrite /=.
case: (xb <= 0) => //=; case Eg: get_matrices => [g|] //=.
have [eqs He] : exists eqs, declared_eqs m = Ok eqs by have [eqs [h _ _ _]] := parseP Hp; exists eqs.
have [g' [G [-> [uG fG] [e1 e2 e3 e4] [eA eB eC] eP]]] := rw_matrices R uv (size_rows Hp He) Eg.
rewrite /=; case: Rm => _ _ _ _ [_ -> _ _]; case: insub => // c.
rewrite /usys_of_file /usys_of_yaml /= e1 e2 e3 e4 (rw_size R) eA eB eC eP => <-.
rewrite -mulmxN; set u' := USys _ _ _ _ _ _ _ _ _.
have -> : u' = recombine G (usys_of_file g c xb) by [].
apply: gen_sys_inv => //; split=> j; exact: fG.
Qed.
End S.
