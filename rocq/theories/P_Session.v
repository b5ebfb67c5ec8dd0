(** Lemmas about sessions. *)
Set Warnings "-all".
From Coq Require Import String ZArith.
From mathcomp Require Import all_ssreflect all_algebra.
From Verif Require Import PyBase PyStr M_Solve M_Filter M_Params M_Estim M_Cls M_Mcmc M_Session S_Session.
Set Implicit Arguments. Unset Strict Implicit. Unset Printing Implicit Defensive.
Local Open Scope seq_scope.

Section P.
Variables (V K PS RR I B : Type).
Variables (draws : K -> res (seq (seq V))) (log_probs : K -> res (seq (seq V))) (acceptance : K -> res (seq V)).
Variables (shape : K -> nat * nat * nat) (tpm : settings -> PS -> PS * res unit) (newf : settings -> PS -> res (option RR)).
Variables (dry : flt RR -> PS -> res unit) (names : seq string) (gp : res ((V -> V) * I * B)) (mkp : res unit).
Notation sess := (sess V K PS RR I B).
Notation prep := (@prep_estim V K PS RR I B tpm newf dry names gp mkp).
Notation gchain := (@get_chain V K PS RR I B draws tpm newf dry names gp mkp).
Notation ginfo := (@info V K PS RR I B draws shape tpm newf dry names gp mkp).
Notation mcall := (@mcmc_call V K PS RR I B tpm newf dry names gp mkp).
Notation step := (@do V K PS RR I B draws log_probs acceptance shape tpm newf dry names gp mkp).
Notation after := (@after V K PS RR I B draws log_probs acceptance shape tpm newf dry names gp mkp).

(** what prep_estim leaves alone *)
Record frame (s s' : sess) : Prop := Frm {
  fr_sampler : o_sampler s' = o_sampler s; fr_tune : o_tune s' = o_tune s; fr_name : o_name s' = o_name s;
  fr_desc : o_desc s' = o_desc s; fr_path : o_path s' = o_path s; fr_chains : o_chains s' = o_chains s; fr_disk : o_disk s' = o_disk s;
  fr_R : d_R (o_meta s') = d_R (o_meta s); fr_backend : d_backend (o_meta s') = d_backend (o_meta s);
  fr_dtune : d_tune (o_meta s') = d_tune (o_meta s); fr_dname : d_name (o_meta s') = d_name (o_meta s);
  fr_ddesc : d_desc (o_meta s') = d_desc (o_meta s); fr_ddate : d_date (o_meta s') = d_date (o_meta s) }.
Lemma frame_refl s : frame s s. Proof. by []. Qed.
Lemma frame_trans s1 s2 s3 : frame s1 s2 -> frame s2 s3 -> frame s1 s3.
Proof. by move=> [? ? ? ? ? ? ? ? ? ? ? ? ?] [? ? ? ? ? ? ? ? ? ? ? ? ?]; split; congruence. Qed.

Lemma resolve_upt d a : d_upt (resolve d a).1 = Some (g_upt (resolve d a).2) /\
  g_upt (resolve d a).2 = odflt (odflt false (d_upt d)) (a_upt a).
Proof. by rewrite /resolve; case: (a_linear a) => [l|] //=; case: (is_lin l). Qed.

Lemma prepP (s : sess) a : [/\ frame s (prep s a).1,
  d_set (o_meta (prep s a).1) = (resolve (d_set (o_meta s)) (p_args a)).1,
  (o_bp (prep s a).1 = o_bp s \/
   exists bp i b, gp = Ok (bp, i, b) /\ o_bp (prep s a).1 = Some (if g_upt (settings_of s a) then Some bp else None)),
  o_par (prep s a).1 = (tpm (settings_of s a) (o_par s)).1 &
  (prep s a).2 = Ok tt -> exists bp i b R, [/\ gp = Ok (bp, i, b) /\ newf (settings_of s a) (o_par (prep s a).1) = Ok R,
    o_bp (prep s a).1 = Some (if g_upt (settings_of s a) then Some bp else None),
    d_start (o_meta (prep s a).1) = Some i, o_ndim (prep s a).1 = Some (size names) &
    cov_now (prep s a).1 = if d_R (o_meta s) is Some R' then Some R' else R]].
Proof.
rewrite /prep_estim /settings_of; case: (resolve _ _) => d g /=.
case: (tpm g _) => p [[]|e] /=; last by split=> //; left.
case Ef: (newf g p) => [R|e] /=; last by split=> //; left.
case ER: (d_R _) => [R'|] /=; last first.
  case: (p_loadR a) => /=; first by split=> //; left.
  case: (if p_dry a then _ else _) => [u|e] /=; last by split=> //; left.
  case: gp => [[[bp i] b]|e] /=; last by split=> //; left.
  split=> //; first by right; exists bp, i, b.
  by move=> _; exists bp, i, b, R; split.
case: (if p_dry a then _ else _) => [u|e] /=; last by split=> //; left.
case: gp => [[[bp i] b]|e] /=; last by split=> //; left.
split=> //; first by right; exists bp, i, b.
by move=> _; exists bp, i, b, R; split.
Qed.
Lemma prep_ndim (s : sess) a : o_ndim (prep s a).1 = o_ndim s \/ o_ndim (prep s a).1 = Some (size names).
Proof.
rewrite /prep_estim; case: (resolve _ _) => d g /=.
case: (tpm g _) => p [[]|e] /=; last by left.
case: (newf g p) => [R|e] /=; last by left.
case: (d_R _) => [R'|] /=; last case: (p_loadR a) => /=; try (by left).
  case: (if p_dry a then _ else _) => [u|e] /=; last by left.
  by case: gp => [[[bp i] b]|e] /=; right.
case: (if p_dry a then _ else _) => [u|e] /=; last by left.
by case: gp => [[[bp i] b]|e] /=; right.
Qed.

(** reading: the state afterwards is that before or that after preparing *)
Lemma chain_state (s : sess) f : (gchain s f).1 = s \/ (o_bp s = None /\ (gchain s f).1 = (prep s default_call).1).
Proof.
rewrite /get_chain; case: get_reader => [k|e]; last by left.
case: (draws k) => [c|e]; last by left.
case E: (o_bp s) => [b|] /=; first by rewrite E; left.
right; split=> //; case: (prep s default_call) => s1 [[]|e] //=; by case: (o_bp s1).
Qed.
Lemma info_state (s : sess) : (ginfo s).1 = s \/ (o_bp s = None /\ (ginfo s).1 = (prep s default_call).1).
Proof.
rewrite /info; case: (match o_desc s with Some _ => _ | None => _ end) => [d|e] /=; last by left.
have := chain_state s None; case: (gchain s None) => s1 r /= H.
by case: (match r with Ok _ => _ | Err _ => _ end) => [l|[]].
Qed.

(** what runs leave alone *)
Lemma open_backend_other x (c : cst K) a : let c' := (open_backend (x_reset x) c a).1 in
  [/\ c_path c' = c_path c, c_name c' = c_name c & sampler c' = sampler c].
Proof.
rewrite /open_backend; case: ifP => // _ /=; set c1 := (if _ is BName f then _ else c).
have [e1 e2 e3] : [/\ c_path c1 = c_path c, c_name c1 = c_name c & sampler c1 = sampler c] by rewrite /c1; case: a_backend.
case: (backend c1) => [f|] /=.
  case: ifP => // _; case: walkers => [[|n]|] //=; by case: x_reset.
set c2 := if _ then _ else c1.
have [e4 e5 e6] : [/\ c_path c2 = c_path c, c_name c2 = c_name c & sampler c2 = sampler c] by rewrite /c2; case: ifP.
by case: ifP => // _; case: walkers => [[|n]|] //=; case: x_reset.
Qed.
Lemma mcall_keep (s : sess) a x : let s1 := if o_ndim s is None then (prep s (PCall no_args true true)).1 else s in
  let s' := (mcall s a x).1 in
  [/\ d_set (o_meta s') = d_set (o_meta s1), o_bp s' = o_bp s1, o_disk s' = o_disk s1, o_name s' = o_name s1 /\ o_path s' = o_path s1 &
      [/\ d_R (o_meta s') = d_R (o_meta s1), o_filter s' = o_filter s1, d_start (o_meta s') = d_start (o_meta s1), o_ndim s' = o_ndim s1 &
       o_par s' = o_par s1]].
Proof.
rewrite /mcmc_call; case: (o_ndim s) => [n|].
  by case: (d_desc _) => [t|]; case: M_Mcmc.mcmc => m [u|e].
by case: (prep s _) => s1 [u|e] //=; case: (d_desc _) => [t|]; case: M_Mcmc.mcmc => m [u'|e].
Qed.
End P.
