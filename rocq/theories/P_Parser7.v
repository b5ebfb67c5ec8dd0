(** Meaning of the auxiliary variables. *)
Set Warnings "-all".
From Coq Require Import String.
From mathcomp Require Import all_ssreflect all_algebra.
From Verif Require Import PyBase PyStr M_Parser S_Parser P_Parser P_Parser2 P_Parser5.
Set Implicit Arguments. Unset Strict Implicit. Unset Printing Implicit Defensive.
Import GRing.Theory Num.Theory Order.TTheory.
Local Open Scope ring_scope.

Section P7.
Variable F : fieldType.
Variables (eqs0 : seq (eqn F)) (vars0 shks : seq string) (eqs' : seq (eqn F)) (vars' : seq string).
Hypothesis Ex : expand eqs0 vars0 shks = Ok (eqs', vars').
Hypothesis dec : declared vars0 shks eqs0.

Lemma expand_aux n : n \in vars' -> [\/ n \in vars0,
  exists s, [/\ s \in shks, n = var_s s & forall par e y t, solves par e y eqs' -> y n t = e s t],
  exists v i, [/\ v \in vars', n = var_lag v i.+1 & forall par e y t, solves par e y eqs' -> y n t = y v (t - i.+1%:Z)] |
  exists v i, [/\ v \in vars', n = var_lead v i.+1 & forall par e y t, solves par e y eqs' -> y n t = y v (t + 1)]].
Proof.
have [sl [eqs1 [vars1 [vd [Esl Es Evd inv /= [-> ->]]]]]] := expandE Ex dec.
have dec1 q1 a1 : List.In q1 eqs1 -> a1 \in eatoms q1 -> knd a1 = KVar -> nam a1 \in vars1.
  by move=> h1 h2 ek; have := inv _ _ h1 h2; rewrite ek.
have [_ [_ H2]] := mapM_In Evd.
have uv u : List.In u vd -> u.1 \in vars1.
  by move/H2=> [x [/InP xi]]; rewrite /var_dates; case: py_max => //= mx; case: py_min => //= mn [<-].
rewrite mem_cat => /orP [|/InP /In_map [x [<- /stepsP [u [ui /var_stepsP]]]]].
  have := shock_vars sl eqs0 vars0; rewrite Es /= => ->; rewrite mem_cat => /orP [h|]; first by constructor 1.
  case/mapP=> x; rewrite mem_filter => /andP [l0 /InP xi] ->.
  have xs : x.1 \in shks.
    have [_ [_ h]] := mapM_In Esl; have [s [/InP si]] := h x xi.
    by rewrite /shock_dates; case: py_max => //= mx; case: py_min => //= mn [<-].
  constructor 2; exists x.1; split=> // par e y t /solvesE/(vars_stage _ _ _ Evd dec1) [H _].
  have [_ B] := (shock_fold (@wshift F par y e) Es).1 H.
  by have := B x xi l0 t; rewrite /cut2 /value /= !addr0.
case=> -[i [h ->]]; rewrite /step_var /=; have hi : (0 < i.-1 < i)%N by case: i h => [|[|i]] //= _; rewrite ltnS leqnn.
  have hb : (0 < i.-1 < absz u.2.2)%N by case/andP: hi => -> lt; case/andP: h => _; apply: leq_trans.
  case/andP: hi => i0 _; constructor 3; exists u.1, i.-1.-1; rewrite (prednK i0); split=> //; first by rewrite mem_cat uv.
  by move=> par e y t /solvesE/(vars_stage _ _ _ Evd dec1) [_ A]; rewrite (lag_val _ (A u ui) hb).
have hb : (0 < i.-1 < absz u.2.1)%N by case/andP: hi => -> lt; case/andP: h => _; apply: leq_trans.
case/andP: hi => i0 _; constructor 4; exists u.1, i.-1.-1; rewrite (prednK i0); split=> //; first by rewrite mem_cat uv.
by move=> par e y t /solvesE/(vars_stage _ _ _ Evd dec1) [_ A]; rewrite (lead_val _ (A u ui) hb).
Qed.

Lemma solves_agree par e x y : agree vars0 y x -> solves par e y eqs0 -> solves par e x eqs0.
Proof.
move=> ag H t q qi; have E w : {subset atoms w <= eatoms q} -> eval (value par x e t) w = eval (value par y e t) w.
  move=> sub; apply: eval_atoms => a /sub ai; have := dec qi ai; rewrite /value; case: (knd a) => // vi.
  by rewrite ag.
by rewrite !E ?H // => a ai; rewrite mem_cat ai ?orbT.
Qed.
End P7.

Section P8.
Variable F : fieldType.
Variables (eqs0 : seq (eqn F)) (vars0 shks : seq string) (eqs' : seq (eqn F)) (vars' : seq string).
Hypothesis Ex : expand eqs0 vars0 shks = Ok (eqs', vars').
Hypothesis dec : declared vars0 shks eqs0.

Lemma expand_shock_aux q a : List.In q eqs0 -> a \in eatoms q -> knd a = KShk -> dat a < 0 ->
  var_s (nam a) \in vars' /\ forall par e y t, solves par e y eqs' -> y (var_s (nam a)) t = e (nam a) t.
Proof.
move=> qi ai ka da.
have [sl [eqs1 [vars1 [vd [Esl Es Evd inv /= [-> ->]]]]]] := expandE Ex dec.
have dec1 q1 a1 : List.In q1 eqs1 -> a1 \in eatoms q1 -> knd a1 = KVar -> nam a1 \in vars1.
  by move=> h1 h2 ek; have := inv _ _ h1 h2; rewrite ek.
have ns : nam a \in shks by have := dec qi ai; rewrite ka.
have [_ [h _]] := mapM_In Esl; have [x [xi]] := h _ (elimT (InP _ _) ns).
have dq := dates_ofP qi ai ka erefl.
rewrite /shock_dates; case: py_max => //= mx; case em: py_min => [mn|] //= [ex].
have mle := minP em dq; have m0 : (0 < absz mn)%N by rewrite absz_gt0; apply/eqP=> e0; move: (le_lt_trans mle da); rewrite e0.
split.
  rewrite mem_cat; have := shock_vars sl eqs0 vars0; rewrite Es /= => ->; rewrite mem_cat; apply/orP; left; apply/orP; right.
  by apply/mapP; exists x; rewrite -ex // mem_filter m0; apply/InP; rewrite ex.
move=> par e y t /solvesE/(vars_stage _ _ _ Evd dec1) [H _].
have [_ B] := (shock_fold (@wshift F par y e) Es).1 H.
by have := B x xi; rewrite -ex /= => /(_ m0 t); rewrite /cut2 /value /= !addr0.
Qed.
End P8.
