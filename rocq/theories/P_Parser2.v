(** The expansion as a whole. *)
Set Warnings "-all".
From Coq Require Import String.
From mathcomp Require Import all_ssreflect all_algebra.
From Verif Require Import PyBase PyStr M_Parser S_Parser P_Parser.
Set Implicit Arguments. Unset Strict Implicit. Unset Printing Implicit Defensive.
Import GRing.Theory Num.Theory Order.TTheory.
Local Open Scope ring_scope.

Section P2.
Variable F : fieldType.
Implicit Types (q : eqn F) (eqs : seq (eqn F)).

(** ** atoms after the shock stage *)
Definition shk_inv (shks : seq string) eqs (vars : seq string) (todo : seq (string * int)) : Prop :=
  forall q a, List.In q eqs -> a \in eatoms q ->
    match knd a return Prop with
    | KVar => nam a \in vars
    | KShk => nam a \in shks /\ (0 <= dat a \/ exists lag, (nam a, lag) \in todo /\ lag <= dat a)
    | KPar => True
    end.

Lemma shk_inv_step shks eqs vars s lag todo eqs' vars' : s \in shks ->
  shk_inv shks eqs vars ((s, lag) :: todo) -> expand_shock (eqs, vars) (s, lag) = (eqs', vars') ->
  shk_inv shks eqs' vars' todo.
Proof.
move=> ss H; rewrite /expand_shock; case: ifP => l0 [<- <-].
  set d := [seq _ | i <- iota 1 _].
  have dP x : x \in d -> exists2 i : nat, (0 < i)%N & x = ((KShk, s, - i%:Z), (KVar, var_s s, - i%:Z)).
    by case/mapP=> i; rewrite mem_iota => /andP [i0 _] ->; exists i.
  move=> q a /In_map [q0 [<- /In_rcons qi]]; rewrite eatoms_subs => /mapP [b bi ->].
  case: (lookupP d b) => [[x /dP [i i0 ->] [_ ->]]|[-> nk]] /=; first by rewrite mem_rcons mem_head.
  case: qi => [qi|e]; last first.
    move: bi; rewrite -e /eatoms /= !inE => /orP [] /eqP -> /=; first by rewrite mem_rcons mem_head.
    by split=> //; left.
  have := H _ _ qi bi; case ek: (knd b) => //; first by rewrite mem_rcons inE orbC => ->.
  case=> h1 h2; split=> //; case: h2 => [|[lag' [li le]]]; first by left.
  move: li; rewrite inE => /orP [/eqP [en el]|li]; last by right; exists lag'.
  left; rewrite leNgt; apply/negP => neg.
  have ea : (absz (dat b))%:Z = - dat b by rewrite abszE ltr0_norm.
  have mi : ((KShk, s, dat b), (KVar, var_s s, dat b)) \in d.
    apply/mapP; exists (absz (dat b)); last by rewrite ea opprK.
    rewrite mem_iota -ltz_nat ea oppr_gt0 neg /= add1n ltnS -lez_nat ea abszE ler0_norm ?ler_opp2 -?el //.
    exact: le_trans le (ltW neg).
  have /eqP := nk _ mi; apply; rewrite /= -en.
  by case: b {bi nk h1 le en neg ea mi} ek => [[k n] dd] ek; rewrite -ek.
move=> q a qi ai; have := H q a qi ai; case: (knd a) => // -[h1 h2]; split=> //.
case: h2 => [|[lag' [li le]]]; first by left.
move: li; rewrite inE => /orP [/eqP [_ el]|li]; last by right; exists lag'.
left; rewrite el in le; apply: le_trans le; move/negbT: l0; rewrite -eqn0Ngt absz_eq0 => /eqP ->.
by [].
Qed.

Lemma shk_inv_fold shks eqs vars todo eqs' vars' : {subset [seq x.1 | x <- todo] <= shks} ->
  shk_inv shks eqs vars todo -> foldl (@expand_shock F) (eqs, vars) todo = (eqs', vars') ->
  shk_inv shks eqs' vars' [::].
Proof.
elim: todo eqs vars => [|[s lag] todo IH] eqs vars sub H; first by case=> <- <-.
case E: (expand_shock (eqs, vars) (s, lag)) => [eqs1 vars1].
rewrite (_ : foldl _ _ _ = foldl (@expand_shock F) (expand_shock (eqs, vars) (s, lag)) todo) // E.
apply: IH; first by move=> x xi; apply: sub; rewrite inE xi orbT.
by apply: shk_inv_step E => //; apply: sub; rewrite mem_head.
Qed.

(** ** all stages *)
Section All.
Variables (eqs0 : seq (eqn F)) (vars0 shks : seq string) (eqs' : seq (eqn F)) (vars' : seq string).
Hypothesis Ex : expand eqs0 vars0 shks = Ok (eqs', vars').
Hypothesis dec : declared vars0 shks eqs0.

Lemma expandE : exists sl eqs1 vars1 vd,
  [/\ mapM (shock_dates eqs0) shks = Ok sl, foldl (@expand_shock F) (eqs0, vars0) sl = (eqs1, vars1),
      mapM (var_dates eqs1) vars1 = Ok vd, shk_inv shks eqs1 vars1 [::] &
      let steps := flatten [seq var_steps F x | x <- vd] in
      eqs' = [seq subs [seq step_dict x | x <- steps] q | q <- eqs1 ++ [seq step_eq x | x <- steps]] /\
      vars' = vars1 ++ [seq step_var x | x <- steps]].
Proof.
move: Ex; rewrite /expand; case E1: (mapM _ shks) => [sl|] //; rewrite [rbind _ _]/=.
case E2: (foldl _ _ sl) => [eqs1 vars1]; case E3: (mapM _ vars1) => [vd|] //; rewrite [rbind _ _]/= => -[<- <-].
exists sl, eqs1, vars1, vd; split=> //.
have [_ [H1 H2]] := mapM_In E1.
apply: shk_inv_fold E2.
  move=> x /mapP [[s lag] /InP /H2 [s' [/InP si]]]; rewrite /shock_dates.
  by case: py_max => //= mx; case: py_min => //= mn [<- _] ->.
move=> q a qi ai; have := dec qi ai; case ek: (knd a) => // si; split=> //; right.
have [[s lag] [/InP li]] := H1 _ (elimT (InP _ _) si); rewrite /shock_dates.
case: py_max => //= mx; case Em: py_min => [mn|] //= -[es el]; subst s lag.
exists mn; split=> //; apply: (minP Em); exact: dates_ofP ai ek erefl.
Qed.

Lemma expand_size : (size eqs' + size vars0 = size eqs0 + size vars')%N.
Proof.
have [sl [eqs1 [vars1 [vd [_ E _ _ /= [-> ->]]]]]] := expandE.
have := shock_size sl eqs0 vars0; rewrite E /= => h.
by rewrite size_map !size_cat !size_map addnAC h addnA.
Qed.

Lemma expand_range : var_range (-1) 1 eqs'.
Proof.
have [sl [eqs1 [vars1 [vd [_ _ Evd inv /= [-> _]]]]]] := expandE.
set steps := flatten _; set d := map (@step_dict F) steps => q a /In_map [q0 [<- /In_cat qi]]; rewrite eatoms_subs => /mapP [b bi ->].
have dec1 q1 a1 : List.In q1 eqs1 -> a1 \in eatoms q1 -> knd a1 = KVar -> nam a1 \in vars1.
  by move=> h1 h2 ek; have := inv _ _ h1 h2; rewrite ek.
case: qi => [qi|/In_map [x [ex xi]]] ka.
  case: (lookupP d b) => [[x xd [_ el]]|[el _]].
    by rewrite el; have [u [i [_ [] [_ ->]]]] := dP xd.
  by rewrite el in ka; have [h _] := lookup_range Evd dec1 qi bi ka.
have fx := aux_fixed xi; have : lookup d b \in eatoms (step_eq x).
  by rewrite -fx eatoms_subs; apply/mapP; exists b; rewrite // ex.
move: xi => /stepsP [u [_ /var_stepsP]] [] [i [h ->]]; rewrite /eatoms /= !inE => /orP [] /eqP ->; rewrite /dat //=.
by case: ifP.
Qed.

Lemma expand_noshock : no_lagged_shock eqs'.
Proof.
have [sl [eqs1 [vars1 [vd [_ _ Evd inv /= [-> _]]]]]] := expandE.
set steps := flatten _; set d := map (@step_dict F) steps => q a /In_map [q0 [<- /In_cat qi]]; rewrite eatoms_subs => /mapP [b bi ->].
case: (lookupP d b) => [[x xd [_ ->]]|[-> _]] ka.
  by have [u [i [_ [] [_ e]]]] := dP xd; rewrite e in ka.
case: qi => [qi|/In_map [x [ex /stepsP [u [_ /var_stepsP]]]]].
  by have := inv _ _ qi bi; rewrite ka => -[_ []] // [lag []].
case=> -[i [h e]]; move: bi; rewrite -ex e /eatoms /= !inE => /orP [] /eqP eb; move: ka; rewrite eb //.
by rewrite /knd; case: ifP.
Qed.

(** every symbol left is declared *)
Lemma expand_declared : declared vars' shks eqs'.
Proof.
have [sl [eqs1 [vars1 [vd [_ _ Evd inv /= [-> ->]]]]]] := expandE.
set steps := flatten _; set d := map (@step_dict F) steps => q a /In_map [q0 [<- /In_cat qi]]; rewrite eatoms_subs => /mapP [b bi ->].
have sv u x : List.In u vd -> List.In x (var_steps F u) -> step_var x \in vars1 ++ [seq step_var x | x <- steps].
  move=> ui xi; rewrite mem_cat; apply/orP; right; apply/InP/In_map; exists x; split=> //; apply/stepsP; by exists u.
have [_ [_ H2]] := mapM_In Evd.
have uv u : List.In u vd -> u.1 \in vars1.
  by move/H2=> [x [/InP xi]]; rewrite /var_dates; case: py_max => //= mx; case: py_min => //= mn [<-].
case: (lookupP d b) => [[x xd [_ ->]]|[-> _]].
  have [u [i [ui [] [h ->]]]] := dP xd; rewrite /=.
    by apply: (sv u (lag_step F u.1 i)) => //; apply/var_stepsP; left; exists i.
  by apply: (sv u (lead_step F u.1 i)) => //; apply/var_stepsP; right; exists i.
case: qi => [qi|/In_map [x [ex /stepsP [u [ui xi]]]]].
  by have := inv _ _ qi bi; case: knd => //; [rewrite mem_cat => -> | case].
have := xi => /var_stepsP []; case=> i [h e]; move: bi; rewrite -ex e /eatoms /= !inE => /orP [] /eqP -> /=.
- by have := sv _ _ ui xi; rewrite e.
- case: ifP => [_|i2] /=; first by rewrite mem_cat uv.
  apply: (sv u (lag_step F u.1 i.-1)) => //; apply/var_stepsP; left; exists i.-1; split=> //.
  by case: i h i2 {e} => [|[|[|i]]] //= h _; apply: ltnW.
- by have := sv _ _ ui xi; rewrite e.
by rewrite mem_cat uv.
Qed.

Section Paths.
Variables (par : string -> F) (e : path F).

Definition cutval (y : path F) (t : int) (a : sym) : F := value par y e t (cut2 a).

Lemma sats_cut y eqs : sats (cutval y) eqs <-> solves par e y [seq cut_leads q | q <- eqs].
Proof.
rewrite solvesE; split=> H q.
  by move=> /In_map [q0 [<- qi]] t; have := H q0 qi t; rewrite /cut_leads /= !eval_emap.
move=> qi t; have := H (cut_leads q) _ t; rewrite /cut_leads /= !eval_emap; apply.
by apply/In_map; exists q.
Qed.

Lemma expand_sound y : solves par e y eqs' -> solves par e y [seq cut_leads q | q <- eqs0].
Proof.
have [sl [eqs1 [vars1 [vd [_ Es Evd inv /= [-> _]]]]]] := expandE.
have dec1 q1 a1 : List.In q1 eqs1 -> a1 \in eatoms q1 -> knd a1 = KVar -> nam a1 \in vars1.
  by move=> h1 h2 ek; have := inv _ _ h1 h2; rewrite ek.
move/solvesE/(vars_stage _ _ _ Evd dec1) => [H _]; apply/sats_cut.
by have [H0 _] := (shock_fold (@wshift F par y e) Es).1 H.
Qed.

Lemma expand_unique y y' : solves par e y eqs' -> solves par e y' eqs' ->
  (forall v t, v \in vars0 -> y v t = y' v t) -> forall v t, v \in vars' -> y v t = y' v t.
Proof.
have [sl [eqs1 [vars1 [vd [_ Es Evd inv /= [-> ->]]]]]] := expandE.
have dec1 q1 a1 : List.In q1 eqs1 -> a1 \in eatoms q1 -> knd a1 = KVar -> nam a1 \in vars1.
  by move=> h1 h2 ek; have := inv _ _ h1 h2; rewrite ek.
move/solvesE/(vars_stage _ _ _ Evd dec1) => [H A]; move/solvesE/(vars_stage _ _ _ Evd dec1) => [H' A'] ag.
have [_ B] := (shock_fold (@wshift F par y e) Es).1 H; have [_ B'] := (shock_fold (@wshift F par y' e) Es).1 H'.
have ag1 v t : v \in vars1 -> y v t = y' v t.
  have := shock_vars sl eqs0 vars0; rewrite Es /= => ->; rewrite mem_cat => /orP [/ag -> //|].
  case/mapP=> x; rewrite mem_filter => /andP [l0 /InP xi] ->.
  have := B x xi l0 t; have := B' x xi l0 t; rewrite /cut2 /value /= !addr0.
  by move=> -> ->.
have [_ [_ H2]] := mapM_In Evd.
have uv u : List.In u vd -> u.1 \in vars1.
  by move/H2=> [x [/InP xi]]; rewrite /var_dates; case: py_max => //= mx; case: py_min => //= mn [<-].
move=> v t; rewrite mem_cat => /orP [/ag1 -> //|/InP /In_map [x [<- /stepsP [u [ui /var_stepsP]]]]].
case=> -[i [h ->]]; rewrite /step_var /=; have hi : (0 < i.-1 < i)%N by case: i h => [|[|i]] //= _; rewrite ltnS leqnn.
  have hb : (0 < i.-1 < absz u.2.2)%N by case/andP: hi => -> lt; case/andP: h => _; apply: leq_trans.
  by rewrite (lag_val _ (A u ui) hb) (lag_val _ (A' u ui) hb) ag1 ?uv.
have hb : (0 < i.-1 < absz u.2.1)%N by case/andP: hi => -> lt; case/andP: h => _; apply: leq_trans.
by rewrite (lead_val _ (A u ui) hb) (lead_val _ (A' u ui) hb) ag1 ?uv.
Qed.

(** values of the auxiliary variables *)
Definition getT (T : eqType) (tbl : seq (string * T)) (n : string) : option T := ohead [seq x.2 | x <- tbl & x.1 == n].

Lemma getTP (T : eqType) (tbl : seq (string * T)) n x : uniq [seq z.1 | z <- tbl] -> (n, x) \in tbl -> getT tbl n = Some x.
Proof.
elim: tbl => [|[n' x'] tbl IH] //= /andP [ni un]; rewrite inE /getT /= => /orP [/eqP [-> ->]|xi]; first by rewrite eqxx.
case: eqP => [e'|_]; last exact: IH.
by case/negP: ni; rewrite e'; apply/mapP; exists (n, x).
Qed.
Lemma getT_none (T : eqType) (tbl : seq (string * T)) n : n \notin [seq z.1 | z <- tbl] -> getT tbl n = None.
Proof. by elim: tbl => [|[n' x'] tbl IH] //=; rewrite inE /getT /= negb_or eq_sym => /andP [/negbTE -> /IH]. Qed.

Lemma expand_complete x : uniq vars' -> solves par e x [seq cut_leads q | q <- eqs0] ->
  exists y, (forall v t, v \in vars0 -> y v t = x v t) /\ solves par e y eqs'.
Proof.
have [sl [eqs1 [vars1 [vd [_ Es Evd inv /= [-> ->]]]]]] := expandE.
have dec1 q1 a1 : List.In q1 eqs1 -> a1 \in eatoms q1 -> knd a1 = KVar -> nam a1 \in vars1.
  by move=> h1 h2 ek; have := inv _ _ h1 h2; rewrite ek.
have [_ [_ H2]] := mapM_In Evd.
have uv u : List.In u vd -> u.1 \in vars1.
  by move/H2=> [z [/InP xi]]; rewrite /var_dates; case: py_max => //= mx; case: py_min => //= mn [<-].
set steps := flatten _.
have ev := shock_vars sl eqs0 vars0; rewrite Es /= in ev.
rewrite cat_uniq => /and3P [u1 dj u2] sx.
pose T1 := [seq (var_s z.1, z.1) | z <- sl & (0 < absz z.2)%N].
pose y1 n t := if getT T1 n is Some s then e s t else x n t.
pose T2 := flatten [seq [seq (var_lag u.1 i.-1, (u.1, - (i.-1)%:Z)) | i <- arange2 (absz u.2.2)] ++
                       [seq (var_lead u.1 i.-1, (u.1, 1)) | i <- arange2 (absz u.2.1)] | u <- vd].
pose y n t := if getT T2 n is Some vo then y1 vo.1 (t + vo.2) else y1 n t.
have T1n : [seq z.1 | z <- T1] = [seq var_s z.1 | z <- sl & (0 < absz z.2)%N] by rewrite -map_comp.
have T2n : [seq z.1 | z <- T2] = [seq step_var z | z <- steps].
  rewrite /T2 /steps !map_flatten -!map_comp; congr flatten; apply: eq_map => u /=.
  by rewrite /var_steps !map_cat -!map_comp.
have uT1 : uniq [seq z.1 | z <- T1] by rewrite T1n; move: u1; rewrite ev cat_uniq => /and3P [].
have uT2 : uniq [seq z.1 | z <- T2] by rewrite T2n.
have yv v t : v \in vars1 -> y v t = y1 v t.
  move=> vi; rewrite /y getT_none // T2n; apply: contra dj => h; by apply/hasP; exists v.
have y0 v t : v \in vars0 -> y v t = x v t.
  move=> vi; rewrite yv ?ev ?mem_cat ?vi // /y1 getT_none // T1n.
  move: u1; rewrite ev cat_uniq => /and3P [_ h _]; apply: contra h => h; by apply/hasP; exists v.
exists y; split=> //; apply/solvesE/(vars_stage par y e Evd dec1); split; last first.
  move=> u ui.
  have lagT i : (1 < i <= absz u.2.2)%N -> getT T2 (var_lag u.1 i.-1) = Some (u.1, - (i.-1)%:Z).
    move=> h; apply: getTP => //; apply/InP/In_flatten; eexists; split; first by apply/In_map; exists u.
    by apply/InP; rewrite mem_cat; apply/orP; left; apply/mapP; exists i; rewrite ?arange2P.
  have leadT i : (1 < i <= absz u.2.1)%N -> getT T2 (var_lead u.1 i.-1) = Some (u.1, 1).
    move=> h; apply: getTP => //; apply/InP/In_flatten; eexists; split; first by apply/In_map; exists u.
    by apply/InP; rewrite mem_cat; apply/orP; right; apply/mapP; exists i; rewrite ?arange2P.
  split=> i h t; rewrite /lag_step /lead_step /step_eq /= /value /=.
    rewrite [LHS]/y (lagT _ h) /= addr0; case: ifP => [/eqP ->|i2] /=; first by rewrite yv ?uv.
    have h' : (1 < i.-1 <= absz u.2.2)%N.
      by case: i h i2 => [|[|[|i]]] //= h _; apply: ltnW.
    rewrite [RHS]/y (lagT _ h') /=; congr (y1 _ _); rewrite -addrA; congr (t + _).
    by case: i h' {h i2} => [|[|i]] //= _; rewrite -opprD -PoszD add1n.
  by rewrite [LHS]/y (leadT _ h) /= addr0 yv ?uv.
apply/(shock_fold (@wshift F par y e) Es); split; last first.
  move=> z zi l0 t; rewrite /cut2 /value /= !addr0 yv.
    rewrite /y1 (@getTP _ T1 _ z.1) //; apply/InP/In_map; exists z; split=> //.
    by apply/InP; rewrite mem_filter l0; apply/InP.
  rewrite ev mem_cat; apply/orP; right; apply/InP/In_map; exists z; split=> //.
  by apply/InP; rewrite mem_filter l0; apply/InP.
move/sats_cut: sx => sx q qi t; have := sx q qi t.
have E i : eval (cutval x t) (if i then q.1 else q.2) = eval (cutval y t) (if i then q.1 else q.2).
  apply: eval_atoms => a ai.
  have ai' : a \in eatoms q by rewrite /eatoms mem_cat; case: i ai => ->; rewrite ?orbT.
  have := dec qi ai'; rewrite /cutval /value /cut2; case ek: (knd a) => //= vi; rewrite ?ek //.
  by case: ifP => _; rewrite ?ek /= ?[knd _]ek y0.
by have := E true; have := E false => /= -> ->.
Qed.

End Paths.
End All.
End P2.
