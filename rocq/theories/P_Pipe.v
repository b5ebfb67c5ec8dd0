(** The expansion of leads and lags for paths that start at some date: one-sided versions of the lemmas of P_Parser2. *)
Set Warnings "-all".
From Coq Require Import String.
From mathcomp Require Import all_ssreflect all_algebra.
From Verif Require Import PyBase PyStr M_Parser S_Parser P_Parser P_Parser2.
Set Implicit Arguments. Unset Strict Implicit. Unset Printing Implicit Defensive.
Import GRing.Theory Num.Theory Order.TTheory.
Local Open Scope ring_scope.

Section P.
Variable F : fieldType.
Implicit Types (q : eqn F) (eqs : seq (eqn F)).

(** one equation in one period *)
Definition sat1 (v : sym -> F) q : Prop := eval v q.1 = eval v q.2.
Definition sats1 (v : sym -> F) eqs : Prop := forall q, List.In q eqs -> sat1 v q.

Lemma sat1_ext (v v' : sym -> F) q : {in eatoms q, v =1 v'} -> sat1 v q <-> sat1 v' q.
Proof.
move=> H; rewrite /sat1.
have E i : eval v (if i then q.1 else q.2) = eval v' (if i then q.1 else q.2).
  apply: eval_atoms => a ai; apply: H; by rewrite /eatoms mem_cat; case: i ai => ->; rewrite ?orbT.
by rewrite (E true) (E false).
Qed.

Lemma sat1_subs (v v' : sym -> F) d q : (forall a, a \in eatoms q -> v (lookup d a) = v' a) -> sat1 v (subs d q) <-> sat1 v' q.
Proof.
move=> H; rewrite /sat1 /subs /=.
have E i : eval v (emap (lookup d) (if i then q.1 else q.2)) = eval v' (if i then q.1 else q.2).
  rewrite eval_emap; apply: eval_atoms => a ai; apply: H.
  by rewrite /eatoms mem_cat; case: i ai => ->; rewrite ?orbT.
by rewrite (E true) (E false).
Qed.

(** shocks *)
Section Shocks.
Variable v : int -> sym -> F.
Hypothesis vshift : forall t k n d, k != KPar -> d <= 0 -> v t (k, n, d) = v (t + d) (k, n, 0).

Lemma shock_step1 t eqs vars s lag eqs' vars' : expand_shock (eqs, vars) (s, lag) = (eqs', vars') ->
  ((0 < absz lag)%N -> shock_aux v s) -> sats1 (v t) eqs' <-> sats1 (v t) eqs.
Proof.
rewrite /expand_shock; case: ifP => l0 [<- _] // /(_ isT) A.
set d := [seq _ | i <- iota 1 _].
have dP x : x \in d -> exists2 i : nat, (0 < i)%N & x = ((KShk, s, - i%:Z), (KVar, var_s s, - i%:Z)).
  by case/mapP=> i; rewrite mem_iota => /andP [i0 _] ->; exists i.
have eqv q : sat1 (v t) (subs d q) <-> sat1 (v t) q.
  apply: sat1_subs => a _; case: (lookupP d a) => [[x /dP [i i0 ->] [<- ->]]|[-> _] //] /=.
  have h : - i%:Z <= 0 by rewrite oppr_le0.
  by rewrite (vshift t s (isT : KShk != KPar) h) (vshift t (var_s s) (isT : KVar != KPar) h) A.
split=> H q.
  by move=> qi; apply/eqv; apply: H; apply/In_map; exists q; rewrite In_rcons; tauto.
move=> /In_map [q' [<-]]; rewrite In_rcons => -[qi|<-]; apply/eqv; first exact: H.
exact: A.
Qed.

Lemma shock_fold1 t sl eqs vars eqs' vars' : foldl (@expand_shock F) (eqs, vars) sl = (eqs', vars') ->
  (forall x, List.In x sl -> (0 < absz x.2)%N -> shock_aux v x.1) -> sats1 (v t) eqs' <-> sats1 (v t) eqs.
Proof.
elim: sl eqs vars => [|[s lag] sl IH] eqs vars; first by move=> [<- _].
case E: (expand_shock (eqs, vars) (s, lag)) => [eqs1 vars1].
rewrite (_ : foldl _ _ _ = foldl (@expand_shock F) (expand_shock (eqs, vars) (s, lag)) sl) // E => H A.
rewrite (IH _ _ H); last by move=> x xi; apply: A; right.
by apply: shock_step1 E _ => l0; apply: (A (s, lag)) => //; left.
Qed.
End Shocks.

(** every shock with a lag has its auxiliary equation in the result of the shock stage *)
Lemma shock_eq_in sl eqs vars eqs' vars' s lag : foldl (@expand_shock F) (eqs, vars) sl = (eqs', vars') ->
  List.In (s, lag) sl -> (0 < absz lag)%N -> List.In (At (KVar, var_s s, 0), At (KShk, s, 0)) eqs'.
Proof.
have keep sl1 eqs1 vars1 eqs2 vars2 : foldl (@expand_shock F) (eqs1, vars1) sl1 = (eqs2, vars2) ->
    List.In (At (KVar, var_s s, 0), At (KShk, s, 0)) eqs1 -> List.In (At (KVar, var_s s, 0), At (KShk, s, 0)) eqs2.
  elim: sl1 eqs1 vars1 => [|[s' lag'] sl1 IH] eqs1 vars1; first by move=> [<- _].
  case E: (expand_shock (eqs1, vars1) (s', lag')) => [eqs3 vars3].
  rewrite (_ : foldl _ _ _ = foldl (@expand_shock F) (expand_shock (eqs1, vars1) (s', lag')) sl1) // E => /IH H qi; apply: H.
  move: E; rewrite /expand_shock; case: ifP => _ [<- _] //.
  apply/In_map; eexists; split; last by apply/In_rcons; left; exact: qi.
  rewrite /subs /=; set d := [seq _ | i <- iota 1 _].
  have dP x : x \in d -> exists2 i : nat, (0 < i)%N & x = ((KShk, s', - i%:Z), (KVar, var_s s', - i%:Z)).
    by case/mapP=> i; rewrite mem_iota => /andP [i0 _] ->; exists i.
  congr (At _, At _).
    by case: (lookupP d (KVar, var_s s, 0)) => [[x /dP [i i0 ->] [] ]|[]].
  case: (lookupP d (KShk, s, 0)) => [[x /dP [i i0 ->] [] /= [] ]|[]//].
  by move=> _ /eqP; rewrite oppr_eq0; case: i i0.
elim: sl eqs vars => [|[s' lag'] sl IH] eqs vars //.
case E: (expand_shock (eqs, vars) (s', lag')) => [eqs3 vars3].
rewrite (_ : foldl _ _ _ = foldl (@expand_shock F) (expand_shock (eqs, vars) (s', lag')) sl) // E => H [[es el]|xi] l0; last exact: IH H xi l0.
subst s' lag'; apply: keep H _; move: E; rewrite /expand_shock l0 => -[<- _].
apply/In_map; exists (At (KVar, var_s s, 0), At (KShk, s, 0)); split; last by apply/In_rcons; right.
rewrite /subs /=; set d := [seq _ | i <- iota 1 _].
have dP x : x \in d -> exists2 i : nat, (0 < i)%N & x = ((KShk, s, - i%:Z), (KVar, var_s s, - i%:Z)).
  by case/mapP=> i; rewrite mem_iota => /andP [i0 _] ->; exists i.
congr (At _, At _).
  by case: (lookupP d (KVar, var_s s, 0)) => [[x /dP [i i0 ->] [] ]|[]].
case: (lookupP d (KShk, s, 0)) => [[x /dP [i i0 ->] [] /= [] ]|[]//].
by move/eqP; rewrite oppr_eq0; case: i i0.
Qed.

(** what the auxiliary variables know about the past: the value of [n] in a period before -1 is the value of its
    auxiliary lag variable in period -1; a shock before period 0 is the value of its auxiliary variable *)
Section OneSided.
Variables (par : string -> F) (y e : path F).
Definition hist : path F := fun n t => if -1 <= t then y n t else y (var_lag n (absz (-1 - t)%R)) (-1).
Definition hist_e : path F := fun s t => if 0 <= t then e s t else hist (var_s s) t.

Section System.
Variables (eqs : seq (eqn F)) (vars : seq string) (vd : seq (string * (int * int))).
Hypothesis Evd : mapM (var_dates eqs) vars = Ok vd.
Hypothesis dec : forall q a, List.In q eqs -> a \in eatoms q -> knd a = KVar -> nam a \in vars.
Let steps := flatten [seq var_steps F x | x <- vd].
Let d := [seq step_dict x | x <- steps].
Hypothesis H : forall t q, 0 <= t -> List.In q [seq subs d q | q <- eqs ++ [seq step_eq x | x <- steps]] -> sat1 (value par y e t) q.

Lemma step_at t x : 0 <= t -> List.In x steps -> sat1 (value par y e t) (step_eq x).
Proof.
move=> t0 xi; rewrite -(aux_fixed (vd:=vd) xi); apply: H t0 _; apply/In_map.
by exists (step_eq x); split=> //; apply/In_cat; right; apply/In_map; exists x.
Qed.

Lemma lag_val1 u i t : List.In u vd -> (0 < i < absz u.2.2)%N -> -1 <= t -> y (var_lag u.1 i) t = hist u.1 (t - i%:Z).
Proof.
move=> ui; elim: i t => [|i IH] t // /andP [_ lt]; rewrite le_eqVlt => /orP [/eqP <-|].
  rewrite /hist (_ : (-1 <= -1 - i.+1%:Z) = false); last by rewrite ler_addl oppr_ge0.
  by congr (y (var_lag _ _) _); rewrite opprD addrA opprK addrN add0r.
move=> t1; have t0 : 0 <= t by rewrite -lez_add1r addrN in t1.
have xi : List.In (lag_step F u.1 i.+2) steps.
  by apply/stepsP; exists u; split=> //; apply/var_stepsP; left; exists i.+2.
have := step_at t0 xi; rewrite /sat1 /lag_step /= /value /= addr0.
have m1 : -1 <= t - 1 by rewrite ler_subr_addr.
case: i IH lt {xi} => [|i] IH lt /= ->; first by rewrite /hist m1.
rewrite IH ?(ltnW lt) //; congr (hist _ _).
by rewrite -addrA -opprD -[in RHS]addn1 PoszD; congr (t - _); rewrite addrC.
Qed.

Lemma lead_val1 u i t : List.In u vd -> (0 < i < absz u.2.1)%N -> 0 <= t -> y (var_lead u.1 i) t = y u.1 (t + 1).
Proof.
move=> ui /andP [i0 lt] t0; have xi : List.In (lead_step F u.1 i.+1) steps.
  by apply/stepsP; exists u; split=> //; apply/var_stepsP; right; exists i.+1; rewrite ltnS i0 lt.
by have := step_at t0 xi; rewrite /sat1 /lead_step /= /value /= addr0.
Qed.

Lemma hist_now n t : -1 <= t -> hist n t = y n t.
Proof. by rewrite /hist => ->. Qed.

Lemma lookup_val1 q a t : 0 <= t -> List.In q eqs -> a \in eatoms q ->
  value par y e t (lookup d a) = value par hist e t (cut2 a).
Proof.
move=> t0 qi ai.
have tp k : -1 <= k -> -1 <= t + k by move=> h; rewrite -[X in X <= _]add0r ler_add.
case: (lookupP d a) => [[x /dP [u [i [ui]]]]|[el nk]].
  case=> -[/andP [h1 h2] ->] [<- ->] /=; rewrite /cut2 /=.
    have -> : (2 < - i%:Z) = false by apply/negbTE; rewrite -leNgt; apply: (@le_trans _ _ 0); rewrite ?oppr_le0.
    rewrite /value /= (lag_val1 ui); [|by case: i h1 h2 => [|[|i]]|exact: tp].
    congr (hist _ _); rewrite -addrA -opprD; congr (t - _).
    by case: i h1 h2 => // i _ _; rewrite -PoszD add1n.
  rewrite /value /= (lead_val1 ui); [|by case: i h1 h2 => [|[|i]]|by rewrite addr_ge0].
  have [e2|ne] := eqVneq i 2%N; first by rewrite e2 /= -addrA hist_now // tp.
  have -> : (2 < i%:Z) by rewrite ltz_nat ltn_neqAle eq_sym ne.
  by rewrite /= -addrA hist_now // tp.
rewrite el /cut2; case ek: (knd a) => //=; rewrite /value ek //.
have [/andP [l1 h] _] := lookup_range Evd dec qi ai ek; rewrite el in h l1.
by rewrite ltNge (le_trans h) //= ek hist_now // tp.
Qed.

Lemma vars_stage1 t q : 0 <= t -> List.In q eqs -> sat1 (fun a => value par hist e t (cut2 a)) q.
Proof.
move=> t0 qi; apply/(@sat1_subs (value par y e t) _ d); first by move=> a ai; apply: lookup_val1 ai.
by apply: H t0 _; apply/In_map; exists q; split=> //; apply/In_cat; left.
Qed.
End System.

Section All.
Variables (eqs0 : seq (eqn F)) (vars0 shks : seq string) (eqs' : seq (eqn F)) (vars' : seq string).
Hypothesis Ex : expand eqs0 vars0 shks = Ok (eqs', vars').
Hypothesis dec : declared vars0 shks eqs0.
Hypothesis H : forall t, 0 <= t -> sats1 (value par y e t) eqs'.

Lemma expand_sound1 t : 0 <= t -> sats1 (value par hist hist_e t) [seq cut_leads q | q <- eqs0].
Proof.
have [sl [eqs1 [vars1 [vd [_ Es Evd inv /= [eE _]]]]]] := expandE Ex dec.
have dec1 q1 a1 : List.In q1 eqs1 -> a1 \in eatoms q1 -> knd a1 = KVar -> nam a1 \in vars1.
  by move=> h1 h2 ek; have := inv _ _ h1 h2; rewrite ek.
have V t' q : 0 <= t' -> List.In q eqs1 -> sat1 (fun a => value par hist e t' (cut2 a)) q.
  by move=> t0 qi; apply: (vars_stage1 Evd dec1 _ t0 qi) => t1 q1 t10 q1i; apply: (H t10); rewrite eE.
have W t' q : 0 <= t' -> List.In q eqs1 -> sat1 (fun a => value par hist hist_e t' (cut2 a)) q.
  move=> t0 qi; apply/(sat1_ext (v := fun a => value par hist e t' (cut2 a))); last exact: V.
  move=> a ai; rewrite /cut2 /value; case ek: (knd a) => /=; rewrite ?ek //; last first.
    rewrite /hist_e; have := inv _ _ qi ai; rewrite ek => -[_ []] // d0; last by case: d0 => lag [].
    by rewrite addr_ge0.
  by case: ifP => _ /=; rewrite ?ek // /knd /= -/(knd a) ek.
move=> t0; have := @shock_fold1 (fun t a => value par hist hist_e t (cut2 a)) (wshift par hist hist_e) t sl eqs0 vars0 eqs1 vars1 Es.
case=> [x xi l0 t'|].
  rewrite /cut2 /= /value /= !addr0 /hist_e; case: ifP => [t'0|//].
  have := V t' _ t'0 (shock_eq_in Es (_ : List.In (x.1, x.2) sl) l0); rewrite -surjective_pairing => /(_ xi).
  by rewrite /sat1 /= /cut2 /= /value /= !addr0.
move=> K _; have {K} K := K (fun q qi => W t q t0 qi).
by move=> q /In_map [q0 [<- qi]]; have := K q0 qi; rewrite /sat1 /cut_leads /= !eval_emap.
Qed.
End All.
End OneSided.

(** the other direction, period by period *)
Lemma vars_back1 par (y e : path F) eqs vars vd t : mapM (var_dates eqs) vars = Ok vd ->
  (forall q a, List.In q eqs -> a \in eatoms q -> knd a = KVar -> nam a \in vars) ->
  all_steps par y e vd -> sats1 (fun a => value par y e t (cut2 a)) eqs ->
  sats1 (value par y e t) [seq subs [seq step_dict x | x <- flatten [seq var_steps F x | x <- vd]] q |
    q <- eqs ++ [seq step_eq x | x <- flatten [seq var_steps F x | x <- vd]]].
Proof.
move=> Evd dec A H q /In_map [q' [<- /In_cat [qi|/In_map [x [<- xi]]]]].
  by apply/(sat1_subs (v' := fun a => value par y e t (cut2 a))) => [a ai|]; [apply: (lookup_val Evd dec t A qi ai)|exact: H].
rewrite (aux_fixed xi); have /all_stepsE := A; apply; by apply/In_map; exists x.
Qed.

Lemma uniq_In (T : Type) (f : T -> string) l a b : uniq [seq f x | x <- l] -> List.In a l -> List.In b l -> f a = f b -> a = b.
Proof.
elim: l => [|w l IH] //= /andP [nw ul] [ea|ai] [eb|bi] E.
- by rewrite -ea.
- by case/negP: nw; rewrite ea E; apply/InP/In_map; exists b.
- by case/negP: nw; rewrite eb -E; apply/InP/In_map; exists a.
- exact: IH.
Qed.

Section Complete.
Variables (par : string -> F) (e : path F).
Variables (eqs0 : seq (eqn F)) (vars0 shks : seq string) (eqs' : seq (eqn F)) (vars' : seq string).
Hypothesis Ex : expand eqs0 vars0 shks = Ok (eqs', vars').
Hypothesis dec : declared vars0 shks eqs0.

(** a variable of the file or the auxiliary variable of a shock *)
Definition base_name (y : path F) (v : string) : Prop :=
  v \in vars0 \/ exists s, [/\ s \in shks, v = var_s s & forall t, y v t = e s t].
(** what the variables of the expanded system stand for; those made for leads never occur with a lag *)
Definition aux_values (y : path F) : Prop := forall n, n \in vars' ->
  [\/ base_name y n, exists v i, [/\ n = var_lag v i.+1, base_name y v & forall t, y n t = y v (t - i.+1%:Z)] |
      exists v i, [/\ n = var_lead v i, base_name y v, forall t, y n t = y v (t + 1) &
        forall q a, List.In q eqs' -> a \in eatoms q -> knd a = KVar -> nam a = n -> 0 <= dat a]].

Lemma expand_complete1 x : uniq vars' ->
  exists y, [/\ forall v t, v \in vars0 -> y v t = x v t, aux_values y &
    forall t, sats1 (value par x e t) [seq cut_leads q | q <- eqs0] -> sats1 (value par y e t) eqs'].
Proof.
rewrite /aux_values.
have [sl [eqs1 [vars1 [vd [Esl Es Evd inv /= [-> ->]]]]]] := expandE Ex dec.
have dec1 q1 a1 : List.In q1 eqs1 -> a1 \in eatoms q1 -> knd a1 = KVar -> nam a1 \in vars1.
  by move=> h1 h2 ek; have := inv _ _ h1 h2; rewrite ek.
have [_ [_ H2]] := mapM_In Evd.
have uv u : List.In u vd -> u.1 \in vars1.
  by move/H2=> [z [/InP xi]]; rewrite /var_dates; case: py_max => //= mx; case: py_min => //= mn [<-].
set steps := flatten _.
have ev := shock_vars sl eqs0 vars0; rewrite Es /= in ev.
rewrite cat_uniq => /and3P [u1 dj u2].
pose T1 := [seq (var_s z.1, z.1) | z <- sl & (0 < absz z.2)%N].
pose y1 n t := if getT T1 n is Some s then e s t else x n t.
pose T2 := flatten [seq [seq (var_lag u.1 i.-1, (u.1, - (i.-1)%:Z)) | i <- arange2 (absz u.2.2)] ++
                       [seq (var_lead u.1 i.-1, (u.1, 1)) | i <- arange2 (absz u.2.1)] | u <- vd].
pose y n t := if getT T2 n is Some vo then y1 vo.1 (t + vo.2) else y1 n t.
have T1n : [seq z.1 | z <- T1] = [seq var_s z.1 | z <- sl & (0 < absz z.2)%N] by rewrite -map_comp.
have T2n : [seq z.1 | z <- T2] = [seq step_var z | z <- steps].
  rewrite /T2 /steps !map_flatten -!map_comp; congr flatten; apply: eq_map => u /=.
  by rewrite /var_steps !map_cat -!map_comp.
have uT1 : uniq [seq z.1 | z <- T1] by rewrite T1n; move: u1; rewrite ev cat_uniq => /and3P [].
have uT2 : uniq [seq z.1 | z <- T2] by rewrite T2n.
have yv v t : v \in vars1 -> y v t = y1 v t.
  move=> vi; rewrite /y getT_none // T2n; apply: contra dj => h; by apply/hasP; exists v.
have y0 v t : v \in vars0 -> y v t = x v t.
  move=> vi; rewrite yv ?ev ?mem_cat ?vi // /y1 getT_none // T1n.
  move: u1; rewrite ev cat_uniq => /and3P [_ h _]; apply: contra h => h; by apply/hasP; exists v.
have slk z : List.In z sl -> z.1 \in shks.
  have [_ [_ H3]] := mapM_In Esl; move/H3=> [s' [/InP si]]; rewrite /shock_dates.
  by case: py_max => //= mx; case: py_min => //= mn [<-].
have base v : v \in vars1 -> base_name y v.
  move=> vi; move: (vi); rewrite ev mem_cat => /orP [h|/mapP [z]]; [by left | rewrite mem_filter => /andP [l0 zi] en].
  right; exists z.1; split=> //; first by apply: slk; apply/InP.
  move=> t; rewrite yv // /y1 (@getTP _ T1 _ z.1) //; apply/mapP; exists z; rewrite ?en //.
  by rewrite mem_filter l0.
have auxv : forall n, n \in vars1 ++ [seq step_var z | z <- steps] ->
  [\/ base_name y n, exists v i, [/\ n = var_lag v i.+1, base_name y v & forall t, y n t = y v (t - i.+1%:Z)] |
      exists v i, [/\ n = var_lead v i, base_name y v, forall t, y n t = y v (t + 1) &
        forall q a, List.In q [seq subs [seq step_dict z | z <- steps] q | q <- eqs1 ++ [seq step_eq z | z <- steps]] ->
          a \in eatoms q -> knd a = KVar -> nam a = n -> 0 <= dat a]].
  move=> n; rewrite mem_cat => /orP [/base h|ni]; first exact: Or31.
  have /In_map [z [en zi]] := elimT (InP _ _) ni.
  have [u [ui /var_stepsP zu]] := (stepsP _ _).1 zi.
  case: zu => -[i [h ez]].
    apply: Or32; exists u.1, i.-2; have ei : i.-1 = i.-2.+1 by case: i h {ez} => [|[|i]].
    have en' : n = var_lag u.1 i.-2.+1 by rewrite -en ez -ei.
    split; [exact: en' | exact/base/uv |].
    have gn : getT T2 n = Some (u.1, - (i.-2.+1)%:Z).
      apply: getTP => //; apply/InP/In_flatten; eexists; split; first by apply/In_map; exists u.
      by apply/InP; rewrite mem_cat; apply/orP; left; apply/mapP; exists i; rewrite ?arange2P // en' -ei.
    by move=> t; rewrite [RHS]yv ?uv // [LHS]/y gn.
  apply: Or33; exists u.1, i.-1; split; [by rewrite -en ez | exact/base/uv | |].
    have gn : getT T2 n = Some (u.1, 1).
      apply: getTP => //; apply/InP/In_flatten; eexists; split; first by apply/In_map; exists u.
      by apply/InP; rewrite mem_cat; apply/orP; right; apply/mapP; exists i; rewrite ?arange2P // -en ez.
    by move=> t; rewrite [RHS]yv ?uv // [LHS]/y gn.
  have one z' : List.In z' steps -> step_var z' = n -> (step_dict z').2 = (KVar, n, 1).
    move=> z'i e'; have -> : z' = z.
      by apply: (uniq_In u2) => //; rewrite e'.
    by rewrite -en ez.
  have nv1 : n \notin vars1 by apply: contra dj => h1; apply/hasP; exists n => //.
  move=> q a /In_map [q' [<- qi]]; rewrite eatoms_subs => /mapP [b bi ->] ka na.
  case: (lookupP [seq step_dict z0 | z0 <- steps] b) ka na => [[w /InP /In_map [z' [ew z'i]] [e1 ->]]|[-> _]] ka na.
    have sv : step_var z' = n.
      by rewrite -na -ew; have [u' [_ /var_stepsP []]] := (stepsP _ _).1 z'i; case=> j [_ ->].
    by rewrite -ew (one z' z'i sv).
  case/In_cat: qi => [qi|/In_map [z' [eq z'i]]].
    by case/negP: nv1; rewrite -na; apply: dec1 qi bi ka.
  move: bi; rewrite -eq; have [u' [u'i /var_stepsP zu']] := (stepsP _ _).1 z'i.
  case: zu' => -[j [hj ez']]; rewrite ez' /eatoms /= !inE => /orP [] /eqP eb; rewrite eb //.
  move: na; rewrite eb; case: ifP => j2 /= na; first by case/negP: nv1; rewrite -na; apply: uv.
  have z2i : List.In (lag_step F u'.1 j.-1) steps.
    apply/stepsP; exists u'; split=> //; apply/var_stepsP; left; exists j.-1; split=> //.
    by case: j hj j2 {ez' eb na} => [|[|[|j]]] //= hj _; apply: ltnW.
  by have := one _ z2i na; rewrite /step_dict /=.
exists y; split=> // t sx; apply: (vars_back1 Evd dec1).
  move=> u ui.
  have lagT i : (1 < i <= absz u.2.2)%N -> getT T2 (var_lag u.1 i.-1) = Some (u.1, - (i.-1)%:Z).
    move=> h; apply: getTP => //; apply/InP/In_flatten; eexists; split; first by apply/In_map; exists u.
    by apply/InP; rewrite mem_cat; apply/orP; left; apply/mapP; exists i; rewrite ?arange2P.
  have leadT i : (1 < i <= absz u.2.1)%N -> getT T2 (var_lead u.1 i.-1) = Some (u.1, 1).
    move=> h; apply: getTP => //; apply/InP/In_flatten; eexists; split; first by apply/In_map; exists u.
    by apply/InP; rewrite mem_cat; apply/orP; right; apply/mapP; exists i; rewrite ?arange2P.
  split=> i h t'; rewrite /lag_step /lead_step /step_eq /= /value /=.
    rewrite [LHS]/y (lagT _ h) /= addr0; case: ifP => [/eqP ->|i2] /=; first by rewrite yv ?uv.
    have h' : (1 < i.-1 <= absz u.2.2)%N.
      by case: i h i2 => [|[|[|i]]] //= h _; apply: ltnW.
    rewrite [RHS]/y (lagT _ h') /=; congr (y1 _ _); rewrite -addrA; congr (t' + _).
    by case: i h' {h i2} => [|[|i]] //= _; rewrite -opprD -PoszD add1n.
  by rewrite [LHS]/y (leadT _ h) /= addr0 yv ?uv.
apply/(shock_fold1 (v := fun t a => value par y e t (cut2 a)) (wshift par y e) t Es).
  move=> z zi l0 t'; rewrite /cut2 /value /= !addr0 yv.
    rewrite /y1 (@getTP _ T1 _ z.1) //; apply/InP/In_map; exists z; split=> //.
    by apply/InP; rewrite mem_filter l0; apply/InP.
  rewrite ev mem_cat; apply/orP; right; apply/InP/In_map; exists z; split=> //.
  by apply/InP; rewrite mem_filter l0; apply/InP.
move=> q qi; have := sx _ (_ : List.In (cut_leads q) [seq cut_leads q | q <- eqs0]); rewrite /sat1 /cut_leads /= !eval_emap.
have E i : eval (fun a => value par x e t (cut2 a)) (if i then q.1 else q.2) = eval (fun a => value par y e t (cut2 a)) (if i then q.1 else q.2).
  apply: eval_atoms => a ai.
  have ai' : a \in eatoms q by rewrite /eatoms mem_cat; case: i ai => ->; rewrite ?orbT.
  have := dec qi ai'; rewrite /value /cut2; case ek: (knd a) => //= vi; rewrite ?ek //.
  by case: ifP => _; rewrite ?ek /= ?[knd _]ek y0.
have := E true; have := E false => /= -> ->; apply.
by apply/In_map; exists q.
Qed.
End Complete.
End P.
