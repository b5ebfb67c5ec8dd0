(** Lemmas about the expansion of leads and lags. *)
Set Warnings "-all".
From Coq Require Import String.
From mathcomp Require Import all_ssreflect all_algebra.
From Verif Require Import PyBase PyStr M_Parser S_Parser.
Set Implicit Arguments. Unset Strict Implicit. Unset Printing Implicit Defensive.
Import GRing.Theory Num.Theory Order.TTheory.
Local Open Scope ring_scope.

Lemma In_map A B (f : A -> B) (l : seq A) y : List.In y (map f l) <-> exists x, f x = y /\ List.In x l.
Proof.
elim: l => [|a l IH] /=; first by split=> // -[x []].
rewrite IH; split.
  by case=> [<-|[x [e h]]]; [exists a; split=> //; left | exists x; split=> //; right].
by case=> x [e [ex|h]]; [left; rewrite ex | right; exists x].
Qed.
Lemma In_cat A (l1 l2 : seq A) y : List.In y (l1 ++ l2) <-> List.In y l1 \/ List.In y l2.
Proof. elim: l1 => [|a l1 IH] /=; first by split; [right | case]. by rewrite IH; tauto. Qed.
Lemma In_rcons A (l : seq A) a y : List.In y (rcons l a) <-> List.In y l \/ a = y.
Proof. by rewrite -cats1 In_cat /=; tauto. Qed.
Lemma InP (T : eqType) (l : seq T) y : reflect (List.In y l) (y \in l).
Proof.
elim: l => [|a l IH] /=; first by constructor.
rewrite inE; apply: (iffP orP) => -[].
- by move/eqP=> ->; left.
- by move/IH; right.
- by move=> ->; left.
- by move/IH; right.
Qed.
Lemma In_flatten A (ls : seq (seq A)) y : List.In y (flatten ls) <-> exists l, List.In l ls /\ List.In y l.
Proof.
elim: ls => [|l ls IH] /=; first by split=> // -[x []].
rewrite In_cat IH; split.
  by case=> [h|[l' [h1 h2]]]; [exists l; split=> //; left | exists l'; split=> //; right].
by case=> l' [[el|h1] h2]; [left; rewrite el | right; exists l'].
Qed.

Lemma mapM_In A B (f : A -> res B) xs ys : mapM f xs = Ok ys ->
  size xs = size ys /\ (forall x, List.In x xs -> exists y, List.In y ys /\ f x = Ok y) /\
  (forall y, List.In y ys -> exists x, List.In x xs /\ f x = Ok y).
Proof.
elim: xs ys => [|x xs IH] ys /=; first by case=> <-.
case E: (f x) => [y|] //; case E2: (mapM f xs) => [ys'|] // [<-].
have [sz [h1 h2]] := IH _ E2; split; first by rewrite /= sz.
split.
  move=> x' [<-|/h1 [y' [h3 h4]]]; first by exists y; split=> //; left.
  by exists y'; split=> //; right.
move=> y' [<-|/h2 [x' [h3 h4]]]; first by exists x; split=> //; left.
by exists x'; split=> //; right.
Qed.

Section P.
Variable F : fieldType.
Implicit Types (q : eqn F) (eqs : seq (eqn F)).

Lemma eval_emap A B (g : A -> B) (v : B -> F) (e : expr F A) : eval v (emap g e) = eval (fun a => v (g a)) e.
Proof. by elim: e => //= [e -> f ->|e -> f ->|e -> f ->|e ->|e ->]. Qed.

Lemma atoms_emap A B (g : A -> B) (e : expr F A) : atoms (emap g e) = map g (atoms e).
Proof. by elim: e => //= e -> f ->; rewrite map_cat. Qed.

Lemma eval_atoms (v w : sym -> F) (e : expr F sym) : {in atoms e, v =1 w} -> eval v e = eval w e.
Proof.
elim: e => //= [a h|e IHe f IHf h|e IHe f IHf h|e IHe f IHf h|e IHe h|e IHe h]; try by rewrite h ?mem_head.
all: try by rewrite IHe ?IHf // => a ai; apply: h; rewrite mem_cat ai ?orbT.
all: by rewrite IHe.
Qed.

Lemma eatoms_subs d q : eatoms (subs d q) = map (lookup d) (eatoms q).
Proof. by rewrite /eatoms /subs /= !atoms_emap map_cat. Qed.

(** satisfaction under a family of valuations *)
Definition sat (v : int -> sym -> F) (q : eqn F) : Prop := forall t, eval (v t) q.1 = eval (v t) q.2.
Definition sats v eqs : Prop := forall q, List.In q eqs -> sat v q.

Lemma solvesE par e y eqs : solves par e y eqs <-> sats (value par y e) eqs.
Proof. by split=> H; [move=> q qi t; apply: H | move=> t q qi; apply: H]. Qed.

Lemma sat_subs v v' d q : (forall a t, a \in eatoms q -> v t (lookup d a) = v' t a) -> sat v (subs d q) <-> sat v' q.
Proof.
move=> H; rewrite /sat /subs /=.
have E t i : eval (v t) (emap (lookup d) (if i then q.1 else q.2)) = eval (v' t) (if i then q.1 else q.2).
  rewrite eval_emap; apply: eval_atoms => a ai; apply: H.
  by rewrite /eatoms mem_cat; case: i ai => ->; rewrite ?orbT.
by split=> h t; have := h t; rewrite (E t true) (E t false).
Qed.

Lemma lookupP d a : (exists2 x, x \in d & x.1 = a /\ lookup d a = x.2) \/ (lookup d a = a /\ forall x, x \in d -> x.1 != a).
Proof.
rewrite /lookup; elim: d => [|x d IH] /=; first by right.
case: eqP => [e|ne] /=; first by left; exists x; rewrite ?mem_head.
case: IH => [[y yi e]|[e h]]; first by left; exists y; rewrite // inE yi orbT.
right; split=> // y; rewrite inE => /orP [/eqP ->|/h //]; exact/eqP.
Qed.

(** ** shocks *)
Section Shocks.
Variable v : int -> sym -> F.
(** dates up to 0 of variables and shocks refer to past values *)
Hypothesis vshift : forall t k n d, k != KPar -> d <= 0 -> v t (k, n, d) = v (t + d) (k, n, 0).

Definition shock_aux (s : string) : Prop := forall t, v t (KVar, var_s s, 0) = v t (KShk, s, 0).

Lemma shock_step eqs vars s lag eqs' vars' : expand_shock (eqs, vars) (s, lag) = (eqs', vars') ->
  sats v eqs' <-> sats v eqs /\ ((0 < absz lag)%N -> shock_aux s).
Proof.
rewrite /expand_shock; case: ifP => l0 [<- _]; last by split=> [h|[]//]; split.
set d := [seq _ | i <- iota 1 _].
have dP x : x \in d -> exists2 i : nat, (0 < i)%N & x = ((KShk, s, - i%:Z), (KVar, var_s s, - i%:Z)).
  by case/mapP=> i; rewrite mem_iota => /andP [i0 _] ->; exists i.
have eqv q : shock_aux s -> sat v (subs d q) <-> sat v q.
  move=> A; apply: sat_subs => a t _; case: (lookupP d a) => [[x /dP [i i0 ->] [<- ->]]|[-> _] //] /=.
  have h : - i%:Z <= 0 by rewrite oppr_le0.
  by rewrite (vshift t s (isT : KShk != KPar) h) (vshift t (var_s s) (isT : KVar != KPar) h) A.
pose ax : eqn F := (At (KVar, var_s s, 0), At (KShk, s, 0)).
have axE : sat v (subs d ax) <-> shock_aux s.
  suff -> : subs d ax = ax by [].
  rewrite /subs /=; congr (At _, At _).
    by case: (lookupP d (KVar, var_s s, 0)) => [[x /dP [i i0 ->] [] ]|[]].
  case: (lookupP d (KShk, s, 0)) => [[x /dP [i i0 ->] [] /= [] ]|[]//].
  by move/eqP; rewrite oppr_eq0; case: i i0.
split.
  move=> H; have A : shock_aux s by apply/axE; apply: H; apply/In_map; exists ax; rewrite In_rcons; tauto.
  by split=> // q qi; apply/(eqv _ A); apply: H; apply/In_map; exists q; rewrite In_rcons; tauto.
case=> H /(_ isT) A q /In_map [q' [<-]]; rewrite In_rcons => -[qi|<-]; last exact/axE.
by apply/(eqv _ A); apply: H.
Qed.

Lemma shock_fold sl eqs vars eqs' vars' : foldl (@expand_shock F) (eqs, vars) sl = (eqs', vars') ->
  sats v eqs' <-> sats v eqs /\ (forall x, List.In x sl -> (0 < absz x.2)%N -> shock_aux x.1).
Proof.
elim: sl eqs vars => [|[s lag] sl IH] eqs vars; first by move=> [<- _]; split=> [h|[]//]; split.
case E: (expand_shock (eqs, vars) (s, lag)) => [eqs1 vars1].
rewrite (_ : foldl _ _ _ = foldl (@expand_shock F) (expand_shock (eqs, vars) (s, lag)) sl) // E => H.
rewrite (IH _ _ H) (shock_step E); split.
  by case=> [[h1 h2] h3]; split=> // x [<-|/h3].
by case=> h1 h2; split; [split=> // l0; apply: (h2 (s, lag)) => //; left | move=> x xi; apply: h2; right].
Qed.
End Shocks.

Lemma shock_vars sl eqs vars : (foldl (@expand_shock F) (eqs, vars) sl).2 =
  vars ++ [seq var_s x.1 | x <- sl & (0 < absz x.2)%N].
Proof.
elim: sl eqs vars => [|[s lag] sl IH] eqs vars /=; first by rewrite cats0.
by case: ifP => _; rewrite IH ?cat_rcons.
Qed.

Lemma shock_size sl eqs vars : 
  (size (foldl (@expand_shock F) (eqs, vars) sl).1 + size vars = size eqs + size (foldl (@expand_shock F) (eqs, vars) sl).2)%N.
Proof.
elim: sl eqs vars => [|[s lag] sl IH] eqs vars //=.
case: ifP => _; rewrite ?IH //.
set f := foldl _ _ _; have := IH [seq subs [seq (KShk, s, - i%:Z, (KVar, var_s s, - i%:Z)) | i <- iota 1 (absz lag)] q | q <- rcons eqs (At (KVar, var_s s, 0), At (KShk, s, 0))] (rcons vars (var_s s)).
by rewrite -/f size_map !size_rcons addnS addSn => -[].
Qed.

(** ** variables *)
Lemma arange2P n i : i \in arange2 n = (1 < i <= n)%N.
Proof.
rewrite /arange2 mem_iota; case: n => [|n] /=; last by rewrite add2n ltnS.
by case: i => [|[|i]].
Qed.

Section Vars.
Variables (par : string -> F) (y e : path F).
Let v := value par y e.
Let w t a := v t (cut2 a).

Lemma wshift t k n d : k != KPar -> d <= 0 -> w t (k, n, d) = w (t + d) (k, n, 0).
Proof.
move=> k0 d0; rewrite /w /cut2 /dat /= andbF.
have -> : (2 < d) = false by apply/negbTE; rewrite -leNgt (le_trans d0).
by rewrite andbF /v /value /=; case: k k0 => //= _; rewrite addr0.
Qed.

Definition steps_hold (vn : string) (nlag nlead : nat) : Prop :=
  (forall i, (1 < i <= nlag)%N -> sat v (step_eq (lag_step F vn i))) /\
  (forall i, (1 < i <= nlead)%N -> sat v (step_eq (lead_step F vn i))).

Lemma lag_val vn nlag nlead i t : steps_hold vn nlag nlead -> (0 < i < nlag)%N -> y (var_lag vn i) t = y vn (t - i%:Z).
Proof.
case=> H _; elim: i t => [|i IH] t // /andP [_ lt].
have := H i.+2 lt t; rewrite /lag_step /= /v /value /= addr0.
case: i IH lt => [|i] IH lt /=; first by move=> ->.
move=> ->; rewrite IH ?(ltnW lt) //; congr (y vn _).
by rewrite -addrA -opprD -[in RHS]addn1 PoszD; congr (t - _); rewrite addrC.
Qed.

Lemma lead_val vn nlag nlead i t : steps_hold vn nlag nlead -> (0 < i < nlead)%N -> y (var_lead vn i) t = y vn (t + 1).
Proof.
case=> _ H /andP [i0 lt]; have := H i.+1; rewrite ltnS i0 lt => /(_ isT t).
by rewrite /lead_step /= /v /value /= addr0.
Qed.

Section System.
Variables (eqs : seq (eqn F)) (vars : seq string) (vd : seq (string * (int * int))).
Hypothesis Evd : mapM (var_dates eqs) vars = Ok vd.
Hypothesis dec : forall q a, List.In q eqs -> a \in eatoms q -> knd a = KVar -> nam a \in vars.
Let steps := flatten [seq var_steps F x | x <- vd].
Let d := [seq step_dict x | x <- steps].

Lemma stepsP x : List.In x steps <-> exists u, List.In u vd /\ List.In x (var_steps F u).
Proof.
rewrite /steps In_flatten; split; first by case=> l [/In_map [u [<- h]] h2]; exists u.
by case=> u [h1 h2]; exists (var_steps F u); split=> //; apply/In_map; exists u.
Qed.

Lemma var_stepsP u x : List.In x (var_steps F u) <->
  (exists i, (1 < i <= absz u.2.2)%N /\ x = lag_step F u.1 i) \/ (exists i, (1 < i <= absz u.2.1)%N /\ x = lead_step F u.1 i).
Proof.
rewrite /var_steps In_cat; split.
  by case=> /In_map [i [<- /InP]]; rewrite arange2P => h; [left | right]; exists i.
by case=> -[i [h ->]]; [left | right]; apply/In_map; exists i; split=> //; apply/InP; rewrite arange2P.
Qed.

Lemma dP x : x \in d -> exists u i, List.In u vd /\
  (((1 < i <= absz u.2.2)%N /\ x = ((KVar, u.1, - i%:Z), (KVar, var_lag u.1 i.-1, -1))) \/
   ((1 < i <= absz u.2.1)%N /\ x = ((KVar, u.1, i%:Z), (KVar, var_lead u.1 i.-1, 1)))).
Proof.
move/InP=> /In_map [s [<- /stepsP [u [ui /var_stepsP]]]].
by case=> -[i [h ->]]; exists u, i; split=> //; [left | right].
Qed.

Lemma dI_lag u i : List.In u vd -> (1 < i <= absz u.2.2)%N -> ((KVar, u.1, - i%:Z), (KVar, var_lag u.1 i.-1, -1)) \in d.
Proof.
move=> ui h; apply/InP/In_map; exists (lag_step F u.1 i); split=> //.
by apply/stepsP; exists u; split=> //; apply/var_stepsP; left; exists i.
Qed.
Lemma dI_lead u i : List.In u vd -> (1 < i <= absz u.2.1)%N -> ((KVar, u.1, i%:Z), (KVar, var_lead u.1 i.-1, 1)) \in d.
Proof.
move=> ui h; apply/InP/In_map; exists (lead_step F u.1 i); split=> //.
by apply/stepsP; exists u; split=> //; apply/var_stepsP; right; exists i.
Qed.

Lemma maxP (l : seq int) z x : py_max l = Ok z -> x \in l -> x <= z.
Proof.
case: l => [|a l] //= [<-]; rewrite inE => H.
have mono (l' : seq int) b : b <= foldl Num.max b l'.
  by elim: l' b => [|c l' IH] b //=; apply: le_trans (IH _); rewrite le_maxr lexx.
case/orP: H => [/eqP -> //|]; elim: l a => [|c l IH] a //=; rewrite inE => /orP [/eqP ->|/IH //].
by apply: le_trans (mono _ _); rewrite le_maxr lexx orbT.
Qed.
Lemma minP (l : seq int) z x : py_min l = Ok z -> x \in l -> z <= x.
Proof.
case: l => [|a l] //= [<-]; rewrite inE => H.
have mono (l' : seq int) b : foldl Num.min b l' <= b.
  by elim: l' b => [|c l' IH] b //=; apply: le_trans (IH _) _; rewrite le_minl lexx.
case/orP: H => [/eqP -> //|]; elim: l a => [|c l IH] a //=; rewrite inE => /orP [/eqP ->|/IH //].
by apply: le_trans (mono _ _) _; rewrite le_minl lexx orbT.
Qed.

Lemma dates_ofP k n q a : List.In q eqs -> a \in eatoms q -> knd a = k -> nam a = n -> dat a \in dates_of k n eqs.
Proof.
move=> qi ai ek en; apply/mapP; exists a => //; rewrite mem_filter ek en !eqxx /=.
by apply/InP/In_flatten; exists (eatoms q); split; [apply/In_map; exists q | apply/InP].
Qed.

(** every lag below -1 and every lead above 1 is a key *)
Lemma dated_found q a : List.In q eqs -> a \in eatoms q -> knd a = KVar ->
  exists2 u, List.In u vd & u.1 = nam a /\ u.2.2 <= dat a <= u.2.1.
Proof.
move=> qi ai ka; have [sz [H _]] := mapM_In Evd.
have [|u [ui]] := H (nam a); first by apply/InP; apply: dec ai ka.
rewrite /var_dates; case E1: py_max => [mx|] //=; case E2: py_min => [mn|] //= [e2]; subst u.
exists (nam a, (mx, mn)) => //; split=> //=.
have di := dates_ofP qi ai ka erefl.
by rewrite (minP E2 di) (maxP E1 di).
Qed.

Lemma lookup_range q a : List.In q eqs -> a \in eatoms q -> knd a = KVar -> -1 <= dat (lookup d a) <= 1 /\ knd (lookup d a) = KVar.
Proof.
move=> qi ai ka; case: (lookupP d a) => [[x /dP [u [i [ui]]]]|[-> nk]].
  by case=> -[h ->] [_ ->] /=.
have [u ui [eu /andP [lo hi]]] := dated_found qi ai ka.
split=> //; rewrite leNgt [_ <= 1]leNgt -negb_or; apply/negP=> /orP [lt|gt].
  have l0 : dat a <= 0 by rewrite ltW // (lt_trans lt).
  have ea : (absz (dat a))%:Z = - dat a by rewrite abszE ler0_norm.
  have hk : (1 < absz (dat a) <= absz u.2.2)%N.
    rewrite -ltz_nat -lez_nat ea; apply/andP; split; first by move: lt; rewrite ltr_oppr.
    by rewrite abszE ler0_norm ?ler_opp2 //; exact: le_trans lo l0.
  have := nk _ (dI_lag ui hk); rewrite eu /= ea opprK => /eqP; apply.
  by case: a ka {qi ai nk lt lo hi eu l0 ea hk} => [[k n] dd] ek; rewrite -ek.
have g0 : 0 <= dat a by rewrite ltW // (lt_trans _ gt).
have ea : (absz (dat a))%:Z = dat a by rewrite abszE ger0_norm.
have hk : (1 < absz (dat a) <= absz u.2.1)%N.
  by rewrite -ltz_nat -lez_nat ea gt abszE ger0_norm //; exact: le_trans g0 hi.
have := nk _ (dI_lead ui hk); rewrite eu /= ea => /eqP; apply.
by case: a ka {qi ai nk gt lo hi eu g0 ea hk} => [[k n] dd] ek; rewrite -ek.
Qed.

Definition all_steps : Prop := forall u, List.In u vd -> steps_hold u.1 (absz u.2.2) (absz u.2.1).

Lemma lookup_val q a t : all_steps -> List.In q eqs -> a \in eatoms q -> v t (lookup d a) = w t a.
Proof.
move=> H qi ai; case: (lookupP d a) => [[x /dP [u [i [ui]]]]|[el nk]].
  case=> -[/andP [h1 h2] ->] [<- ->] /=; rewrite /w /cut2 /=.
    have -> : (2 < - i%:Z) = false by apply/negbTE; rewrite -leNgt; apply: (@le_trans _ _ 0); rewrite ?oppr_le0.
    rewrite /v /value /= (lag_val _ (H u ui)); last by case: i h1 h2 => [|[|i]].
    congr (y _ _); rewrite -addrA -opprD; congr (t - _).
    by case: i h1 h2 => // i _ _; rewrite -PoszD add1n.
  rewrite /v /value /= (lead_val _ (H u ui)); last by case: i h1 h2 => [|[|i]].
  have [e2|ne] := eqVneq i 2%N; first by rewrite e2 /= -addrA.
  have -> : (2 < i%:Z) by rewrite ltz_nat ltn_neqAle eq_sym ne.
  by rewrite /= -addrA.
case ek: (knd a); last 2 first; rewrite el /w /cut2 ek //.
have [/andP [_ h] _] := lookup_range qi ai ek; rewrite el in h.
by rewrite ltNge (le_trans h).
Qed.

Lemma aux_fixed x : List.In x steps -> subs d (step_eq x) = step_eq x.
Proof.
have H a : -1 <= dat a <= 1 -> lookup d a = a.
  move=> /andP [h1 h2]; case: (lookupP d a) => [[z /dP [u [i [_]]]]|[-> //]].
  case=> -[/andP [i1 _] ->] [ee _]; move: h1 h2; rewrite -ee /= /dat /=.
    by rewrite ler_opp2 lez_nat => h; move: i1; rewrite ltnNge h.
  by rewrite lez_nat => _ h; move: i1; rewrite ltnNge h.
move/stepsP=> [u [_ /var_stepsP]]; case=> -[i [h ->]]; rewrite /lag_step /lead_step /step_eq /subs /=.
  by rewrite !H //; case: ifP.
by rewrite !H.
Qed.

Lemma all_stepsE : all_steps <-> sats v [seq step_eq x | x <- steps].
Proof.
split=> H.
  move=> q /In_map [x [<- /stepsP [u [ui /var_stepsP]]]].
  by case: (H u ui) => h1 h2 [] [i [h ->]]; [apply: h1 | apply: h2].
move=> u ui; split=> i h; apply: H; apply/In_map.
  by exists (lag_step F u.1 i); split=> //; apply/stepsP; exists u; split=> //; apply/var_stepsP; left; exists i.
by exists (lead_step F u.1 i); split=> //; apply/stepsP; exists u; split=> //; apply/var_stepsP; right; exists i.
Qed.

Lemma vars_stage : sats v [seq subs d q | q <- eqs ++ [seq step_eq x | x <- steps]] <-> sats w eqs /\ all_steps.
Proof.
have E q : all_steps -> List.In q eqs -> sat v (subs d q) <-> sat w q.
  by move=> A qi; apply: sat_subs => a t ai; apply: lookup_val ai.
split=> H.
  have A : all_steps.
    apply/all_stepsE => q /In_map [x [<- xi]]; rewrite -(aux_fixed xi); apply: H; apply/In_map.
    by exists (step_eq x); split=> //; apply/In_cat; right; apply/In_map; exists x.
  by split=> // q qi; apply/(E _ A qi); apply: H; apply/In_map; exists q; split=> //; apply/In_cat; left.
case: H => H A q /In_map [q' [<- /In_cat [qi|/In_map [x [<- xi]]]]]; first exact/(E _ A qi)/H.
by rewrite (aux_fixed xi); move/all_stepsE: A; apply; apply/In_map; exists x.
Qed.

End System.
End Vars.
End P.
