(** The compiled matrices represent the equations. *)
Set Warnings "-all".
From Coq Require Import String.
From mathcomp Require Import all_ssreflect all_algebra.
From Verif Require Import PyBase PyStr M_Parser S_Parser P_Parser P_Parser2 P_Parser3.
Set Implicit Arguments. Unset Strict Implicit. Unset Printing Implicit Defensive.
Import GRing.Theory Num.Theory Order.TTheory.
Local Open Scope ring_scope.

Section P4.
Variable F : fieldType.
Implicit Types (ex fx : expr F sym) (q : eqn F) (y e : path F).
Variables (par : string -> F) (vars shks : seq string).
Hypothesis uv : uniq vars.
Hypothesis us : uniq shks.

Lemma pvE y e t a : y =2 (@zero_path F) -> e =2 (@zero_path F) -> value par y e t a = pv par a.
Proof. by move=> hy he; rewrite /value /pv; case: knd; rewrite ?hy ?he. Qed.

Lemma const_ofE q : const_of par q = eval (pv par) (set_eq_zero q).
Proof. by rewrite /const_of /gap /=; congr (_ - _); apply: eval_atoms => a _; apply: pvE. Qed.

Definition in_date (lo hi : int) ex : Prop := forall a, a \in atoms ex ->
  match knd a return Prop with
  | KVar => nam a \in vars /\ lo <= dat a <= hi
  | KShk => nam a \in shks /\ dat a = 0
  | KPar => True
  end.

Lemma mem_at_date d a : (a \in at_date d vars) = [&& knd a == KVar, nam a \in vars & dat a == d].
Proof.
apply/mapP/and3P => [[v vi ->]|[/eqP h1 h2 /eqP h3]]; first by rewrite /= vi !eqxx.
by exists (nam a) => //; case: a h1 h2 h3 => -[k n] dd /= <- _ <-.
Qed.
Lemma mem_shk a : (a \in shk_list shks) = [&& knd a == KShk, nam a \in shks & dat a == 0].
Proof.
apply/mapP/and3P => [[v vi ->]|[/eqP h1 h2 /eqP h3]]; first by rewrite /= vi !eqxx.
by exists (nam a) => //; case: a h1 h2 h3 => -[k n] dd /= <- _ <-.
Qed.
Lemma uniq_at d : uniq (at_date d vars). Proof. by rewrite map_inj_uniq // => x z [->]. Qed.
Lemma uniq_shk : uniq (shk_list shks). Proof. by rewrite map_inj_uniq // => x z [->]. Qed.

(** a row over the variables at date [d] (or the shocks) is a product with the path *)
Lemma row_sum (k : kind) (d : int) (names : seq string) (row : seq F) (g : F -> F) (h : F) (v : sym -> F) ex (ats : seq sym) (sel : pred sym) y t :
  (forall n, n \in names -> v (k, n, d) = y n (t + d)) ->
  (forall a, a \in atoms ex -> a \in ats) -> (forall n, sel (k, n, d)) -> (forall x, g x = h * x) ->
  (forall j, (j < size names)%N -> nth 0 row j =
      if (nth (KPar, EmptyString, 0) [seq (k, n, d) | n <- names] j \in ats) && sel (nth (KPar, EmptyString, 0) [seq (k, n, d) | n <- names] j)
      then g (coef par (nth (KPar, EmptyString, 0) [seq (k, n, d) | n <- names] j) ex) else 0) ->
  times row names y (t + d) = h * \sum_(a <- [seq (k, n, d) | n <- names]) coef par a ex * v a.
Proof.
move=> Hv sub Hs Hg Hr; rewrite /times big_map sum_names mulr_sumr; apply: eq_bigr => j _.
rewrite Hr // (nth_map EmptyString) // Hs andbT Hv ?mem_nth //.
case: ifP => [_|/negP ni]; first by rewrite Hg mulrA.
by rewrite /coef diff0 ?mul0r ?mulr0 //; apply/negP=> /sub.
Qed.

Lemma eq_rows q : affine_eqn q -> (in_date (-1) 1 (set_eq_zero q)) ->
  exists a b c s,
   [/\ coef_row vars par (at_date 1 vars) (fun a => is_var a && (0 < dat a)) id (eatoms q) (set_eq_zero q) = Ok a,
       coef_row vars par (at_date 0 vars) (fun a => is_var a && (dat a == 0)) id (eatoms q) (set_eq_zero q) = Ok b,
       coef_row vars par (at_date (-1) vars) (fun a => is_var a && (dat a < 0)) id (eatoms q) (set_eq_zero q) = Ok c,
       coef_row vars par (shk_list shks) is_shk -%R (eatoms q) (set_eq_zero q) = Ok s &
       [/\ size a = size vars, size b = size vars, size c = size vars, size s = size shks &
       forall y e t, gap (value par y e t) q =
         const_of par q + times a vars y (t + 1) + times b vars y t + times c vars y (t - 1) - times s shks e t]].
Proof.
move=> /andP [af1 af2] rg; have af : affine (set_eq_zero q) by rewrite /= af1 af2.
have [||a Ea [sa Ha]] := @coef_rowP F par vars (at_date 1 vars) (fun a => is_var a && (0 < dat a)) id (eatoms q) _ af.
- exact: uniq_at.
- move=> b bi /andP [/eqP kb db]; rewrite /dated kb /= mem_at_date kb eqxx /=.
  have := rg b bi; rewrite kb => -[-> /andP [_ hi]] /=; rewrite eq_le hi /=; exact: db.
have [||b Eb [sb Hb]] := @coef_rowP F par vars (at_date 0 vars) (fun a => is_var a && (dat a == 0)) id (eatoms q) _ af.
- exact: uniq_at.
- by move=> z zi /andP [/eqP kz /eqP dz]; rewrite /dated kz /= mem_at_date kz eqxx /= dz eqxx andbT; have := rg z zi; rewrite kz => -[].
have [||c Ec [sc Hc]] := @coef_rowP F par vars (at_date (-1) vars) (fun a => is_var a && (dat a < 0)) id (eatoms q) _ af.
- exact: uniq_at.
- move=> z zi /andP [/eqP kz dz]; rewrite /dated kz /= mem_at_date kz eqxx /=.
  have := rg z zi; rewrite kz => -[-> /andP [lo _]] /=; move: lo dz; by case: (dat z) => [[|n]|[|n]].
have [||s Es [ss Hs]] := @coef_rowP F par vars (shk_list shks) is_shk -%R (eatoms q) _ af.
- exact: uniq_shk.
- by move=> z zi /eqP kz; rewrite /dated kz /= mem_shk kz eqxx /=; have := rg z zi; rewrite kz => -[-> ->] /=; rewrite eqxx.
exists a, b, c, s; split=> //; split; rewrite ?sa ?sb ?sc ?ss ?size_map // => y e t.
pose S := (at_date 1 vars ++ at_date 0 vars) ++ (at_date (-1) vars ++ shk_list shks).
have uS : uniq S.
  rewrite !cat_uniq !uniq_at uniq_shk /= !andbT; apply/and3P; split.
  - by apply/hasPn=> z; rewrite /= !mem_at_date => /and3P [_ _ /eqP ->]; rewrite !andbF.
  - apply/hasPn=> z; rewrite /= !mem_cat !mem_at_date mem_shk => /orP [/and3P [_ _ /eqP ->]|/and3P [/eqP -> _ _]] //.
    by rewrite !andbF.
  - by apply/hasPn=> z; rewrite /= !mem_at_date mem_shk => /and3P [/eqP -> _ _].
have dS : all dated S.
  apply/allP=> z; rewrite !mem_cat !mem_at_date mem_shk /dated.
  by move=> /orP [/orP [] /and3P [/eqP -> _ _]|/orP [] /and3P [/eqP -> _ _]].
have cov : {subset [seq a <- atoms (set_eq_zero q) | dated a] <= S}.
  move=> z; rewrite mem_filter => /andP [dz zi]; have := rg z zi; rewrite !mem_cat !mem_at_date mem_shk.
  move: dz; rewrite /dated; case: (knd z) => // _; last by case=> -> ->.
  case=> -> /= /andP [lo hi]; move: lo hi; case: (dat z) => [[|[|n]]|[|n]] //.
have -> : gap (value par y e t) q = eval (value par y e t) (set_eq_zero q) by [].
rewrite (@affine_sum F par (value par y e t) S (set_eq_zero q)) //; last by move=> z kz; rewrite /value kz.
rewrite -const_ofE !big_cat /=.
have e1 : times a vars y (t + 1) = 1 * \sum_(i <- at_date 1 vars) coef par i (set_eq_zero q) * value par y e t i.
  apply: (@row_sum KVar 1 vars a id 1 _ _ (eatoms q) (fun a => is_var a && (0 < dat a))) => //.
  - by move=> x; rewrite mul1r.
  - by move=> j lt; apply: Ha; rewrite size_map.
have e2 : times b vars y (t + 0) = 1 * \sum_(i <- at_date 0 vars) coef par i (set_eq_zero q) * value par y e t i.
  apply: (@row_sum KVar 0 vars b id 1 _ _ (eatoms q) (fun a => is_var a && (dat a == 0))) => //.
  - by move=> x; rewrite mul1r.
  - by move=> j lt; apply: Hb; rewrite size_map.
have e3 : times c vars y (t + -1) = 1 * \sum_(i <- at_date (-1) vars) coef par i (set_eq_zero q) * value par y e t i.
  apply: (@row_sum KVar (-1) vars c id 1 _ _ (eatoms q) (fun a => is_var a && (dat a < 0))) => //.
  - by move=> x; rewrite mul1r.
  - by move=> j lt; apply: Hc; rewrite size_map.
have e4 : times s shks e (t + 0) = -1 * \sum_(i <- shk_list shks) coef par i (set_eq_zero q) * value par y e t i.
  apply: (@row_sum KShk 0 shks s -%R (-1) _ _ (eatoms q) is_shk) => //.
  - by move=> x; rewrite mulN1r.
  - by move=> j lt; apply: Hs; rewrite size_map.
move: e1 e2 e3 e4; rewrite !mul1r mulN1r !addr0 => -> -> -> ->.
by rewrite opprK !addrA.
Qed.

(** the constraint *)
Lemma con_rows q : affine_eqn q -> (in_date (-1) 0 (set_eq_zero q)) ->
  exists b s,
   [/\ coef_row vars par (at_date 0 vars ++ at_date (-1) vars) (fun a => is_var a && (dat a <= 0)) -%R (eatoms q) (set_eq_zero q) = Ok b,
       coef_row vars par (shk_list shks) is_shk -%R (eatoms q) (set_eq_zero q) = Ok s &
       [/\ size b = (size vars + size vars)%N, size s = size shks &
       forall y e t, gap (value par y e t) q =
         const_of par q - times (take (size vars) b) vars y t - times (drop (size vars) b) vars y (t - 1) - times s shks e t]].
Proof.
move=> /andP [af1 af2] rg; have af : affine (set_eq_zero q) by rewrite /= af1 af2.
have uc : uniq (at_date 0 vars ++ at_date (-1) vars).
  rewrite cat_uniq !uniq_at /= andbT; apply/hasPn=> z; rewrite /= !mem_at_date => /and3P [_ _ /eqP ->].
  by rewrite !andbF.
have mc z : is_var z -> nam z \in vars -> -1 <= dat z <= 0 -> z \in at_date 0 vars ++ at_date (-1) vars.
  move=> /eqP kz vz; rewrite mem_cat !mem_at_date kz vz /=; by case: (dat z) => [[|n]|[|n]].
have [||b Eb [sb Hb]] := @coef_rowP F par vars (at_date 0 vars ++ at_date (-1) vars) (fun a => is_var a && (dat a <= 0)) -%R (eatoms q) _ af.
- exact: uc.
- move=> z zi /andP [kz dz]; have := rg z zi; rewrite (eqP kz) => -[vz rz].
  by rewrite mc // /dated (eqP kz).
have [||s Es [ss Hs]] := @coef_rowP F par vars (shk_list shks) is_shk -%R (eatoms q) _ af.
- exact: uniq_shk.
- by move=> z zi /eqP kz; rewrite /dated kz /= mem_shk kz eqxx /=; have := rg z zi; rewrite kz => -[-> ->] /=; rewrite eqxx.
exists b, s; rewrite sb size_cat !size_map ss size_map; split=> //; split=> // y e t.
pose S := (at_date 0 vars ++ at_date (-1) vars) ++ shk_list shks.
have uS : uniq S.
  rewrite cat_uniq uc uniq_shk andbT /=.
  by apply/hasPn=> z; rewrite /= mem_cat !mem_at_date mem_shk => /and3P [/eqP -> _ _].
have dS : all dated S.
  apply/allP=> z; rewrite !mem_cat !mem_at_date mem_shk /dated.
  by move=> /orP [/orP [] /and3P [/eqP -> _ _]|/and3P [/eqP -> _ _]].
have cov : {subset [seq a <- atoms (set_eq_zero q) | dated a] <= S}.
  move=> z; rewrite mem_filter => /andP [dz zi]; have := rg z zi.
  move: dz; rewrite /dated; case kz: (knd z) => // _ []; last by move=> sz dz; rewrite mem_cat mem_shk kz sz dz eqxx orbT.
  by move=> vz rz; rewrite mem_cat mc // /is_var kz.
have -> : gap (value par y e t) q = eval (value par y e t) (set_eq_zero q) by [].
rewrite (@affine_sum F par (value par y e t) S (set_eq_zero q)) //; last by move=> z kz; rewrite /value kz.
rewrite -const_ofE !big_cat /=.
have sn : (size vars <= size b)%N by rewrite sb size_cat !size_map leq_addr.
have e2 : times (take (size vars) b) vars y (t + 0) = -1 * \sum_(i <- at_date 0 vars) coef par i (set_eq_zero q) * value par y e t i.
  apply: (@row_sum KVar 0 vars _ -%R (-1) _ _ (eatoms q) (fun a => is_var a && (dat a <= 0))) => //.
  - by move=> x; rewrite mulN1r.
  - move=> j lt; rewrite nth_take // Hb ?size_cat ?size_map ?ltn_addr //.
    by rewrite nth_cat size_map lt.
have e3 : times (drop (size vars) b) vars y (t + -1) = -1 * \sum_(i <- at_date (-1) vars) coef par i (set_eq_zero q) * value par y e t i.
  apply: (@row_sum KVar (-1) vars _ -%R (-1) _ _ (eatoms q) (fun a => is_var a && (dat a <= 0))) => //.
  - by move=> x; rewrite mulN1r.
  - move=> j lt; rewrite nth_drop Hb ?size_cat ?size_map ?ltn_add2l //.
    by rewrite nth_cat size_map ltnNge leq_addr /= addKn.
have e4 : times s shks e (t + 0) = -1 * \sum_(i <- shk_list shks) coef par i (set_eq_zero q) * value par y e t i.
  apply: (@row_sum KShk 0 shks s -%R (-1) _ _ (eatoms q) is_shk) => //.
  - by move=> x; rewrite mulN1r.
  - by move=> j lt; apply: Hs; rewrite size_map.
move: e2 e3 e4; rewrite !mulN1r !addr0 => -> -> ->.
by rewrite !opprK !addrA.
Qed.

(** an observation equation *)
Lemma obs_rows fv ex : affine ex -> in_date (-1) 0 ex -> ~~ has is_shk (atoms ex) -> uniq (at_date 0 vars ++ fv) ->
  exists z0 z1,
   [/\ entry vars par ex = Ok z1,
       coef_row vars par (at_date 0 vars ++ fv) (fun a => is_var a && (0 <= dat a)) id (atoms ex) ex = Ok z0 &
       size (take (size vars) z0) = size vars /\
       forall y e t, z1 + times (take (size vars) z0) vars y t =
         eval (value par (fun n s => if s == t then y n s else 0) e t) ex].
Proof.
move=> af rg ns ucf.
have cv0 z : z \in atoms ex -> is_var z && (0 <= dat z) -> z \in at_date 0 vars.
  move=> zi /andP [/eqP kz dz]; have := rg z zi; rewrite kz => -[vz /andP [_ hz]].
  by rewrite mem_at_date kz vz /= eq_le hz.
have [||z0 E0 [s0 H0]] := @coef_rowP F par vars (at_date 0 vars ++ fv) (fun a => is_var a && (0 <= dat a)) id (atoms ex) _ af.
- exact: ucf.
- move=> z zi sz; rewrite mem_cat cv0 // /dated; by case/andP: sz => /eqP ->.
have e1 : entry vars par ex = Ok (eval (pv par) ex).
  rewrite /entry (_ : all _ _ = true) //; apply/allP=> z zi; have := rg z zi; rewrite /in_subs0.
  case kz: (knd z) => //=; last by have := hasPn ns z zi; rewrite /is_shk kz.
  by case=> -> /=; rewrite !inE; case: (dat z) => [[|n]|[|n]].
exists z0, (eval (pv par) ex); split=> //.
have sn : size (take (size vars) z0) = size vars by rewrite size_takel // s0 size_cat size_map leq_addr.
split=> // y e t; set yt := fun n s => _.
pose S := at_date 0 vars ++ at_date (-1) vars.
have uS : uniq S.
  rewrite cat_uniq !uniq_at /= andbT; apply/hasPn=> z; rewrite /= !mem_at_date => /and3P [_ _ /eqP ->].
  by rewrite !andbF.
have dS : all dated S by apply/allP=> z; rewrite !mem_cat !mem_at_date /dated => /orP [] /and3P [/eqP -> _ _].
have cov : {subset [seq a <- atoms ex | dated a] <= S}.
  move=> z; rewrite mem_filter => /andP [dz zi]; have := rg z zi; rewrite mem_cat !mem_at_date.
  move: dz (hasPn ns z zi); rewrite /dated /is_shk; case: (knd z) => // _ _ [-> /=].
  by case: (dat z) => [[|n]|[|n]].
rewrite (@affine_sum F par (value par yt e t) S ex) //; last by move=> z kz; rewrite /value kz.
rewrite big_cat /= [X in _ + (_ + X)]big_map [X in _ + (_ + X)]big1 ?addr0; last first.
  move=> v _; rewrite /value /= /yt (_ : (t + -1 == t) = false) ?mulr0 //.
  by rewrite -subr_eq0 addrAC subrr add0r.
congr (_ + _); rewrite -[t]addr0.
have -> : times (take (size vars) z0) vars y (t + 0) = 1 * \sum_(i <- at_date 0 vars) coef par i ex * value par yt e t i.
  apply: (@row_sum KVar 0 vars _ id 1 _ _ (atoms ex) (fun a => is_var a && (0 <= dat a))) => //.
  - by move=> n ni; rewrite /value /yt /= addr0 eqxx.
  - by move=> x; rewrite mul1r.
  - move=> j lt; rewrite nth_take // H0 ?size_cat ?size_map ?ltn_addr //.
    by rewrite nth_cat size_map lt.
by rewrite mul1r addr0.
Qed.

End P4.
