(** C133: measurement errors declared in a model file. *)
Set Warnings "-all".
From Coq Require Import String Ascii.
From mathcomp Require Import all_ssreflect all_algebra.
From Verif Require Import PyBase PyStr M_Parser M_ParaFunc M_Text S_Text P_Text2 M_Meas S_Meas.
Set Implicit Arguments. Unset Strict Implicit. Unset Printing Implicit Defensive.
Local Open Scope seq_scope.

Lemma split_ne k : exists p ps, split_at_comma k = p :: ps.
Proof. by elim: k => [|c k [p [ps e]]] /=; [exists [::], [::] | case: eqP => _; [exists [::], (split_at_comma k) | exists (c :: p), ps; rewrite e]]. Qed.
Lemma split_size k : size (split_at_comma k) = (count_mem ","%char k).+1.
Proof.
elim: k => //= c k IH; case: eqP => [_|_] /=; first by rewrite IH.
by have [p [ps e]] := split_ne k; rewrite e /= -IH e.
Qed.
Lemma split_0 k : ","%char \notin k -> split_at_comma k = [:: k].
Proof. by elim: k => //= c k IH; rewrite inE negb_or eq_sym => /andP [/negPf -> /IH ->]. Qed.
Lemma split_1 k1 k2 : ","%char \notin k1 -> ","%char \notin k2 -> split_at_comma (k1 ++ ","%char :: k2) = [:: k1; k2].
Proof. move=> h1 h2; elim: k1 h1 => [|c k IH] /=; first by rewrite split_0. by rewrite inE negb_or eq_sym => /andP [/negPf -> /IH ->]. Qed.
Lemma comma_cut (k : text) : ","%char \in k -> exists k1 k2, k = k1 ++ ","%char :: k2 /\ ","%char \notin k1.
Proof.
elim: k => //= c k IH; rewrite inE; case: (eqVneq ","%char c) => [<- _|ne /= /IH [k1 [k2 [-> n]]]]; first by exists [::], k.
by exists (c :: k1), k2; split=> //; rewrite inE negb_or ne.
Qed.

(** what the loop reads from a key *)
Definition key_pair (k : text) : option (string * string) :=
  let l := split_at_comma k in let l := if size l == 1 then l ++ [:: head [::] l] else l in
  if size l == 2 then Some (str (M_Text.strip (nth [::] l 0)), str (M_Text.strip (nth [::] l 1))) else None.
Lemma names_pair k a b : names k a b <-> key_pair k = Some (a, b).
Proof.
rewrite /key_pair; split.
  move=> [[n [h1 h2 -> ->]]|[k1 [k2 [n1 [n2 [-> [h1 h2] [t1 t2] -> ->]]]]]].
    by rewrite split_0 //= (trimmed_fun (strip_trimmed k) h2).
  by rewrite split_1 //= (trimmed_fun (strip_trimmed k1) t1) (trimmed_fun (strip_trimmed k2) t2).
case ik: (","%char \in k); last first.
  move/negbT: ik => ik; rewrite split_0 //= => -[<- <-]; left; exists (M_Text.strip k); split=> //; exact: strip_trimmed.
have [k1 [k2 [e n1]]] := comma_cut ik; case i2: (","%char \in k2).
  have : (1 < count_mem ","%char k)%N.
    by rewrite e count_cat /= add1n addnS ltnS; apply: leq_trans (leq_addl _ _); rewrite -has_count has_pred1.
  by rewrite -ltnS -split_size; case: (split_at_comma k) => [|x [|y [|z l]]].
move/negbT: i2 => n2; rewrite e split_1 //= => -[<- <-]; right; exists k1, k2, (M_Text.strip k1), (M_Text.strip k2).
by split=> //; split; exact: strip_trimmed.
Qed.
Lemma pair_some k : at_most_two k <-> exists a b, key_pair k = Some (a, b).
Proof.
rewrite /at_most_two -ltnS -split_size /key_pair; have [p [ps ->]] := split_ne k.
by case: ps => [|q [|r ps]] /=; split=> //; try (by eexists; eexists); move=> [a [b]].
Qed.
Lemma position_index (ms : seq string) a i : uniq ms -> position ms a i <-> a \in ms /\ i = index a ms.
Proof.
move=> un; split=> [[h <-]|[h ->]]; first by rewrite mem_nth // index_uniq.
by split; rewrite ?index_mem // nth_index.
Qed.

Section Main.
Variable T : Type.
Variable ev : text -> res T.
Variables (zero : T) (nobs : nat) (ms : seq string).
Hypothesis un : uniq ms.
Implicit Types (es : seq (text * mval)) (M : mat T).

(** the step, with what it reads *)
Lemma stepE M kv : meas_step ev ms nobs M kv =
  if key_pair kv.1 is Some (a, b) then
    if a \in ms then if b \in ms then
      match eval_value ev kv.2 with
      | Ok v => if (index a ms < nobs) && (index b ms < nobs) then Ok (put (put M (index a ms) (index b ms) v) (index b ms) (index a ms) v) else Err IndexError
      | Err e => Err e end else Err ValueError else Err ValueError
  else Ok M.
Proof.
rewrite /meas_step /key_pair; set l := (if size _ == 1 then _ else _); case: (size l == 2) => //.
case: (_ \in ms) => //; case: (_ \in ms) => //; case: (eval_value ev kv.2) => //= v; case: (_ && _) => //.
by congr (Ok (put _ _ _ _)); rewrite /put !eqxx.
Qed.

Lemma step_ok M kv : (exists M', meas_step ev ms nobs M kv = Ok M') <->
  (at_most_two kv.1 -> exists i j v, [/\ usable ev ms kv i j v, (i < nobs)%N & (j < nobs)%N]).
Proof.
rewrite stepE pair_some; split.
  move=> [M' h] [a [b e]]; move: h; rewrite e; case ia: (a \in ms) => //; case ib: (b \in ms) => //.
  case ek: (kv.2) => [t|] //=; case ee: (ev t) => [v|] //; case: ifP => // /andP [hi hj] _.
  exists (index a ms), (index b ms), v; split=> //; exists a, b, t; split=> //; first by apply/names_pair.
    by apply/position_index.
  by apply/position_index.
case e: key_pair => [[a b]|] h; last by eexists.
have [|i [j [v [[a' [b' [t [/names_pair]]]]]]]] := h; first by eexists; eexists.
rewrite e => -[<- <-] /(position_index _ _ un) [ia ->] /(position_index _ _ un) [ib ->] -> /= ee hi hj.
by rewrite ia ib ee hi hj; eexists.
Qed.

Lemma fold_ok es M : (exists M', foldM (meas_step ev ms nobs) es M = Ok M') <->
  (forall kv, List.In kv es -> at_most_two kv.1 -> exists i j v, [/\ usable ev ms kv i j v, (i < nobs)%N & (j < nobs)%N]).
Proof.
elim: es M => [|kv es IH] M /=; first by split=> // _; eexists.
split.
  case e: meas_step => [M1|] => [h kv' [<-|ki]|[] //]; first by apply/(step_ok M); exists M1.
  by apply: (IH M1).1.
move=> h; have [M1 ->] := (step_ok M kv).2 (h kv (or_introl erefl)).
by apply/IH=> kv' ki; apply: h; right.
Qed.

(** C133: a declared section is accepted exactly if every entry with at most two names is usable, with names among the first [nobs] *)
Theorem C133_accepted (cal : option (seq (text * mval))) :
  (exists M, meas_matrix ev zero nobs (Some ms) cal = Ok M) <->
  (exists2 es, cal = Some es & forall kv, List.In kv es -> at_most_two kv.1 ->
    exists i j v, [/\ usable ev ms kv i j v, (i < nobs)%N & (j < nobs)%N]).
Proof.
case: cal => [es|] /=; last by split=> [[M]|[es]].
by rewrite fold_ok; split=> [h|[es' [<-]] //]; exists es.
Qed.

(** the matrix then *)
Lemma fold_value es M M' : foldM (meas_step ev ms nobs) es M = Ok M' -> (forall i j, M i j = M j i) ->
  [/\ forall i j, M' i j = M' j i,
      forall i j, (forall kv, List.In kv es -> ~ about ms kv i j) -> M' i j = M i j &
      forall pre kv post i j v, es = pre ++ kv :: post -> usable ev ms kv i j v -> (forall kv', List.In kv' post -> ~ about ms kv' i j) -> M' i j = v].
Proof.
elim: es M => [|kv es IH] M /=; first by move=> [<-] s; split=> // -[].
case e: meas_step => [M1|] // h s.
have [s1 old new] : [/\ forall i j, M1 i j = M1 j i, forall i j, ~ about ms kv i j -> M1 i j = M i j &
    forall i j v, usable ev ms kv i j v -> M1 i j = v].
  move: e; rewrite stepE; case ek: key_pair => [[a b]|]; last first.
    by move=> [<-]; split=> // i j v [a [b [t [/names_pair]]]]; rewrite ek.
  case ia: (a \in ms) => //; case ib: (b \in ms) => //; case ee: eval_value => [v|] //; case: ifP => // _ [<-].
  rewrite /put; split.
  - move=> i j; rewrite s ![(j == _) && _]andbC; case: ((i == _) && _); case: ((i == _) && _) => //.
  - move=> i j na; have A : forall x y, (x == index a ms) && (y == index b ms) -> position ms a x /\ position ms b y.
      by move=> x y /andP [/eqP -> /eqP ->]; split; apply/position_index.
    case: ifP => [|_]; first by rewrite andbC => /A [h1 h2]; case: na; exists a, b; split; [apply/names_pair | right].
    by case: ifP => // /A [h1 h2]; case: na; exists a, b; split; [apply/names_pair | left].
  - move=> i j w [a' [b' [t [/names_pair]]]]; rewrite ek => -[<- <-] /(position_index _ _ un) [_ ->] /(position_index _ _ un) [_ ->].
    by move: ee => /= ee et; move: ee; rewrite et /= => -> [->]; rewrite !eqxx; case: ifP.
have [q1 q2 q3] := IH M1 h s1; split=> //.
  by move=> i j na; rewrite q2 => [|kv' ki]; [apply: old; apply: na; left | apply: na; right].
move=> [|kv0 pre] kv1 post i j v /= [e1 e2] us na; last exact: (q3 pre kv1 post).
by rewrite q2 => [|kv']; [apply: new; rewrite e1 | rewrite e2; apply: na].
Qed.

(** C133: the matrix is symmetric; a pair of names has the value of the last entry about it, zero if there is none *)
Theorem C133_matrix es M : meas_matrix ev zero nobs (Some ms) (Some es) = Ok M ->
  [/\ forall i j, M i j = M j i,
      forall i j, (forall kv, List.In kv es -> ~ about ms kv i j) -> M i j = zero &
      forall pre kv post i j v, es = pre ++ kv :: post -> usable ev ms kv i j v ->
        (forall kv', List.In kv' post -> ~ about ms kv' i j) -> M i j = v].
Proof. by move=> h; have := fold_value h (fun _ _ => erefl). Qed.

(** C133: the first entry with a value that is not text is an error, also for a number *)
Theorem C133_number pre k post a b : names k a b -> a \in ms -> b \in ms ->
  (exists M, meas_matrix ev zero nobs (Some ms) (Some pre) = Ok M) ->
  meas_matrix ev zero nobs (Some ms) (Some (pre ++ (k, MOther) :: post)) = Err TypeError.
Proof.
move=> /names_pair ek ia ib [M] /=; move: (fun _ _ => zero) => M0; elim: pre M0 => [|kv pre IH] M0 /=; last by case: meas_step => [M1|] //; apply: IH.
by rewrite stepE /= ek ia ib.
Qed.

(** ... while the name of an error beyond the number of observables is an IndexError *)
Theorem C133_more_than_observables pre k t v post a b : names k a b -> a \in ms -> b \in ms -> ev t = Ok v -> a \notin take nobs ms \/ b \notin take nobs ms ->
  (exists M, meas_matrix ev zero nobs (Some ms) (Some pre) = Ok M) ->
  meas_matrix ev zero nobs (Some ms) (Some (pre ++ (k, MText t) :: post)) = Err IndexError.
Proof.
move=> /names_pair ek ia ib et out [M] /=; move: (fun _ _ => zero) => M0; elim: pre M0 => [|kv pre IH] M0 /=; last by case: meas_step => [M1|] //; apply: IH.
rewrite stepE /= ek ia ib et; case: ifP => // /andP [ha hb].
have tk x : x \in ms -> (index x ms < nobs)%N -> x \in take nobs ms.
  by move=> ix hx; rewrite -(nth_index EmptyString ix) -(nth_take _ hx) mem_nth // size_take; case: ifP => // _; rewrite index_mem.
by case: out => /negP []; apply: tk.
Qed.
End Main.
Print Assumptions C133_accepted.
Print Assumptions C133_matrix.
Print Assumptions C133_number.
Print Assumptions C133_more_than_observables.

(** C133: the model read from the file is the same with and without measurement errors: they can only make reading fail, and
    calibrated ones that are not declared are ignored *)
Theorem C133_no_effect (F : fieldType) (ptree : text -> option (rawexpr F)) (T : Type) (ev : text -> res T) zero f decl cal p M :
  read_model ptree ev zero f decl cal = Ok (p, M) ->
  parse_file ptree f = Ok p /\ forall cal', read_model ptree ev zero f None cal' = Ok (p, fun _ _ => zero).
Proof. by rewrite /read_model; case: parse_file => [p'|] //=; case: meas_matrix => [M'|] //= [<- _]; split. Qed.
Print Assumptions C133_no_effect.

(** * Example: two errors, one covariance *)
Module MeasEx.
Definition ev (t : text) : res nat := if t == chars "0.1" then Ok 1 else if t == chars "0.2" then Ok 2 else Err NameError.
Definition ms : seq string := [:: "m_y"; "m_p"]%string.
Definition es := [:: (chars "m_y", MText (chars "0.2")); (chars " m_p , m_y", MText (chars "0.1"))].
Definition tab (r : res (mat nat)) := if r is Ok M then Ok [:: M 0 0; M 0 1; M 1 0; M 1 1] else Err TypeError.
Example C133_values : tab (meas_matrix ev 0 2 (Some ms) (Some es)) = Ok [:: 2; 1; 1; 0].
Proof. reflexivity. Qed.
Example C133_met : [/\ uniq ms, exists M, meas_matrix ev 0 2 (Some ms) (Some es) = Ok M,
  names (chars "m_y") "m_y" "m_y" & names (chars " m_p , m_y") "m_p" "m_y"].
Proof. by split=> //; [eexists; reflexivity | apply/names_pair | apply/names_pair]. Qed.
Example C133_number_met : meas_matrix ev 0 2 (Some ms) (Some [:: (chars "m_y", MOther)]) = Err TypeError.
Proof. reflexivity. Qed.
Example C133_more_met : meas_matrix ev 0 1 (Some ms) (Some [:: (chars "m_y", MText (chars "0.1")); (chars "m_p", MText (chars "0.1"))]) = Err IndexError.
Proof. reflexivity. Qed.
Example C133_ignored : tab (meas_matrix ev 0 2 (Some ms) (Some [:: (chars "m_y, m_p, m_y", MOther)])) = Ok [:: 0; 0; 0; 0].
Proof. reflexivity. Qed.
Example C133_missing : tab (meas_matrix ev 0 2 (Some ms) None) = Err TypeError /\ meas_matrix ev 0 2 (Some ms) None = Err KeyError.
Proof. by []. Qed.
End MeasEx.
