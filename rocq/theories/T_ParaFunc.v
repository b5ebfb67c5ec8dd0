(** Derived parameters and covariances: C39, C40. *)
Set Warnings "-all".
From Coq Require Import String.
From mathcomp Require Import all_ssreflect all_algebra.
From Verif Require Import PyBase PyStr M_Parser S_Parser M_ParaFunc S_ParaFunc P_Parser P_Parser6 P_ParaFunc.
Set Implicit Arguments. Unset Strict Implicit. Unset Printing Implicit Defensive.
Local Open Scope string_scope.

(** C39: the loop ends after at most one pass more than there are definitions, whatever the definitions: more passes
    never change the outcome. *)
Theorem C39_terminates : forall (T : Type) (known : seq (string * T)) (ds : seq (defn T)) fuel,
  (size ds < fuel)%N ->
  resolve_defs fuel ds known = resolve_defs (size ds).+1 ds known /\ resolve_defs fuel ds known <> None.
Proof.
move=> T known ds fuel lt; apply: loop_fuel; rewrite /pend count_map.
  by apply: leq_ltn_trans (count_size _ _) lt.
by rewrite ltnS; exact: count_size.
Qed.
Print Assumptions C39_terminates.

(** If every definition has a value (refers only to known names and, transitively, to non-circular definitions), all
    are resolved to these values; otherwise NameError is raised.  [denotes] does not depend on the order. *)
Theorem C39_resolves : forall (T : Type) (known : seq (string * T)) (ds : seq (defn T)), fresh_names known ds ->
  (all_denote known ds -> exists2 c, resolve_defs (size ds).+1 ds known = Some (Ok c) &
     forall d v, List.In d ds -> get c (d_name d) = Some v <-> denotes known ds (d_name d) v) /\
  (~ all_denote known ds -> resolve_defs (size ds).+1 ds known = Some (Err NameError)).
Proof.
move=> T known ds fr; have [_ nn] := C39_terminates known (leqnn (size ds).+1).
case E: (resolve_defs _ _ _) nn => [r|] // _; have := resolve_out fr E; case: r E => [c|x] E.
  by case=> al H; split=> // _; exists c.
by case=> -> na; split.
Qed.
Print Assumptions C39_resolves.

(** Hence the declaration order is irrelevant. *)
Theorem C39_order : forall (T : Type) (known : seq (string * T)) (ds ds' : seq (defn T)),
  fresh_names known ds -> fresh_names known ds' -> (forall d, List.In d ds <-> List.In d ds') ->
  match resolve_defs (size ds).+1 ds known, resolve_defs (size ds').+1 ds' known with
  | Some (Ok c), Some (Ok c') => forall d, List.In d ds -> get c (d_name d) = get c' (d_name d)
  | Some (Err x), Some (Err x') => x = NameError /\ x' = NameError
  | _, _ => False
  end.
Proof.
move=> T known ds ds' fr fr' eq.
have den (l l' : seq (defn T)) : (forall d, List.In d l -> List.In d l') -> forall n v, denotes known l n v -> denotes known l' n v.
  move=> sub n v; apply: (@denotes_ind2 T known l (fun n v _ => denotes known l' n v) (fun ns vs _ => denote_all known l' ns vs)).
  - by move=> n' v' h; apply: den_known.
  - by move=> d vs di _ h; apply: den_def => //; apply: sub.
  - by constructor.
  - by move=> n' v' ns vs _ h1 _ h2; constructor.
have d1 := den ds ds' (fun d => (eq d).1); have d2 := den ds' ds (fun d => (eq d).2).
have al : all_denote known ds -> all_denote known ds'.
  by move=> H d /eq /H [v h]; exists v; apply: d1.
have al' : all_denote known ds' -> all_denote known ds.
  by move=> H d /eq /H [v h]; exists v; apply: d2.
have [_ nn] := C39_terminates known (leqnn (size ds).+1); have [_ nn'] := C39_terminates known (leqnn (size ds').+1).
case E: (resolve_defs _ _ _) nn => [r|] // _; case E': (resolve_defs _ _ _) nn' => [r'|] // _.
have := resolve_out fr E; have := resolve_out fr' E'.
case: r' {E'} => [c'|x']; case: r {E} => [c|x].
- move=> [a' h'] [a h] d di; have [v dv] := a d di.
  by rewrite ((h d v di).2 dv) ((h' d v ((eq d).1 di)).2 (d1 _ _ dv)).
- by move=> [a' _] [_ na]; apply: na; apply: al'.
- by move=> [_ na] [a _]; apply: na; apply: al.
- by move=> [-> _] [-> _].
Qed.
Print Assumptions C39_order.

(** three definitions declared in reverse order of dependence; and a circular pair *)
Definition ex_ds : seq (defn nat) :=
  [:: Defn "c" [:: "b"; "a"] (fun vs => nth 0 vs 0 + nth 0 vs 1);
      Defn "b" [:: "a"; "p"] (fun vs => nth 0 vs 0 * nth 0 vs 1); Defn "a" [:: "p"] (fun vs => (nth 0 vs 0).+1)].
Example C39_ex : fresh_names [:: ("p", 2)] ex_ds /\ all_denote [:: ("p", 2)] ex_ds /\
  fresh_names [:: ("p", 2)] [:: Defn "a" [:: "b"] (fun vs : seq nat => nth 0 vs 0); Defn "b" [:: "a"] (fun vs : seq nat => nth 0 vs 0)] /\
  (exists c, resolve_defs 4 ex_ds [:: ("p", 2)] = Some (Ok c) /\ get c "c" = Some 9).
Proof.
split; first by []. split; last by split=> //; eexists; split; reflexivity.
have p2 : denotes [:: ("p", 2)] ex_ds "p" 2 by apply: den_known; left.
have a3 : denotes [:: ("p", 2)] ex_ds "a" 3.
  apply: (@den_def _ _ _ (Defn "a" [:: "p"] (fun vs => (nth 0 vs 0).+1)) [:: 2]); first by right; right; left.
  exact: den_cons p2 (den_nil _ _).
have b6 : denotes [:: ("p", 2)] ex_ds "b" 6.
  apply: (@den_def _ _ _ (Defn "b" [:: "a"; "p"] (fun vs => nth 0 vs 0 * nth 0 vs 1)) [:: 3; 2]); first by right; left.
  exact: den_cons a3 (den_cons p2 (den_nil _ _)).
have c9 : denotes [:: ("p", 2)] ex_ds "c" 9.
  apply: (@den_def _ _ _ (Defn "c" [:: "b"; "a"] (fun vs => nth 0 vs 0 + nth 0 vs 1)) [:: 6; 3]); first by left.
  exact: den_cons b6 (den_cons a3 (den_nil _ _)).
by move=> d [<-|[<-|[<-|[]]]]; [exists 9 | exists 6 | exists 3].
Qed.

(** Names must be fresh for this: a definition that shadows a known name makes the order matter. *)
Theorem C39_shadowing_refuted : exists (known : seq (string * nat)) (ds ds' : seq (defn nat)) c c',
  (forall d, List.In d ds <-> List.In d ds') /\
  resolve_defs (size ds).+1 ds known = Some (Ok c) /\ resolve_defs (size ds').+1 ds' known = Some (Ok c') /\
  get c "b" <> get c' "b".
Proof.
pose d1 := Defn "a" [::] (fun _ : seq nat => 5); pose d2 := Defn "b" [:: "a"] (fun vs : seq nat => nth 0 vs 0).
exists [:: ("a", 1)], [:: d1; d2], [:: d2; d1]; do 2!eexists; split; last first.
  by split; [reflexivity | split; [reflexivity |]].
by move=> d; split=> [[<-|[<-|[]]]|[<-|[<-|[]]]] /=; tauto.
Qed.
Print Assumptions C39_shadowing_refuted.

(** C40: the covariance matrix is always symmetric ... *)
Theorem C40_symmetric : forall (T : Type) (zero : T) (cov : seq (string * T)) M,
  covariance zero cov = Ok M -> forall i j, M i j = M j i.
Proof. move=> T zero cov M; exact: covariance_sym. Qed.
Print Assumptions C40_symmetric.

(** ... and for every file that can be parsed (names in equations contain neither commas nor spaces) it is
    diagonal with the declared values: no key names two shocks. *)
Theorem C40_diagonal : forall (F : fieldType) (m : rawmodel F) (p : parsed F) (T : Type) (zero : T) (cov : seq (string * T)),
  [seq kv.1 | kv <- cov] = r_shks m -> uniq (r_shks m) -> all plain_name (used_names m) -> parse m = Ok p ->
  exists2 M, covariance zero cov = Ok M &
    forall i j, (i < size cov)%N -> (j < size cov)%N ->
      M i j = if i == j then nth zero [seq kv.2 | kv <- cov] i else zero.
Proof.
move=> F m p T zero cov ek un pl Hp; apply: covariance_diag; first by rewrite ek.
rewrite -(all_map (fun kv : string * T => kv.1) plain_name) ek; apply/allP=> k ki; case pk: (plain_name k) => //.
have kn : k \notin used_names m by apply/negP=> /(allP pl); rewrite pk.
by have := parse_unused_shock ki kn; rewrite Hp.
Qed.
Print Assumptions C40_diagonal.

(** A key naming two shocks makes parsing raise SyntaxError. *)
Theorem C40_cross_covariance : forall (F : fieldType) (m : rawmodel F) k,
  k \in r_shks m -> ~~ plain_name k -> all plain_name (used_names m) -> parse m = Err SyntaxErr.
Proof.
move=> F m k ki np pl; apply: (parse_unused_shock ki).
by apply/negP=> /(allP pl); rewrite (negbTE np).
Qed.
Print Assumptions C40_cross_covariance.
Example C40_ex : let m := @RawModel rat_fieldType [:: "x"; "r"] [::] [:: "e_a"; "e_b"; "e_a, e_b"] [::]
    [:: (At ("x", None), Add (At ("e_a", None)) (Add (At ("e_b", None)) (At ("r", None))))] "r" (At ("r", None), At ("x", None)) [::] in
  "e_a, e_b" \in r_shks m /\ ~~ plain_name "e_a, e_b" /\ all plain_name (used_names m).
Proof. by []. Qed.
Example C40_ex2 : let m := @RawModel rat_fieldType [:: "x"; "r"] [::] [:: "e_a"; "e_b"] [::]
    [:: (At ("x", None), Add (At ("e_a", None)) (Add (At ("e_b", None)) (At ("r", None))))] "r" (At ("r", None), At ("x", None)) [::] in
  is_ok (parse m) /\ all plain_name (used_names m) /\ uniq (r_shks m).
Proof. by split; [|split]; vm_compute. Qed.
