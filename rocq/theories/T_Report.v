(** C138: the table of the current best guess. *)
Set Warnings "-all".
From Coq Require Import String Ascii.
From mathcomp Require Import all_ssreflect.
From Verif Require Import PyBase PyStr M_Report S_Report.
Set Implicit Arguments. Unset Strict Implicit. Unset Printing Implicit Defensive.
Local Open Scope py_scope.
Notation app := String.append.
Notation len := String.length.

Lemma app0 a : app a ""%string = a. Proof. by elim: a => //= x a ->. Qed.
Lemma len_app a b : len (app a b) = len a + len b. Proof. by elim: a => //= x a ->. Qed.
Lemma pad8E s : pad8 s = cell s. Proof. by rewrite /pad8 /cell; congr app; elim: (8 - _) => //= n ->. Qed.
Lemma concatE l : foldr (fun s acc => app (pad8 s) acc) ""%string l = String.concat "" [seq cell s | s <- l].
Proof. by elim: l => //= s [|t l] IH; rewrite pad8E ?app0 // IH. Qed.
Lemma row_formatE n l : size l = n -> row_format n l = Ok (String.concat "" [seq cell s | s <- l]).
Proof. by move=> <-; rewrite /row_format leqnn take_size concatE. Qed.
Lemma chunkE (g : seq (string * string)) : chunk ([seq x.1 | x <- g], [seq x.2 | x <- g]) = Ok (block g).
Proof. by rewrite /chunk !row_formatE //= !size_map. Qed.
Lemma mapM_chunk (gs : seq (seq (string * string))) :
  mapM chunk [seq ([seq x.1 | x <- g], [seq x.2 | x <- g]) | g <- gs] = Ok [seq block g | g <- gs].
Proof. by elim: gs => //= g gs ->; rewrite chunkE. Qed.
Lemma split_map (T U : Type) (f : T -> U) l sz : split_sizes (map f l) sz = [seq map f g | g <- split_sizes l sz].
Proof. by elim: sz l => //= n sz IH l; rewrite -map_take -map_drop IH. Qed.
Lemma split_flatten (T : Type) (l : seq T) sz : size l <= sumn sz -> flatten (split_sizes l sz) = l.
Proof.
elim: sz l => [|n sz IH] l /=; first by case: l.
by move=> h; rewrite IH ?cat_take_drop // size_drop leq_subLR.
Qed.
Lemma split_small (T : Type) (l : seq T) sz b : all (fun n => n <= b) sz -> all (fun g => size g <= b) (split_sizes l sz).
Proof.
elim: sz l => //= n sz IH l /andP [nb al]; rewrite IH // andbT size_take.
by case: ltnP => // h; apply: leq_trans nb.
Qed.
Definition sizes n k := nseq (n %% k) (n %/ k).+1 ++ nseq (k - n %% k) (n %/ k).
Lemma sizes_sum n k : 0 < k -> sumn (sizes n k) = n.
Proof.
move=> k0; rewrite sumn_cat !sumn_nseq mulSn -addnA -mulnDr subnKC; last by rewrite ltnW // ltn_mod.
by rewrite addnC -divn_eq.
Qed.
Lemma zip_split (names vals : seq string) k : size vals = size names ->
  zip (split_sizes names (sizes (size names) k)) (split_sizes vals (sizes (size vals) k)) =
  [seq ([seq x.1 | x <- g], [seq x.2 | x <- g]) | g <- split_sizes (zip names vals) (sizes (size names) k)].
Proof.
move=> e; rewrite e; move: (sizes _ _) => sz; set z := zip names vals.
have -> : split_sizes names sz = split_sizes (unzip1 z) sz by rewrite unzip1_zip ?e.
have -> : split_sizes vals sz = split_sizes (unzip2 z) sz by rewrite unzip2_zip ?e.
by rewrite !split_map; elim: (split_sizes z sz) => //= g gs ->.
Qed.
Lemma reportE cols msg names vals : size vals = size names -> 8 < cols ->
  pmdm_report (Some cols) msg names vals =
  Ok (msg :: flatten [seq block g | g <- split_sizes (zip names vals) (sizes (size names) (size names * 8 %/ (cols - 8)).+1)] ++ [:: ""%string]).
Proof.
move=> e c8; rewrite /pmdm_report /lnum; have -> : (cols == 8) = false by case: eqP c8 => // ->.
have -> : (cols < 8) = false by rewrite ltnNge (ltnW c8).
by rewrite /= /array_split /= -!/(sizes _ _) zip_split // mapM_chunk.
Qed.

(** C138: every name occurs once, in order, with its value below it *)
Theorem C138_table cols msg names vals : size vals = size names -> 8 < cols ->
  exists groups, flatten groups = zip names vals /\
    pmdm_report (Some cols) msg names vals = Ok (msg :: flatten [seq block g | g <- groups] ++ [:: ""%string]).
Proof.
move=> e c8; eexists; split; last exact: reportE.
by apply: split_flatten; rewrite sizes_sum // size_zip e minnn.
Qed.

(** C138: with short names and values the table is at most seven characters wider than the terminal, and not wider if the width of the
    terminal is a multiple of eight *)
Lemma len_row l : all (fun s => len s <= 8) l -> len (row l) = 8 * (size l).+1.
Proof.
have lc s : len s <= 8 -> len (cell s) = 8.
  by move=> h; rewrite /cell len_app (_ : len (iter _ _ _) = 8 - len s) ?subnK //; elim: (8 - _) => //= n ->.
rewrite /row => al; have {al} : all (fun s => len s <= 8) (""%string :: l) by [].
rewrite -[(size l).+1]/(size (""%string :: l)); elim: (_ :: l) => //= s [|t u] IH /andP [h al]; first by rewrite lc.
by rewrite len_app lc // [len (app "" _)]/= IH //= -mulnS.
Qed.
Lemma width b (gs : seq (seq (string * string))) w : all (fun g => size g <= b) gs -> 8 * b.+1 <= w ->
  all (fun x => (len x.1 <= 8) && (len x.2 <= 8)) (flatten gs) -> all (fun l => len l <= w) (flatten [seq block g | g <- gs]).
Proof.
move=> + bw; elim: gs => //= g gs IH /andP [gb al]; rewrite all_cat => /andP [/allP h1 h2]; rewrite IH // andbT.
have le : 8 * (size g).+1 <= w by apply: leq_trans bw; rewrite leq_mul2l ltnS.
rewrite !len_row ?size_map ?le //; apply/allP => s /mapP [x /h1 /andP [a1 a2] ->] //.
Qed.
Lemma sizes_le n k b : 0 < k -> n <= b * k -> all (fun x => x <= b) (sizes n k).
Proof.
move=> k0 h; have d : n %/ k <= b by rewrite -(mulnK b k0) leq_div2r.
rewrite /sizes all_cat !all_nseq d !orbT andbT; case: (posnP (n %% k)) => [_|r0] //=.
rewrite ltn_divLR //; rewrite ltn_neqAle h andbT; apply/negP => /eqP e; by move: r0; rewrite e modnMl.
Qed.
Theorem C138_width cols msg names vals lines : size vals = size names -> 8 < cols ->
  all (fun s => len s <= 8) names -> all (fun s => len s <= 8) vals -> pmdm_report (Some cols) msg names vals = Ok (msg :: lines) ->
  all (fun l => len l <= (if 8 %| cols then cols else cols + 7)) lines.
Proof.
move=> e c8 an av; rewrite reportE // => -[<-]; set k := (size names * 8 %/ (cols - 8)).+1; rewrite all_cat andbT /=.
pose b := if 8 %| cols then (cols - 8) %/ 8 else ((cols - 8) %/ 8).+1.
have c0 : 0 < cols - 8 by rewrite subn_gt0.
have lt : size names * 8 < k * (cols - 8) by rewrite /k ltn_ceil.
apply: (@width b).
- apply: split_small; apply: sizes_le => //.
  rewrite -(leq_pmul2r (isT : 0 < 8)) ltnW // (leq_trans lt) // mulnAC mulnC leq_mul2r /b; apply/orP; right.
  case: ifP => h; first by rewrite divnK // dvdn_subr // ltnW.
  by rewrite ltnW // ltn_ceil.
- have c9 : cols = (cols - 8) %/ 8 * 8 + (cols - 8) %% 8 + 8 by rewrite -divn_eq subnK // ltnW.
  rewrite /b; case: ifP => h.
    have h2 : 8 %| cols - 8 by rewrite dvdn_subr // ltnW.
    by rewrite mulnS mulnC divnK // subnKC // ltnW.
  have h2 : 0 < (cols - 8) %% 8 by rewrite lt0n; apply/negP => z; move: h; rewrite -(subnK (ltnW c8)) dvdn_addl // /dvdn z.
  rewrite {2}c9; move: h2; case: ((cols - 8) %% 8) => // r _; move: (_ %/ _) => q.
  by rewrite mulnC !mulSn addnA addnC -!addnA leq_add2l addSn ltnS leq_addl.
rewrite split_flatten; last by rewrite sizes_sum // size_zip e minnn.
apply/allP => x xi; apply/andP; split.
  by apply: (allP an); rewrite -(@unzip1_zip _ _ names vals) ?e // map_f.
by apply: (allP av); rewrite -(@unzip2_zip _ _ names vals) ?e // map_f.
Qed.

(** C138: without a terminal, or with one of at most eight columns, it fails if there are parameters *)
Theorem C138_fails msg names vals : names <> [::] ->
  [/\ pmdm_report None msg names vals = Err IndexError, pmdm_report (Some 8) msg names vals = Err ZeroDivErr &
      forall cols, cols < 8 -> pmdm_report (Some cols) msg names vals = Err ValueError].
Proof.
move=> n0; split=> // cols c8; rewrite /pmdm_report /lnum c8 ltn_eqF //=.
by case: names n0.
Qed.
Print Assumptions C138_table.
Print Assumptions C138_width.
Print Assumptions C138_fails.

Module Ex.
Local Open Scope string_scope.
Example table : pmdm_report (Some 24) "msg" [:: "theta"; "sigma"; "rho"] [:: "0.7"; "1.5"; "0.857"] =
  Ok [:: "msg"; "           theta   sigma"; "             0.7     1.5"; ""; "             rho"; "           0.857"; ""; ""].
Proof. by []. Qed.
Definition names34 : seq string := nseq 34 "rho".
Definition longest (r : res (seq string)) : nat := if r is Ok l then foldr maxn 0 [seq len s | s <- l] else 0.
End Ex.

(** C138, violated: the table is to be readable, but its lines can be wider than the terminal *)
Theorem C138_refuted : exists cols names vals lines, [/\ size vals = size names, 8 < cols,
  all (fun s => len s <= 8) (names ++ vals), pmdm_report (Some cols) "msg" names vals = Ok lines & has (fun l => cols < len l) lines].
Proof.
exists 100, Ex.names34, Ex.names34; eexists; split; [by []|by []|by vm_compute|by rewrite reportE|by vm_compute].
Qed.
(** C138, violated: if there are more values than parameters, some are dropped and others stand below the wrong name *)
Theorem C138_values_refuted : exists lines, pmdm_report (Some 24) "msg" [:: "a"; "b"; "c"]%string [:: "1"; "2"; "3"; "4"; "5"]%string = Ok lines /\
  row [:: "c"]%string \in lines /\ row [:: "4"]%string \in lines /\ ~~ has (fun l => l == row [:: "3"]%string) lines.
Proof. by eexists; split; [reflexivity | split; [|split]; vm_compute]. Qed.
Print Assumptions C138_refuted.
Print Assumptions C138_values_refuted.
