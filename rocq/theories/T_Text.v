(** C113-C115: from the text of a model file to the declared model, its parameters and its priors. *)
Set Warnings "-all".
From Coq Require Import String Ascii.
From mathcomp Require Import all_ssreflect all_algebra.
From Verif Require Import PyBase PyStr M_Parser S_ParserEx P_Parser P_Parser6 M_Params S_Params M_Text S_Text P_Text P_Text2 T_Parser.
Set Implicit Arguments. Unset Strict Implicit. Unset Printing Implicit Defensive.
Local Open Scope seq_scope.

(** * C113: what a file declares *)
Section C113.
Variable F : fieldType.
Variable ptree : text -> option (rawexpr F).
(** the text [0] is the number *)
Hypothesis zero : ptree (chars "0") = Some (Cst 0%R).

(** a file is accepted exactly if it declares a model (names without spaces, one constraint [variable = expression], equations with
    at most one equality sign) which the parser of equations accepts; and it declares one model only *)
Theorem C113_declared (f : rawfile F) p : parse_file ptree f = Ok (Some p) <-> exists m, declares ptree f m /\ parse m = Ok p.
Proof. exact: fileP. Qed.
Theorem C113_one_model (f : rawfile F) m m' : declares ptree f m -> declares ptree f m' -> m = m'.
Proof. exact: declares_fun. Qed.

(** a name with a space inside, e.g. after a forgotten comma *)
Theorem C113_space (f : rawfile F) v : v \in f_vars f -> " "%char \in v -> parse_file ptree f = Err SyntaxErr.
Proof. exact: file_space. Qed.

(** an accepted file with another line under [constraint] that is not of the form [name = expression], with two, or with no line *)
Theorem C113_constraint_form (f : rawfile F) p s : parse_file ptree f = Ok p -> (forall v q, ~ constrains ptree s v q) ->
  parse_file ptree (with_constraints f [:: s]) = Err SyntaxErr.
Proof.
move=> /(fileQ) [nsp _ _ _] n; have [e1 e2 e3 e4] := wcE f [:: s].
rewrite /parse_file e1 e2 e3 (negPf nsp); case e: constraint => [[v q]|x]; last by rewrite (constraint_err e).
by have [/n] := (constraintP _ _ _ _ _).1 e.
Qed.
Theorem C113_constraint_number (f : rawfile F) p c : parse_file ptree f = Ok p ->
  ((1 < size c)%N -> parse_file ptree (with_constraints f c) = Err NotImplementedErr) /\
  (size c = 0%N -> parse_file ptree (with_constraints f c) = Err IndexError).
Proof.
move=> /(fileQ) [nsp _ _ _]; have [e1 e2 e3 e4] := wcE f c; rewrite /parse_file e1 e2 e3 (negPf nsp).
by case: c {e1 e2 e3 e4} => [|s [|s' c]].
Qed.
(** a file without a constraint is never turned into a model with one *)
Theorem C113_unconstrained (f : rawfile F) p : constraint_lines f = None -> parse_file ptree f <> Ok (Some p).
Proof. by move=> h /(fileP zero) [m [[_ _ _ _ _ _ [s [e _]] _] _]]; rewrite e in h. Qed.

(** an accepted file with more or fewer equations *)
Theorem C113_number (f : rawfile F) p l : parse_file ptree f = Ok p -> size l <> size (model_lines f) ->
  parse_file ptree (with_equations f l) = Err SyntaxErr.
Proof.
move=> /(fileQ) [nsp hc sz _] ns; have [e1 e2 e3 e4] := weE f l; rewrite /parse_file e1 e2 e3 e4 (negPf nsp).
have -> : ((size l).+1 == size (f_vars f)) = false by apply/eqP => h; apply: ns; move: h; rewrite -sz => -[].
by case: hc => [->|[s [x [-> /= ->]]]].
Qed.
(** an accepted file with another text in place of an equation: a second equality sign raises ValueError, text that is no equation SyntaxError *)
Theorem C113_double_equality (f : rawfile F) p pre s post s' : parse_file ptree f = Ok p -> model_lines f = pre ++ s :: post ->
  (1 < count_mem "="%char s')%N -> parse_file ptree (with_equations f (pre ++ s' :: post)) = Err ValueError.
Proof. by move=> ef ee /(equation_many ptree (f_ctx f)); apply: (file_bad_eq ef ee). Qed.
Theorem C113_no_equation (f : rawfile F) p pre s post s' : parse_file ptree f = Ok p -> model_lines f = pre ++ s :: post ->
  (count_mem "="%char s' <= 1)%N -> (forall q, ~ reads ptree s' q) -> parse_file ptree (with_equations f (pre ++ s' :: post)) = Err SyntaxErr.
Proof. by move=> ef ee h n; apply: (file_bad_eq ef ee); apply: equation_bad. Qed.
(** spelling [= 0] out makes no difference *)
Theorem C113_zero (f : rawfile F) pre s post : "="%char \notin s -> model_lines f = pre ++ s :: post ->
  parse_file ptree (with_equations f (pre ++ (s ++ chars "=0") :: post)) = parse_file ptree f.
Proof.
move=> ns; rewrite mlE => ee; have [e1 e2 e3 e4] := weE f (pre ++ (s ++ chars "=0") :: post).
rewrite /parse_file e1 e2 e3 e4 ee !size_cat /=.
have -> : mapM (equation ptree (f_ctx f)) (pre ++ (s ++ chars "=0") :: post) = mapM (equation ptree (f_ctx f)) (pre ++ s :: post).
  have H : equation ptree (f_ctx f) (s ++ chars "=0") = equation ptree (f_ctx f) s.
    rewrite /equation (negPf ns) (_ : _ \in _ = true); last by rewrite mem_cat /= inE eqxx orbT.
    by rewrite (split_at _ ns).
  by elim: pre {ee e1 e2 e3 e4} => [|x pre IH]; rewrite ?cat0s ?cat_cons /= ?H // IH.
by rewrite /observables /with_equations /=; case: (f_eqs f).
Qed.
End C113.
Print Assumptions C113_declared. Print Assumptions C113_one_model. Print Assumptions C113_space. Print Assumptions C113_constraint_form.
Print Assumptions C113_constraint_number. Print Assumptions C113_unconstrained. Print Assumptions C113_number.
Print Assumptions C113_double_equality. Print Assumptions C113_no_equation. Print Assumptions C113_zero.

(** * C114: layout of the file *)
Lemma norm_same t t' : normalize t = normalize t' -> same_file t t'.
Proof. by move=> e F ptree yaml; rewrite /parse_text e. Qed.
Definition tail_of (t : text) : text :=
  replace (chars "   ~ ") (chars "   - ") (replace (nl :: chars "  ~ ") (nl :: chars "  - ") (replace (nl :: chars " ~ ") (nl :: chars " - ") t)).
Lemma normE t : normalize t = tail_of (join_lines (clean t)). Proof. by []. Qed.

(** a text without any of the characters [^ ; @ ~] is loaded as it is *)
Theorem C114_verbatim (F : fieldType) (ptree : text -> option (rawexpr F)) (yaml : text -> res (rawfile F)) t :
  [/\ "^"%char \notin t, ";"%char \notin t, "@"%char \notin t & "~"%char \notin t] ->
  parse_text ptree yaml t = rbind (yaml t) (parse_file ptree).
Proof.
move=> [h1 h2 h3 h4]; rewrite /parse_text normE clean_id // join_id // /tail_of.
by rewrite (replace_none _ _ (x := "~"%char) _ h4) // (replace_none _ _ (x := "~"%char) _ h4) // (replace_none _ _ (x := "~"%char) _ h4).
Qed.
(** [^] is Python's power wherever it stands; semicolons are ignored wherever they stand *)
Theorem C114_power a b : same_file (a ++ chars "^" ++ b) (a ++ chars "**" ++ b).
Proof. by apply: norm_same; rewrite !normE !clean_cat. Qed.
Theorem C114_semicolon a b : same_file (a ++ chars ";" ++ b) (a ++ b).
Proof. by apply: norm_same; rewrite !normE !clean_cat. Qed.

(** an [@] at the end of a line joins it to the next one with a space between (except for a doubled mark before an empty line) *)
Theorem C114_continuation a b : (suffix (chars "@") (bare a) -> ~~ prefix [:: nl] (bare b)) ->
  same_file (a ++ "@"%char :: nl :: b) (a ++ " "%char :: b) /\ same_file (a ++ "@"%char :: " "%char :: nl :: b) (a ++ " "%char :: b).
Proof.
move=> H; have J t : join_lines (clean a ++ "@"%char :: t) = join_lines (clean a) ++ join_lines ("@"%char :: t) by apply: join_cat.
have K : join_lines (clean a ++ " "%char :: clean b) = join_lines (clean a) ++ " "%char :: join_lines (clean b).
  rewrite join_cat //.
  by move=> h; rewrite pf1 pf2 andTb eqxx andTb clean_hat hat_nl; apply: H; rewrite -hat1 -clean_hat.
have cE x t : x \notin [:: "^"; ";"]%char -> clean (x :: t) = x :: clean t.
  by move=> nx; rewrite (clean_cat [:: x]) clean_id //; apply: contra nx; rewrite !inE => /eqP <-; rewrite eqxx ?orbT.
by split; apply: norm_same; rewrite !normE !clean_cat !cE // K J jlE ?pf1 ?pf2 ?pf1 ?eqxx ?andTb ?drop1 //= ?drop0.
Qed.

(** [~] in place of the list marker [-], behind at least one space at the beginning of a line and followed by a space and the item *)
Theorem C114_marker k a x b : ~~ continued a -> x \notin [:: " "; "@"; ";"; "^"; nl]%char ->
  same_file (a ++ nl :: nseq k.+1 " "%char ++ "~"%char :: " "%char :: x :: b) (a ++ nl :: nseq k.+1 " "%char ++ "-"%char :: " "%char :: x :: b).
Proof.
rewrite /continued negb_or => /andP [c1 c2]; rewrite !inE !negb_or => /and5P [x1 x2 x3 x4 x5].
apply: norm_same; rewrite !normE.
have H m : m \in [:: "~"; "-"]%char -> join_lines (clean (a ++ nl :: nseq k.+1 " "%char ++ m :: " "%char :: x :: b)) =
   join_lines (clean a) ++ nl :: nseq k.+1 " "%char ++ m :: " "%char :: x :: join_lines (clean b).
  move=> mi; have Ha : nl :: nseq k.+1 " "%char ++ m :: " "%char :: x :: b = (nl :: nseq k.+1 " "%char ++ [:: m; " "%char; x]) ++ b by rewrite /= -catA.
  have nin y : y \in [:: "^"; ";"; "@"]%char -> y \notin (nl :: nseq k.+1 " "%char ++ [:: m; " "%char; x]).
    move=> yi; have [y1 [y2 [y3 [y4 y5]]]] : y != nl /\ y != " "%char /\ y != x /\ y != "~"%char /\ y != "-"%char.
      move: yi; rewrite !inE => /or3P [] /eqP ->; rewrite [_ == x]eq_sym; by rewrite ?x2 ?x3 ?x4.
    rewrite inE mem_cat mem_nseq !inE !negb_or y1 negb_and y2 y3 orbT !andbT /=.
    by move: mi; rewrite !inE => /orP [] /eqP ->.
  rewrite Ha !clean_cat (clean_id (t := _ :: _)) ?nin // join_cat.
  - rewrite join_cat; first by rewrite (join_id (nin "@"%char isT)) cat_cons -catA.
    + move=> /suffixP [u e]; exfalso; have := nin "@"%char isT; by rewrite e mem_cat inE eqxx orbT.
    + move=> /suffixP [u e]; exfalso; have := nin "@"%char isT; by rewrite e mem_cat inE eqxx orbT.
  - by rewrite clean_hat hat1 (negPf c1).
  - by rewrite clean_hat hat2 (negPf c2).
rewrite !H // /tail_of -![nl :: chars " ~ "]/(pat 1 "~"%char) -![nl :: chars " - "]/(pat 1 "-"%char).
rewrite -![nl :: chars "  ~ "]/(pat 2 "~"%char) -![nl :: chars "  - "]/(pat 2 "-"%char) !mark ?(eqxx, andbT, andbF) //; try by rewrite ?inE; case: ifP.
case: k {H} => [|[|k]] //.
by rewrite -/p3 -/q3 !mark3.
Qed.
(** without a space before it the [~] stays; inside of a line three spaces and [~] become a minus *)
Theorem C114_marker_unindented_refuted :
  ~ (forall a x b, ~~ continued a -> x \notin [:: " "; "@"; ";"; "^"; nl]%char ->
     same_file (a ++ nl :: "~"%char :: " "%char :: x :: b) (a ++ nl :: "-"%char :: " "%char :: x :: b)).
Proof.
move=> /(_ [::] "x"%char [::] isT isT) /(_ [fieldType of rat] (fun _ => None) (fun t => if "~"%char \in t then Err KeyError else Err TypeError)).
by rewrite /parse_text (_ : "~"%char \in normalize _ = true) // (_ : "~"%char \in normalize _ = false).
Qed.
Theorem C114_tilde_inside : same_file (chars "x   ~ y") (chars "x   - y").
Proof. exact: norm_same. Qed.
Print Assumptions C114_verbatim. Print Assumptions C114_power. Print Assumptions C114_semicolon. Print Assumptions C114_continuation.
Print Assumptions C114_marker. Print Assumptions C114_marker_unindented_refuted. Print Assumptions C114_tilde_inside.

(** * C115: parameters and priors *)
Section C115.
Variable F : realFieldType.
Notation rawfile := (rawfile F).

(** every parameter holds the number written in the file; the priors are those of the file, in its order, each at the position of its
    parameter: the tables have the form that C45-C55 and C112 start from *)
Theorem C115_tables (f : rawfile) M : static_of f = Ok M -> uniq [seq p.1 | p <- f_pars f] -> (forall l, f_prior f = Some l -> uniq l) ->
  [/\ wf_model M, priors_ok M, forall n x, (n, x) \in f_pars f -> n \in c_names M /\ value M (c_fix M) n = x,
      c_prior_names M = f_prior f & c_pfnames M = f_oths f].
Proof.
rewrite /static_of => eM un up.
have vals n x : (n, x) \in f_pars f -> n \in [seq p.1 | p <- f_pars f] /\ nth 0%R [seq p.2 | p <- f_pars f] (index n [seq p.1 | p <- f_pars f]) = x.
  move=> h; split; first by apply/mapP; exists (n, x).
  elim: (f_pars f) un h => //= -[a b] l IH /= /andP [na ul]; rewrite inE => /orP [/eqP [-> ->]|h]; first by rewrite eqxx.
  case: eqP => [e|_]; last by rewrite /= IH.
  by move: na; rewrite e (_ : n \in _) //; apply/mapP; exists (n, x).
have sz : size [seq p.2 | p <- f_pars f] = size [seq p.1 | p <- f_pars f] by rewrite !size_map.
case ep: (f_prior f) eM up => [l|]; last by move=> [<-] _; split.
case em: mapM => [idx|] //= [<-] /(_ l (erefl _)) ul.
have [E al] : idx = [seq index n [seq p.1 | p <- f_pars f] | n <- l] /\ {subset l <= [seq p.1 | p <- f_pars f]}.
  elim: l idx em {ep ul} => [|n l IH] idx /=; first by move=> [<-].
  case: ifP => // ni /=; case em: mapM => [idx'|] // [<-]; have [-> sub] := IH _ em; split=> // y.
  by rewrite inE => /orP [/eqP ->|/sub].
split=> //; split=> //=; rewrite E; split; last split.
- rewrite map_inj_in_uniq // => a b ai bi e; rewrite -(nth_index ""%string (al a ai)) -(nth_index ""%string (al b bi)); by rewrite e.
- by rewrite all_map; apply/allP => n ni /=; rewrite index_mem al.
- congr Some; rewrite -map_comp; rewrite -[LHS]map_id; apply/eq_in_map => n ni /=; by rewrite nth_index // al.
Qed.
(** accepted exactly if every prior is on a parameter of the file; otherwise ValueError *)
Theorem C115_accepted (f : rawfile) :
  (exists M, static_of f = Ok M) <-> (forall l n, f_prior f = Some l -> n \in l -> n \in [seq p.1 | p <- f_pars f]).
Proof.
rewrite /static_of; case: (f_prior f) => [l|]; last by split=> // _; eexists.
split.
  move=> [M]; case em: mapM => [idx|] //= _ l' n [<-].
  elim: l idx em => [|m l IH] idx //=; case: ifP => // mi /=; case em: mapM => [idx'|] // _.
  by rewrite inE => /orP [/eqP ->|] //; apply: IH em.
move=> /(_ l _ (erefl _)) H; have [idx ->] : exists idx, mapM (fun n => (assert* n \in [seq p.1 | p <- f_pars f] else ValueError in Ok (index n [seq p.1 | p <- f_pars f]))%py) l = Ok idx.
  elim: l H => [|m l IH] H; first by exists [::].
  have [|idx e] := IH; first by move=> n ni; apply: H; rewrite inE ni orbT.
  by rewrite /= (H m) ?mem_head //= e; eexists.
by eexists.
Qed.
Theorem C115_rejected (f : rawfile) l n : f_prior f = Some l -> n \in l -> n \notin [seq p.1 | p <- f_pars f] -> static_of f = Err ValueError.
Proof.
rewrite /static_of => -> ni nn; rewrite (_ : mapM _ l = Err ValueError) //.
elim: l ni => //= m l IH; rewrite inE => /orP [/eqP <-|ni]; first by rewrite (negPf nn).
by case: ifP => //= _; rewrite IH.
Qed.
Theorem C115_no_estimation (f : rawfile) : f_prior f = None ->
  exists M, static_of f = Ok M /\ c_prior_arg M = None.
Proof. by rewrite /static_of => ->; eexists. Qed.
End C115.
Print Assumptions C115_tables. Print Assumptions C115_accepted. Print Assumptions C115_rejected. Print Assumptions C115_no_estimation.

(** * Examples *)
Module TextEx.
Import GRing.Theory.
Local Open Scope ring_scope.
Local Open Scope string_scope.
Local Open Scope seq_scope.
(** the file of S_ParserEx *)
Definition grammar : seq (text * rawexpr rat_fieldType) :=
  [:: (chars "x ", n_ "x"); (chars " a*x(-2) - r + 1", Add (Sub (Mul (n_ "a") (l_ "x" (-2))) (n_ "r")) (Cst 1));
      (chars "z ", n_ "z"); (chars " e(-1) + z(2)", Add (l_ "e" (-1)) (l_ "z" 2));
      (chars "r ", n_ "r"); (chars " 2*x + e", Add (Mul (Cst 2%:Q) (n_ "x")) (n_ "e"));
      (chars "x + 3", Add (n_ "x") (Cst 3%:Q)); (chars "0", Cst 0)].
Definition ptree (t : text) : option (rawexpr rat_fieldType) := ohead [seq g.2 | g <- grammar & g.1 == t].
Definition f : rawfile rat_fieldType := RawFile [:: chars "x"; chars "z"; chars "r"] [:: ("a", 1 / 2%:Q)] [:: "e"] [::]
  (Entries (Some [:: chars "x = a*x(-2) - r + 1"; chars "z = e(-1) + z(2)"]) (Some [:: chars "r = 2*x + e"]) [:: ("o", chars "x + 3")] [::])
  (Some [:: "a"]).
Example zero : ptree (chars "0") = Some (Cst 0). Proof. reflexivity. Qed.
Lemma decl : declares ptree f ex_m.
Proof.
split; try reflexivity.
- by move=> v; rewrite !inE => /or3P [] /eqP ->.
- split; last split; last exact: I.
    by left; exists (chars "x "), (chars " a*x(-2) - r + 1"); split; reflexivity.
  by left; exists (chars "z "), (chars " e(-1) + z(2)"); split; reflexivity.
- exists (chars "r = 2*x + e"); split; first reflexivity.
  exists (chars "r "), (chars " 2*x + e"), (chars "r"); split; [reflexivity..| |by split; reflexivity].
  by exists [::], (chars " "); split=> // c w [[<- _]|] //; case: w => [[<-]|a []].
- by split; [split; reflexivity|exact: I].
Qed.
Example accepted : parse_file ptree f = Ok (Some ex_p).
Proof. by apply/(C113_declared zero); exists ex_m; split; [exact: decl|exact: ex_parse]. Qed.
Example two_signs : parse_file ptree (with_equations f [:: chars "x = a*x(-2) = 1"; chars "z = e(-1) + z(2)"]) = Err ValueError.
Proof. exact: (C113_double_equality (pre := [::]) (s' := chars "x = a*x(-2) = 1") accepted (erefl _) isT). Qed.
Example not_an_equation : parse_file ptree (with_equations f [:: chars "x = a*x(-2) - r + 1"; chars "z = e(-1) +"]) = Err SyntaxErr.
Proof.
apply: (C113_no_equation zero (pre := [:: chars "x = a*x(-2) - r + 1"]) (s' := chars "z = e(-1) +") accepted (erefl _) isT).
move=> q [[l [r [es n1 n2 h1 h2]]]|[]] //.
have := (split_two _ l r).2 (And3 es n1 n2); rewrite (_ : split_eq _ = [:: chars "z "; chars " e(-1) +"]); last reflexivity.
by move=> [_ er]; rewrite -er in h2.
Qed.
Example no_constraint_line : parse_file ptree (with_constraints f [:: chars "2*x + e"]) = Err SyntaxErr.
Proof.
apply: (C113_constraint_form accepted) => v q [l [r [n [e _ _ _ _]]]].
by have : "="%char \in chars "2*x + e" by rewrite e mem_cat inE eqxx orbT.
Qed.
Example two_constraints : parse_file ptree (with_constraints f [:: chars "r = 2*x + e"; chars "x = 0"]) = Err NotImplementedErr.
Proof. exact: ((C113_constraint_number [:: chars "r = 2*x + e"; chars "x = 0"] accepted).1 isT). Qed.
Example missing_equation : parse_file ptree (with_equations f [:: chars "z = e(-1) + z(2)"]) = Err SyntaxErr.
Proof. by apply: (C113_number accepted). Qed.
Example forgotten_comma : parse_file ptree (RawFile [:: chars "x z"; chars "r"] (f_pars f) (f_shks f) (f_oths f) (f_eqs f) (f_prior f)) = Err SyntaxErr.
Proof. exact: (@C113_space _ _ (RawFile [:: chars "x z"; chars "r"] (f_pars f) (f_shks f) (f_oths f) (f_eqs f) (f_prior f)) (chars "x z") isT isT). Qed.
Example layout : normalize (chars "y = x^2; + @" ++ nl :: chars " z" ++ nl :: chars "    ~ item") =
  chars "y = x**2 +   z" ++ nl :: chars "    - item".
Proof. reflexivity. Qed.
Example marker_met : ~~ continued (chars "list:") /\ "i"%char \notin [:: " "; "@"; ";"; "^"; nl]%char. Proof. by []. Qed.
Example continuation_met : suffix (chars "@") (bare (chars "y = x + ")) -> ~~ prefix [:: nl] (bare (chars "z")). Proof. by []. Qed.
Definition g : rawfile [realFieldType of rat] := f.
Example tables : exists M, static_of g = Ok M /\ [/\ wf_model M, priors_ok M & c_prior_arg M = Some [:: 0%N]].
Proof.
have [M eM] : exists M, static_of g = Ok M by apply/C115_accepted => l n [<-]; rewrite !inE.
exists M; split=> //; have [] := C115_tables eM isT; first by move=> l [<-].
by move=> h1 h2 _ _ _; split=> //; case: eM => <-.
Qed.
End TextEx.
