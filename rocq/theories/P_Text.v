(** Texts: replacement, splitting. *)
Set Warnings "-all".
From Coq Require Import String Ascii.
From mathcomp Require Import all_ssreflect all_algebra.
From Verif Require Import PyBase PyStr M_Parser M_Text S_Text P_Parser.
Set Implicit Arguments. Unset Strict Implicit. Unset Printing Implicit Defensive.
Local Open Scope seq_scope.

(** one character *)
Lemma replace1 c new t : replace [:: c] new t = flatten [seq if x == c then new else [:: x] | x <- t].
Proof.
rewrite /replace; elim: t => //= x t IH; rewrite prefix0s andbT eq_sym.
by case: eqP => _; rewrite /= IH.
Qed.

Definition clean (t : text) : text := replace (chars ";") [::] (replace (chars "^") (chars "**") t).
Definition ch (x : ascii) : text := if x == "^"%char then chars "**" else if x == ";"%char then [::] else [:: x].
Lemma cleanE t : clean t = flatten [seq ch x | x <- t].
Proof.
rewrite /clean [chars "^"]/= [chars ";"]/= !replace1; elim: t => //= x t IH.
rewrite map_cat flatten_cat IH; congr (_ ++ _); rewrite /ch; by case: eqP => //= _; case: eqP.
Qed.
Lemma clean_cat a b : clean (a ++ b) = clean a ++ clean b.
Proof. by rewrite !cleanE map_cat flatten_cat. Qed.
Lemma clean_id t : "^"%char \notin t -> ";"%char \notin t -> clean t = t.
Proof.
rewrite cleanE; elim: t => //= x t IH; rewrite !inE !negb_or => /andP [n1 /IH h] /andP [n2 /h ->].
by rewrite /ch eq_sym (negPf n1) eq_sym (negPf n2).
Qed.

Lemma rf0 old new y t : replace_from old new 0 (y :: t) =
  if prefix old (y :: t) then new ++ replace_from old new (size old).-1 t else y :: replace_from old new 0 t.
Proof. by []. Qed.
Lemma rfS old new k y t : replace_from old new k.+1 (y :: t) = replace_from old new k t. Proof. by []. Qed.

(** characters which no pattern contains split the text *)
Lemma prefix_sep (old a c : text) x : x \notin old -> prefix old (a ++ x :: c) = prefix old a.
Proof.
elim: old a => [|o old IH] a; first by rewrite !prefix0s.
rewrite inE negb_or => /andP [n1 n2]; case: a => [|y a] /=; first by rewrite eq_sym (negPf n1).
by rewrite IH.
Qed.
Lemma prefix_size_le (T : eqType) (s t : seq T) : prefix s t -> size s <= size t.
Proof. exact: size_prefix. Qed.
Lemma replace_sep_from old new k a x c : x \notin old -> 0 < size old -> k <= size a ->
  replace_from old new k (a ++ x :: c) = replace_from old new k a ++ x :: replace_from old new 0 c.
Proof.
move=> nx so; elim: a k => [|y a IH] [|k] // hk.
- rewrite cat0s rf0 (_ : prefix old (x :: c) = false) //.
  case: old nx so {hk} => //= o old; rewrite inE negb_or => /andP [n1 _] _; by rewrite eq_sym (negPf n1).
- rewrite cat_cons !rf0 -cat_cons prefix_sep //; case: ifP => pf; last by rewrite IH.
  rewrite IH ?catA //; have := prefix_size_le pf; rewrite /=; by case: (size old) so.
- by rewrite cat_cons !rfS IH.
Qed.
Lemma replace_sep old new a x c : x \notin old -> 0 < size old -> replace old new (a ++ x :: c) = replace old new a ++ x :: replace old new c.
Proof. by move=> h1 h2; rewrite /replace replace_sep_from. Qed.
Lemma replace_none old new t : 0 < size old -> (forall x, x \in old -> x \notin t -> replace old new t = t).
Proof.
move=> so x xo; rewrite /replace; elim: t => // y t IH; rewrite inE negb_or => /andP [n1 n2].
rewrite rf0 IH //; case: ifP => // /prefixP [u e]; have : x \in y :: t by rewrite e mem_cat xo.
by rewrite inE (negPf n1) (negPf n2).
Qed.

(** patterns whose first character does not occur again *)
Lemma prefix_head x (o a c : text) : x \notin o -> a != [::] -> prefix (x :: o) (a ++ x :: c) = prefix (x :: o) a.
Proof. by case: a => // y a nx _ /=; rewrite prefix_sep. Qed.
Lemma replace_head_from x o new k a c : x \notin o -> k <= size a ->
  replace_from (x :: o) new k (a ++ x :: c) = replace_from (x :: o) new k a ++ replace_from (x :: o) new 0 (x :: c).
Proof.
move=> nx; elim: a k => [|y a IH] [|k] hk //.
- rewrite cat_cons [in LHS]rf0 [in RHS]rf0 -cat_cons prefix_head //.
  case: ifP => [/prefix_size_le sz|_]; by rewrite IH // ?catA.
- by rewrite cat_cons !rfS; apply: IH.
Qed.
Lemma replace_head x o new a c : x \notin o -> replace (x :: o) new (a ++ x :: c) = replace (x :: o) new a ++ replace (x :: o) new (x :: c).
Proof. by move=> h; rewrite /replace replace_head_from. Qed.
Lemma replace_over x o new a c : x \notin a -> replace (x :: o) new (a ++ c) = a ++ replace (x :: o) new c.
Proof.
rewrite /replace; elim: a => //= y a IH; rewrite inE negb_or => /andP [n1 n2]; by rewrite (negPf n1) /= IH.
Qed.
Lemma replace_hit old new b : 0 < size old -> replace old new (old ++ b) = new ++ replace old new b.
Proof.
case: old => // x o _; rewrite /replace cat_cons rf0 -cat_cons prefix_prefix.
congr (_ ++ _); rewrite [(size (x :: o)).-1]/=.
have H old k (a c : text) : k = size a -> replace_from old new k (a ++ c) = replace_from old new 0 c by move=> ->; elim: a.
exact: H.
Qed.
Lemma replace_miss x o new c : prefix o c = false -> replace (x :: o) new (x :: c) = x :: replace (x :: o) new c.
Proof. by move=> h; rewrite /replace rf0 (_ : prefix (x :: o) (x :: c) = false) //= eqxx. Qed.

(** ** joining lines *)
Definition jbody (j : text -> text) (c : ascii) (t : text) : text :=
  if c == "@"%char then
    match t with
    | c1 :: t1 => if c1 == nl then " "%char :: j t1
                  else match t1 with
                       | c2 :: t2 => if (c1 == " "%char) && (c2 == nl) then " "%char :: j t2 else c :: j t
                       | [::] => c :: j t
                       end
    | [::] => [:: c]
    end
  else c :: j t.
Lemma jbodyE j c t : j [::] = [::] -> jbody j c t =
  if (c == "@"%char) && prefix [:: nl] t then " "%char :: j (drop 1 t)
  else if (c == "@"%char) && prefix (chars " " ++ [:: nl]) t then " "%char :: j (drop 2 t) else c :: j t.
Proof.
move=> j0; rewrite /jbody; case: (c =P "@"%char) => [->|//]; case: t => [|c1 [|c2 t]]; rewrite /= ?j0 // (eq_sym c1) ?andbT ?andbF.
  by case: eqP.
by rewrite (eq_sym c1) (eq_sym c2) !prefix0s !andbT !drop0.
Qed.
Lemma jlE c t : join_lines (c :: t) =
  if (c == "@"%char) && prefix [:: nl] t then " "%char :: join_lines (drop 1 t)
  else if (c == "@"%char) && prefix (chars " " ++ [:: nl]) t then " "%char :: join_lines (drop 2 t) else c :: join_lines t.
Proof. exact: (@jbodyE join_lines c t (erefl _)). Qed.
Lemma suffix_tl (s a : text) x : suffix s a -> suffix s (x :: a).
Proof. by move=> /suffixP [u ->]; rewrite -cat_cons suffix_suffix. Qed.
Lemma pf1 c (t : text) : prefix [:: nl] (c :: t) = (nl == c). Proof. by rewrite /= prefix0s andbT. Qed.
Lemma pf2 c (t : text) : prefix (chars " " ++ [:: nl]) (c :: t) = (" "%char == c) && prefix [:: nl] t. Proof. by []. Qed.
Lemma join_cat a t : (suffix (chars "@") a -> ~~ prefix [:: nl] t && ~~ prefix (chars " " ++ [:: nl]) t) ->
  (suffix (chars "@ ") a -> ~~ prefix [:: nl] t) -> join_lines (a ++ t) = join_lines a ++ join_lines t.
Proof.
have [n] := ubnP (size a); elim: n a => // n IH [|c a] // sz H1 H2.
have IHa : join_lines (a ++ t) = join_lines a ++ join_lines t.
  by apply: IH => // h; [apply: H1|apply: H2]; apply: suffix_tl.
rewrite cat_cons !jlE; case: (c =P "@"%char) => [ec|_]; last by rewrite !andFb IHa.
rewrite !andTb; case: a sz H1 H2 IHa => [|c1 a] sz H1 H2 IHa.
  by rewrite ec in H1 *; have /andP [/negPf h1 /negPf h2] := H1 (erefl _); rewrite cat0s h1 h2.
rewrite cat_cons !pf1 !pf2; case: (nl =P c1) => [_|_].
  rewrite !drop1 ![behead _]/= cat_cons; congr (_ :: _); apply: IH; first exact: ltnW.
  - by move=> h; apply: H1; do 2 apply: suffix_tl.
  - by move=> h; apply: H2; do 2 apply: suffix_tl.
case: (" "%char =P c1) => [e1|_]; last by rewrite !andFb -cat_cons IHa.
rewrite !andTb; case: a sz H1 H2 IHa => [|c2 a] sz H1 H2 IHa.
  have := H2; rewrite ec -e1 => /(_ (erefl _)) /negPf h; by rewrite cat0s h cat_cons e1 -IHa.
rewrite cat_cons !pf1; case: (nl =P c2) => [_|_]; last by rewrite cat_cons -IHa.
rewrite ![drop 2 _]/= !drop0 cat_cons; congr (_ :: _); apply: IH; first by do 2 apply: ltnW.
- by move=> h; apply: H1; do 3 apply: suffix_tl.
- by move=> h; apply: H2; do 3 apply: suffix_tl.
Qed.
Lemma join_id t : "@"%char \notin t -> join_lines t = t.
Proof. by elim: t => // c t IH; rewrite inE negb_or eq_sym jlE => /andP [/negPf -> /IH ->]. Qed.

Definition hat (t : text) : text := flatten [seq if x == "^"%char then chars "**" else [:: x] | x <- t].
Lemma clean_hat t : clean t = hat (bare t).
Proof.
rewrite cleanE /hat /bare; elim: t => //= x t ->; rewrite /ch; case: (x =P ";"%char) => [->|_] //=.
Qed.
Lemma hat_rcons t x : hat (rcons t x) = hat t ++ (if x == "^"%char then chars "**" else [:: x]).
Proof. by rewrite /hat map_rcons flatten_rcons. Qed.
Lemma suffix_rr (s t : text) x y : suffix (rcons s x) (rcons t y) = (x == y) && suffix s t.
Proof. by rewrite /suffix !rev_rcons. Qed.
Lemma hat1 t : suffix (chars "@") (hat t) = suffix (chars "@") t.
Proof.
case/lastP: t => // t x; rewrite hat_rcons; case: (x =P "^"%char) => [->|_].
  by rewrite -[chars "**"]/(rcons (rcons [::] "*"%char) "*"%char) -!rcons_cat (suffix_rr [::]) (suffix_rr [::]).
by rewrite cats1 !(suffix_rr [::]) !suffix0s.
Qed.
Lemma hat2 t : suffix (chars "@ ") (hat t) = suffix (chars "@ ") t.
Proof.
case/lastP: t => // t x; rewrite hat_rcons; case: (x =P "^"%char) => [->|_].
  by rewrite -[chars "**"]/(rcons (rcons [::] "*"%char) "*"%char) -!rcons_cat (suffix_rr (chars "@")) (suffix_rr (chars "@")).
by rewrite cats1 !(suffix_rr (chars "@")) hat1.
Qed.
Lemma hat_nl t : prefix [:: nl] (hat t) = prefix [:: nl] t.
Proof. by case: t => // x t; rewrite /hat /=; case: (x =P "^"%char) => [->|_]; rewrite //= !prefix0s. Qed.

(** ** list markers *)
Definition pat (j : nat) (m : ascii) : text := nl :: nseq j " "%char ++ [:: m; " "%char].
Lemma prefix_mark j k m (t : text) : m != " "%char ->
  prefix (nseq j " "%char ++ [:: "~"; " "]%char) (nseq k " "%char ++ m :: " "%char :: t) = (k == j) && (m == "~"%char).
Proof.
move=> nm; elim: j k => [|j IH] [|k] //=.
- by rewrite prefix0s andbT eq_sym.
- by rewrite eq_sym (negPf nm).
- by rewrite IH eqSS.
Qed.
Lemma mark j k m x A B : m \in [:: "~"; "-"]%char -> x != nl -> 
  replace (pat j "~"%char) (pat j "-"%char) (A ++ nl :: nseq k " "%char ++ m :: " "%char :: x :: B) =
  replace (pat j "~"%char) (pat j "-"%char) A ++ nl :: nseq k " "%char ++ (if (k == j) && (m == "~"%char) then "-"%char else m) :: " "%char :: x ::
    replace (pat j "~"%char) (pat j "-"%char) B.
Proof.
move=> mi nx; have nsp y : y != " "%char -> y \notin nseq j " "%char by move=> ny; rewrite mem_nseq (negPf ny) andbF.
have nop : nl \notin nseq j " "%char ++ [:: "~"; " "]%char by rewrite mem_cat negb_or nsp.
have nm : m != " "%char by move: mi; rewrite !inE => /orP [] /eqP ->.
have nmn : m != nl by move: mi; rewrite !inE => /orP [] /eqP ->.
rewrite /pat replace_head //; congr (_ ++ _).
have xB : replace (nl :: nseq j " "%char ++ [:: "~"; " "]%char) (nl :: nseq j " "%char ++ [:: "-"; " "]%char) (x :: B) =
   x :: replace (nl :: nseq j " "%char ++ [:: "~"; " "]%char) (nl :: nseq j " "%char ++ [:: "-"; " "]%char) B.
  by apply: (@replace_over nl _ _ [:: x]); rewrite inE eq_sym.
have := prefix_mark j k (x :: B) nm; case: andP => [[/eqP -> /eqP ->]|_] pf.
  rewrite (_ : nl :: nseq j " "%char ++ "~"%char :: " "%char :: x :: B = (nl :: nseq j " "%char ++ [:: "~"; " "]%char) ++ x :: B); last by rewrite /= -catA.
  by rewrite replace_hit // xB /= -catA.
rewrite replace_miss //; congr (_ :: _).
rewrite (_ : nseq k " "%char ++ m :: " "%char :: x :: B = (nseq k " "%char ++ [:: m; " "]%char) ++ x :: B); last by rewrite -catA.
rewrite replace_over ?xB -?catA // mem_cat negb_or mem_nseq andbF !inE negb_or eq_sym nmn; by [].
Qed.
Definition p3 : text := chars "   ~ ".
Definition q3 : text := chars "   - ".
Lemma mark3 k m x A B : m \in [:: "~"; "-"]%char -> x != " "%char ->
  replace p3 q3 (A ++ nl :: nseq k.+3 " "%char ++ m :: " "%char :: x :: B) =
  replace p3 q3 A ++ nl :: nseq k.+3 " "%char ++ "-"%char :: " "%char :: replace p3 q3 (x :: B).
Proof.
move=> mi nx; rewrite replace_sep //; congr (_ ++ _ :: _).
have rn y t : prefix p3 (y :: t) = false -> replace p3 q3 (y :: t) = y :: replace p3 q3 t by move=> h; rewrite /replace rf0 h.
elim: k => [|k IH].
  move: mi; rewrite !inE => /orP [] /eqP ->.
    by rewrite (_ : nseq 3 _ ++ _ = p3 ++ x :: B) // replace_hit.
  rewrite ![nseq 3 _ ++ _]/= rn // rn // rn // rn // rn //=; by rewrite eq_sym (negPf nx).
rewrite (_ : nseq k.+4 " "%char ++ m :: " "%char :: x :: B = " "%char :: (nseq k.+3 " "%char ++ m :: " "%char :: x :: B)) // [LHS]rn.
  by rewrite IH.
by [].
Qed.
