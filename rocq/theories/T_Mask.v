(** Property theorems C130: the table [mask]. *)
Set Warnings "-all".
From Coq Require Import String.
From mathcomp Require Import all_ssreflect all_algebra.
From Verif Require Import PyBase PyStr M_FindLk M_Engine M_Tools P_Tools4 M_Cls T_Cls M_Mask S_Mask.
Set Implicit Arguments. Unset Strict Implicit. Unset Printing Implicit Defensive.
Import GRing.Theory Num.Theory.
Local Open Scope ring_scope.

Lemma renamed_nth ob shks i : uniq ob -> size ob = size shks -> (i < size ob)%N ->
  renamed ob shks (nth EmptyString ob i) = nth EmptyString shks i.
Proof.
rewrite /renamed => un sz li.
suff -> : [seq x.2 | x <- zip ob shks & x.1 == nth EmptyString ob i] = [:: nth EmptyString shks i] by [].
elim: ob shks i un sz li => [|a ob IH] [|b shks] [|i] //= /andP[na un] [sz] li.
  rewrite eqxx /=; congr (_ :: _).
  elim: ob shks na {un IH li sz} => [|c ob IH] [|e shks] //=; rewrite inE negb_or => /andP[ac na].
  by rewrite eq_sym (negbTE ac); apply: IH.
case: eqP => [e|_]; last exact: IH.
by rewrite e mem_nth in na.
Qed.

Lemma nth_In (A : Type) (x0 : A) (s : seq A) i : (i < size s)%N -> List.In (nth x0 s i) s.
Proof. by elim: s i => //= a s IH [|i] li; [left|right; apply: IH]. Qed.

Section Mask.
Variables (F : realFieldType) (L : eqType) (loc : seq L -> option string -> option string -> res (seq nat)) (dl : L).
Variables (obs shks : seq string) (s0 s1 : dst F L) (df : pyobj F L) (start stop : option string) (d : frame F L).
Hypothesis Hd : load_data loc dl obs s0 df start stop = (s1, Ok d).

Lemma data_cols : [/\ data s1 = Some d, [seq c.1 | c <- cols d] = obs & forall c, List.In c (cols d) -> size c.2 = size (rows d)].
Proof.
have [f [idx [_ _ [h1 _] [h2 _] _]]] := C69_complete Hd; split=> //.
move: Hd; rewrite /load_data; case: df => // f'; case: ifP => // _; case: loc => // idx'; case: ifP => // _ [_ <-] c /=.
by move=> /List.in_map_iff[c0 [<- _]] /=; rewrite !size_map.
Qed.

Section Equal.
Hypothesis uo : uniq obs.
Hypothesis sz : size obs = size shks.

(** C130.  If data have been loaded and there are as many shocks as observables, mask is a table without values, with one column per
    shock, in the order and under the names of the shocks, and one row per date of the data except the last. *)
Theorem C130_table : exists mk, mask (data s1) (Some obs) shks = Ok mk /\
  [/\ [seq c.1 | c <- cols mk] = shks, rcons (rows mk) (last dl (rows d)) = rows d \/ rows d = [::] /\ rows mk = [::] &
      cols mk = [seq (s, nseq (size (rows mk)) None) | s <- shks]].
Proof.
have [-> hn hs] := data_cols; eexists; split; first by reflexivity.
have E : [seq (c.1, take (size (rows d)).-1 c.2) | c <- [seq (renamed obs shks c.1, c.2) | c <- [seq (c.1, nseq (size c.2) None) | c <- cols d]]] =
    [seq (s, nseq (size (take (size (rows d)).-1 (rows d))) (None : option F)) | s <- shks].
  rewrite -!map_comp.
  apply: (@eq_from_nth _ (EmptyString, [::])); first by rewrite !size_map -sz -hn size_map.
  move=> i; rewrite size_map => li.
  have li' : (i < size obs)%N by rewrite -hn size_map.
  rewrite (nth_map (EmptyString, [::])) // (nth_map EmptyString) -?sz //=; congr (_, _).
    by rewrite -(renamed_nth uo sz li') -hn (nth_map (EmptyString, [::])).
  rewrite (hs (nth (EmptyString, [::]) (cols d) i)); last exact: nth_In.
  by rewrite take_nseq ?leq_pred // size_take; case: (rows d) => //= a r; rewrite ltnSn.
rewrite /= E; split=> //; first by rewrite -map_comp -[RHS]map_id; apply: eq_map.
case: (rows d) => [|a r]; first by right.
by left; rewrite [in RHS]lastI /= (_ : take (size r) (a :: r) = belast a r) // lastI -cats1 -(size_belast a r) take_size_cat.
Qed.

(** Used as it is, the table changes nothing, *)
Theorem C130_neutral mk P (setpar : P -> res (tmodel F)) op linear par eps st : mask (data s1) (Some obs) shks = Ok mk ->
  size eps = size (rows mk) -> (forall e, e \in eps -> size e = size shks) ->
  sim_run setpar op (Some (as_array mk)) linear par eps st = sim_run setpar op None linear par eps st.
Proof.
move=> Hm se sr; have [mk' [Hm' [_ _ cE]]] := C130_table; move: Hm'; rewrite Hm => -[e]; subst mk'.
suff E : mask_eps op (as_array mk) eps = Ok eps by rewrite /sim_run E.
rewrite mask_eps_ok size_map size_iota se eqxx /=.
have ga i : (i < size eps)%N -> nth [::] (as_array mk) i = nseq (size shks) (None : option F).
  move=> li; rewrite (nth_map 0%N) ?size_iota -?se // nth_iota -?se // cE -map_comp.
  by apply: (@eq_from_nth _ None) => [|j]; rewrite size_map ?size_nseq // => lj; rewrite (nth_map EmptyString) //= !nth_nseq; do 2?case: ifP.
have -> : all (fun x => size x.1 == size x.2) (zip (as_array mk) eps).
  apply/(all_nthP ([::], [::])) => i; rewrite size_zip size_map size_iota se minnn => li.
  by rewrite nth_zip ?size_map ?size_iota ?se //= ga ?se // size_nseq (sr (nth [::] eps i)) // mem_nth ?se.
congr Ok; apply: (@eq_from_nth _ [::]); first by rewrite size_map size_zip size_map size_iota se minnn.
move=> i; rewrite size_map size_zip size_map size_iota se minnn => li.
rewrite (nth_map ([::], [::])) ?size_zip ?size_map ?size_iota ?se ?minnn // nth_zip ?size_map ?size_iota ?se //= ga ?se //.
rewrite -(sr (nth [::] eps i)) ?mem_nth ?se //; elim: (nth [::] eps i) => //= y l ->.
by [].
Qed.

(** and a value entered in it under the name of a shock, for a date, changes this shock in the period of this position, and nothing
    else. *)
Theorem C130_entry mk op eps t s x : mask (data s1) (Some obs) shks = Ok mk ->
  size eps = size (rows mk) -> (forall e, e \in eps -> size e = size shks) ->
  exists eps', mask_eps op (as_array (put mk t s x)) eps = Ok eps' /\ size eps' = size eps /\
    forall i j, (i < size eps)%N -> (j < size shks)%N -> nth 0 (nth [::] eps' i) j =
      if (nth dl (rows mk) i == t) && (nth EmptyString shks j == s) then op x (nth 0 (nth [::] eps i) j) else nth 0 (nth [::] eps i) j.
Proof.
move=> Hm se sr; have [mk' [Hm' [_ _ cE]]] := C130_table; move: Hm'; rewrite Hm => -[e]; subst mk'.
set M := as_array (put mk t s x).
have sM : size M = size eps by rewrite size_map size_iota se.
have ga i : (i < size eps)%N -> nth [::] M i = [seq (if (nth dl (rows mk) i == t) && (n == s) then Some x else None) | n <- shks].
  move=> li; rewrite /M /as_array (nth_map 0%N) ?size_iota /= -?se // nth_iota -?se // cE -!map_comp.
  apply: eq_map => n /=; rewrite add0n; case: (n == s); rewrite ?andbF ?andbT; last by rewrite nth_nseq; case: ifP.
  rewrite (nth_map (dl, None)) ?size_zip ?size_nseq ?minnn -?se // nth_zip ?size_nseq //= nth_nseq; by case: (_ == t) => //; case: ifP.
have al : all (fun z => size z.1 == size z.2) (zip M eps).
  apply/(all_nthP ([::], [::])) => i; rewrite size_zip sM minnn => li.
  by rewrite nth_zip ?sM //= ga // size_map (sr (nth [::] eps i)) // mem_nth.
rewrite mask_eps_ok sM eqxx al /=; eexists; split; first by reflexivity.
split=> [|i j li lj]; first by rewrite size_map size_zip sM minnn.
have sj : size (nth [::] eps i) = size shks by rewrite (sr (nth [::] eps i)) // mem_nth.
rewrite (nth_map ([::], [::])) ?size_zip ?sM ?minnn // nth_zip ?sM //= ga //.
rewrite (nth_map (None, 0)) ?size_zip ?size_map ?sj ?minnn // nth_zip ?size_map ?sj //= (nth_map EmptyString) //.
by case: ifP.
Qed.
End Equal.

(** If there are more observables than shocks, or fewer (several of both), the table cannot be used: simulate raises. *)
Theorem C130_unequal mk P (setpar : P -> res (tmodel F)) op linear par eps st : mask (data s1) (Some obs) shks = Ok mk ->
  size obs <> size shks -> (1 < size obs)%N -> (1 < size shks)%N -> (1 < size eps)%N -> (forall e, e \in eps -> size e = size shks) ->
  sim_run setpar op (Some (as_array mk)) linear par eps st = Err ValueError.
Proof.
have [-> hn hs] := data_cols => -[<-] ne _ _ e1 sr; rewrite /sim_run mask_eps_ok.
case: ifP => // /andP[/eqP es /(all_nthP ([::], [::])) al].
have := al 0%N; rewrite size_zip es minnn => /(_ (ltnW e1)); rewrite nth_zip //= => /eqP.
rewrite (sr (nth [::] eps 0)) ?mem_nth 1?ltnW //.
have -> : nth [::] (as_array (Frame (take (size (rows d)).-1 (rows d)) [seq (c.1, take (size (rows d)).-1 c.2) | c <- [seq (renamed obs shks c.1, c.2) | c <- [seq (c.1, nseq (size c.2) None) | c <- cols d]]])) 0 = 
   [seq nth None c.2 0 | c <- [seq (c.1, take (size (rows d)).-1 c.2) | c <- [seq (renamed obs shks c.1, c.2) | c <- [seq (c.1, nseq (size c.2) (None : option F)) | c <- cols d]]]].
  move: es; rewrite /as_array size_map size_iota /= => es; rewrite (nth_map 0%N) ?size_iota ?es 1?ltnW // nth_iota ?es 1?ltnW //.
by rewrite !size_map => e; case: ne; rewrite -hn size_map.
Qed.
End Mask.
Print Assumptions C130_table.
Print Assumptions C130_neutral.
Print Assumptions C130_entry.
Print Assumptions C130_unequal.

(** Without data, or before the model is initialised, there is no table. *)
Theorem C130_missing (F L : Type) (dt : option (frame F L)) ob shks : dt = None \/ ob = None -> mask dt ob shks = Err AttributeError.
Proof. by case=> ->; case: dt. Qed.
Print Assumptions C130_missing.

(** The names of the table, whatever the numbers of observables and shocks are: the shocks in their order, as many as there are
    observables; observables beyond the number of shocks keep their own names. *)
Lemma renamed_beyond ob shks i : uniq ob -> (size shks <= i < size ob)%N -> renamed ob shks (nth EmptyString ob i) = nth EmptyString ob i.
Proof.
move=> un /andP[h1 h2]; rewrite /renamed.
suff -> : [seq x.2 | x <- zip ob shks & x.1 == nth EmptyString ob i] = [::] by [].
elim: ob shks i un h1 h2 => [|a ob IH] [|b shks] [|i] //= /andP[na un] h1 h2.
by case: eqP => [e|_]; [rewrite e mem_nth in na | apply: IH].
Qed.
Lemma renamed_short ob shks i : uniq ob -> (i < size ob)%N -> (i < size shks)%N ->
  renamed ob shks (nth EmptyString ob i) = nth EmptyString shks i.
Proof.
rewrite /renamed => un li li'.
suff -> : [seq x.2 | x <- zip ob shks & x.1 == nth EmptyString ob i] = [:: nth EmptyString shks i] by [].
elim: ob shks i un li li' => [|a ob IH] [|b shks] [|i] //= /andP[na un] li li'.
  rewrite eqxx /=; congr (_ :: _).
  elim: ob shks na {un IH li li'} => [|c ob IH] [|e shks] //=; rewrite inE negb_or => /andP[ac na].
  by rewrite eq_sym (negbTE ac); apply: IH.
case: eqP => [e|_]; last exact: IH.
by rewrite e mem_nth in na.
Qed.
Theorem C130_names (F : realFieldType) (L : eqType) (loc : seq L -> option string -> option string -> res (seq nat)) (dl : L) obs shks
    (s0 s1 : dst F L) df start stop d mk : load_data loc dl obs s0 df start stop = (s1, Ok d) -> uniq obs ->
  mask (data s1) (Some obs) shks = Ok mk -> [seq c.1 | c <- cols mk] = take (size obs) shks ++ drop (size shks) obs.
Proof.
move=> Hd un; have [-> hn hs] := data_cols Hd => -[<-] /=; rewrite -!map_comp.
have -> : [seq (renamed obs shks c.1) | c <- cols d] = [seq renamed obs shks n | n <- obs] by rewrite -hn -map_comp.
apply: (@eq_from_nth _ EmptyString).
  rewrite size_map size_cat size_drop size_take; case: ltnP => h; last by rewrite addnC subnK.
  by rewrite (eqP (ltnW h : (size obs - size shks == 0)%N)) addn0.
move=> i; rewrite size_map => li; rewrite (nth_map EmptyString) // nth_cat size_take.
have [h|h] := ltnP (size obs) (size shks).
  by rewrite li nth_take // renamed_short // (ltn_trans li).
have [h'|h'] := ltnP i (size shks); first by rewrite nth_take // renamed_short.
by rewrite nth_drop subnKC // renamed_beyond // h' li.
Qed.
Print Assumptions C130_names.
(** three observables and one shock *)
Example C130_names_met : let d := Frame [:: 1950; 1951]%N [:: ("y", [:: Some 1; Some 2]); ("p", [:: Some 4; Some 5]); ("r", [:: Some 7%:R; Some 8%:R])]%string : frame rat nat in
  (load_data (fun r a b => Ok (iota 0 (size r))) 0%N [:: "y"; "p"; "r"]%string (Dst None None None) (DataFrame d) None None).2 = Ok d /\
  mask (Some d) (Some [:: "y"; "p"; "r"]%string) [:: "e"]%string = Ok (Frame [:: 1950]%N [:: ("e", [:: None]); ("p", [:: None]); ("r", [:: None])]%string).
Proof. by []. Qed.

(** three dates, two observables and two shocks: the second shock of the second date is doubled *)
Example C130_example : let d := Frame [:: 1950; 1951; 1952]%N [:: ("y", [:: Some 1; Some 2; Some 3]); ("p", [:: Some 4; Some 5; Some 6])]%string : frame rat nat in
  [/\ (load_data (fun r a b => Ok (iota 0 (size r))) 0%N [:: "y"; "p"]%string (Dst None None None) (DataFrame d) None None).2 = Ok d,
      mask (Some d) (Some [:: "y"; "p"]%string) [:: "e_y"; "e_p"]%string =
        Ok (Frame [:: 1950; 1951]%N [:: ("e_y", [:: None; None]); ("e_p", [:: None; None])]%string) &
      as_array (put (Frame [:: 1950; 1951]%N [:: ("e_y", [:: None; None]); ("e_p", [:: None; None])]%string) 1951%N "e_p"%string (2%:R : rat)) =
        [:: [:: None; None]; [:: None; Some 2%:R]]].
Proof. by []. Qed.
Print Assumptions C130_example.
