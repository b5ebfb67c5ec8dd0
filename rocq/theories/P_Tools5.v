(** Impulse responses with given expectations and shocks in any period, and the flag for further equilibria. *)
Set Warnings "-all".
From Coq Require Import String PeanoNat.
From mathcomp Require Import all_ssreflect all_algebra.
From Verif Require Import PyBase PyStr M_FindLk M_Engine S_Engine P_Loops P_Engine2 P_Engine3 P_Engine4 M_Tools S_Tools P_Tools P_Tools2 P_Tools3 T_Engine.
Set Implicit Arguments. Unset Strict Implicit. Unset Printing Implicit Defensive.
Import GRing.Theory Num.Theory Order.TTheory.
Local Open Scope ring_scope.

Section Run.
Variable F : realFieldType.
Variable m : tmodel F.
Variables (sm : sysmats F (dq m) (dp m)) (f : cnst F (dq m) (dp m)).
Variables (omg : 'M[F]_(dp m, dq m)) (lam : 'M[F]_(dq m)).
Hypothesis sd : solved sm f omg lam.
Hypothesis un : uniq (shk m).
Variable sl : seq (string * F * int).
Variable st0 : seq F.
Hypothesis sz0 : (nq m <= size st0)%N.

Notation step := (irf_step m (size (vvs m)) (lmx m) (kmx m) sl).
Notation run sk fo T := (irf_run m (size (vvs m)) (Some st0) T (lmx m) (kmx m) sl false sk fo).

Lemma elapse00 : elapse (0, 0) = (0, 0). Proof. by rewrite /elapse eqxx sub0r /Order.max. Qed.
Lemma remaining00 t : remaining 0 0 t = (0%N, 0%N). Proof. by rewrite /remaining; case: t. Qed.
Lemma fixes_force sk l k : fixes sk l k -> default_force sk -> l = 0%N /\ k = 0%N.
Proof.
case: sk => //= [b [-> _ _]|a b [-> ->] /andP [/eqP [->] /eqP [->]]|n [ne _ _] h] //.
by rewrite h in ne.
Qed.

Lemma step_given l k sk s t : (l <= lmx m)%N -> (k <= kmx m)%N -> fixes sk l k -> known_at (shk m) sl t -> (nq m <= size (i_st s))%N ->
  (l = 0%N -> k = 0%N -> i_lk s = (0, 0)) ->
  exists x mu, [/\ step false sk (default_force sk) s t = Ok (IS x (lkz (remaining l k t)) (i_err s) mu ((x, lkz (remaining l k t)) :: i_rows s)) &
    t_func m (i_st s) (Some (shocks_at (shk m) sl t)) (KTuple (remaining l k t).1 (remaining l k t).2) false = Ok (x, lkz (remaining l k t), 0%N)].
Proof.
move=> ll kk fx kn sz h0; have [l1 k1] := remaining_le l k t.
have {l1} ll1 := leq_trans l1 ll; have {k1} kk1 := leq_trans k1 kk.
have [c Ec] := cells_ok sd ll1 kk1.
have Et := t_func_forced (dims sd) sz (size_sh m sl t) ll1 kk1 Ec.
case fa: (forced_at m sl (default_force sk) t).
  have [e1 e2] : l = 0%N /\ k = 0%N by apply: (fixes_force fx); case/and3P: fa.
  rewrite e1 e2 remaining00 in ll1 kk1 Ec Et *.
  have el : elapse (i_lk s) = lkz (0%N, 0%N) by rewrite h0 // elapse00.
  have [mu ->] := step_held sd un sk kn sz fa el ll1 kk1 Ec.
  by do 2 eexists; split; [reflexivity | rewrite Et].
exists (cell_row c (inp_vec m (i_st s) (shocks_at (shk m) sl t))), (i_mult s); split=> //.
rewrite /irf_step shock_vecE // kn /= -/(forced_at m sl (default_force sk) t) fa /= (set_k_at_remaining _ fx) /=.
rewrite !lez_nat ll1 kk1 /= (short_st sd) t_func_block ?(sd_st sd) // Et /=.
by rewrite size_cell_row ?(sd_eps sd) // (sd_vv sd) eqxx PeanoNat.Nat.lor_0_r.
Qed.

Lemma run_given l k sk T : (l <= lmx m)%N -> (k <= kmx m)%N -> fixes sk l k -> (forall t, (t < T)%N -> known_at (shk m) sl t) ->
  exists2 r, run sk (default_force sk) T = Ok r &
    [/\ i_err r = 0%N, i_st r = last st0 [seq x.1 | x <- rev (i_rows r)], size (i_rows r) = T, i_lk r = (if T is T'.+1 then lkz (remaining l k T') else (0, 0)) &
     forall t, (t < T)%N -> 
        t_func m (nth [::] (st0 :: [seq x.1 | x <- rev (i_rows r)]) t) (Some (shocks_at (shk m) sl t)) (KTuple (remaining l k t).1 (remaining l k t).2) false
        = Ok (nth ([::], (0, 0)) (rev (i_rows r)) t, 0%N) /\ (nth ([::], (0, 0)) (rev (i_rows r)) t).2 = lkz (remaining l k t)].
Proof.
move=> ll kk fx; elim: T => [|T IH] kn; first by eexists; [reflexivity | split].
have [r E [e1 e2 e3 e4 H]] := IH (fun t h => kn t (ltnW h)).
have h0 : l = 0%N -> k = 0%N -> i_lk r = (0, 0).
  by rewrite e4 => -> ->; case: (T) => // T'; rewrite remaining00.
have [x [mu [Es Et]]] := step_given ll kk fx (kn T (ltnSn T)) (run_size sd sz0 E) h0.
rewrite (runS) E [rbind _ _]/= Es; eexists; first by [].
split=> //=; [by rewrite rev_cons map_rcons last_rcons | by rewrite e3 | ].
move=> t; rewrite rev_cons ltnS leq_eqVlt => /orP [/eqP ->|lt].
  rewrite nth_rcons size_rev e3 ltnn eqxx /=; split=> //.
  suff -> : nth [::] (st0 :: [seq x0.1 | x0 <- rcons (rev (i_rows r)) (x, lkz (remaining l k T))]) T = i_st r by [].
  rewrite map_rcons -rcons_cons nth_rcons /= size_map size_rev e3 ltnSn e2.
  by rewrite -[last _ _]/(last st0 (st0 :: _)) -nth_last /= size_map size_rev e3; apply: set_nth_default; rewrite /= size_map size_rev e3.
have [h1 h2] := H t lt; rewrite nth_rcons size_rev e3 lt; split=> //.
rewrite -h1; congr t_func.
by rewrite map_rcons -rcons_cons nth_rcons /= size_map size_rev e3 ltnS ltnW.
Qed.

Lemma step_mult sk fo s t s' : known_at (shk m) sl t -> step false sk fo s t = Ok s' ->
  i_mult s' <-> i_mult s \/ forced_at m sl fo t /\
     exists r, t_func m (i_st s) (Some (shocks_at (shk m) sl t)) KNone false = Ok r /\ r.1.2 <> elapse (i_lk s).
Proof.
move=> kn; rewrite /irf_step shock_vecE // kn /= -/(forced_at m sl fo t) (short_st sd) t_func_block ?(sd_st sd) //.
case: forced_at => /=.
  case: (t_func m (i_st s) _ KNone false) => [r|] //=; case: ifP => // _; case: t_func => [[[x lk] fl]|] //=; case: eqP => //= _ [<-] /=.
  split=> [/orP [->|/eqP ne]|[->|[_ [r' [[<-] ne]]]]] //; [by left | by right; split=> //; exists r |].
  by apply/orP; right; apply/eqP.
case: ifP => // _; case: t_func => [[[x lk] fl]|] //=; case: eqP => //= _ [<-] /=.
by split=> [->|[->|[]]] //; left.
Qed.

Lemma run_st sk fo T r : run sk fo T = Ok r -> i_st r = nth [::] (st0 :: [seq x.1 | x <- rev (i_rows r)]) T /\
  i_lk r = nth (0, 0) ((0, 0) :: [seq x.2 | x <- rev (i_rows r)]) T.
Proof.
case: T => [[<-] //|T] E; have [sz H] := run_rows E; have [rt Et e] := H T (ltnSn T); move: Et; rewrite E => -[e0].
rewrite -e0 in e.
by rewrite /= !(nth_map ([::], (0, 0))) ?size_rev ?sz // e.
Qed.

Lemma run_mult sk fo T r : (forall t, (t < T)%N -> known_at (shk m) sl t) -> run sk fo T = Ok r ->
  i_mult r <-> exists t, [/\ (t < T)%N, forced_at m sl fo t & exists y,
     t_func m (nth [::] (st0 :: [seq x.1 | x <- rev (i_rows r)]) t) (Some (shocks_at (shk m) sl t)) KNone false = Ok y /\
     y.1.2 <> elapse (nth (0, 0) ((0, 0) :: [seq x.2 | x <- rev (i_rows r)]) t)].
Proof.
elim: T r => [|T IH] r kn E; first by case: E => <-; split=> // -[t []].
have [r0 E0 Es] := run_prefix E; have {IH} IH := IH _ (fun t h => kn t (ltnW h)) E0.
have [er _] := step_rows Es; have [es el] := run_st E0; have [sz _] := run_rows E0.
have cut A (d : A) (g : seq F * (int * int) -> A) a t : (t <= T)%N ->
    nth d (a :: [seq g x | x <- rev (i_rows r)]) t = nth d (a :: [seq g x | x <- rev (i_rows r0)]) t.
  by move=> le; rewrite er rev_cons map_rcons -rcons_cons nth_rcons /= size_map size_rev sz ltnS le.
have iff := step_mult (kn T (ltnSn T)) Es; rewrite es el in iff.
split.
  case/iff => [/IH [t [lt fa [y [hy ne]]]]|[fa [y [hy ne]]]].
    by exists t; split=> //; [apply: ltnW | exists y; rewrite !cut // ltnW].
  by exists T; split=> //; exists y; rewrite !cut.
case=> t [lt fa [y [hy ne]]]; apply/iff; move: lt; rewrite ltnS leq_eqVlt => /orP [/eqP e|lt].
  by right; rewrite -e; split=> //; exists y; rewrite !cut ?e // in hy ne *; rewrite e in hy *.
left; apply/IH; exists t; split=> //; exists y; rewrite !cut ?(ltnW lt) // in hy ne; by [].
Qed.
End Run.
