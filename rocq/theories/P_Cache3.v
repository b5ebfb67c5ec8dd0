(** Proofs about saving and loading. *)
Set Warnings "-all".
From Coq Require Import String.
From mathcomp Require Import all_ssreflect.
From Verif Require Import PyBase PyStr M_Cache S_Cache P_Cache.
Set Implicit Arguments. Unset Strict Implicit. Unset Printing Implicit Defensive.
Local Open Scope string_scope.
Local Open Scope seq_scope.

Section Proofs.
Variables P U : Type.
Variable parse : string -> option string -> res P.
Variable mod_name : P -> string.
Variable other_text : val P U -> string.
Hypothesis text_bytes : forall v, other_text v <> "None".
Notation dict := (dict P U). Notation content := (content P U).
Notation held := (held parse mod_name other_text).
Notation load := (load parse other_text).

Lemma dget_map (d : dict) (g : val P U -> val P U) k : dget [seq (kv.1, g kv.2) | kv <- d] k = omap g (dget d k).
Proof. by elim: d => [|[k1 v1] d IH] //=; case: ifP. Qed.
Lemma sumn_dget (d : dict) k v : dget d k = Some v -> (vsize v <= sumn [seq vsize kv.2 | kv <- d])%N.
Proof.
elim: d => [|[k1 v1] l IH] //=; case: ifP => _; first by case=> ->; apply: leq_addr.
by move/IH=> h; apply: leq_trans h (leq_addl _ _).
Qed.

Definition conv (v : val P U) := if str_of other_text v == "None" then VNone else v.
Lemma convE v : conv v = reread v.
Proof. by rewrite /conv; case: v => //= [x|v|p a d]; case: eqP => // /text_bytes. Qed.

Lemma savedE p a (d : dict) k : dget (saved (p, a, d)) k =
  if (k \in [:: "description"; "backend_file"; "tune"; "name"]) && dget a k then dget a k else dget d k.
Proof.
rewrite /saved; set ks := [:: _; _; _; _].
have un : uniq ks by [].
elim: ks un d => [|k' ks IH] //= /andP [nk un] d; rewrite IH // inE.
case: (eqVneq k k') => [->|ne] /=.
  by rewrite (negbTE nk) /=; case ea: (dget a k') => [v|] /=; rewrite ?dget_dset ?eqxx.
case: ifP => // _; case: (dget a k') => [v|] //; by rewrite dget_dset eq_sym (negbTE ne).
Qed.

(** what the library relies on *)
Record good (t : string) (ft : option string) (c : content) : Prop := Good {
  g_parse : parse t ft = Ok c.1.1;
  g_name : exists n, dget c.1.2 "name" = Some (VStr n);
  g_yaml : exists y, dget c.2 "yaml_raw" = Some y /\ str_of other_text y = t;
  g_ff : match ft with Some f => exists y, dget c.2 "ffile_raw" = Some y /\ str_of other_text y = f | None => dget c.2 "ffile_raw" = None end;
  g_dump : match dget c.2 "model_dump" with Some (VDump p _ _) => p = c.1.1 | None => True | _ => False end;
  g_data : match dget c.1.2 "data" with Some x => dget c.2 "data" = Some (VPick x) | None => dget c.2 "data" = None end }.

Lemma res_neq k k' : ~~ reserved k -> reserved k' -> (k == k') = false.
Proof. by move=> h1 h2; apply/negP=> /eqP e; move: h1; rewrite e h2. Qed.

Lemma good_saved t ft c : good t ft c -> good t ft (save_meta c).
Proof.
case: c => [[p a] d] [/= g1 [n g2] g3 g4 g5 g6].
have e k : k \notin [:: "description"; "backend_file"; "tune"; "name"] -> dget (saved (p, a, d)) k = dget d k.
  by move=> nk; rewrite savedE (negbTE nk).
split; rewrite /save_meta /=; rewrite ?e //; first by exists n.
Qed.

Lemma load_good t ft force hit c path : good t ft c -> sound_cache parse hit ->
  if has_data c then exists p a d x,
     [/\ load force hit (saved c) path = Ok (p, a, d), good t ft (p, a, d), p = c.1.1 /\ dget a "data" = dget c.1.2 "data" /\ dget a "name" = dget c.1.2 "name",
         forall k, k != "model_dump" -> dget d k = omap (@reread P U) (dget (saved c) k)
       & dget c.1.2 "data" = Some x /\ exists2 a', (vsize x <= sumn [seq vsize kv.2 | kv <- a'])%N & dget d "model_dump" = Some (VDump p a' (saved c))]
  else load force hit (saved c) path = Err KeyError.
Proof.
move=> /good_saved; case: c => [[p a] d]; rewrite /save_meta; set S := saved _; rewrite /has_data /=.
move=> [/= g1 [n g2] [y [g3 gt]] g4 g5 g6] sc; rewrite /load g3 /=.
have gn : dget S "name" = Some (VStr n) by rewrite /S savedE /= g2.
set X := (X in rbind X _).
have [a0 eX] : exists a0, X = Ok (p, a0).
  have HR : exists a0, match hit (str_of other_text y) (Some match dget S "ffile_raw" with Some v => str_of other_text v | None => "None" end) with
     | Some (p1, a1, _) => Ok (p1, a1)
     | None => rbind (parse (str_of other_text y) (match dget S "ffile_raw" with Some v => Some (str_of other_text v) | None => None end)) (fun p => Ok (p, [::]))
     end = Ok (p, a0) :> res (P * dict).
    have fe : match dget S "ffile_raw" with Some v => Some (str_of other_text v) | None => None end = ft.
      by case: ft g4 {g1} => [f [z [-> <-]]|->].
    rewrite gt fe; case: ft g4 fe g1 => [f [z [-> ef]]|->] _ g1 /=.
      rewrite ef; case eh: hit => [[[p1 a1] d1]|]; last by rewrite g1; exists [::].
      by have := sc.1 _ _ _ _ _ eh; rewrite g1 => -[->]; exists a1.
    by rewrite sc.2 g1; exists [::].
  rewrite /X; case: (force) => //; case ed: (dget S "model_dump") g5 => [[|s|x|v|p1 a1 d1]|] //= ->.
  by exists a1.
rewrite eX /= gn /=; case ed: (dget a "data") g6 => [x|] /= g6; last by rewrite g6.
rewrite g6 /=; do 4!eexists; split; first by reflexivity.
- split=> //=.
  + by exists n; rewrite !dget_dset.
  + by rewrite (dget_map _ conv) dget_dset g3 /=; eexists; split; first reflexivity; rewrite convE; case: (y) gt => //= s <-; case: eqP => [->|].
  + by case: ft g4 {g1} => [f [z [e <-]]|e]; rewrite (dget_map _ conv) dget_dset e //=; eexists; split; first reflexivity; rewrite convE; case: (z) => //= s; case: eqP => [->|].
  + by rewrite (dget_map _ conv) dget_dset /= convE.
  + by rewrite dget_dset (dget_map _ conv) dget_dset /= ?dget_dset /= g6 /= convE.
- by rewrite !dget_dset /= g2.
- by move=> k nk; rewrite (dget_map _ conv) dget_dset eq_sym (negbTE nk); case: (dget _ k) => //= v; rewrite convE.
- split; first by [].
  rewrite (dget_map _ conv) dget_dset /= convE; eexists; last by reflexivity.
  by apply: (@sumn_dget _ "data"); rewrite dget_dset.
Qed.

Lemma held_good c : held c -> exists t ft, good t ft c.
Proof.
elim=> [t ft path c' ep|c' x obs _ [t [ft g]]|p a d k v _ [t [ft g]] nk|p a d k v _ [t [ft g]] nk|c' _ [t [ft g]]|force hit c' path c'' _ [t [ft g]] sc el].
- exists t, ft; move: ep; rewrite /parsed_model; case ep: parse => [p|] //= [<-]; split=> //=; first by exists (mod_name p).
  + by exists (VStr t); case: (ft).
  + by case: (ft) => //= f; exists (VStr f).
  + by rewrite dget_dset.
  + by case: (ft).
- exists t, ft; case: c' g => [[p a] d] [/= g1 g2 g3 g4 g5 g6]; split=> //=; rewrite ?dget_dset //=.
- exists t, ft; case: g => /= g1 g2 g3 g4 g5 g6; split=> //=; rewrite dget_dset ?(res_neq nk) //.
- exists t, ft; case: g => /= g1 g2 g3 g4 g5 g6; split=> //=; rewrite dget_dset ?(res_neq nk) //.
- by exists t, ft; apply: good_saved.
- have := load_good force path g sc; case: ifP => _; last by rewrite el.
  by case=> p [a [d [x [e h _ _ _]]]]; exists t, ft; move: e; rewrite el => -[->].
Qed.

Lemma load_grows t ft force hit c path c' : good t ft c -> sound_cache parse hit -> load force hit (saved c) path = Ok c' ->
  has_data c' /\ dget c'.1.2 "data" = dget c.1.2 "data" /\ exists2 x, dget c.1.2 "data" = Some x & (dump_size c + vsize x < dump_size c')%N.
Proof.
move=> g sc el; have := load_good force path g sc; case: ifP => _; last by rewrite el.
case=> p [a [d [x [e h [_ [h2 _]] _ [ex [a' le ed]]]]]]; move: e; rewrite el => -[->]; rewrite /has_data /= h2 ex; do 2!split=> //; exists x => //.
rewrite {2}/dump_size /= ed /= ltnS addnC; apply: leq_add => //; rewrite /dump_size.
case: c {g el ex ed h h2} => [[p0 a0] d0] /=; case em: (dget d0 _) => [v|] //; by apply: (@sumn_dget _ "model_dump"); rewrite savedE.
Qed.

Lemma cycles_grow n c c' : held c -> cycles parse other_text n c c' ->
  [/\ held c', dget c'.1.2 "data" = dget c.1.2 "data",
      (0 < n)%N -> has_data c & forall x, dget c.1.2 "data" = Some x -> (dump_size c + n * (vsize x).+1 <= dump_size c')%N].
Proof.
move=> hc cy; elim: cy hc => {n c c'} [c h|n force hit c path c1 c2 _ IH sc el hc]; first by split=> // x _; rewrite addn0.
have [h1 h2 _ h4] := IH hc; have h3 : held c2 by apply: held_load el.
have [t [ft g]] := held_good h1; have [_ [e [x ex lt]]] := load_grows g sc el.
have ec : dget c.1.2 "data" = Some x by rewrite -h2.
split=> //; first by rewrite e.
  by move=> _; rewrite /has_data ec.
move=> y; rewrite ec => -[<-]; apply: leq_trans lt; rewrite mulSn addnCA -addnS addnC; by rewrite leq_add2r; apply: h4.
Qed.
End Proofs.
