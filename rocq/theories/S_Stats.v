(** Specification vocabulary for C73-C76, C92, C93. *)
Set Warnings "-all".
From Coq Require Import String.
From mathcomp Require Import all_ssreflect all_algebra.
From Verif Require Import PyBase PyStr M_FindLk M_Engine S_Engine M_Tools S_Tools M_Stats.
Set Implicit Arguments. Unset Strict Implicit. Unset Printing Implicit Defensive.
Import GRing.Theory Num.Theory Order.TTheory.
Local Open Scope ring_scope.

Section S.
Variable F : realFieldType.
(** the part of the constrained variable of this period that is due to the state [v] if the spell (l,k) is expected *)
Definition constraint_part (m : tmodel F) (v : 'cV[F]_(dq m)) (lk : int * int) : F :=
  if btab m 0%N `|lk.1|%N `|lk.2|%N is Some b then (b.1 *m v) 0 0 else 0.
(** in every period of the simulation from [init] with the shocks [es] in which a spell with k > 0 is expected, that part is not zero *)
Definition attributable (m : tmodel F) (linear : bool) (init : seq F) (es : seq (seq F)) : Prop :=
  forall xs fl, sim_loop m linear init es = Ok (xs, fl) -> forall t, (t < size es)%N ->
    (nth (0, 0) [seq x.2 | x <- xs] t).2 <> 0 ->
    constraint_part (inp_vec m (nth [::] (init :: [seq x.1 | x <- xs]) t) (nth [::] es t)) (nth (0, 0) [seq x.2 | x <- xs] t) <> 0.
(** state of period [t] of the simulation *)
Definition sim_state (m : tmodel F) (linear : bool) (init : seq F) (es : seq (seq F)) (t : nat) : seq F :=
  if sim_loop m linear init es is Ok r then nth [::] (init :: [seq x.1 | x <- r.1]) t else [::].
(** a draw whose model [m] is solved, with shapes that fit *)
Definition good_draw (m : tmodel F) (init : seq F) (es : seq (seq F)) : Prop :=
  (exists sm f omg lam, @solved F m sm f omg lam) /\ (nq m <= size init)%N /\ all (fun e => size e == neps m) es.
(** the entry for variable [x] in the last of [horizon] periods of the response to a shock [e] of a given size in period 0, from state [st] *)
Definition irf_end (m : tmodel F) (horizon : nat) (linear : bool) (st : seq F) (e : string) (sz : F) (x : nat) : F :=
  if irfs m (fun _ : unit => Err GenericException) (fun _ => false) [:: STriple e sz 0] None (Some st) horizon linear (KBool false) None
    is Ok (IRows (r :: rs) _ _) then nth 0 (last r rs).1 x else 0.
(** the samples: shocks, state and parameters of all draws and periods *)
Definition gf_data (P : Type) (d : edict F P) : seq (seq F) * seq (seq F) * seq (option P) :=
  (flatten (e_resid d), flatten [seq take (size x).-1 x | x <- odflt [::] (e_means d)],
   flatten [seq nseq (size (head [::] (e_resid d))) p | p <- e_pars d]).
(** sum over the drawn samples of the squared differences between the responses to the shock of the sample and to none *)
Definition gain (P : Type) (md : option P -> tmodel F) (d : edict F P) (draws : seq nat) (horizon : nat) (linear : bool)
    (names : seq string) (ei x : nat) : F :=
  let: (R, St, Q) := gf_data d in
  \sum_(i <- draws) (irf_end (md (nth None Q i)) horizon linear (nth [::] St i) (nth EmptyString names ei) (nth 0 (nth [::] R i) ei) x -
                     irf_end (md (nth None Q i)) horizon linear (nth [::] St i) (nth EmptyString names ei) 0 x) ^+ 2.
(** [md] gives the model used for a sample: the current one if no parameters are recorded, else the one set_par makes of them *)
Definition models_of (P : Type) (setpar : P -> res (tmodel F)) (m : tmodel F) (d : edict F P) (md : option P -> tmodel F) : Prop :=
  (all (fun o => ~~ isSome o) (e_pars d) /\ md None = m) \/
  (all (fun o => isSome o) (e_pars d) /\ forall p m', setpar p = Ok m' -> md (Some p) = m').
End S.
