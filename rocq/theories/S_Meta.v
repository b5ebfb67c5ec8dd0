(** Vocabulary of the properties that relate two runs of the model. *)
Set Warnings "-all".
From Coq Require Import String.
From mathcomp Require Import all_ssreflect all_algebra.
From Verif Require Import PyBase PyStr M_FindLk M_Engine S_Engine M_GenSys M_Tools S_Tools.
Set Implicit Arguments. Unset Strict Implicit. Unset Printing Implicit Defensive.
Import GRing.Theory Num.Theory Order.TTheory.
Local Open Scope ring_scope.

Section Units.
Variable F : realFieldType.
(** a vector in other units *)
Definition scale (c : F) (v : seq F) : seq F := [seq c * x | x <- v].
(** a shock with its size in other units; the period stays *)
Definition scale_shock (c : F) (a : shockarg F) : shockarg F :=
  match a with SName s => SPair s c | SPair s x => SPair s (c * x) | STriple s x t => STriple s (c * x) t end.
(** the same equations with the bound [x_bar] multiplied by [c] *)
Definition scale_bound (m n e : nat) (c : F) (u : usys F m n e) : usys F m n e :=
  USys (AA0 u) (BB0 u) (CC0 u) (DD0 u) (fb0 u) (fc0 u) (fd0 u) (cv u) (c * x_bar u).
(** the constant of the constrained regime multiplied by [c] *)
Definition scale_h (dq dp : nat) (c : F) (sm : sysmats F dq dp) : sysmats F dq dp :=
  SysMats (mS sm) (mT sm) (mV sm) (mW sm) (c *: mh sm).
(** the model object [m] with other tables and another bound *)
Definition with_bound (m : tmodel F) (t : table (cell F (dq m) (dp m))) (b : btable F (dq m)) (x : F) : tmodel F :=
  @TM F (dq m) (dp m) t b (lmx m) (kmx m) x (shk m) (nobs m) (nsv m) (hxp m) (hxq m) (hxc m) (vvs m).
(** results in other units; durations, flags and exceptions stay *)
Definition scale_out (c : F) (r : res (seq F * (int * int) * nat)) : res (seq F * (int * int) * nat) :=
  rmap (fun r => (scale c r.1.1, r.1.2, r.2)) r.
Definition scale_irfs (c : F) (r : res (irf_res F)) : res (irf_res F) :=
  rmap (fun r => match r with
                 | IRows rows err mult => IRows [seq (scale c x.1, x.2) | x <- rows] err mult
                 | INan => INan _ end) r.
Definition scale_sim (c : F) (r : res (seq (seq F) * seq (int * int) * nat)) : res (seq (seq F) * seq (int * int) * nat) :=
  rmap (fun r => ([seq scale c x | x <- r.1.1], r.1.2, r.2)) r.
End Units.

(** From the state [v] on, the linear model is expected to stay above the bound in this and the next [lmx m] periods. *)
Definition clear_of_bound (F : realFieldType) (m : tmodel F) (sm : sysmats F (dq m) (dp m)) (f : cnst F (dq m) (dp m))
    (omg : 'M[F]_(dp m, dq m)) (v : 'cV[F]_(dq m)) : Prop :=
  forall q p, announced_by sm omg 0 0 q p -> q 0%N = v ->
    forall s, (s <= lmx m)%N -> xb m < notional (fq1 f) (fp1 f) (fq0 f) q p s.

(** two lists of shocks agree before period [n] *)
Definition agree_before (F : realFieldType) (n : nat) (sl sl' : seq (string * F * int)) : Prop :=
  forall t, (t < n)%N -> [seq a <- sl | a.2 == t%:Z] = [seq a <- sl' | a.2 == t%:Z].

(** a shock [d] periods later *)
Definition later (F : realFieldType) (d : nat) (a : shockarg F) : shockarg F :=
  match a with SName s => STriple s 1 d%:Z | SPair s x => STriple s x d%:Z | STriple s x t => STriple s x (t + d%:Z) end.
