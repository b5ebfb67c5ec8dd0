(** Specification vocabulary for the piecewise-linear model.

    A path is a sequence of states q(0), q(1), … and controls p(0), p(1), …;
    q(s) is the predetermined state at the beginning of period s, p(s) the
    controls of period s.  In an unconstrained period the model is
        S (q(s+1), p(s+1)) = T (q(s), p(s)),
    in a constrained one
        V (q(s+1), p(s+1)) = W (q(s), p(s)) + h. *)
Set Warnings "-all".
From mathcomp Require Import all_ssreflect all_algebra.
Set Implicit Arguments. Unset Strict Implicit. Unset Printing Implicit Defensive.
Local Open Scope ring_scope.

Section Spec.
Variable F : fieldType.
Variables dimq dimp : nat.
Variables S T V W : 'M[F]_(dimq + dimp).
Variable h : 'cV[F]_(dimq + dimp).

Definition unconstrained (q q' : 'cV[F]_dimq) (p p' : 'cV[F]_dimp) : Prop :=
  S *m col_mx q' p' = T *m col_mx q p.
Definition constrained (q q' : 'cV[F]_dimq) (p p' : 'cV[F]_dimp) : Prop :=
  V *m col_mx q' p' = W *m col_mx q p + h.

(** the constraint is expected to bind in periods l, …, l+k-1 *)
Definition binds (l k s : nat) : bool := (l <= s < l + k)%N.

Definition obeys_schedule (l k : nat) (q : nat -> 'cV[F]_dimq) (p : nat -> 'cV[F]_dimp) : Prop :=
  forall s, if binds l k s then constrained (q s) (q s.+1) (p s) (p s.+1)
            else unconstrained (q s) (q s.+1) (p s) (p s.+1).

(** (omg, lam) is a solution of the unconstrained model: p(s) = omg q(s),
    q(s+1) = lam q(s) satisfies the equations for every q(s). *)
Definition linear_solution (omg : 'M[F]_(dimp, dimq)) (lam : 'M[F]_dimq) : Prop :=
  forall q, unconstrained q (lam *m q) (omg *m q) (omg *m (lam *m q)).

(** expectations (l,k) after s further periods *)
Definition remaining (l k s : nat) : nat * nat :=
  if (s <= l)%N then ((l - s)%N, k) else (0%N, (k - (s - l))%N).

(** a path follows a family of affine decision rules, indexed by (l,k) *)
Definition rule : Type :=
  ('M[F]_(dimp, dimq) * 'cV[F]_dimp * ('M[F]_dimq * 'cV[F]_dimq))%type.

Definition follows (rules : nat -> nat -> rule) (l k : nat)
    (q : nat -> 'cV[F]_dimq) (p : nat -> 'cV[F]_dimp) : Prop :=
  forall s, let: (pm, pt, (qm, qt)) := rules (remaining l k s).1 (remaining l k s).2 in
    p s = pm *m q s + pt /\ q s.+1 = qm *m q s + qt.

(** the notional value of the constrained variable in a period *)
Definition notional (fq1 : 'rV[F]_dimq) (fp1 : 'rV[F]_dimp) (fq0 : 'rV[F]_dimq)
    (q : nat -> 'cV[F]_dimq) (p : nat -> 'cV[F]_dimp) (s : nat) : F :=
  (fp1 *m p s + fq1 *m q s.+1 + fq0 *m q s) 0 0.
End Spec.

Section Announced.
Variable F : fieldType.
Variables dimq dimp : nat.

(** [(q,p)] is the path announced by the pair (l,k): it obeys the regime
    schedule and is on the saddle path of the linear model from period l+k on *)
Definition announced (S T V W : 'M[F]_(dimq + dimp)) (h : 'cV[F]_(dimq + dimp))
    (omg : 'M[F]_(dimp, dimq)) (l k : nat)
    (q : nat -> 'cV[F]_dimq) (p : nat -> 'cV[F]_dimp) : Prop :=
  obeys_schedule S T V W h l k q p /\ forall s, (l + k <= s)%N -> p s = omg *m q s.

(** [N l k s] is the notional value of the constrained variable in period [s] of
    the (l,k) path announced from the state [q0] *)
Definition notional_on (S T V W : 'M[F]_(dimq + dimp)) (h : 'cV[F]_(dimq + dimp))
    (omg : 'M[F]_(dimp, dimq)) (fq1 : 'rV[F]_dimq) (fp1 : 'rV[F]_dimp) (fq0 : 'rV[F]_dimq)
    (l_max k_max : nat) (q0 : 'cV[F]_dimq) (N : nat -> nat -> nat -> F) : Prop :=
  forall l k q p, (l <= l_max)%N -> (k <= k_max)%N ->
    announced S T V W h omg l k q p -> q 0%N = q0 ->
    forall s, N l k s = notional fq1 fp1 fq0 q p s.
End Announced.
