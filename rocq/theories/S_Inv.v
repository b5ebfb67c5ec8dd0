(** Vocabulary for "the way the equations are written does not matter". *)
Set Warnings "-all".
From mathcomp Require Import all_ssreflect all_algebra.
From Verif Require Import PyBase M_Parser M_Engine M_GenSys.
Set Implicit Arguments. Unset Strict Implicit. Unset Printing Implicit Defensive.
Import GRing.Theory Num.Theory.
Local Open Scope ring_scope.

Section Inv.
Variable F : realFieldType.

(** the same system, with the equations combined by [G] *)
Definition recombine (m n e : nat) (G : 'M[F]_m) (u : usys F m n e) : usys F m n e :=
  USys (G *m AA0 u) (G *m BB0 u) (G *m CC0 u) (G *m DD0 u) (fb0 u) (fc0 u) (fd0 u) (cv u) (x_bar u).

(** no coefficient column becomes, or ceases to be, numerically zero *)
Definition same_zeros (tol : F) (m n e : nat) (G : 'M[F]_m) (u : usys F m n e) : Prop :=
  [/\ forall j, fast0 tol (G *m AA0 u) j = fast0 tol (AA0 u) j, forall j, fast0 tol (G *m BB0 u) j = fast0 tol (BB0 u) j,
      forall j, fast0 tol (G *m CC0 u) j = fast0 tol (CC0 u) j & forall j, fast0 tol (G *m DD0 u) j = fast0 tol (DD0 u) j].

(** the solution of a linear system does not depend on how its equations are combined: assumed of the external routine [klein] *)
Definition klein_invariant (klein : forall a b, 'M[F]_(a + b) -> 'M[F]_(a + b) -> res ('M[F]_(b, a) * 'M[F]_a)) : Prop :=
  forall a b (G S T : 'M[F]_(a + b)), G \in unitmx -> klein a b (G *m S) (G *m T) = klein a b S T.
End Inv.

(** Lists of equations (pairs of left and right hand sides) that differ only in the order of the equations and in which side is
    written first. *)
Inductive rewritten (A : Type) : seq (A * A) -> seq (A * A) -> Prop :=
| rw_nil : rewritten [::] [::]
| rw_same q l l' : rewritten l l' -> rewritten (q :: l) (q :: l')
| rw_sides x y l l' : rewritten l l' -> rewritten ((x, y) :: l) ((y, x) :: l')
| rw_order q r l : rewritten (q :: r :: l) (r :: q :: l)
| rw_trans l1 l2 l3 : rewritten l1 l2 -> rewritten l2 l3 -> rewritten l1 l3.

(** two files that differ only in this way *)
Definition rewritten_file (F : fieldType) (m m' : rawmodel F) : Prop :=
  [/\ r_vars m' = r_vars m, r_pars m' = r_pars m, r_shks m' = r_shks m, r_oths m' = r_oths m &
      [/\ rewritten (r_eqs m) (r_eqs m'), r_cvar m' = r_cvar m, r_ceq m' = r_ceq m & r_obs m' = r_obs m]].
