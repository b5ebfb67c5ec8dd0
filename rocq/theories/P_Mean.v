Set Warnings "-all".
From Coq Require Import String.
From mathcomp Require Import all_ssreflect all_algebra.
From Verif Require Import PyBase PyStr M_Parser S_Parser P_Parser P_Parser2 P_Parser5 M_Engine S_Engine M_GenSys S_GenSys S_GenSys2 P_Engine P_Engine3 P_Engine4
  P_GenSys P_GenSys2 P_GenSys3 P_GenSys4 P_GenSys5 P_GenSys6 M_Pipe S_Pipe P_Pipe P_Pipe2 P_Pipe3 M_Tools S_Tools P_Tools P_Tools2
  M_Full S_Full P_Full P_Full2 S_Mean T_Engine T_GenSys.
Set Implicit Arguments. Unset Strict Implicit. Unset Printing Implicit Defensive.
Import GRing.Theory Num.Theory Order.TTheory.
Local Open Scope ring_scope.

Section Bounded.
Variable F : realFieldType.
Implicit Types f g : nat -> F.

Lemma bnd_ext f g : f =1 g -> bounded f -> bounded g.
Proof. by move=> e [B H]; exists B => s; rewrite -e. Qed.

Lemma bnd_cons f : bounded (fun s => f s.+1) -> bounded f.
Proof.
case=> B H; exists (`|f 0%N| + B) => -[|s].
  by rewrite ler_addl; apply: le_trans (H 0%N); apply: normr_ge0.
by apply: le_trans (H s) _; rewrite ler_addr normr_ge0.
Qed.

Lemma bnd_shift j f : bounded f -> bounded (fun s => f (s + j)%N).
Proof. by case=> B H; exists B => s. Qed.

Lemma bnd_unshift j f : bounded (fun s => f (s + j)%N) -> bounded f.
Proof.
elim: j f => [|j IH] f H; first by apply: bnd_ext H => s; rewrite addn0.
apply/bnd_cons/IH; by apply: bnd_ext H => s; rewrite addnS.
Qed.

Lemma bnd0 : bounded (fun _ => 0 : F).
Proof. by exists 0 => s; rewrite normr0. Qed.

Lemma bnd_add f g : bounded f -> bounded g -> bounded (fun s => f s + g s).
Proof. by case=> B H [C K]; exists (B + C) => s; apply: le_trans (ler_norm_add _ _) (ler_add (H s) (K s)). Qed.

Lemma bnd_scale (a : F) f : bounded f -> bounded (fun s => a * f s).
Proof. by case=> B H; exists (`|a| * B) => s; rewrite normrM ler_wpmul2l ?normr_ge0. Qed.

Lemma bnd_sum (n : nat) (f : 'I_n -> nat -> F) : (forall i, bounded (f i)) -> bounded (fun s => \sum_i f i s).
Proof.
elim: n f => [|n IH] f H; first by apply: bnd_ext bnd0 => s; rewrite big_ord0.
have := bnd_add (H ord0) (IH (fun i s => f (lift ord0 i) s) (fun i => H _)).
by apply: bnd_ext => s; rewrite big_ord_recl.
Qed.

Lemma bnd_mul (m n : nat) (A : 'M[F]_(m, n)) (q : nat -> 'cV[F]_n) : bounded_cols q -> bounded_cols (fun s => A *m q s).
Proof.
move=> H i; apply: bnd_ext (bnd_sum (fun j => bnd_scale (A i j) (H j))) => s; by rewrite mxE.
Qed.

Lemma bnd_move (X : path F) v (d : int) : bounded (fun s => X v s%:Z) -> bounded (fun s => X v (s%:Z + d)).
Proof.
case: d => [j|j] H; first by apply: bnd_ext (bnd_shift j H) => s; rewrite PoszD.
apply: (@bnd_unshift j.+1); apply: bnd_ext H => s.
by rewrite NegzE PoszD addrK.
Qed.
End Bounded.

(** variables that occur neither with a lag in the equations nor with a lag in the constraint are no states *)
Section States.
Variable F : realFieldType.
Variable tol : F.
Variables m n e : nat.
Variable u : usys F m n e.
Hypothesis t0 : 0 < tol.

Lemma q_of_ext (x x' : 'cV[F]_n) eps : (forall j, x j 0 = x' j 0 \/ ((forall i, CC0 u i j = 0) /\ fc0 u 0 j = 0)) ->
  q_of tol u x eps = q_of tol u x' eps.
Proof.
move=> H; apply/matrixP => i i0; rewrite !mxE (ord1 i0); set j := enum_val i.
have : inq (tol:=tol) (u:=u) j by exact: (enum_valP i).
have fastC k : (forall i, CC0 u i k = 0) -> fast0 tol (CC0 u) k by move=> h; apply/forallP => i'; rewrite h normr0.
case: (split_ordP j) => [k ->|k ej] //.
case: (split_ordP k) => [k' ->|k' ->] ji; rewrite !(col_mxEu, col_mxEd) //.
  case: (H k') => // -[h1 h2]; move: ji; rewrite (inq_var u t0) fastC //= leNgt.
  have -> : `|fcE u 0 k'| = `|(own_coef u)^-1 * fc0 u 0 k'|.
    by rewrite /fcE /fcn; case: (fd0 u) => [_|]; rewrite !mxE ?normrN mulNr normrN.
  by rewrite h2 mulr0 normr0 t0.
rewrite !mxE; case: (H (enum_val k')) => // -[h1 _].
by have := enum_valP k'; rewrite -topredE /= /inall => /andP [_] /negP []; exact: fastC.
Qed.
End States.
