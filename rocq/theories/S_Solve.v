(** Specification vocabulary for C16 and C17. *)
From Coq Require Import List ZArith Bool.
From Verif Require Import PyBase M_Solve.
Import ListNotations.
Local Open Scope Z_scope.

(** the horizon stored for an explicit request, for a given number of constrained periods *)
Definition stored_l (l k : Z) : Z := if ((l <? 2) && (0 <? k))%bool then 3 else l + 1.

(** the last element of a list that satisfies a partial test *)
Fixpoint last_some {A B : Type} (f : A -> option B) (l : list A) : option B :=
  match l with
  | [] => None
  | x :: l' => match last_some f l' with Some b => Some b | None => f x end
  end.

(** requests that raise: [l_max < 2] without [k_max] *)
Definition raises (c : option Z * option Z) : bool :=
  match c with (Some l, None) => l <? 2 | _ => false end.

(** what a successful call requests *)
Definition req_l (c : option Z * option Z) : option Z :=
  match c with
  | (Some l, Some k) => Some (stored_l l k)
  | (Some l, None) => if l <? 2 then None else Some (l + 1)
  | (None, _) => None
  end.
Definition req_k (c : option Z * option Z) : option Z := if raises c then None else snd c.

Definition dflt {A} (a : A) (o : option A) : A := match o with Some x => x | None => a end.

Section Solve.
Variables P PP X V M L S T : Type.
Variable pcompile : P -> res PP.
Variable xbar_of : P -> res X.
Variable names : V.
Variable mats : PP -> res M.
Variable layout : M -> res L.
Variable order : L -> V.
Variable linsol : M -> X -> res S.
Variable tables : M -> X -> S -> Z * Z -> res T.
Notation mstate := (mstate P PP X V L S T).
Definition ok {A} (r : res A) : option A := match r with Ok a => Some a | Err _ => None end.

(** values of the attributes as functions of the parameters *)
Definition new_layout (p : P) : res L := rbind (pcompile p) (fun pp => rbind (mats pp) layout).
Definition new_sys (p : P) : res S :=
  rbind (pcompile p) (fun pp => rbind (mats pp) (fun mm => rbind (xbar_of p) (fun x => linsol mm x))).
Definition new_tab (p : P) (lk : Z * Z) : res T :=
  rbind (pcompile p) (fun pp => rbind (mats pp) (fun mm => rbind (xbar_of p) (fun x =>
  rbind (linsol mm x) (fun so => tables mm x so lk)))).

(** the first [n] attributes (par, ppar, x_bar, vv, lks, layout, sys, tables) are
    those of the parameters [p], the others are unchanged *)
Record written (n : nat) (p : P) (l_max k_max : option Z) (s s' : mstate) : Prop := Written {
  w_par : m_par s' = if (0 <? n)%nat then Some p else m_par s;
  w_ppar : m_ppar s' = if (1 <? n)%nat then ok (pcompile p) else m_ppar s;
  w_xbar : m_xbar s' = if (2 <? n)%nat then ok (xbar_of p) else m_xbar s;
  w_vv : m_vv s' = if (5 <? n)%nat then ok (rmap order (new_layout p)) else if (3 <? n)%nat then Some names else m_vv s;
  w_lks : m_lks s' = if (4 <? n)%nat then ok (horizons (m_lks s) l_max k_max) else m_lks s;
  w_layout : m_layout s' = if (5 <? n)%nat then ok (new_layout p) else m_layout s;
  w_sys : m_sys s' = if (6 <? n)%nat then ok (new_sys p) else m_sys s;
  w_tab : m_tab s' = if (7 <? n)%nat then ok (rbind (horizons (m_lks s) l_max k_max) (new_tab p)) else m_tab s }.

End Solve.
