(** Model of the equilibrium search, engine.py lines 267-336. *)
Set Warnings "-all".
From mathcomp Require Import all_ssreflect all_algebra.
From Verif Require Import PyBase.
Set Implicit Arguments. Unset Strict Implicit. Unset Printing Implicit Defensive.
Import GRing.Theory Num.Theory.
Local Open Scope ring_scope.
Local Open Scope py_scope.

Section FindLk.
Variable F : realFieldType.
(** [chk s l k] is [check_cnst(bmat, bterm, s, l, k, q)] (engine.py:333-336) for
    the given tables and state; an access outside the tables or to a cell that
    was never written is an [Err]. *)
Variable chk : nat -> nat -> nat -> res F.
Variable xb : F.                 (* x_bar *)
Variables Lm Km : nat.           (* _, l_max, k_max = bterm.shape, engine.py:271 and 314 *)

(** engine.py:277-280
      while check_cnst(bmat, bterm, 2, l, 0, q) - x_bar > 0:
          l += 1
          if l == l_max: break *)
Fixpoint scan_linear (fuel l : nat) : res nat :=
  match fuel with
  | 0%N => Err OutOfFuel
  | f.+1 =>
      let* c := chk 2 l 0 in
      if 0 < c - xb then
        if l.+1 == Lm then Ok l.+1 else scan_linear f l.+1
      else Ok l
  end.

(** engine.py:318-328, one pass of the loop body: [true] = "return l, k",
    [false] = "continue".  The conditions are evaluated in source order and
    with Python's short-circuit [and]. *)
Definition brute_body (l k : nat) : res bool :=
  let* b0 := (if l != 0%N then let* c := chk 0 l k in Ok (c - xb < 0) else Ok false) in
  if b0 then Ok false else
  let* b1 := (if (1 < l)%N then let* c := chk 1 l k in Ok (c - xb < 0) else Ok false) in
  if b1 then Ok false else
  let* c4 := chk 4 l k in
  if c4 - xb < 0 then Ok false else
  let* c2 := chk 2 l k in
  if 0 < c2 - xb then Ok false else
  let* b3 := (if (1 < k)%N then let* c := chk 3 l k in Ok (0 < c - xb) else Ok false) in
  if b3 then Ok false else Ok true.

(** engine.py:317, inner loop [for k in range(1, k_max)] *)
Fixpoint brute_k (l : nat) (ks : seq nat) : res (option (nat * nat)) :=
  match ks with
  | [::] => Ok None
  | k :: ks' => let* b := brute_body l k in if b then Ok (Some (l, k)) else brute_k l ks'
  end.

(** engine.py:316, outer loop [for l in range(l_max)] *)
Fixpoint brute_l (ls : seq nat) : res (option (nat * nat)) :=
  match ls with
  | [::] => Ok None
  | l :: ls' =>
      let* r := brute_k l (iota 1 Km.-1) in
      match r with Some lk => Ok (Some lk) | None => brute_l ls' end
  end.

(** engine.py:311-330; the sentinel [999, 999] is kept. *)
Definition bruite_wrapper : res (nat * nat) :=
  let* r := brute_l (iota 0 Lm) in
  Ok (odflt (999%N, 999%N) r).

(** engine.py:293-304, the approximation loop; state = (k, loop_type), result
    (k, flag).  [k == k_max - 1] is written [k.+1 == Km] (for [k_max = 0] or
    [k_max = 1] neither ever holds since [k >= 1]). *)
Fixpoint approx (fuel k : nat) (loop_type : bool) : res (nat * nat) :=
  match fuel with
  | 0%N => Err OutOfFuel
  | f.+1 =>
      let k := k.+1 in
      let* c := chk 4 0 k in
      if ~~ loop_type then
        let loop_type := c - xb < 0 in
        if k.+1 == Km then Ok (k, 2%N) else approx f k loop_type
      else if 0 < c - xb then Ok (k, 1%N)
      else if k.+1 == Km then Ok (k, 2%N) else approx f k loop_type
  end.

(** engine.py:267-308 *)
Definition find_lk : res (nat * nat * nat) :=
  let* l := scan_linear Lm.+1 0 in
  if (l < Lm)%N then
    let* lk := bruite_wrapper in
    if lk.1 == 999%N then
      let* kf := approx Km.+1 0 false in
      Ok (0%N, kf.1, kf.2)
    else Ok (lk.1, lk.2, 0%N)
  else Ok (0%N, 0%N, 0%N).
End FindLk.
