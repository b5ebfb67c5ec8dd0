(** Model of the last part of [get_par] (mpile.py:247-269): dicts, rounding and jittered samples. *)
Set Warnings "-all".
From Coq Require Import String.
From mathcomp Require Import all_ssreflect all_algebra.
From Verif Require Import PyBase PyStr M_Params.
Set Implicit Arguments. Unset Strict Implicit. Unset Printing Implicit Defensive.
Import GRing.Theory Num.Theory.
Local Open Scope ring_scope.
Local Open Scope py_scope.

Section AsDict.
Variable F : realFieldType.
Notation vec := (seq F).
Variables H T C : Type.
Variable M : static F.
Variable pffunc : vec -> vec.
Variable hx_of : vec -> res H.
Variable tab_of : vec -> res T.
Variable cov_of : vec -> C.
Variable priors : option (seq (prior F)).
Variable chain : res (seq (seq vec)).
Variable tune : nat.
Variable choices : nat -> nat -> seq nat.
Variable prior_draw : st F H T C -> nat -> st F H T C * res (seq vec).
Notation st := (st F H T C).
(** External: [np.round(x, roundto)], and the standard normal draws of [np.random.randn(nsamples, n)] by row and column *)
Variable rnd : F -> F.
Variable z : nat -> nat -> F.

(** entries of a dict are numbers, or rows if a matrix is zipped with names *)
Inductive dval := DNum (x : F) | DRow (v : vec).
Definition dict := seq (string * dval).
(** [dict(zip(ks, vs))[n]]: the last entry counts *)
Definition lookup (d : dict) (n : string) : option dval := ohead (rev [seq x.2 | x <- d & x.1 == n]).
(** what get_par returns to the caller: what M_Params.get_par returns, or a pair of dicts, or a dict *)
Inductive gout := GOut (o : out F C) | GFull (pd pf : dict) | GCand (d : dict).

(** parser.py:446-449, the compiled function of derived parameters applied to a matrix: it unpacks the rows as if they were the
    parameters, so that there must be as many, and evaluates element by element.
    Simplified: a derived parameter that depends on no parameter is a row here, too; there is one row per derived parameter. *)
Definition pf_rows (rows : seq vec) : res (seq vec) :=
  if size rows != size (c_names M) then Err ValueError
  else Ok [seq [seq nth 0 (pffunc [seq nth 0 r j | r <- rows]) i | j <- iota 0 (size (head [::] rows))] | i <- iota 0 (size (c_pfnames M))].

(** mpile.py:255-264.  [np.array(pars_str)[None]] is a matrix, and its row cannot be a key: TypeError *)
Definition as_dict (full : bool) (o : out F C) : res gout :=
  match o with
  | OVec v =>
      if full then Ok (GFull (zip (c_names M) [seq DNum (rnd x) | x <- v]) (zip (c_pfnames M) [seq DNum (rnd x) | x <- pffunc v]))
      else match c_prior_arg M with
           | None => Err TypeError
           | Some l => Ok (GCand (zip [seq nth ""%string (c_names M) i | i <- l] [seq DNum (rnd x) | x <- v]))
           end
  | ORows rows =>
      let drows := [seq DRow [seq rnd x | x <- r] | r <- rows] in
      if full then let* p := pf_rows rows in
           Ok (GFull (zip (c_names M) drows) (zip (c_pfnames M) [seq DRow [seq rnd x | x <- r] | r <- p]))
      else match c_prior_arg M with
           | None => Err TypeError
           | Some l => Ok (GCand (zip [seq nth ""%string (c_names M) i | i <- l] drows))
           end
  | _ => Ok (GOut o)
  end.
(** mpile.py:265-269: [par_cand * (1 + 0.001 * randn(nsamples, len(par_cand)))].
    Simplified: a vector as argument is different from the texts it is compared with (new versions of numpy raise here). *)
Definition jitter (nsamples : nat) (o : out F C) : out F C :=
  match o with
  | OVec v => ORows C [seq [seq nth 0 v j * (1 + 1000%:R^-1 * z i j) | j <- iota 0 (size v)] | i <- iota 0 nsamples]
  | _ => o
  end.
(** mpile.py:92-269 with [asdict] *)
Definition get_par_call (s : st) (a : arg F) (npar : option vec) (asdict full : bool) (nsamples : nat) (hx_only : bool) : st * res gout :=
  let: (s1, r) := get_par M pffunc hx_of tab_of cov_of priors chain tune choices prior_draw s a npar full nsamples hx_only in
  (s1, let* o := r in
       if asdict then as_dict full o
       else Ok (GOut (if ~~ full && (1 < nsamples)%N then jitter nsamples o else o))).
End AsDict.
