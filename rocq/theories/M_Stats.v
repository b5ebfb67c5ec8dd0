(** Model of stats.py: variance decomposition, business-cycle index, historical decomposition, inputs of the marginal data density,
    posterior mean, sorting of contributions.  Arrays are sequences.  Not modelled: printing, progress bars, the densities themselves
    (emcwrap), reports. *)
Set Warnings "-all".
From Coq Require Import String.
From mathcomp Require Import all_ssreflect all_algebra.
From Verif Require Import PyBase PyStr M_FindLk M_Engine M_Tools.
Set Implicit Arguments. Unset Strict Implicit. Unset Printing Implicit Defensive.
Import GRing.Theory Num.Theory Order.TTheory.
Local Open Scope ring_scope.
Local Open Scope py_scope.

Section Stats.
Variable F : realFieldType.

(** stats.py:273-289 at one position of the arrays; bands (from, to).  [hd] must not be empty (hd[0]) *)
Definition sort_step (s : F * F * seq (F * F) * seq (F * F)) (h : F) : F * F * seq (F * F) * seq (F * F) :=
  let: (hmin, hmax, hmint, hmaxt) := s in
  let newmax := hmax + (if h > 0 then h else 0) in
  let hmaxt := rcons hmaxt (hmax, newmax) in
  let newmin := hmin + (if h < 0 then h else 0) in
  let hmint := rcons hmint (hmin, newmin) in
  (newmin, newmax, hmint, hmaxt).
Definition sort_nhd (hd : seq F) : res (seq (F * F) * seq (F * F)) :=
  if hd is [::] then Err IndexError else
  let: (_, _, hmint, hmaxt) := foldl sort_step (0, 0, [::], [::]) hd in Ok (hmint, hmaxt).

(** stats.py:186-192: state vector attributed to shock [s], and its image *)
Definition hd_input (m : tmodel F) (row resid : seq F) (s : nat) : seq F :=
  py_from (- (dq m)%:Z + (neps m)%:Z) row ++ [seq if j == s then nth 0 resid s else 0 | j <- iota 0 (neps m)].
Definition hd_image (m : tmodel F) (c : cell F (dq m) (dp m)) (v : seq F) : res (seq F) :=
  let* p := matvec (pm c) v in
  let* q := matvec (qm c) v in
  Ok (p ++ py_to (- (neps m)%:Z) q).
(** stats.py:194-195 *)
Definition hd_cons (m : tmodel F) (b : bcell F (dq m)) (v : seq F) : res F :=
  let* x := matvec b.1 v in Ok (nth 0 x 0%N).
(** stats.py:176-203: one period; [hds] is the list of contributions hd[i,:,t,:] *)
Definition nhd_step (m : tmodel F) (linear : bool) (st : seq F * seq (seq F)) (resid : seq F) : res (seq F * seq (seq F)) :=
  let: (state, hds) := st in
  let* r := t_func m state (Some resid) KNone linear in
  let: (state', (l, k), _) := r in
  let* l' := py_index IndexError (lmx m).+1 l in
  let* k' := py_index IndexError (kmx m).+1 k in
  let* c := of_opt UninitRead (tab m l' k') in
  let vs := [seq hd_input m (nth [::] hds s) resid s | s <- iota 0 (neps m)] in
  let* hds' := mapM (hd_image c) vs in
  if k == 0 then Ok (state', hds') else
  let* b := of_opt UninitRead (btab m 0%N l' k') in
  let* rcons := mapM (hd_cons b) vs in
  let tot := \sum_(x <- rcons) x in
  if tot == 0 then Ok (state', hds') else
  let term := seq_of (pt c) ++ py_to (- (neps m)%:Z) (seq_of (qt c)) in
  let* hds'' := mapM (fun s => vadd (nth [::] hds' s) [seq nth 0 rcons s / tot * x | x <- term]) (iota 0 (neps m)) in
  Ok (state', hds'').
(** stats.py:174-203: the rows of all periods; [T] = data.shape[0].  Rows that are not written stay uninitialised *)
Fixpoint nhd_loop (m : tmodel F) (linear : bool) (st : seq F * seq (seq F)) (resids : seq (seq F)) : res (seq (seq F * seq (seq F))) :=
  match resids with
  | [::] => Ok [::]
  | e :: es => let* st' := nhd_step m linear st e in let* r := nhd_loop m linear st' es in Ok (st' :: r)
  end.
Definition nhd_sample (m : tmodel F) (linear : bool) (T : nat) (init : seq F) (resids : seq (seq F)) : res (seq (seq F * seq (seq F))) :=
  let st0 := (init, nseq (neps m) [seq x / (neps m)%:R | x <- init]) in
  let* r := nhd_loop m linear st0 resids in
  if (T < (size resids).+1)%N then Err IndexError else
  if ((size resids).+1 < T)%N then Err UninitRead else Ok (st0 :: r).
(** stats.py:150-210: averages over the draws (a NaN without draws, here an error); the result is a function of the shock, the
    period and the variable.  [setpar] is self.set_par; the model after the call is that of the last draw *)
Definition mean_of (n : nat) (f : nat -> F) : F := (\sum_(i <- iota 0 n) f i) / n%:R.
Definition nhd (P : Type) (setpar : P -> res (tmodel F)) (linear : bool) (T : nat) (pars : seq P) (inits : seq (seq F))
    (resids : seq (seq (seq F))) : res (tmodel F * (nat -> nat -> nat -> F) * (nat -> nat -> F)) :=
  let* rs := mapM (fun a : P * nat =>
    let: (p, i) := a in
    let* m := setpar p in
    if (i < size inits)%N && (i < size resids)%N then
      let* r := nhd_sample m linear T (nth [::] inits i) (nth [::] resids i) in Ok (m, r)
    else Err IndexError)
    (zip pars (iota 0 (size pars))) in
  if rs is r0 :: rs' then
  let n := size pars in
  let at_ i t := nth ([::], [::]) (nth [::] [seq r.2 | r <- rs] i) t in
  Ok ((last r0 rs').1, fun s t x => mean_of n (fun i => nth 0 (nth [::] (at_ i t).2 s) x),
      fun t x => mean_of n (fun i => nth 0 (at_ i t).1 x))
  else Err GenericException.

(** the argument eps_dict of gfevd; [e_means = None]: no such entry *)
Record edict (P : Type) := ED { e_means : option (seq (seq (seq F))); e_pars : seq (option P); e_resid : seq (seq (seq F)) }.
(** filtering.py:495: the keys of the dictionary returned by extract are pars, init, resid and flags *)
Definition extract_result (P : Type) (pars : seq (option P)) (resid : seq (seq (seq F))) : edict P := ED None pars resid.
(** stats.py:71-89, arrays of dimension three: all draws and periods, one after the other; the last state of each draw is dropped *)
Definition gf_rows (P : Type) (d : edict P) (means : seq (seq (seq F))) : seq (seq F) * seq (seq F) * seq (option P) :=
  let T := size (head [::] (e_resid d)) in
  (flatten (e_resid d), flatten [seq take (size x).-1 x | x <- means], flatten [seq nseq T p | p <- e_pars d]).
(** the last row of an impulse response *)
Definition last_row (r : irf_res F) : res (seq F) :=
  match r with
  | IRows rows _ _ => if rows is x :: xs then Ok (last x xs).1 else Err IndexError
  | INan => Err GenericException                                      (* cannot occur: pars is not passed *)
  end.
(** stats.py:99-111: the responses of one shock in one sample *)
Definition gf_call (m : tmodel F) (horizon : nat) (linear : bool) (st : seq F) (e : string) (x : F) : res (seq F) :=
  let* r := irfs m (fun _ : unit => Err GenericException) (fun _ => false) [:: STriple e x 0] None (Some st) horizon linear (KBool false) None in
  last_row r.
Definition gf_shock (m : tmodel F) (horizon : nat) (linear : bool) (resid st : seq F) (gis : seq (seq F)) (e : string) : res (seq (seq F)) :=
  let* ei := py_find e (shk m) in
  if (ei < size resid)%N && (ei < size gis)%N then
    let* a := gf_call m horizon linear st e (nth 0 resid ei) in
    let* b := gf_call m horizon linear st e 0 in
    let* g := vadd (nth [::] gis ei) [seq (x.1 - x.2) ^+ 2 | x <- zip a b] in
    Ok (set_nth [::] gis ei g)
  else Err IndexError.
(** stats.py:94-111: one sample; the parameters of the sample are set if there are any *)
Definition gf_sample (P : Type) (setpar : P -> res (tmodel F)) (horizon : nat) (linear : bool) (ms : tmodel F * seq (seq F))
    (s : seq F * seq F * option P) : res (tmodel F * seq (seq F)) :=
  let: (m, gis) := ms in
  let: (resid, st, par) := s in
  let* m := (if par is Some p then setpar p else Ok m) in
  let* gis := foldM (gf_shock m horizon linear resid st) (shk m) gis in
  Ok (m, gis).
(** stats.py:58-121; [choice n k]: k different positions below n; the result: the model after the call, and the shares, None = NaN *)
Definition gfevd (P : Type) (choice : nat -> nat -> seq nat) (setpar : P -> res (tmodel F)) (m : tmodel F) (d : edict P)
    (horizon : nat) (nsamples : option nat) (linear : bool) : res (tmodel F * seq (seq (option F))) :=
  let* means := of_opt KeyError (e_means d) in
  let: (resids, states, pars) := gf_rows d means in
  let n := if nsamples is Some (k.+1) then k.+1 else size resids in
  if (size resids < n)%N then Err ValueError else
  let* sample := mapM (fun i => if [&& i < size resids, i < size states & i < size pars]%N
                                then Ok (nth [::] resids i, nth [::] states i, nth None pars i) else Err IndexError)
                      (choice (size resids) n) in
  let gis0 := nseq (neps m) (nseq (size (vvs m)) 0) in
  let* r := foldM (gf_sample setpar horizon linear) sample (m, gis0) in
  let: (m', gis) := r in
  let tot x := \sum_(g <- gis) nth 0 g x in
  Ok (m', [seq [seq (if tot x == 0 then None else Some (nth 0 g x / tot x)) | x <- iota 0 (size (vvs m))] | g <- gis]).

(** stats.py:124-147: the product of line 130 needs as many columns in hx[0] (dimp) as [vd] has (the variables); the rest of the
    function is [rest] *)
Definition mbcs_index (R : Type) (rest : seq (seq F) -> res R) (m : tmodel F) (vd : seq (seq F)) : res R :=
  let* vvd := mapM (fun g => matvec (hxp m) g) vd in
  rest vvd.

(** [c[-n:]] *)
Definition tail_n (A : Type) (n : nat) (c : seq A) : seq A := py_from (- n%:Z) c.
(** stats.py:227-235: what the density is computed from; [own_chain], [own_lp]: get_chain() and get_log_prob(), steps x walkers *)
Definition mdd_inputs (V : Type) (own_chain : res (seq (seq V))) (own_lp : res (seq (seq F))) (own_tune : res nat)
    (chain : option (seq V)) (lprobs : option (seq F)) (tune : option nat) : res (seq V * seq F) :=
  let pick (t : option nat) := if t is Some (k.+1) then Ok k.+1 else own_tune in
  let* ct := (match chain with
              | Some c => Ok (c, tune)
              | None => let* t := pick tune in let* c := own_chain in Ok (flatten (tail_n t c), Some t)
              end) in
  let: (c, tune) := ct in
  let* lp := (match lprobs with
              | Some p => Ok p
              | None => let* t := pick tune in let* p := own_lp in Ok (flatten (tail_n t p))
              end) in
  Ok (c, lp).

(** stats.py:264-270: steps x walkers x parameters; [chain or ...] asks for the truth value of an array *)
Definition array_truth (c : seq (seq (seq F))) : res bool :=
  match flatten [seq flatten r | r <- c] with
  | [::] => Ok false
  | [:: x] => Ok (x != 0)
  | _ => Err ValueError
  end.
Definition post_mean (own_chain : res (seq (seq (seq F)))) (own_tune : res nat) (chain : option (seq (seq (seq F)))) (tune : option nat)
  : res (nat -> F) :=
  let* t := (if tune is Some (k.+1) then Ok k.+1 else own_tune) in
  let* b := (if chain is Some c then array_truth c else Ok false) in
  let* c := (if b then Ok (odflt [::] chain) else let* c := own_chain in Ok (tail_n t c)) in
  let rows := flatten c in
  Ok (fun j => (\sum_(r <- rows) nth 0 r j) / (size rows)%:R).
End Stats.
