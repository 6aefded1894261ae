(** Empirical Sinkhorn solvers: model of /repo/ot/bregman/_empirical.py: get_sinkhorn_lazytensor (26-71),
    empirical_sinkhorn (74-302), empirical_sinkhorn2 (305-517) and empirical_sinkhorn_divergence (520-763).
    Samples enter only through dist: [D i j] is the metric between sample i of the source and sample j of the target,
    and dist(X_s[i:i+bs], X_t) is the corresponding block of D, which holds for the metrics computed entry by entry.
    The dense branch calls ot.sinkhorn / ot.sinkhorn2 with their default method (Sinkhorn_model.sinkhorn_knopp, K = exp(-M/reg));
    sinkhorn2 is the inner product of M with the plan (single histogram).  Printing, backends, several histograms, the
    other methods of **kwargs and the Nystroem variants (766-993; Lowrank_model has their solver) are not modelled. *)
From Coq Require Import List Arith Bool ZArith.
From Verif Require Import Num Emd1d_model Sinkhorn_model.
Import ListNotations.

Section Emp.
Context {N : NumOps}.
Notation vec := (nat -> N).
Notation mat := (nat -> nat -> N).
Variables (ex lg : N -> N) (norm : nat -> (nat -> N) -> N) (nan : N -> bool).

(** batchSize: an int, a tuple of two ints, or something else (203-208).  Negative sizes are not represented. *)
Inductive batch := BInt (b : nat) | BPair (bs bt : nat) | BOther.
Inductive eout (A : Type) : Type :=
| EOk (x : A)
| EValueError
| EUnbound (** UnboundLocalError: i_ot is read at 267 but the loop body never ran *).
Arguments EOk {A}. Arguments EValueError {A}. Arguments EUnbound {A}.

(** range(0, n, b) for b > 0, and the rows i : i + b of a batch *)
Definition starts (n b : nat) : list nat := map (fun k => k * b) (seq 0 ((n + (b - 1)) / b)).
Definition rows (n b i : nat) : list nat := seq i (Nat.min b (n - i)).
(** concatenation over the batches of a list computed row by row, 219-224, 227-232, 236-245 *)
Definition by_batches {A} (n b : nat) (row : nat -> A) : list A := concat (map (fun i => map row (rows n b i)) (starts n b)).
Definition lnth (l : list N) : vec := fun i => nth i l n0.

Section Lazy.
Variables (ns nt : nat) (D : mat) (reg : N) (a b : vec) (bs bt : nat) (stopThr : N).
Definition lz_f (g : vec) : vec :=                                                               (* 219-225 *)
  let lse := lnth (by_batches ns bs (fun i => logsumexp ex lg nt (fun j => nsub (g j) (ndiv (D i j) reg)))) in
  fun i => nsub (lg (a i)) (lse i).
Definition lz_g (f : vec) : vec :=                                                               (* 227-233 *)
  let lse := lnth (by_batches nt bt (fun j => logsumexp ex lg ns (fun i => nsub (f i) (ndiv (D i j) reg)))) in
  fun j => nsub (lg (b j)) (lse j).
Definition lz_entry (f g : vec) (i j : nat) : N := ex (nsub (nadd (f i) (g j)) (ndiv (D i j) reg)).
Definition lz_err (f g : vec) : N :=                                                             (* 236-246 *)
  let m1 := lnth (by_batches ns bs (fun i => nsum nt (lz_entry f g i))) in
  nsum ns (fun i => nabs (nsub (m1 i) (a i))).
(** 218-256; the exit says whether the loop broke at i_ot = ii or was exhausted *)
Fixpoint lz_loop (left ii : nat) (f g : vec) (errs : list N) : sk :=
  match left with
  | O => mk_sk f g errs MaxIter
  | S left' =>
      let f' := lz_f g in let g' := lz_g f' in
      if Nat.eqb (Nat.modulo (S ii) 10) 0 then
        let err := lz_err f' g' in
        if nleb err stopThr then mk_sk f' g' (errs ++ [err]) (Converged ii)
        else lz_loop left' (S ii) f' g' (errs ++ [err])
      else lz_loop left' (S ii) f' g' errs
  end.
(** 474-478 of empirical_sinkhorn2: the loss accumulated over the batches of rows *)
Definition lz_loss (f g : vec) : N :=
  fold_left nadd (map (fun i => lsum (map (fun r => nsum nt (fun j => nmul (D r j) (lz_entry f g r j))) (rows ns bs i))) (starts ns bs)) n0.
End Lazy.

Definition uniform (n : nat) : vec := fun _ => ndiv n1 (nat_num n).
Definition sizes (bz : batch) : option (nat * nat) :=
  match bz with BInt k => Some (k, k) | BPair bs bt => Some (bs, bt) | BOther => None end.
Definition or_unif (n : nat) (a : option vec) : vec := match a with Some a => a | None => uniform n end.
Definition warned (o : sk (N:=N)) : bool := match sk_exit o with MaxIter => true | _ => false end.
(** isLazy=True: f, g, errors, whether a warning is issued.  range with step 0 raises ValueError (210) *)
Definition lazy_sinkhorn (ns nt : nat) (D : mat) (reg : N) (a b : option vec) (it : nat) (stopThr : N) (bz : batch) (log warn : bool)
    (warm : option (vec * vec)) : eout (sk (N:=N) * bool) :=
  let a := or_unif ns a in let b := or_unif nt b in
  let f0 := match warm with Some (f, _) => f | None => fun _ => n0 end in
  let g0 := match warm with Some (_, g) => g | None => fun _ => n0 end in
  match sizes bz with
  | None => EValueError
  | Some (bs, bt) =>
      if (Nat.eqb bs 0 || Nat.eqb bt 0)%bool then EValueError
      else
        let o := lz_loop ns nt D reg a b bs bt stopThr it 0 f0 g0 [] in
        if (log && Nat.eqb it 0)%bool then EUnbound else EOk (o, (warn && warned o)%bool)
  end.
(** isLazy=False, 273-302: sinkhorn is called without [warn], whose default is True *)
Definition kernel (D : mat) (reg : N) : mat := fun i j => ex (ndiv (nopp (D i j)) reg).
Definition exp_warm (warm : option (vec * vec)) : option (vec * vec) :=
  match warm with Some (f, g) => Some (fun i => ex (f i), fun j => ex (g j)) | None => None end.
Definition dense_sinkhorn (ns nt : nat) (D : mat) (reg : N) (a b : option vec) (it : nat) (stopThr : N) (warn : bool)
    (warm : option (vec * vec)) : mat * sk (N:=N) * bool :=
  let o := sinkhorn_knopp ns nt (or_unif ns a) (or_unif nt b) norm nan stopThr (kernel D reg) it (exp_warm warm) in
  (scaled (kernel D reg) (sk_u o) (sk_v o), o, warned o).
(** empirical_sinkhorn2: loss and warning *)
Definition sinkhorn2_ (lazy : bool) (ns nt : nat) (D : mat) (reg : N) (a b : option vec) (it : nat) (stopThr : N) (bz : batch) (log warn : bool)
    (warm : option (vec * vec)) : eout (N * bool) :=
  if lazy then
    match lazy_sinkhorn ns nt D reg a b it stopThr bz log warn warm with
    | EOk (o, w) =>
        match sizes bz with
        | Some (bs, _) => EOk (lz_loss ns nt D reg bs (sk_u o) (sk_v o), w)
        | None => EValueError
        end
    | EValueError => EValueError | EUnbound => EUnbound
    end
  else
    let '(G, o, w) := dense_sinkhorn ns nt D reg a b it stopThr warn warm in
    EOk (nsum ns (fun i => nsum nt (fun j => nmul (D i j) (G i j))), (warn && w)%bool).
(** empirical_sinkhorn_divergence; Dab, Daa, Dbb are the three metric matrices, [half] is 0.5.  isLazy and batchSize
    reach empirical_sinkhorn2 through **kwargs *)
Definition divergence (lazy : bool) (half : N) (ns nt : nat) (Dab Daa Dbb : mat) (reg : N) (a b : option vec) (it : nat) (stopThr : N) (bz : batch)
    (log warn : bool) (warm : option (vec * vec)) : eout N :=
  let wa := match warm with Some (u, _) => Some (u, u) | None => None end in
  let wb := match warm with Some (_, v) => Some (v, v) | None => None end in
  match sinkhorn2_ lazy ns nt Dab reg a b it stopThr bz log warn warm,
        sinkhorn2_ lazy ns ns Daa reg a a it stopThr bz log warn wa,
        sinkhorn2_ lazy nt nt Dbb reg b b it stopThr bz log warn wb with
  | EOk (x, _), EOk (y, _), EOk (z, _) => EOk (nmax n0 (nsub x (nmul half (nadd y z))))
  | EUnbound, _, _ => EUnbound
  | EValueError, _, _ => EValueError
  | _, EUnbound, _ | _, _, EUnbound => EUnbound
  | _, _, _ => EValueError
  end.

(** ** the lazy plan, get_sinkhorn_lazytensor 61-67: an int index i becomes slice(i, i + 1) *)
Definition py_slice (n : nat) (i j : Z) : list nat :=
  let clip k := (if k <? 0 then Z.max 0 (k + Z.of_nat n) else Z.min k (Z.of_nat n))%Z in
  seq (Z.to_nat (clip i)) (Z.to_nat (clip j - clip i)).
Definition at_index (n : nat) (i : Z) : list nat := py_slice n i (i + 1).
Definition lazy_at (ns nt : nat) (D : mat) (reg : N) (f g : vec) (i j : Z) : list (list N) :=
  map (fun r => map (fun c => lz_entry D reg f g r c) (at_index nt j)) (at_index ns i).
End Emp.
Arguments EOk {A}. Arguments EValueError {A}. Arguments EUnbound {A}.
