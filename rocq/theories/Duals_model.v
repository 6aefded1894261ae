(** Pre- and post-processing of ot.emd around the C++ solver.
    /repo/ot/lp/_network_simplex.py:19-218 and 421-474. *)
From Coq Require Import List Arith Bool.
From Verif Require Import Num.
Import ListNotations.

(** result codes, /repo/ot/lp/EMD.h:25-30 *)
Inductive status := INFEASIBLE | OPTIMAL | UNBOUNDED | MAX_ITER_REACHED.

Section Duals.
Context {N : NumOps}.

(** center_ot_dual, lines 80-89, with explicit weights (the default weights of lines 70-78
    are the uniform ones, passed explicitly here) *)
Definition center_ot_dual (n m : nat) (alpha0 beta0 a b : nat -> N) : (nat -> N) * (nat -> N) :=
  let ips := nsub (nsum m (fun j => nmul (b j) (beta0 j))) (nsum n (fun i => nmul (a i) (alpha0 i))) in
  let denom := nadd (nsum n a) (nsum m b) in
  let c := ndiv ips denom in
  ((fun i => nadd (alpha0 i) c), (fun j => nsub (beta0 j) c)).

(** estimate_dual_null_weights, lines 157-175.  [-1 * ~asel * x] is 0 where a is non-zero
    and -x elsewhere.  np.max over an empty axis raises; callers have n, m >= 1. *)
Definition estimate_dual_null_weights (n m : nat) (alpha0 beta0 a b : nat -> N) (M : nat -> nat -> N)
  : (nat -> N) * (nat -> N) :=
  let asel := fun i => negb (neqb (a i) n0) in
  let bsel := fun j => negb (neqb (b j) n0) in
  let viol := fun i j => nsub (nadd (alpha0 i) (beta0 j)) (M i j) in
  let aviol := fun i => nmaxk (m - 1) (fun j => viol i j) in
  let bviol := fun j => nmaxk (n - 1) (fun i => viol i j) in
  let alpha_up := fun i => if asel i then n0 else nopp (nmax (aviol i) n0) in
  let beta_up := fun j => if bsel j then n0 else nopp (nmax (bviol j) n0) in
  center_ot_dual n m (fun i => nadd (alpha0 i) (alpha_up i)) (fun j => nadd (beta0 j) (beta_up j)) a b.

(** np.flatnonzero(mask), lines 184-185 *)
Definition flatnonzero (n : nat) (mask : nat -> bool) : list nat := filter mask (seq 0 n).

(** position of an index in the active list (inverse of fancy indexing) *)
Fixpoint index_of (i : nat) (l : list nat) : option nat :=
  match l with
  | [] => None
  | x :: l' => if Nat.eqb x i then Some 0 else option_map S (index_of i l')
  end.

Definition masks_full (n : nat) (mask : nat -> bool) : bool := forallb mask (seq 0 n).

(** _compute_active_subset, lines 178-187: sizes, weights and cost handed to the solver
    together with the index lists *)
Definition compute_active_subset (n m : nat) (a b : nat -> N) (M : nat -> nat -> N)
    (row_mask col_mask : nat -> bool)
  : bool * list nat * list nat * (nat -> N) * (nat -> N) * (nat -> nat -> N) :=
  let need_filter := negb (masks_full n row_mask && masks_full m col_mask) in
  if negb need_filter then (need_filter, seq 0 n, seq 0 m, a, b, M)
  else
    let r := flatnonzero n row_mask in
    let c := flatnonzero m col_mask in
    (need_filter, r, c, (fun k => a (nth k r 0)), (fun l => b (nth l c 0)),
     (fun k l => M (nth k r 0) (nth l c 0))).

(** _inflate_from_active_subset, lines 190-204 *)
Definition inflate (need_filter : bool) (r c : list nat)
    (G : nat -> nat -> N) (u v : nat -> N)
  : (nat -> nat -> N) * (nat -> N) * (nat -> N) :=
  if negb need_filter then (G, u, v)
  else
    ((fun i j => match index_of i r, index_of j c with
                 | Some k, Some l => G k l | _, _ => n0 end),
     (fun i => match index_of i r with Some k => u k | None => n0 end),
     (fun j => match index_of j c with Some l => v l | None => n0 end)).

(** lines 466-467 *)
Definition maybe_center (c : bool) n m (u v a b : nat -> N) := if c then center_ot_dual n m u v a b else (u, v).
(** lines 470-474 *)
Definition maybe_estimate (f : bool) n m (u v a b : nat -> N) M :=
  if f then estimate_dual_null_weights n m u v a b M else (u, v).

(** emd, lines 423-474 (dense branch) for a solver given as a function of the reduced
    problem (sizes, weights, cost) returning plan, cost, potentials and result code.  The
    array conversions are not modelled. *)
Definition emd_body (solver : nat -> nat -> (nat -> N) -> (nat -> N) -> (nat -> nat -> N)
                     -> (nat -> nat -> N) * N * (nat -> N) * (nat -> N) * status)
    (center_dual : bool) (n m : nat) (a b : nat -> N) (M : nat -> nat -> N)
  : (nat -> nat -> N) * N * (nat -> N) * (nat -> N) * status :=
  let asel := fun i => negb (neqb (a i) n0) in
  let bsel := fun j => negb (neqb (b j) n0) in
  match compute_active_subset n m a b M asel bsel with
  | (need_filter, r, c, a', b', M') =>
    match solver (length r) (length c) a' b' M' with
    | (G, cst, u, v, code) =>
      match inflate need_filter r c G u v with
      | (Gf, uf, vf) =>
        let '(u1, v1) := maybe_center center_dual n m uf vf a b in
        let '(u2, v2) := maybe_estimate need_filter n m u1 v1 a b M in
        (Gf, cst, u2, v2, code)
      end
    end
  end.

(** line 421: b = b * a.sum() / b.sum() *)
Definition rescale_b (n m : nat) (a b : nat -> N) : nat -> N :=
  fun j => ndiv (nmul (b j) (nsum n a)) (nsum m b).

Definition emd_post solver center_dual n m a b M := emd_body solver center_dual n m a (rescale_b n m a b) M.
End Duals.
