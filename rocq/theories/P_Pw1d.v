(** C143: partial transport of samples on the line (partial_wasserstein_1d).

    Specification: [matching nx ny l M] is a list of l pairs of distinct source indices and distinct
    target indices; [pplan nx ny l G] is a non-negative matrix with row and column sums at most 1 and
    total l.  [mcost] and [pcost] are the sums of |x_i - y_j| over the pairs, or weighted by the plan.
    [rl (firstn l mc)] is np.cumsum(list_marginal_costs)[l - 1]. *)
From Coq Require Import Reals Lra Lia List Arith ZArith QArith Permutation Bool.
From Verif Require Import Num Sums Spec Emd1d_model Emd1d_proofs Pw1d_model Pw1d_core Pw1d_loop Pw1d_cost Pw1d_prep Pw1d_frac Pw1d_proofs.
Import ListNotations.
Local Open Scope nat_scope.

(** for every requested number of pairs up to min(n, m), each prefix of the answer is an optimal
    partial plan among all matchings and all fractional plans moving that amount *)
Theorem C143_all_partial_problems : forall (x y : list R) (pw : R -> R -> R) (p : R) (k : nat), k <= Nat.min (length x) (length y) ->
  exists ix iy mc, partial_wasserstein_1d (N:=RNum) pw x y (Some k) true p = Ok (ix, iy, mc)
  /\ length ix = k /\ length iy = k /\ length mc = k
  /\ forall l, l <= k -> exists M, matching (length x) (length y) l M
       /\ Permutation (map fst M) (firstn l ix) /\ Permutation (map snd M) (firstn l iy)
       /\ mcost x y M = rl (firstn l mc)
       /\ (forall M', matching (length x) (length y) l M' -> (rl (firstn l mc) <= mcost x y M')%R)
       /\ (forall P, pplan (length x) (length y) l P -> (rl (firstn l mc) <= pcost x y P)%R).
Proof.
  intros x y pw p k Hk. destruct (run_ok x y pw p k) as (ix & iy & mc & E & L1 & L2 & L3 & H & _).
  exists ix, iy, mc. split; [exact E|]. split; [exact L1|]. split; [exact L2|]. split; [exact L3|]. intros l Hl. destruct (H l Hl (Nat.le_trans _ _ _ Hl Hk)) as (M & H1 & H2 & H3 & H4 & H5 & H6). exists M. auto 10.
Qed.
Print Assumptions C143_all_partial_problems.

(** so the indices of each prefix are distinct and in range *)
Theorem C143_indices : forall (x y : list R) (pw : R -> R -> R) (p : R) (k : nat), k <= Nat.min (length x) (length y) ->
  exists ix iy mc, partial_wasserstein_1d (N:=RNum) pw x y (Some k) true p = Ok (ix, iy, mc)
  /\ NoDup ix /\ NoDup iy /\ (forall i, In i ix -> i < length x) /\ (forall j, In j iy -> j < length y).
Proof.
  intros x y pw p k Hk. destruct (C143_all_partial_problems x y pw p k Hk) as (ix & iy & mc & E & L1 & L2 & L3 & H).
  exists ix, iy, mc. split; [exact E|]. destruct (H k ltac:(lia)) as (M & (_ & N1 & N2 & B) & P1 & P2 & _).
  assert (F1 : firstn k ix = ix) by (apply firstn_all2; lia). assert (F2 : firstn k iy = iy) by (apply firstn_all2; lia). rewrite F1 in P1. rewrite F2 in P2.
  split; [apply (Permutation_NoDup P1 N1)|]. split; [apply (Permutation_NoDup P2 N2)|]. split.
  - intros i Hi. apply (Permutation_in _ (Permutation_sym P1)) in Hi. apply in_map_iff in Hi. destruct Hi as ([a b] & <- & Q). apply (B a b Q).
  - intros j Hj. apply (Permutation_in _ (Permutation_sym P2)) in Hj. apply in_map_iff in Hj. destruct Hj as ([a b] & <- & Q). apply (B a b Q).
Qed.
Print Assumptions C143_indices.

(** the marginal costs are non-decreasing, and the default is min(n, m) pairs *)
Theorem C143_marginals : forall (x y : list R) (pw : R -> R -> R) (p : R),
  (forall k, k <= Nat.min (length x) (length y) -> exists ix iy mc, partial_wasserstein_1d (N:=RNum) pw x y (Some k) true p = Ok (ix, iy, mc)
     /\ forall t, S t < k -> (nth t mc 0 <= nth (S t) mc 0)%R)
  /\ partial_wasserstein_1d (N:=RNum) pw x y None true p = partial_wasserstein_1d (N:=RNum) pw x y (Some (Nat.min (length x) (length y))) true p.
Proof.
  intros x y pw p. split; [|reflexivity]. intros k Hk. destruct (run_ok x y pw p k) as (ix & iy & mc & E & _ & _ & _ & _ & H & _).
  exists ix, iy, mc. split; [exact E|]. intros t Ht. exact (H t Ht (Nat.lt_le_trans _ _ _ Ht Hk)).
Qed.
Print Assumptions C143_marginals.

(** with more pairs than min(n, m) the call succeeds; the entries past min(n, m) carry cost 0 *)
Theorem C143_excess : forall (x y : list R) (pw : R -> R -> R) (p : R) (k : nat),
  exists ix iy mc, partial_wasserstein_1d (N:=RNum) pw x y (Some k) true p = Ok (ix, iy, mc)
  /\ length ix = k /\ length iy = k /\ length mc = k /\ (forall t, Nat.min (length x) (length y) <= t < k -> nth t mc 0%R = 0%R)
  /\ forall l, l <= k -> l <= Nat.min (length x) (length y) -> exists M, matching (length x) (length y) l M
       /\ Permutation (map fst M) (firstn l ix) /\ Permutation (map snd M) (firstn l iy) /\ mcost x y M = rl (firstn l mc)
       /\ (forall P, pplan (length x) (length y) l P -> (rl (firstn l mc) <= pcost x y P)%R).
Proof.
  intros x y pw p k. destruct (run_ok x y pw p k) as (ix & iy & mc & E & L1 & L2 & L3 & H & _ & Z).
  exists ix, iy, mc. split; [exact E|]. repeat (split; [assumption|]). intros l H1 H2. destruct (H l H1 H2) as (M & Q1 & Q2 & Q3 & Q4 & Q5 & Q6). exists M. auto 10.
Qed.
Print Assumptions C143_excess.

(** so the documented length min(n, m, n_transported_samples) and the distinctness fail: one source
    and one target, two pairs requested *)
Theorem C143_excess_refuted : forall pw p,
  partial_wasserstein_1d (N:=QNum) pw [0%Q] [5%Q] (Some 2) true p = Ok ([0; 0], [0; 0], [5%Q; 0%Q]).
Proof. intros. vm_compute. reflexivity. Qed.
Print Assumptions C143_excess_refuted.

(** the example of the docstring, and a case where a chain is extended across an already used pair *)
Example C143_docstring : forall pw p,
  partial_wasserstein_1d (N:=QNum) pw [5; -2; 4]%Q [-1; 1; 3]%Q (Some 2) true p = Ok ([1; 2], [0; 2], [1%Q; 1%Q]).
Proof. intros. vm_compute. reflexivity. Qed.
Example C143_chain : forall pw p,
  partial_wasserstein_1d (N:=QNum) pw [0; 3]%Q [2; 9]%Q None true p = Ok ([1; 0], [0; 1], [1%Q; 7%Q]).
Proof. intros. vm_compute. reflexivity. Qed.
(** the hypotheses of the optimality statement: a matching and a fractional plan *)
Example C143_specs : matching 3 3 2 [(1, 0); (2, 2)] /\ pplan 2 2 1 (fun i j => if Nat.eqb i j then (1 / 2)%R else 0%R).
Proof.
  split; [|unfold pplan; cbn; repeat split; intros; repeat (destruct i as [|i]; try lia); repeat (destruct j as [|j]; try lia); cbn; try lra].
  split; [reflexivity|]. cbn. repeat split; try (repeat constructor; cbn; intuition congruence); intros; intuition; try (injection H0 as <- <-; lia); try (injection H as <- <-; lia).
Qed.
