(** Property theorems C14-C18: one-dimensional optimal transport. *)
From Coq Require Import List Arith Bool Reals Lra Lia QArith.
From Verif Require Import Num Sums Spec Monge Perm Emd1d_model Emd1d_proofs Emd1d_perm_proofs
  W1d_model Emd1d_final.
Import ListNotations.
Local Open Scope R_scope.

(** C14.  For every number type and every comparison outcome the solver loop returns after
    at most n+m-1 entries, reads in bounds, and its cells form a monotone lattice path. *)
Theorem C14_emd_1d_sorted_safe :
  forall (N : NumOps) (powf : N -> N -> N) (uw vw u v : list N) mt p,
  length u = length uw -> length v = length vw -> mt <> MOther ->
  (0 < length uw)%nat -> (0 < length vw)%nat ->
  exists es c, emd_1d_sorted powf uw vw u v mt p = Ok (es, c)
    /\ (0 < length es <= length uw + length vw - 1)%nat
    /\ Forall (fun e => (snd (fst e) < length uw)%nat /\ (snd e < length vw)%nat) es
    /\ NoDup (map (fun e => (snd (fst e), snd e)) es)
    /\ (forall k d, (S k < length es)%nat -> step_ok (nth k es d) (nth (S k) es d)).
Proof. exact c14. Qed.
Print Assumptions C14_emd_1d_sorted_safe.

(** The guard is needed: an empty histogram makes the code read element 0 of an empty array. *)
Theorem C14_empty_input_refuted :
  exists (uw vw u v : list Q), emd_1d_sorted (N:=QNum) (fun x _ => x) uw vw u v SqEuclidean 1%Q = OutOfBounds.
Proof. exact (ex_intro _ [] (ex_intro _ [] (ex_intro _ [] (ex_intro _ [] eq_refl)))). Qed.
Print Assumptions C14_empty_input_refuted.

Example C14_example :
  emd_1d_sorted (N:=QNum) (fun x _ => x) [1#2; 1#2]%Q [1#4; 3#4]%Q [0; 1]%Q [0; 2]%Q SqEuclidean 1%Q
  = Ok ([(1#4, 0%nat, 0%nat); (1#4, 0%nat, 1%nat); (1#2, 1%nat, 1%nat)]%Q, (3#2)%Q).
Proof. vm_compute. reflexivity. Qed.

(** C15.  The plan has the given marginals (b rescaled to the mass of a when the masses
    differ by the accepted tolerance). *)
Theorem C15_emd_1d_sorted_coupling : forall (uw vw u v : list RNum) mt (p : R),
  let n := length uw in let m := length vw in
  let a := lnth uw in let b := lnth vw in
  let M := fun i j => metric_cost mt p (lnth u i) (lnth v j) in
  (0 < n)%nat -> (0 < m)%nat -> length u = n -> length v = m ->
  nonneg_vec n a -> nonneg_vec m b -> mass n a = mass m b -> mt <> MOther ->
  exists es, emd_1d_sorted (N:=RNum) rpow uw vw u v mt p = Ok (es, cost n m M (dmat es))
    /\ coupling n m a b (dmat es)
    /\ (sorted n (lnth u) -> sorted m (lnth v) -> (mt = Minkowski -> 1 <= p) ->
        optimal_coupling n m a b M (dmat es)).
Proof. exact c16_sorted. Qed.
Print Assumptions C15_emd_1d_sorted_coupling.

Theorem C15_emd_1d_rescaled_coupling :
  forall close chk (xa xb : list RNum) (oa ob : option (list RNum)) mt p,
  let n := length xa in let m := length xb in
  let a := weights oa n in let b := weights ob m in
  length a = n -> length b = m -> (0 < n)%nat -> (0 < m)%nat ->
  nonneg_vec n (lnth a) -> nonneg_vec m (lnth b) -> 0 < mass m (lnth b) ->
  mt <> MOther -> (mt = Minkowski -> 1 <= p) ->
  (chk = false \/ close (mass n (lnth a)) (mass m (lnth b)) = true) ->
  exists es c, emd_1d (N:=RNum) rpow close chk xa xb oa ob mt p = Ok (es, c)
    /\ coupling n m (lnth a) (fun j => lnth b j * (mass n (lnth a) / mass m (lnth b))) (dmat es).
Proof. exact c15_rescale. Qed.
Print Assumptions C15_emd_1d_rescaled_coupling.

(** C16.  The plan is optimal for every cost with the Monge property. *)
Theorem C16_emd_1d_sorted_monge_optimal : forall (uw vw u v : list RNum) mt (p : R) (M : mat),
  let n := length uw in let m := length vw in
  let a := lnth uw in let b := lnth vw in
  (0 < n)%nat -> (0 < m)%nat -> length u = n -> length v = m ->
  nonneg_vec n a -> nonneg_vec m b -> mass n a = mass m b -> mt <> MOther ->
  monge n m M ->
  exists es c, emd_1d_sorted (N:=RNum) rpow uw vw u v mt p = Ok (es, c)
    /\ optimal_coupling n m a b M (dmat es).
Proof. exact c16_monge. Qed.
Print Assumptions C16_emd_1d_sorted_monge_optimal.

(** |x-y|^3 on sorted points is Monge *)
Example C16_monge_example : monge 2 2 (fun i j => rpow (Rabs (INR i - INR j)) 3).
Proof.
  apply (convex_monge 2 2 INR INR (fun t => rpow (Rabs t) 3)).
  - apply convex_rpow_abs; lra.
  - intros k _; rewrite S_INR; lra.
  - intros k _; rewrite S_INR; lra.
Qed.

(** C16, C17.  emd_1d on samples in any order: the plan, indexed by the caller's sample
    numbers, is an optimal coupling for |x_i-y_j|^p (p>=1) or (x_i-y_j)^2, and emd2_1d
    returns its cost. *)
Theorem C17_emd_1d_optimal_in_callers_order :
  forall close chk (xa xb : list RNum) (oa ob : option (list RNum)) mt p,
  let n := length xa in let m := length xb in
  let a := weights oa n in let b := weights ob m in
  let M := fun i j => metric_cost mt p (lnth xa i) (lnth xb j) in
  length a = n -> length b = m -> (0 < n)%nat -> (0 < m)%nat ->
  nonneg_vec n (lnth a) -> nonneg_vec m (lnth b) -> mass n (lnth a) = mass m (lnth b) ->
  0 < mass m (lnth b) ->
  mt <> MOther -> (mt = Minkowski -> 1 <= p) ->
  (forall x, close x x = true) ->
  exists es c, emd_1d (N:=RNum) rpow close chk xa xb oa ob mt p = Ok (es, c)
    /\ emd2_1d (N:=RNum) rpow close chk xa xb oa ob mt p = Ok c
    /\ c = cost n m M (dmat es)
    /\ optimal_coupling n m (lnth a) (lnth b) M (dmat es).
Proof. exact c17. Qed.
Print Assumptions C17_emd_1d_optimal_in_callers_order.

(** the default weights meet the hypotheses *)
Example C17_default_weights : forall k, (0 < k)%nat ->
  length (weights (N:=RNum) None k) = k /\
  nonneg_vec k (lnth (weights (N:=RNum) None k)) /\ mass k (lnth (weights (N:=RNum) None k)) = 1.
Proof.
  intros k Hk. destruct (weights_none k Hk) as (A & B & C). split; auto. split; auto.
  intros i Hi. rewrite B by auto. left. apply Rdiv_lt_0_compat; [lra|]. apply lt_0_INR; auto.
Qed.

Example C17_unsorted_run :
  emd_1d (N:=QNum) (fun x _ => x) (fun _ _ => true) true [3; 1]%Q [2; 5; 0]%Q None
     (Some [1#4; 1#4; 1#2]%Q) SqEuclidean 1%Q
  = Ok ([(1#2, 1%nat, 2%nat); (0, 1%nat, 0%nat); (1#4, 0%nat, 0%nat); (1#4, 0%nat, 1%nat)]%Q, (7#4)%Q).
Proof. vm_compute. reflexivity. Qed.

(** C18.  wasserstein_1d is the optimal cost, its plan is optimal, and it equals emd2_1d. *)
Theorem C18_wasserstein_1d_optimal : forall (u v uw vw : list RNum) p (require_sort : bool),
  let n := length u in let m := length v in
  let M := fun i j => wmetric p (lnth u i) (lnth v j) in
  length uw = n -> length vw = m -> (0 < n)%nat -> (0 < m)%nat ->
  nonneg_vec n (lnth uw) -> nonneg_vec m (lnth vw) -> mass n (lnth uw) = mass m (lnth vw) ->
  1 <= p ->
  (require_sort = false -> sorted n (lnth u) /\ sorted m (lnth v)) ->
  exists w es, wasserstein_1d (N:=RNum) rpow u v (Some uw) (Some vw) p require_sort = Ok (w, es)
    /\ w = cost n m M (dmat es)
    /\ optimal_coupling n m (lnth uw) (lnth vw) M (dmat es).
Proof. exact c18. Qed.
Print Assumptions C18_wasserstein_1d_optimal.

Theorem C18_wasserstein_1d_equals_emd2_1d : forall close chk (u v uw vw : list RNum) p,
  let n := length u in let m := length v in
  length uw = n -> length vw = m -> (0 < n)%nat -> (0 < m)%nat ->
  nonneg_vec n (lnth uw) -> nonneg_vec m (lnth vw) -> mass n (lnth uw) = mass m (lnth vw) ->
  0 < mass m (lnth vw) -> 1 <= p -> (forall x, close x x = true) ->
  exists w es, wasserstein_1d (N:=RNum) rpow u v (Some uw) (Some vw) p true = Ok (w, es)
    /\ emd2_1d (N:=RNum) rpow close chk u v (Some uw) (Some vw)
         (if Reqb p 1 then CityBlock else Minkowski) p = Ok w.
Proof. exact c18_emd2. Qed.
Print Assumptions C18_wasserstein_1d_equals_emd2_1d.

Example C18_hypotheses_met :
  let uw := [1/2; 1/2] in let vw := [1/4; 1/4; 1/2] in
  nonneg_vec 2 (lnth uw) /\ nonneg_vec 3 (lnth vw) /\ mass 2 (lnth uw) = mass 3 (lnth vw).
Proof.
  cbv zeta. split; [|split].
  - intros [|[|i]] Hi; try lia; unfold lnth; simpl; lra.
  - intros [|[|[|i]]] Hi; try lia; unfold lnth; simpl; lra.
  - unfold mass, lnth; simpl; lra.
Qed.

Example C18_run :
  wasserstein_1d (N:=QNum) (fun x _ => x) [3; 1]%Q [2; 5; 0]%Q None (Some [1#4; 1#4; 1#2]%Q) 1%Q true
  = Ok ((5#4)%Q, [(1#2, 1%nat, 2%nat); (0, 1%nat, 2%nat); (1#4, 0%nat, 0%nat); (1#4, 0%nat, 1%nat); (0, 0%nat, 1%nat)]%Q).
Proof. vm_compute. reflexivity. Qed.
