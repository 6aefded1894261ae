(** Property theorems C11-C13: zero weights and dual post-processing around ot.emd. *)
From Coq Require Import List Arith Bool Reals Lra Lia QArith.
From Verif Require Import Num Sums Spec Perm Duals_model Duals_proofs Duals_final.
Import ListNotations.
Local Open Scope R_scope.

(** C11.  Solving on the rows and columns with non-zero weight and padding back with zeros
    gives an optimal coupling of the full problem with the same cost. *)
Theorem C11_zero_weight_points : forall n m a b M G,
  let ra := fun i => negb (Reqb (a i) 0) in let rb := fun j => negb (Reqb (b j) 0) in
  let r := flatnonzero n ra in let c := flatnonzero m rb in
  forall u v,
  let Gf := fst (fst (inflate (N:=RNum) true r c G u v)) in
  optimal_coupling (length r) (length c) (fun k => a (nth k r 0%nat)) (fun l => b (nth l c 0%nat))
     (fun k l => M (nth k r 0%nat) (nth l c 0%nat)) G ->
  optimal_coupling n m a b M Gf /\
  cost n m M Gf = cost (length r) (length c) (fun k l => M (nth k r 0%nat) (nth l c 0%nat)) G /\
  (forall i j, (i < n)%nat -> (j < m)%nat -> a i = 0 \/ b j = 0 -> Gf i j = 0).
Proof. exact zero_weight_reduction. Qed.
Print Assumptions C11_zero_weight_points.

(** C11 end to end: whatever inner solver is plugged in, if it certifies its reduced problem
    then ot.emd returns an optimal plan of the (rescaled) full problem, its cost, and dual
    potentials feasible for every pair, zero-weight points included. *)
Theorem C11_emd_wrapper_correct : forall solver center n m a b M G c u v,
  solver_correct solver ->
  nonneg_vec n a -> nonneg_vec m b -> 0 < mass n a -> 0 < mass m b ->
  emd_post (N:=RNum) solver center n m a b M = (G, c, u, v, OPTIMAL) ->
  let b' := rescale n m a b in
  optimal_coupling n m a b' M G /\ c = cost n m M G
  /\ dual_feasible n m M u v /\ dual_obj n m a b' u v = c
  /\ (center = true -> dot n u a = dot m v b').
Proof. exact emd_post_spec. Qed.
Print Assumptions C11_emd_wrapper_correct.

(** C12.  Potentials feasible on the support become feasible everywhere; the dual value and
    the sums on the support do not change. *)
Theorem C12_null_weight_duals : forall n m u v a b M u' v',
  (0 < n)%nat -> (0 < m)%nat -> mass n a = mass m b -> mass n a <> 0 ->
  (forall i j, (i < n)%nat -> (j < m)%nat -> a i <> 0 -> b j <> 0 -> u i + v j <= M i j) ->
  estimate_dual_null_weights (N:=RNum) n m u v a b M = (u', v') ->
  dual_feasible n m M u' v' /\ dual_obj n m a b u' v' = dual_obj n m a b u v
  /\ dot n u' a = dot m v' b
  /\ (forall i j, a i <> 0 -> b j <> 0 -> u' i + v' j = u i + v j).
Proof. exact estimate_spec. Qed.
Print Assumptions C12_null_weight_duals.

(** C13. *)
Theorem C13_center_ot_dual : forall n m u v a b, mass n a + mass m b <> 0 ->
  forall u' v', center_ot_dual (N:=RNum) n m u v a b = (u', v') ->
  (forall i j, u' i + v' j = u i + v j) /\ dot n u' a = dot m v' b
  /\ (mass n a = mass m b -> dual_obj n m a b u' v' = dual_obj n m a b u v).
Proof. exact center_spec. Qed.
Print Assumptions C13_center_ot_dual.

(** a case with a null row whose potential violates the constraint and gets corrected *)
Example C12_run :
  let a := fun i => match i with 0%nat => 1%Q | _ => 0%Q end in
  let b := fun _ : nat => 1%Q in
  let u := fun i => match i with 0%nat => 0%Q | _ => 7%Q end in
  let v := fun _ : nat => 0%Q in
  let M := fun _ _ : nat => 2%Q in
  let r := estimate_dual_null_weights (N:=QNum) 2 1 u v a b M in
  (fst r 0%nat, fst r 1%nat, snd r 0%nat) = (0%Q, 2%Q, 0%Q).
Proof. vm_compute. reflexivity. Qed.

Example C12_hypotheses_met :
  let a := fun i => match i with 0%nat => 1 | _ => 0 end in
  let b := fun _ : nat => 1 in
  let u := fun i => match i with 0%nat => 0 | _ => 7 end in
  mass 2 a = mass 1 b /\ mass 2 a <> 0 /\
  (forall i j, (i < 2)%nat -> (j < 1)%nat -> a i <> 0 -> b j <> 0 -> u i + 0 <= 2).
Proof.
  cbv zeta. unfold mass; simpl. split; [lra|]. split; [lra|].
  intros [|[|i]] j Hi Hj H1 H2; try lia; simpl in *; lra.
Qed.
