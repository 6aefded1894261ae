(** Property theorems C01-C06: ot.emd with the network simplex, end to end.
    Vocabulary: Spec.v (coupling, subcoupling, cost, dual_obj), and from
    Emd_proofs.v the tolerance [ns_tol n m C = 2.22e-15 * (n+m) * (2C+1)] for costs bounded by C,
    [benign] (non-negative costs, or tolerance below 1 and some cost >= -1 between points
    with mass) and [few_cells_spec] (number of positive cells).
    [rescale n m a b] is b scaled to the mass of a, as documented for ot.emd. *)
From Coq Require Import List Arith Bool Reals Lra Lia QArith.
From Verif Require Import Num Sums Spec Duals_model Duals_final NS_model NS_emd_model Emd_model Emd_proofs Emd_final.
Import ListNotations.
Local Open Scope R_scope.

(** C01.  OPTIMAL means the plan is a coupling. *)
Theorem C01_emd_coupling : forall fuel it cd n m a b M o,
  nonneg_vec n a -> nonneg_vec m b -> 0 < mass n a -> 0 < mass m b ->
  emd (N:=RNum) fuel it cd n m a b M = Ret o -> eo_type o = NS_model.OPTIMAL ->
  benign n m a (rescale n m a b) M ->
  coupling n m a (rescale n m a b) (eo_G o).
Proof.
  intros fuel it cd n m a b M o Ha Hb Hma Hmb E Ht HB.
  destruct (emd_ok fuel it cd n m a b M o Ha Hb Hma Hmb E) as [W _].
  exact (w_exact _ _ _ _ _ _ _ W Ht HB).
Qed.
Print Assumptions C01_emd_coupling.

(** C01 for arbitrary costs: never over-ships, and each marginal is met up to 1e-8, the
    threshold below which start() forgets flow on artificial arcs. *)
Theorem C01_emd_coupling_any_cost : forall fuel it cd n m a b M o,
  nonneg_vec n a -> nonneg_vec m b -> 0 < mass n a -> 0 < mass m b ->
  emd (N:=RNum) fuel it cd n m a b M = Ret o -> eo_type o = NS_model.OPTIMAL ->
  let b' := rescale n m a b in
  subcoupling n m a b' (eo_G o) /\
  (forall i, (i < n)%nat -> a i - 1 / 100000000 <= row_sum m (eo_G o) i) /\
  (forall j, (j < m)%nat -> b' j - 1 / 100000000 <= col_sum n (eo_G o) j).
Proof.
  intros fuel it cd n m a b M o Ha Hb Hma Hmb E Ht b'.
  destruct (emd_ok fuel it cd n m a b M o Ha Hb Hma Hmb E) as [W _].
  split; [apply (w_sub _ _ _ _ _ _ _ W); congruence|exact (w_near _ _ _ _ _ _ _ W Ht)].
Qed.
Print Assumptions C01_emd_coupling_any_cost.

(** C02.  The reported cost is the cost of the plan, and no coupling is cheaper by more than
    the tolerance times the transported mass. *)
Theorem C02_emd_optimal : forall fuel it cd n m a b M o C,
  nonneg_vec n a -> nonneg_vec m b -> 0 < mass n a -> 0 < mass m b ->
  emd (N:=RNum) fuel it cd n m a b M = Ret o -> eo_type o = NS_model.OPTIMAL ->
  let b' := rescale n m a b in
  benign n m a b' M -> bounded n m M C ->
  eo_cost o = cost n m M (eo_G o) /\
  forall G', coupling n m a b' G' -> cost n m M (eo_G o) <= cost n m M G' + ns_tol n m C * mass n a.
Proof.
  intros fuel it cd n m a b M o C Ha Hb Hma Hmb E Ht b' HB HC.
  destruct (emd_ok fuel it cd n m a b M o Ha Hb Hma Hmb E) as [W _].
  split; [apply (w_cost _ _ _ _ _ _ _ W); congruence|].
  assert (C0 : 0 <= C).
  { destruct n; [unfold mass in Hma; cbn in Hma; lra|]. destruct m; [unfold mass in Hmb; cbn in Hmb; lra|].
    eapply Rle_trans; [apply Rabs_pos|apply (HC 0%nat 0%nat); lia]. }
  apply (certificate_eps n m a b' M (eo_G o) (eo_alpha o) (eo_beta o) (ns_tol n m C)).
  - exact (w_exact _ _ _ _ _ _ _ W Ht HB).
  - apply ns_tol_pos; auto.
  - exact (w_cert _ _ _ _ _ _ _ W Ht C HC).
  - apply (w_tight _ _ _ _ _ _ _ W). congruence.
Qed.
Print Assumptions C02_emd_optimal.

(** C03.  The returned potentials are feasible up to the tolerance for every pair (zero-weight
    points included), tight wherever the plan has mass, their dual value is the returned cost,
    and they are centred when center_dual is set. *)
Theorem C03_emd_duals : forall fuel it cd n m a b M o C,
  nonneg_vec n a -> nonneg_vec m b -> 0 < mass n a -> 0 < mass m b ->
  emd (N:=RNum) fuel it cd n m a b M = Ret o -> eo_type o = NS_model.OPTIMAL ->
  let b' := rescale n m a b in let u := eo_alpha o in let v := eo_beta o in
  bounded n m M C ->
  (forall i j, (i < n)%nat -> (j < m)%nat -> u i + v j <= M i j + ns_tol n m C) /\
  (forall i j, (i < n)%nat -> (j < m)%nat -> 0 < eo_G o i j -> u i + v j = M i j) /\
  (benign n m a b' M -> dual_obj n m a b' u v = eo_cost o) /\
  (cd = true -> dot n u a = dot m v b').
Proof.
  intros fuel it cd n m a b M o C Ha Hb Hma Hmb E Ht b' u v HC.
  destruct (emd_ok fuel it cd n m a b M o Ha Hb Hma Hmb E) as [W HZ].
  assert (Ti : forall i j, (i < n)%nat -> (j < m)%nat -> 0 < eo_G o i j -> u i + v j = M i j) by (apply (w_tight _ _ _ _ _ _ _ W); congruence).
  assert (C0 : 0 <= C).
  { destruct n; [unfold mass in Hma; cbn in Hma; lra|]. destruct m; [unfold mass in Hmb; cbn in Hmb; lra|].
    eapply Rle_trans; [apply Rabs_pos|apply (HC 0%nat 0%nat); lia]. }
  split; [exact (w_cert _ _ _ _ _ _ _ W Ht C HC)|]. split; auto. split; auto.
  intros HB. rewrite (w_cost _ _ _ _ _ _ _ W) by congruence. symmetry.
  apply (certificate_eps n m a b' M (eo_G o) u v (ns_tol n m C)); auto.
  - exact (w_exact _ _ _ _ _ _ _ W Ht HB).
  - apply ns_tol_pos; auto.
  - exact (w_cert _ _ _ _ _ _ _ W Ht C HC).
Qed.
Print Assumptions C03_emd_duals.

(** C04.  Whatever the answer (status, iteration limit), at most n+m-1 cells are positive. *)
Theorem C04_emd_sparse : forall fuel it cd n m a b M o,
  nonneg_vec n a -> nonneg_vec m b -> 0 < mass n a -> 0 < mass m b ->
  emd (N:=RNum) fuel it cd n m a b M = Ret o ->
  few_cells_spec n m (eo_G o) (n + m - 1).
Proof.
  intros fuel it cd n m a b M o Ha Hb Hma Hmb E.
  destruct (emd_ok fuel it cd n m a b M o Ha Hb Hma Hmb E) as [W _]. exact (w_few _ _ _ _ _ _ _ W).
Qed.
Print Assumptions C04_emd_sparse.

(** C05.  Stopped by the iteration limit: still a partial plan, with its true cost and
    potentials tight on the cells used. *)
Theorem C05_emd_interrupted : forall fuel it cd n m a b M o,
  nonneg_vec n a -> nonneg_vec m b -> 0 < mass n a -> 0 < mass m b ->
  emd (N:=RNum) fuel it cd n m a b M = Ret o -> eo_type o = NS_model.MAX_ITER_REACHED ->
  subcoupling n m a (rescale n m a b) (eo_G o) /\ eo_cost o = cost n m M (eo_G o) /\
  (forall i j, (i < n)%nat -> (j < m)%nat -> 0 < eo_G o i j -> eo_alpha o i + eo_beta o j = M i j).
Proof.
  intros fuel it cd n m a b M o Ha Hb Hma Hmb E Ht.
  destruct (emd_ok fuel it cd n m a b M o Ha Hb Hma Hmb E) as [W _].
  split; [apply (w_sub _ _ _ _ _ _ _ W); congruence|split].
  - apply (w_cost _ _ _ _ _ _ _ W); congruence.
  - apply (w_tight _ _ _ _ _ _ _ W); congruence.
Qed.
Print Assumptions C05_emd_interrupted.

(** C06.  With a positive iteration limit emd answers, and the answer is OPTIMAL or
    MAX_ITER_REACHED: never INFEASIBLE, never UNBOUNDED, no read of an uninitialised arc. *)
Theorem C06_emd_never_infeasible : forall it cd n m a b M,
  nonneg_vec n a -> nonneg_vec m b -> 0 < mass n a -> 0 < mass m b -> (0 < it)%nat ->
  benign n m a (rescale n m a b) M ->
  exists o, emd (N:=RNum) it it cd n m a b M = Ret o /\
    (eo_type o = NS_model.OPTIMAL \/ eo_type o = NS_model.MAX_ITER_REACHED).
Proof.
  intros it cd n m a b M Ha Hb Hma Hmb Hit HB.
  destruct (emd_answers it it cd n m a b M Ha Hb Hma Hmb Hit (Nat.le_refl it)) as (o & E).
  exists o. split; auto. destruct (emd_ok it it cd n m a b M o Ha Hb Hma Hmb E) as [W _].
  pose proof (w_feas _ _ _ _ _ _ _ W HB) as HF. destruct (w_ty _ _ _ _ _ _ _ W) as [?|[?|[? _]]]; auto; congruence.
Qed.
Print Assumptions C06_emd_never_infeasible.

(** C67.  The simplex never cycles: with numItermax = 0 (no limit) or a limit above 2^(nm+n+m), emd
    stops and reports OPTIMAL, for every input with benign costs. *)
Theorem C67_emd_terminates : forall it cd n m a b M,
  nonneg_vec n a -> nonneg_vec m b -> 0 < mass n a -> 0 < mass m b ->
  (it = 0 \/ 2 ^ (n * m + (n + m)) < it)%nat ->
  benign n m a (rescale n m a b) M ->
  exists fuel o, emd (N:=RNum) fuel it cd n m a b M = Ret o /\ eo_type o = NS_model.OPTIMAL.
Proof.
  intros it cd n m a b M Ha Hb Hma Hmb Hit HB. exists (S (2 ^ (n * m + (n + m)))).
  destruct (emd_finishes (S (2 ^ (n * m + (n + m)))) it cd n m a b M Ha Hb Hma Hmb) as (o & E & Ht); auto.
  exists o. split; auto. destruct (emd_ok _ it cd n m a b M o Ha Hb Hma Hmb E) as [W _].
  pose proof (w_feas _ _ _ _ _ _ _ W HB) as HF. destruct (w_ty _ _ _ _ _ _ _ W) as [?|[?|[? _]]]; auto; congruence.
Qed.
Print Assumptions C67_emd_terminates.

(** C06, the defect: with all costs at -100 the two-point problem with equal weights is declared
    INFEASIBLE (exact rational arithmetic). *)
Definition q_half (_ : nat) : Q := (1 # 2)%Q.
Theorem C06_negative_costs_refuted :
  exists (M : nat -> nat -> Q) o, emd (N:=QNum) 100 100 true 2 2 q_half q_half M = Ret o /\
    eo_type o = NS_model.INFEASIBLE.
Proof.
  exists (fun _ _ => (-100 # 1)%Q). eexists. split; [vm_compute; reflexivity|vm_compute; reflexivity].
Qed.
Print Assumptions C06_negative_costs_refuted.

(** a 3x3 run with a zero weight, exact rationals: OPTIMAL, cost 7/4 *)
Example emd_run :
  let a := fun i => match i with 0%nat => (1#2)%Q | 1%nat => 0%Q | _ => (1#2)%Q end in
  let b := fun j => match j with 0%nat => (1#4)%Q | 1%nat => (1#4)%Q | _ => (1#2)%Q end in
  let M := fun i j => match i, j with
    | 0%nat, 0%nat => 1%Q | 0%nat, 1%nat => 2%Q | 0%nat, _ => 3%Q
    | 1%nat, _ => 5%Q | _, 0%nat => 4%Q | _, 1%nat => 1%Q | _, _ => 2%Q end in
  match emd (N:=QNum) 50 50 true 3 3 a b M with
  | Ret o => (eo_type o, Qred (eo_cost o), map (fun i => map (fun j => Qred (eo_G o i j)) [0;1;2]%nat) [0;1;2]%nat)
             = (NS_model.OPTIMAL, (7 # 4)%Q, [[(1#4);0;(1#4)];[0;0;0];[0;(1#4);(1#4)]]%Q)
  | _ => False end.
Proof. vm_compute. reflexivity. Qed.
