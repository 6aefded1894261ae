(** C33-C36, C44: partial optimal transport with dummy points (ot/partial/partial_solvers.py,
    ot/optim.py), composed with the network simplex model.
    [gives r G]: the call returned the plan G, with or without log.
    [fair_costs]: M is non-negative, or the tolerance is below 1 and some pair of points with mass
    costs at least -1.  [ns_tol] is the tolerance of the simplex (P_Emd.v). *)
From Coq Require Import List Arith Bool Reals Lra Lia QArith.
From Verif Require Import Num Sums Spec Duals_model NS_model NS_emd_model Emd_model Emd_proofs Partial_model Partial_proofs Partial_final.
Import ListNotations.
Local Open Scope R_scope.

(** C33.  Whatever comes back is a sub-coupling shipping at least w; it ships exactly w when
    every M_ij + 2 max(M) exceeds twice the tolerance. *)
Theorem C33_partial_mass : forall fuel it cd n m nb a b M w log C G,
  (0 < n)%nat -> (0 < m)%nat -> (0 < nb)%nat -> nonneg_vec n a -> nonneg_vec m b -> 0 < mass n a + mass m b - w ->
  let mx := mat_max (N:=RNum) n m M in
  bounded n m M C -> Rabs (2 * mx) <= C -> fair_costs n m nb a b M C ->
  gives (partial_wasserstein (N:=RNum) fuel it cd n m (Some a) (Some b) M (Some w) nb log) G ->
  subcoupling n m a b G /\ w <= total n m G /\
  ((forall i j, (i < n)%nat -> (j < m)%nat -> 2 * ns_tol (n + nb) (m + nb) C < M i j + 2 * mx) -> total n m G = w).
Proof.
  intros fuel it cd n m nb a b M w log C G Hn Hm Hnb Ha Hb Hp mx HC HK HF H.
  destruct (pw_facts fuel it cd n m nb a b M w log C Hnb Ha Hb Hp HC HK HF Hn Hm G H) as (A & B & D).
  split; auto. split; auto. intros E. apply D; auto.
Qed.
Print Assumptions C33_partial_mass.

(** and with no iteration limit (or a large one) a valid call does return a plan *)
Theorem C33_partial_answers : forall it cd n m nb a b M w log C,
  (0 < n)%nat -> (0 < m)%nat -> (0 < nb)%nat -> nonneg_vec n a -> nonneg_vec m b ->
  0 <= w -> w <= mass n a -> w <= mass m b -> 0 < mass n a -> 0 < mass m b ->
  bounded n m M C -> Rabs (2 * mat_max (N:=RNum) n m M) <= C -> fair_costs n m nb a b M C ->
  (it = 0 \/ 2 ^ ((n + nb) * (m + nb) + (n + nb + (m + nb))) < it)%nat ->
  exists fuel G, gives (partial_wasserstein (N:=RNum) fuel it cd n m (Some a) (Some b) M (Some w) nb log) G.
Proof. intros; eapply pw_answers; eauto. Qed.
Print Assumptions C33_partial_answers.

(** The defect: one point each, cost -1/10, asked to ship 1/2: it ships 1. *)
Theorem C33_negative_cost_refuted : exists (M : nat -> nat -> Q),
  match partial_wasserstein (N:=QNum) 100 100 true 1 1 (Some (fun _ => 1%Q)) (Some (fun _ => 1%Q)) M (Some (1 # 2)%Q) 1 false with
  | Plan G => G 0%nat 0%nat = 1%Q | _ => False end.
Proof. exists (fun _ _ => (-1 # 10)%Q). vm_compute. reflexivity. Qed.
Print Assumptions C33_negative_cost_refuted.

Definition half (_ : nat) : Q := (1 # 2)%Q.
Example partial_run :
  match partial_wasserstein (N:=QNum) 100 100 true 2 2 (Some half) (Some half) (fun i j => if Nat.eqb i j then 1%Q else 3%Q) (Some (3 # 4)%Q) 1 false with
  | Plan G => map (fun i => map (fun j => Qred (G i j)) (seq 0 2)) (seq 0 2) = [[1 # 4; 0]; [0; 1 # 2]]%Q
  | _ => False end.
Proof. vm_compute. reflexivity. Qed.

(** C34.  Under the same condition the plan is optimal among the sub-couplings of mass w, up to
    the solver tolerance times the mass of the extended problem. *)
Theorem C34_partial_optimal : forall fuel it cd n m nb a b M w log C G,
  (0 < n)%nat -> (0 < m)%nat -> (0 < nb)%nat -> nonneg_vec n a -> nonneg_vec m b -> 0 < mass n a + mass m b - w ->
  let mx := mat_max (N:=RNum) n m M in let tol := ns_tol (n + nb) (m + nb) C in
  bounded n m M C -> Rabs (2 * mx) <= C -> fair_costs n m nb a b M C ->
  (forall i j, (i < n)%nat -> (j < m)%nat -> 2 * tol < M i j + 2 * mx) ->
  gives (partial_wasserstein (N:=RNum) fuel it cd n m (Some a) (Some b) M (Some w) nb log) G ->
  forall P, subcoupling n m a b P -> total n m P = w -> cost n m M G <= cost n m M P + tol * (mass n a + mass m b - w).
Proof.
  intros fuel it cd n m nb a b M w log C G Hn Hm Hnb Ha Hb Hp mx tol HC HK HF E H.
  destruct (pw_facts fuel it cd n m nb a b M w log C Hnb Ha Hb Hp HC HK HF Hn Hm G H) as (A & B & D).
  apply D; auto.
Qed.
Print Assumptions C34_partial_optimal.

(** C35.  partial_wasserstein_lagrange returns a sub-coupling minimising <G, M - reg_m> over all
    sub-couplings, up to the tolerance.  On the early exit (reg_m < - max M, zero plan) this
    needs non-negative costs. *)
Theorem C35_lagrange_optimal : forall fuel it cd n m nb a b M rm log C G,
  (0 < n)%nat -> (0 < m)%nat -> (0 < nb)%nat -> nonneg_vec n a -> nonneg_vec m b -> 0 < mass n a -> 0 < mass m b ->
  let tol := ns_tol (n + nb) (m + nb) C in
  bounded n m (fun i j => M i j - rm) C -> tol < 1 ->
  nonneg_mat n m M \/ - mat_max (N:=RNum) n m M <= rm ->
  gives (partial_wasserstein_lagrange (N:=RNum) fuel it cd n m a b M (Some rm) nb log) G ->
  subcoupling n m a b G /\
  forall P, subcoupling n m a b P ->
    cost n m (fun i j => M i j - rm) G <= cost n m (fun i j => M i j - rm) P + tol * (mass n a + mass m b).
Proof.
  intros fuel it cd n m nb a b M rm log C G Hn Hm Hnb Ha Hb Pa Pb tol HC HT HM H.
  assert (C0 : 0 <= C) by (eapply Rle_trans; [apply Rabs_pos|apply (HC 0%nat 0%nat); lia]).
  unfold partial_wasserstein_lagrange in H.
  match type of H with gives (if ?c then _ else _) _ => destruct c end; [bad H|].
  change (nltb (n:=RNum) rm (nopp (mat_max (N:=RNum) n m M))) with (Rltb rm (0 - mat_max (N:=RNum) n m M)) in H.
  destruct (Rltb rm (0 - mat_max (N:=RNum) n m M)) eqn:E.
  - apply Rltb_true in E. destruct HM as [HM|HM]; [|exfalso; cbn in *; lra].
    assert (G = fun _ _ => 0) by (destruct H as [H|(? & ? & ? & H)]; [injection H as <-; reflexivity|discriminate]). subst G.
    split.
    + split; [intros i j _ _; lra|]. split; intros i Hi; unfold row_sum, col_sum; rewrite rsum_0 by auto; auto.
    + intros P HP. assert (Z : cost n m (fun i j => M i j - rm) (fun _ _ => 0) = 0) by (apply rsum_0; intros; apply rsum_0; intros; ring).
      rewrite Z. assert (T := ns_tol_pos (n + nb) (m + nb) C C0). fold tol in T.
      assert (0 <= tol * (mass n a + mass m b)) by (apply Rmult_le_pos; lra).
      assert (0 <= cost n m (fun i j => M i j - rm) P); [|lra].
      apply rsum_nonneg; intros i Hi; apply rsum_nonneg; intros j Hj. apply Rmult_le_pos; [|apply HP; auto].
      assert (A := mat_max_ge n m M i j Hi Hj). specialize (HM i j Hi Hj). cbn in *. lra.
  - exact (lag_facts fuel it cd n m nb a b M rm log C Hnb Ha Hb Pa Pb HC C0 HT Hn Hm G H).
Qed.
Print Assumptions C35_lagrange_optimal.
(** The defect: with a negative cost the early exit returns the zero plan although shipping is
    profitable: costs (-5, 1), reg_m = -2, shipping 1/2 along the first cell gives -3/2. *)
Theorem C35_early_exit_refuted : exists (M : nat -> nat -> Q),
  partial_wasserstein_lagrange (N:=QNum) 100 100 true 1 2 (fun _ => 1%Q) half M (Some (-2)%Q) 1 false = Plan (N:=QNum) (fun _ _ => 0%Q)
  /\ ((1 # 2) * (M 0%nat 0%nat - (-2)) < 0)%Q.
Proof. exists (fun _ j => if Nat.eqb j 0 then (-5)%Q else 1%Q). vm_compute. auto. Qed.
Print Assumptions C35_early_exit_refuted.
Example lagrange_run :
  match partial_wasserstein_lagrange (N:=QNum) 100 100 true 2 2 half half (fun i j => if Nat.eqb i j then nth i [1; 3]%Q 0%Q else 5%Q) (Some 2%Q) 1 true with
  | PlanLog G c _ _ => (map (fun i => map (fun j => Qred (G i j)) (seq 0 2)) (seq 0 2), Qred c) = ([[1 # 2; 0]; [0; 0]], 1 # 2)%Q
  | _ => False end.
Proof. vm_compute. reflexivity. Qed.

(** C36.  With log=True every successful return is a pair, except exactly on the early exit
    reg_m < -max(M), where the bare plan comes back (any arithmetic). *)
Theorem C36_lagrange_log : forall (N : NumOps) fuel it cd n m (a b : nat -> N) M rm nb G,
  let r := partial_wasserstein_lagrange fuel it cd n m a b M (Some rm) nb true in
  (nltb rm (nopp (mat_max n m M)) = false -> r <> Plan G) /\
  (nltb rm (nopp (mat_max n m M)) = true -> r = Plan (fun _ _ => n0) \/ r = PValueError).
Proof.
  intros N fuel it cd n m a b M rm nb G r. unfold r, partial_wasserstein_lagrange.
  destruct (nltb _ (nsum n a) || _)%bool; [split; [discriminate|auto]|]. split; intros E; rewrite E; auto.
  unfold lagrange_solve. destruct (emd _ _ _ _ _ _ _ _) as [o| |]; try discriminate.
  destruct (no_warning (eo_type o)); discriminate.
Qed.
Print Assumptions C36_lagrange_log.
Theorem C36_log_dropped_refuted :
  partial_wasserstein_lagrange (N:=QNum) 100 100 true 1 1 (fun _ => 1%Q) (fun _ => 1%Q) (fun _ _ => 1%Q) (Some (-2)%Q) 1 true = Plan (N:=QNum) (fun _ _ => 0%Q).
Proof. vm_compute. reflexivity. Qed.
Print Assumptions C36_log_dropped_refuted.

(** C44.  The oracle of partial_cg (dummy weights set to ship w) returns a plan of mass exactly w
    when every Mi_ij + 100 max(M) exceeds twice the tolerance, and then an optimal one. *)
Theorem C44_partial_oracle : forall fuel it n m nb a b M Mi w C G,
  (0 < n)%nat -> (0 < m)%nat -> (0 < nb)%nat -> nonneg_vec n a -> nonneg_vec m b ->
  0 <= w -> w <= mass n a -> w <= mass m b -> 0 < mass n a + mass m b - w ->
  let K := 100 * mat_max (N:=RNum) n m M in let tol := ns_tol (n + nb) (m + nb) C in
  bounded n m Mi C -> Rabs K <= C -> fair_costs n m nb a b Mi C -> 0 <= K ->
  (forall i j, (i < n)%nat -> (j < m)%nat -> 2 * tol < Mi i j + K) ->
  partial_lp (N:=RNum) fuel it n m (ext_vec (N:=RNum) n a ((mass m b - w) / INR nb)) (ext_vec (N:=RNum) m b ((mass n a - w) / INR nb)) nb M Mi = Plan (N:=RNum) G ->
  subcoupling n m a b G /\ total n m G = w /\
  forall P, subcoupling n m a b P -> total n m P = w -> cost n m Mi G <= cost n m Mi P + tol * (mass n a + mass m b - w).
Proof.
  intros fuel it n m nb a b M Mi w C G Hn Hm Hnb Ha Hb W1 W2 W3 Hp K tol HC HKC HF HK0 HK H.
  unfold partial_lp in H. rewrite NS_enter.nofpos_R in H.
  replace (nmul (n:=RNum) (mat_max (N:=RNum) n m M) 100) with K in H by (unfold K; cbn; ring).
  set (da := (mass m b - w) / INR nb) in *. set (db := (mass n a - w) / INR nb) in *.
  destruct (emd (N:=RNum) fuel it true (n + nb) (m + nb) _ _ _) as [o| |] eqn:E; try discriminate.
  destruct (eo_type o) eqn:Ho; cbn [no_warning] in H; try discriminate. injection H as <-.
  assert (Q := lt_0_INR nb Hnb).
  assert (D1 : INR nb * da = mass m b - w) by (unfold da; field; lra).
  assert (D2 : INR nb * db = mass n a - w) by (unfold db; field; lra).
  assert (Hmm : mass n a + INR nb * da = mass m b + INR nb * db) by lra.
  assert (Pa : 0 <= da) by (apply Rle_mult_inv_pos; lra).
  assert (Pb : 0 <= db) by (apply Rle_mult_inv_pos; lra).
  assert (Pp : 0 < mass n a + INR nb * da) by lra.
  assert (HB := fair_benign n m nb a b da db Mi K C HF (fun _ => HK0) HC HKC).
  assert (HCe := ext_bounded n m nb Mi K C HC HKC).
  assert (HG := solved_coupling n m nb a b da db Mi K Hmm fuel it true o Ha Hb Pa Pb Pp E Ho HB).
  assert (T := ext_total n m nb a b da db Hnb _ HG).
  assert (Z := solved_no_corner n m nb a b da db Mi K Hnb Hmm fuel it true o C Ha Hb Pa Pb Pp E Ho HB HCe HK ltac:(lra)).
  split; [exact (ext_sub n m nb a b da db Hnb _ HG)|]. split; [lra|]. intros P HP HPt.
  assert (Em := embed_ok n m nb a b da db Hnb Hmm P HP ltac:(lra)).
  assert (B := solved_best n m nb a b da db Mi K Hnb Hmm fuel it true o C Ha Hb Pa Pb Pp E Ho HB HCe _ Em).
  rewrite !(ext_cost n m nb Mi K) in B. rewrite embed_cost in B. rewrite (embed_corner n m nb a b db) in B by (try apply Hnb; auto).
  rewrite Z in B. fold tol in B. replace (mass n a + mass m b - w) with (mass n a + INR nb * da) by lra.
  replace (K * (total n m P - (mass n a - INR nb * db))) with 0 in B by (rewrite HPt, D2; ring). lra.
Qed.
Print Assumptions C44_partial_oracle.
(** The defect: in pure partial Gromov-Wasserstein the linear cost is M = 0, so the corner costs
    nothing; with gradient -1 the oracle, asked for mass 1/2, ships 1. *)
Theorem C44_zero_linear_cost_refuted : exists (Mi : nat -> nat -> Q),
  match partial_lp (N:=QNum) 100 100 1 1 (ext_vec (N:=QNum) 1 (fun _ => 1%Q) (1 # 2)%Q) (ext_vec (N:=QNum) 1 (fun _ => 1%Q) (1 # 2)%Q) 1
     (fun _ _ => 0%Q) Mi with
  | Plan G => G 0%nat 0%nat = 1%Q | _ => False end.
Proof. exists (fun _ _ => (-1)%Q). vm_compute. reflexivity. Qed.
Print Assumptions C44_zero_linear_cost_refuted.
