(** Semi-dual and dual entropic transport: Lagrangian bounds, invariants of SAG and averaged SGD *)
From Coq Require Import List Arith Bool Reals Lra Lia FunctionalExtensionality.
From Verif Require Import Num Sums Spec Entropy Duals_proofs Optim_proofs Emd1d_model Emd1d_perm_proofs Smooth_proofs Semi_model.
Import ListNotations.
Local Open Scope R_scope.
Ltac rn := change (carrier RNum) with R in *.

(** ** specification: <M,P> + reg sum P ln (P / (a b)) *)
Definition kl_cost (n m : nat) (a b : vec) (M : mat) (reg : R) (P : mat) : R := cost n m M P + reg * rsum n (fun i => rsum m (fun j => P i j * ln (P i j / (a i * b j)))).
(** the semi-dual of the docstring *)
Definition semi_dual (n m : nat) (a b : vec) (M : mat) (reg : R) (be : vec) : R :=
  rsum n (fun i => a i * (dot m be b - reg * ln (rsum m (fun j => b j * exp ((be j - M i j) / reg))))).

Section S.
Variables (n m : nat) (a b : vec) (M : mat) (reg : R).
Hypotheses (Hm : (0 < m)%nat) (Hr : 0 < reg) (Ha : nonneg_vec n a) (Hb : pos_vec m b).
Definition Z (be : vec) (i : nat) : R := rsum m (fun j => b j * exp ((be j - M i j) / reg)).
Lemma Z_pos : forall be i, 0 < Z be i.
Proof. intros. apply rsum_pos; auto. intros j Hj. apply Rmult_lt_0_compat; [apply Hb; auto|apply exp_pos]. Qed.
Lemma exp_beta_R : forall (be : vec) i j, exp_beta (N:=RNum) exp b M reg be i j = b j * exp ((be j - M i j) / reg).
Proof. intros. unfold exp_beta. cbn [nmul ndiv nsub n0 RNum]. rewrite Rmult_comm. f_equal. f_equal. unfold Rdiv. ring. Qed.
Lemma khi_R : forall (be : vec) i j, khi (N:=RNum) exp m b M reg be i j = b j * exp ((be j - M i j) / reg) / Z be i.
Proof. intros. unfold khi. rewrite nsum_R. cbn [ndiv RNum]. rewrite exp_beta_R. f_equal. apply rsum_ext. intros. apply exp_beta_R. Qed.
Lemma c_transform_R : forall (be : vec) i, c_transform (N:=RNum) exp ln m b M reg be i = - reg * ln (Z be i).
Proof.
  intros be i. unfold c_transform. cbv zeta. rewrite nsum_R. cbn [nmul ndiv nsub n0 RNum]. set (mr := @nmink RNum (m - 1) (fun j => M i j - be j)).
  assert (E : rsum m (fun j => exp ((0 - (M i j - be j - mr)) / reg) * b j) = exp (mr / reg) * Z be i).
  { unfold Z. rewrite <- rsum_scal. apply rsum_ext. intros j _. replace ((0 - (M i j - be j - mr)) / reg) with (mr / reg + (be j - M i j) / reg) by (unfold Rdiv; ring). rewrite exp_plus. ring. }
  rewrite E, ln_mult, ln_exp by (try apply exp_pos; apply Z_pos). change (carrier RNum) with R in *. field. lra.
Qed.
Lemma semi_plan_R : forall (be : vec) i j, semi_dual_plan (N:=RNum) exp ln m a b M reg be i j = a i * khi (N:=RNum) exp m b M reg be i j.
Proof.
  intros be i j. rewrite khi_R. unfold semi_dual_plan, dual_plan. rewrite c_transform_R. cbn [nmul ndiv nsub nadd RNum]. pose proof (Z_pos be i) as HZ.
  replace ((- reg * ln (Z be i) + be j - M i j) / reg) with (- ln (Z be i) + (be j - M i j) / reg) by (field; lra). rewrite exp_plus, exp_Ropp, exp_ln by auto. rn. field. lra.
Qed.
Lemma khi_pos : forall (be : vec) i j, (j < m)%nat -> 0 < khi (N:=RNum) exp m b M reg be i j.
Proof. intros. rewrite khi_R. apply Rdiv_lt_0_compat; [|apply Z_pos]. apply Rmult_lt_0_compat; [apply Hb; auto|apply exp_pos]. Qed.
Lemma khi_mass : forall (be : vec) i, rsum m (khi (N:=RNum) exp m b M reg be i) = 1.
Proof. intros. rewrite (rsum_ext m _ (fun j => b j * exp ((be j - M i j) / reg) / Z be i)) by (intros; apply khi_R). rewrite rsum_div. fold (Z be i). field. pose proof (Z_pos be i). lra. Qed.

(** Lagrangian bound over plans whose first marginal is a *)
Definition rows_are (P : mat) : Prop := nonneg_mat n m P /\ forall i, (i < n)%nat -> row_sum m P i = a i.
Lemma row_zero : forall P i j, rows_are P -> (i < n)%nat -> (j < m)%nat -> a i = 0 -> P i j = 0.
Proof. intros P i j [NP R1] Hi Hj E. apply (rsum_nonneg_zero m (fun j => P i j)); auto. specialize (R1 i Hi). unfold row_sum in R1. congruence. Qed.
Lemma row_bound : forall (be : vec) P i, rows_are P -> (i < n)%nat ->
  rsum m (fun j => (M i j - be j) * P i j + reg * (P i j * ln (P i j / (a i * b j)))) = - a i * (reg * ln (Z be i)) + reg * kl m (P i) (fun j => a i * khi (N:=RNum) exp m b M reg be i j).
Proof.
  intros be P i HP Hi. destruct (Ha i Hi) as [Hp | E].
  - unfold kl. rewrite <- rsum_scal. destruct HP as [NP R1].
    assert (EL : - a i * (reg * ln (Z be i)) = rsum m (fun j => - P i j * (reg * ln (Z be i)))) by (rewrite rsum_scal_r, rsum_opp; f_equal; f_equal; symmetry; exact (R1 i Hi)).
    assert (EK : rsum m (fun j => reg * (P i j * ln (P i j / (a i * khi (N:=RNum) exp m b M reg be i j)) - P i j + a i * khi (N:=RNum) exp m b M reg be i j)) =
                 rsum m (fun j => reg * (P i j * ln (P i j / (a i * khi (N:=RNum) exp m b M reg be i j))))).
    { rewrite !rsum_scal, rsum_plus, rsum_minus, rsum_scal, khi_mass. pose proof (R1 i Hi) as R2. unfold row_sum in R2. change (rsum m (fun j => P i j)) with (rsum m (P i)) in *. rewrite R2. ring. }
    rewrite EK, EL, <- rsum_plus. apply rsum_ext. intros j Hj. pose proof (Hb j Hj) as Hbj. pose proof (khi_pos be i j Hj) as Hk. pose proof (Z_pos be i) as HZ.
    rewrite !xlnx_split by (auto; apply Rmult_lt_0_compat; auto). rewrite !ln_mult by auto.
    assert (LK : ln (khi (N:=RNum) exp m b M reg be i j) = ln (b j) + (be j - M i j) / reg - ln (Z be i)).
    { rewrite khi_R. rewrite ln_div, ln_mult, ln_exp by (auto; try apply exp_pos; apply Rmult_lt_0_compat; auto; apply exp_pos). reflexivity. }
    rewrite LK. rn. field. lra.
  - rewrite <- E. rewrite rsum_0 by (intros j Hj; rewrite (row_zero P i j HP Hi Hj (eq_sym E)); ring).
    unfold kl. rewrite rsum_0 by (intros j Hj; rewrite (row_zero P i j HP Hi Hj (eq_sym E)); ring). ring.
Qed.
Lemma kl_row_nonneg : forall (be : vec) P i, rows_are P -> (i < n)%nat -> 0 <= kl m (P i) (fun j => a i * khi (N:=RNum) exp m b M reg be i j).
Proof.
  intros be P i HP Hi. destruct (Ha i Hi) as [Hp | E].
  - apply kl_nonneg; [intros j Hj; apply HP; auto|]. intros j Hj. apply Rmult_lt_0_compat; auto. apply khi_pos; auto.
  - right. symmetry. unfold kl. apply rsum_0. intros j Hj. rewrite (row_zero P i j HP Hi Hj (eq_sym E)), <- E. ring.
Qed.
Lemma kl_self : forall k (x : vec), nonneg_vec k x -> kl k x x = 0.
Proof.
  intros k x Hx. unfold kl. apply rsum_0. intros i Hi. destruct (Hx i Hi) as [H | H].
  - replace (x i / x i) with 1 by (field; lra). rewrite ln_1. ring.
  - rewrite <- H. ring.
Qed.
Lemma lin_cols : forall (be : vec) P, rsum n (fun i => rsum m (fun j => be j * P i j)) = dot m be (col_sum n P).
Proof. intros. rewrite rsum_swap. apply rsum_ext. intros j _. rewrite rsum_scal. reflexivity. Qed.
Lemma semi_split : forall (be : vec) P, rows_are P ->
  kl_cost n m a b M reg P + dot m be (fun j => mass n a * b j - col_sum n P j) = semi_dual n m a b M reg be + reg * rsum n (fun i => kl m (P i) (fun j => a i * khi (N:=RNum) exp m b M reg be i j)).
Proof.
  intros be P HP. rewrite dot_minus. set (F := fun i j => P i j * ln (P i j / (a i * b j))).
  assert (E0 : semi_dual n m a b M reg be + reg * rsum n (fun i => kl m (P i) (fun j => a i * khi (N:=RNum) exp m b M reg be i j)) = rsum n (fun i => a i * dot m be b + rsum m (fun j => (M i j - be j) * P i j + reg * F i j))).
  { unfold semi_dual. rewrite <- (rsum_scal n reg), <- rsum_plus. apply rsum_ext. intros i Hi. unfold F. rewrite (row_bound be P i HP Hi). unfold Z. ring. }
  assert (E1 : dot m be (fun j => mass n a * b j) = rsum n a * dot m be b) by (unfold dot, mass; rewrite <- rsum_scal; apply rsum_ext; intros; ring).
  assert (E2 : kl_cost n m a b M reg P = rsum n (fun i => rsum m (fun j => M i j * P i j) + rsum m (fun j => reg * F i j))) by (unfold kl_cost, cost; rewrite <- (rsum_scal n reg), <- rsum_plus; apply rsum_ext; intros i _; rewrite rsum_scal; reflexivity).
  rewrite E0, E1, E2, <- lin_cols, (rsum_plus n (fun i => a i * dot m be b)), rsum_scal_r.
  rewrite (rsum_ext n (fun i => rsum m (fun j => (M i j - be j) * P i j + reg * F i j)) (fun i => (rsum m (fun j => M i j * P i j) + rsum m (fun j => reg * F i j)) - rsum m (fun j => be j * P i j))); [rewrite (rsum_minus n); ring|].
  intros i _. rewrite <- rsum_plus, <- rsum_minus. apply rsum_ext. intros. ring.
Qed.
Lemma semi_plan_rows : forall be, rows_are (semi_dual_plan (N:=RNum) exp ln m a b M reg be).
Proof.
  intros be. split.
  - intros i j Hi Hj. rewrite semi_plan_R. apply Rmult_le_pos; [apply Ha; auto|left; apply khi_pos; auto].
  - intros i Hi. unfold row_sum. rewrite (rsum_ext m _ (fun j => a i * khi (N:=RNum) exp m b M reg be i j)) by (intros; apply semi_plan_R). rewrite rsum_scal, khi_mass. ring.
Qed.
Definition full_grad (be : vec) (j : nat) : R := rsum n (fun i => a i * coordinate_grad (N:=RNum) exp m b M reg be i j).
Lemma full_grad_residual : forall be j, full_grad be j = mass n a * b j - col_sum n (semi_dual_plan (N:=RNum) exp ln m a b M reg be) j.
Proof.
  intros be j. unfold full_grad, col_sum, mass. rewrite <- rsum_scal_r, <- rsum_minus. apply rsum_ext. intros i _. rewrite semi_plan_R. unfold coordinate_grad. cbn [nsub RNum]. rn. ring.
Qed.
Lemma semi_lag : forall be P, rows_are P -> semi_dual n m a b M reg be <= kl_cost n m a b M reg P + dot m be (fun j => mass n a * b j - col_sum n P j).
Proof.
  intros be P HP. rewrite (semi_split be P HP). assert (0 <= reg * rsum n (fun i => kl m (P i) (fun j => a i * khi (N:=RNum) exp m b M reg be i j))); [|lra].
  apply Rmult_le_pos; [lra|]. apply rsum_nonneg. intros i Hi. apply kl_row_nonneg; auto.
Qed.
Lemma semi_att : forall be, semi_dual n m a b M reg be = kl_cost n m a b M reg (semi_dual_plan (N:=RNum) exp ln m a b M reg be) + dot m be (full_grad be).
Proof.
  intros be. assert (E : dot m be (full_grad be) = dot m be (fun j => mass n a * b j - col_sum n (semi_dual_plan (N:=RNum) exp ln m a b M reg be) j)) by (apply rsum_ext; intros; rewrite full_grad_residual; auto).
  rewrite E, (semi_split be _ (semi_plan_rows be)). rewrite (rsum_0 n (fun i => kl m _ _)); [ring|]. intros i Hi.
  rewrite <- (kl_self m (fun j => a i * khi (N:=RNum) exp m b M reg be i j)); [|intros j Hj; apply Rmult_le_pos; [apply Ha; auto|left; apply khi_pos; auto]].
  unfold kl. apply rsum_ext. intros j _. rewrite semi_plan_R. reflexivity.
Qed.
Lemma semi_super : forall be be', semi_dual n m a b M reg be' <= semi_dual n m a b M reg be + dot m (fun j => be' j - be j) (full_grad be).
Proof.
  intros be be'. pose proof (semi_lag be' _ (semi_plan_rows be)) as L. pose proof (semi_att be) as E. rewrite dot_minus_l.
  assert (E1 : dot m be' (full_grad be) = dot m be' (fun j => mass n a * b j - col_sum n (semi_dual_plan (N:=RNum) exp ln m a b M reg be) j)) by (apply rsum_ext; intros; rewrite full_grad_residual; auto). lra.
Qed.
End S.

(** ** SAG *)
Section Sag.
Variables (n m : nat) (a b : vec) (M : mat) (reg : R) (lr : R).
Notation step := (sag_step (N:=RNum) exp n m a b M reg lr).
Notation run := (sag_run (N:=RNum) exp n m a b M reg lr).
Lemma sag_sum_step : forall (s : sag (N:=RNum)) i, (i < n)%nat -> (forall j, s_sum s j = rsum n (fun i => (s_stored s i j : R))) -> forall j, s_sum (step s i) j = rsum n (fun i' => s_stored (step s i) i' j).
Proof.
  intros s i Hi H j. unfold sag_step. cbn [s_sum s_stored nadd nsub nmul RNum]. rewrite H.
  set (g := a i * coordinate_grad (N:=RNum) exp m b M reg (s_beta s) i j). assert (X : forall x y : R, x = y + (x - y)) by (intros; ring).
  rewrite (rsum_ext n (fun i' => (if (i' =? i)%nat then _ else _) j) (fun i' => s_stored s i' j + (if (i' =? i)%nat then g - s_stored s i j else 0))).
  - rewrite rsum_plus. f_equal. symmetry. apply (rsum_delta n i (g - s_stored s i j) Hi).
  - intros i' _. destruct (i' =? i)%nat eqn:E; [apply Nat.eqb_eq in E; subst i'; fold g; apply X|symmetry; apply Rplus_0_r].
Qed.
Lemma sag_snoc : forall l i, run (l ++ [i]) = step (run l) i.
Proof. intros. unfold sag_run. rewrite fold_left_app. reflexivity. Qed.
Lemma sag_sum : forall idx, (forall i, In i idx -> (i < n)%nat) -> forall j, s_sum (run idx) j = rsum n (fun i => s_stored (run idx) i j).
Proof.
  intros idx. induction idx as [|i l IH] using rev_ind; intros H j.
  - cbn [sag_run fold_left sag_init s_sum s_stored n0 RNum]. rewrite rsum_0; auto.
  - rewrite sag_snoc. apply sag_sum_step; [apply H; rewrite in_app_iff; right; left; auto|]. apply IH. intros k Hk. apply H. rewrite in_app_iff. auto.
Qed.
Lemma sag_last : forall idx i, (~ In i idx /\ forall j, s_stored (run idx) i j = 0) \/
  exists l1 l2, idx = l1 ++ i :: l2 /\ ~ In i l2 /\ forall j, s_stored (run idx) i j = a i * coordinate_grad (N:=RNum) exp m b M reg (s_beta (run l1)) i j.
Proof.
  intros idx i. induction idx as [|k l IH] using rev_ind; [left; split; [auto|reflexivity]|]. rewrite sag_snoc.
  destruct (Nat.eq_dec i k) as [-> | Hk].
  - right. exists l, []. split; [auto|]. split; [auto|]. intros j. unfold sag_step. cbn [s_stored]. rewrite Nat.eqb_refl. reflexivity.
  - assert (ES : forall j, s_stored (step (run l) k) i j = s_stored (run l) i j) by (intros j; unfold sag_step; cbn [s_stored]; apply Nat.eqb_neq in Hk; rewrite Hk; reflexivity).
    destruct IH as [[HN HZ] | (l1 & l2 & -> & HN & HS)].
    + left. split; [rewrite in_app_iff; intros [X | [X | []]]; auto|]. intros j. rewrite ES. auto.
    + right. exists l1, (l2 ++ [k]). split; [rewrite <- app_assoc; reflexivity|]. split; [rewrite in_app_iff; intros [X | [X | []]]; auto|]. intros j. rewrite ES. auto.
Qed.
End Sag.

Section SagMass.
Variables (n m : nat) (a b : vec) (M : mat) (reg : R).
Hypotheses (Hm : (0 < m)%nat) (Hr : 0 < reg) (Hb : pos_vec m b) (Mb : mass m b = 1).
Lemma coord_mass : forall be i, rsum m (coordinate_grad (N:=RNum) exp m b M reg be i) = 0.
Proof. intros. unfold coordinate_grad. cbn [nsub RNum]. rewrite rsum_minus, khi_mass by auto. unfold mass in Mb. lra. Qed.
Lemma sag_mass : forall lr idx, let s := sag_run (N:=RNum) exp n m a b M reg lr idx in
  rsum m (s_beta s) = 0 /\ rsum m (s_sum s) = 0 /\ forall i, rsum m (s_stored s i) = 0.
Proof.
  intros lr idx. induction idx as [|k l IH] using rev_ind; cbv zeta in *.
  - cbn [sag_run fold_left sag_init s_beta s_sum s_stored n0 RNum]. split; [|split; [|intros i]]; apply rsum_0; auto.
  - rewrite sag_snoc. set (s := sag_run (N:=RNum) exp n m a b M reg lr l) in *. destruct IH as (B & S & T).
    assert (S' : rsum m (fun j => s_sum s j + (a k * coordinate_grad (N:=RNum) exp m b M reg (s_beta s) k j - s_stored s k j)) = 0).
    { rewrite rsum_plus, rsum_minus, rsum_scal, coord_mass. change (rsum m (fun j => s_sum s j)) with (rsum m (s_sum s)). change (rsum m (fun j => s_stored s k j)) with (rsum m (s_stored s k)). rewrite S, T. ring. }
    unfold sag_step. cbn [s_beta s_sum s_stored nadd nmul nsub ndiv RNum]. split; [|split; [exact S'|]].
    + rewrite rsum_plus, rsum_scal, S'. change (rsum m (fun j => s_beta s j)) with (rsum m (s_beta s)). rewrite B. ring.
    + intros i. destruct (i =? k)%nat; [|apply T]. rewrite rsum_scal, coord_mass. ring.
Qed.
(** averaged SGD *)
Lemma asgd_snoc : forall sq lr l i, asgd_run (N:=RNum) exp sq m b M reg lr (l ++ [i]) = asgd_step (N:=RNum) exp sq m b M reg lr (asgd_run (N:=RNum) exp sq m b M reg lr l) i.
Proof. intros. unfold asgd_run. rewrite fold_left_app. reflexivity. Qed.
Lemma asgd_mass : forall sq lr idx, let s := asgd_run (N:=RNum) exp sq m b M reg lr idx in rsum m (d_beta s) = 0 /\ rsum m (d_ave s) = 0.
Proof.
  intros sq lr idx. induction idx as [|k l IH] using rev_ind; cbv zeta in *.
  - cbn [asgd_run fold_left asgd_init d_beta d_ave n0 RNum]. split; apply rsum_0; auto.
  - rewrite asgd_snoc. set (s := asgd_run (N:=RNum) exp sq m b M reg lr l) in *. destruct IH as (B & A). unfold asgd_step. cbn [d_beta d_ave nadd nmul nsub ndiv n1 RNum].
    assert (B' : forall c, rsum m (fun j => d_beta s j + c * coordinate_grad (N:=RNum) exp m b M reg (d_beta s) k j) = 0) by (intros c; rewrite rsum_plus, rsum_scal, coord_mass; change (rsum m (fun j => d_beta s j)) with (rsum m (d_beta s)); rewrite B; ring).
    split; [apply B'|]. rewrite rsum_plus, !rsum_scal, B'. change (rsum m (fun j => d_ave s j)) with (rsum m (d_ave s)). rewrite A. ring.
Qed.
End SagMass.
Lemma asgd_k : forall sq m b M reg lr idx, d_k (asgd_run (N:=RNum) exp sq m b M reg lr idx) = length idx.
Proof. intros. induction idx as [|k l IH] using rev_ind; [reflexivity|]. rewrite asgd_snoc, app_length. unfold asgd_step. cbn [d_k length]. rewrite IH. lia. Qed.
Lemma asgd_average : forall sq m b M reg lr idx j, INR (length idx) * d_ave (asgd_run (N:=RNum) exp sq m b M reg lr idx) j = rsum (length idx) (fun t => d_beta (asgd_run (N:=RNum) exp sq m b M reg lr (firstn (S t) idx)) j).
Proof.
  intros sq m b M reg lr idx j. induction idx as [|k l IH] using rev_ind; [cbn; ring|].
  rewrite app_length. cbn [length]. rewrite Nat.add_1_r. cbn [rsum]. rewrite (rsum_ext (length l) _ (fun t => d_beta (asgd_run (N:=RNum) exp sq m b M reg lr (firstn (S t) l)) j)).
  2: { intros t Ht. rewrite firstn_app. replace (S t - length l)%nat with 0%nat by lia. cbn [firstn]. rewrite app_nil_r. reflexivity. }
  rewrite <- IH. rewrite (firstn_all2 (n:=S (length l)) (l ++ [k])) by (rewrite app_length; cbn; lia). rewrite asgd_snoc. unfold asgd_step. cbn [d_ave d_beta]. rewrite asgd_k, nofnat_INR. cbn [nadd nmul nsub ndiv n1 RNum].
  change (carrier RNum) with R in *. pose proof (pos_INR (length l)). rewrite S_INR. set (w := lr / sq (INR (length l) + 1)). field. lra.
Qed.

(** ** dual losses: a pointwise Fenchel inequality gives everything else *)
Section Dual.
Variables (n m : nat) (a b : vec) (M : mat) (F : nat -> nat -> R -> R).
Definition reg_cost (P : mat) : R := cost n m M P + rsum n (fun i => rsum m (fun j => F i j (P i j))).
Definition Dobj (c : mat) (u v : vec) : R := dot n u a + dot m v b - rsum n (fun i => rsum m (fun j => c i j)).
Lemma lin_uv : forall (u v : vec) (P : mat), rsum n (fun i => rsum m (fun j => (u i + v j - M i j) * P i j)) = dot n u (row_sum m P) + dot m v (col_sum n P) - cost n m M P.
Proof. intros u v P. rewrite <- (lin_dual n m u v M P), rsum_swap. reflexivity. Qed.
Lemma pt_lagrange : forall (c : mat) (u v : vec) (P : mat), (forall i j, (i < n)%nat -> (j < m)%nat -> (u i + v j - M i j) * P i j - F i j (P i j) <= c i j) ->
  Dobj c u v <= reg_cost P + dot n u (fun i => a i - row_sum m P i) + dot m v (fun j => b j - col_sum n P j).
Proof.
  intros c u v P H. rewrite !dot_minus. unfold Dobj, reg_cost.
  assert (L : rsum n (fun i => rsum m (fun j => (u i + v j - M i j) * P i j - F i j (P i j))) <= rsum n (fun i => rsum m (fun j => c i j))) by (apply rsum_le; intros i Hi; apply rsum_le; intros j Hj; auto).
  rewrite (rsum_ext n (fun i => rsum m (fun j => _ - F i j (P i j))) (fun i => rsum m (fun j => (u i + v j - M i j) * P i j) - rsum m (fun j => F i j (P i j)))) in L by (intros; apply rsum_minus).
  rewrite rsum_minus, lin_uv in L. lra.
Qed.
Lemma pt_attain : forall (c : mat) (u v : vec) (P : mat), (forall i j, (i < n)%nat -> (j < m)%nat -> (u i + v j - M i j) * P i j - F i j (P i j) = c i j) ->
  Dobj c u v = reg_cost P + dot n u (fun i => a i - row_sum m P i) + dot m v (fun j => b j - col_sum n P j).
Proof.
  intros c u v P H. rewrite !dot_minus. unfold Dobj, reg_cost.
  assert (L : rsum n (fun i => rsum m (fun j => (u i + v j - M i j) * P i j - F i j (P i j))) = rsum n (fun i => rsum m (fun j => c i j))) by (apply rsum_ext; intros i Hi; apply rsum_ext; intros j Hj; auto).
  rewrite (rsum_ext n (fun i => rsum m (fun j => _ - F i j (P i j))) (fun i => rsum m (fun j => (u i + v j - M i j) * P i j) - rsum m (fun j => F i j (P i j)))) in L by (intros; apply rsum_minus).
  rewrite rsum_minus, lin_uv in L. lra.
Qed.
(** the conclusions shared by the two losses: [D] the loss, [T] the plan *)
Definition dual_correct (D : vec -> vec -> R) (T : vec -> vec -> mat) : Prop := forall u v,
  nonneg_mat n m (T u v) /\
  (forall P, coupling n m a b P -> D u v <= reg_cost P) /\
  (forall P, coupling n m a b P -> reg_cost (T u v) <= reg_cost P - dot n u (fun i => a i - row_sum m (T u v) i) - dot m v (fun j => b j - col_sum n (T u v) j)) /\
  (forall u' v', D u' v' <= D u v + dot n (fun i => u' i - u i) (fun i => a i - row_sum m (T u v) i) + dot m (fun j => v' j - v j) (fun j => b j - col_sum n (T u v) j)) /\
  (coupling n m a b (T u v) -> D u v = reg_cost (T u v) /\ (forall P, coupling n m a b P -> reg_cost (T u v) <= reg_cost P) /\ forall u' v', D u' v' <= D u v).
Lemma dual_correct_intro : forall (c : vec -> vec -> mat) T,
  (forall u v i j y, (i < n)%nat -> (j < m)%nat -> 0 <= y -> (u i + v j - M i j) * y - F i j y <= c u v i j) ->
  (forall u v i j, (i < n)%nat -> (j < m)%nat -> 0 <= T u v i j /\ (u i + v j - M i j) * T u v i j - F i j (T u v i j) = c u v i j) ->
  dual_correct (fun u v => Dobj (c u v) u v) T.
Proof.
  intros c T H1 H2 u v. assert (NT : nonneg_mat n m (T u v)) by (intros i j Hi Hj; apply H2; auto).
  assert (A : Dobj (c u v) u v = reg_cost (T u v) + dot n u (fun i => a i - row_sum m (T u v) i) + dot m v (fun j => b j - col_sum n (T u v) j)) by (apply pt_attain; intros; apply H2; auto).
  assert (W : forall u v P, coupling n m a b P -> Dobj (c u v) u v <= reg_cost P).
  { intros u0 v0 P (NP & R1 & C1). assert (L : Dobj (c u0 v0) u0 v0 <= reg_cost P + dot n u0 (fun i => a i - row_sum m P i) + dot m v0 (fun j => b j - col_sum n P j)) by (apply pt_lagrange; intros i j Hi Hj; apply H1; auto).
    rewrite (dot_zero n u0 (fun i => a i - row_sum m P i)), (dot_zero m v0 (fun j => b j - col_sum n P j)) in L by (intros i Hi; first [rewrite (R1 i Hi) | rewrite (C1 i Hi)]; ring). lra. }
  assert (S : forall u' v', Dobj (c u' v') u' v' <= Dobj (c u v) u v + dot n (fun i => u' i - u i) (fun i => a i - row_sum m (T u v) i) + dot m (fun j => v' j - v j) (fun j => b j - col_sum n (T u v) j)).
  { intros u' v'. assert (L : Dobj (c u' v') u' v' <= reg_cost (T u v) + dot n u' (fun i => a i - row_sum m (T u v) i) + dot m v' (fun j => b j - col_sum n (T u v) j)) by (apply pt_lagrange; intros i j Hi Hj; apply H1; auto).
    rewrite !dot_minus_l. lra. }
  split; auto. split; auto. split; [intros P HP; specialize (W u v P HP); lra|]. split; auto. intros CT.
  assert (Z1 : dot n u (fun i => a i - row_sum m (T u v) i) = 0) by (apply dot_zero; intros i Hi; destruct CT as (_ & R1 & _); rewrite (R1 i Hi); ring).
  assert (Z2 : dot m v (fun j => b j - col_sum n (T u v) j) = 0) by (apply dot_zero; intros i Hi; destruct CT as (_ & _ & C1); rewrite (C1 i Hi); ring).
  split; [lra|]. split; [intros P HP; specialize (W u v P HP); lra|]. intros u' v'. specialize (S u' v').
  rewrite (dot_zero n (fun i => u' i - u i)) in S by (intros i Hi; destruct CT as (_ & R1 & _); rewrite (R1 i Hi); ring). rewrite (dot_zero m (fun j => v' j - v j)) in S by (intros i Hi; destruct CT as (_ & _ & C1); rewrite (C1 i Hi); ring). lra.
Qed.
End Dual.
Lemma dual_correct_ext : forall n m a b M F D D' T T', (forall u v, D u v = D' u v) -> (forall u v, T u v = T' u v) -> dual_correct n m a b M F D T -> dual_correct n m a b M F D' T'.
Proof.
  intros n m a b M F D D' T T' H1 H2 H. assert (E1 : D' = D) by (extensionality u; extensionality v; auto). assert (E2 : T' = T) by (extensionality u; extensionality v; auto). rewrite E1, E2. exact H.
Qed.
(** entropic: F y = reg (y ln (y/(a b)) - y); quadratic: F y = reg y^2/(a b) *)
Lemma ent_conj : forall reg w x y, 0 < reg -> 0 < w -> 0 <= y -> x * y - reg * (y * ln (y / w) - y) <= reg * (w * exp (x / reg)).
Proof.
  intros reg w x y Hr Hw Hy. set (z := w * exp (x / reg)). assert (Hz : 0 < z) by (apply Rmult_lt_0_compat; [auto|apply exp_pos]). pose proof (xlnx_div_ge y z Hy Hz) as K.
  rewrite xlnx_split in * by auto. unfold z in K at 2. rewrite ln_mult, ln_exp in K by (auto; apply exp_pos). apply (Rmult_le_compat_l reg) in K; [|lra].
  replace (reg * (xlnx y - y * (ln w + x / reg))) with (reg * (xlnx y - y * ln w) - x * y) in K by (field; lra). lra.
Qed.
Lemma ent_conj_eq : forall reg w x, 0 < reg -> 0 < w -> let z := w * exp (x / reg) in x * z - reg * (z * ln (z / w) - z) = reg * z.
Proof.
  intros reg w x Hr Hw z. assert (E : z / w = exp (x / reg)) by (unfold z; field; lra). rewrite E, ln_exp. field. lra.
Qed.
Lemma quad_conj : forall reg w x y, 0 < reg -> 0 < w -> 0 <= y -> x * y - reg * (y * y / w) <= w * (Rmax x 0 * Rmax x 0) / (4 * reg).
Proof.
  intros reg w x y Hr Hw Hy. assert (G : 0 < 2 * reg / w) by (apply Rdiv_lt_0_compat; lra). pose proof (l2_pt (2 * reg / w) x y G Hy) as K.
  replace (2 * reg / w / 2 * (y * y)) with (reg * (y * y / w)) in K by (field; lra). replace (w * (Rmax x 0 * Rmax x 0) / (4 * reg)) with (Rmax x 0 * Rmax x 0 / (2 * (2 * reg / w))) by (field; lra). exact K.
Qed.
Lemma quad_conj_eq : forall reg w x, 0 < reg -> 0 < w -> let z := w * (Rmax x 0 / (2 * reg)) in x * z - reg * (z * z / w) = w * (Rmax x 0 * Rmax x 0) / (4 * reg).
Proof. intros reg w x Hr Hw z. unfold z, Rmax. destruct (Rle_dec x 0); field; lra. Qed.

(** ** batches *)
Fixpoint sumL {A : Type} (l : list A) (f : A -> R) : R := match l with [] => 0 | x :: t => f x + sumL t f end.
Lemma lsum_R : forall l (f : vec), lsum (N:=RNum) l f = sumL l f.
Proof. induction l as [|x l IH]; intros f; [reflexivity|]. cbn [lsum fold_right sumL]. change (fold_right _ _ l) with (lsum (N:=RNum) l f). rewrite IH. reflexivity. Qed.
Lemma sumL_ext : forall A (l : list A) f g, (forall x, In x l -> f x = g x) -> sumL l f = sumL l g.
Proof. intros A l f g H. induction l as [|x l IH]; auto. cbn [sumL]. rewrite H, IH; auto; [intros y Hy; apply H; right; auto|left; auto]. Qed.
Lemma sumL_plus : forall A (l : list A) f g, sumL l (fun x => f x + g x) = sumL l f + sumL l g.
Proof. intros. induction l as [|x l IH]; cbn [sumL]; [ring|]. rewrite IH. ring. Qed.
Lemma sumL_scal : forall A (l : list A) c f, sumL l (fun x => c * f x) = c * sumL l f.
Proof. intros. induction l as [|x l IH]; cbn [sumL]; [ring|]. rewrite IH. ring. Qed.
Lemma sumL_rsum : forall A (l : list A) k (f : A -> nat -> R), sumL l (fun x => rsum k (f x)) = rsum k (fun j => sumL l (fun x => f x j)).
Proof. intros. induction l as [|x l IH]; cbn [sumL]; [symmetry; apply rsum_0; auto|]. rewrite IH, <- rsum_plus. reflexivity. Qed.
Definition occ (L : list (list nat)) (i : nat) : nat := length (filter (fun B => inb B i) L).
Lemma sumL_ind : forall L i c, sumL L (fun B => if inb B i then c else 0) = INR (occ L i) * c.
Proof.
  intros L i c. unfold occ. induction L as [|B L IH]; cbn [sumL filter]; [cbn; ring|]. rewrite IH. destruct (inb B i); cbn [length]; [rewrite S_INR|]; ring.
Qed.
Lemma inb_In : forall l i, inb l i = true <-> In i l.
Proof. intros. unfold inb. rewrite existsb_exists. split; [intros (x & Hx & E); apply Nat.eqb_eq in E; subst; auto|intros H; exists i; split; auto; apply Nat.eqb_refl]. Qed.
Lemma sumL_batch : forall B m f, NoDup B -> (forall j, In j B -> (j < m)%nat) -> sumL B f = rsum m (fun j => if inb B j then f j else 0).
Proof.
  intros B m f ND. induction ND as [|x B Hx ND IH]; intros H; [cbn; symmetry; apply rsum_0; auto|].
  cbn [sumL]. rewrite IH by (intros; apply H; right; auto). assert (Hm : (x < m)%nat) by (apply H; left; auto). rewrite <- (rsum_delta m x (f x) Hm) at 1. rewrite <- rsum_plus. apply rsum_ext. intros j _.
  cbn [inb existsb]. fold (inb B j). destruct (j =? x)%nat eqn:E; cbn [orb]; [|destruct (inb B j); ring].
  apply Nat.eqb_eq in E. subst j. destruct (inb B x) eqn:F; [apply inb_In in F; contradiction|ring].
Qed.
Definition batches (k : nat) (L : list (list nat)) : Prop := forall B, In B L -> NoDup B /\ forall j, In j B -> (j < k)%nat.
Lemma sum_batches : forall L k q f, batches k L -> (forall j, (j < k)%nat -> occ L j = q) -> sumL L (fun B => sumL B f) = INR q * rsum k f.
Proof.
  intros L k q f HB HO. rewrite (sumL_ext _ L _ (fun B => rsum k (fun j => if inb B j then f j else 0))) by (intros B HBI; apply sumL_batch; apply HB; auto).
  rewrite sumL_rsum, <- rsum_scal. apply rsum_ext. intros j Hj. rewrite sumL_ind, HO by auto. reflexivity.
Qed.
Lemma sumL_one : forall (B : list nat), sumL B (fun _ => 1) = INR (length B).
Proof. induction B as [|x B IH]; [reflexivity|]. cbn [sumL length]. rewrite S_INR, IH. ring. Qed.
Lemma batch_alpha_sum : forall n m (a b : vec) (M : mat) reg (al be : vec) LA LB p q, (0 < m)%nat ->
  batches m LB -> (forall i, (i < n)%nat -> occ LA i = p) -> (forall j, (j < m)%nat -> occ LB j = q) ->
  forall i, (i < n)%nat -> sumL LA (fun A => sumL LB (fun B => fst (batch_grad_dual (N:=RNum) exp n m a b M reg al be A B) i))
  = INR p * INR q * (a i - row_sum m (dual_plan (N:=RNum) exp a b M reg al be) i).
Proof.
  intros n m a b M reg al be LA LB p q Hm HB HP HQ i Hi. set (T := dual_plan (N:=RNum) exp a b M reg al be).
  set (X := sumL LB (fun B => sumL B (fun j => a i / INR m - T i j))).
  rewrite (sumL_ext _ LA _ (fun A => if inb A i then X else 0)).
  - rewrite sumL_ind, HP by auto. unfold X. rewrite (sum_batches LB m q _ HB HQ), rsum_minus, rsum_const. unfold row_sum. change (rsum m (fun j => T i j)) with (rsum m (T i)). field. apply not_0_INR. lia.
  - intros A _. unfold batch_grad_dual. cbn [fst]. destruct (inb A i).
    + apply sumL_ext. intros B _. rewrite lsum_R, !nofnat_INR. cbn [nadd nmul ndiv RNum]. unfold batch_G. fold T. cbn [nsub n0 RNum].
      rewrite (sumL_ext _ B (fun j => a i / INR m - T i j) (fun j => a i / INR m * 1 + (0 - T i j))) by (intros; rn; ring). rewrite sumL_plus, sumL_scal, sumL_one. rn. field. apply not_0_INR. lia.
    + clear. induction LB as [|B LB IH]; [reflexivity|]. cbn [sumL]. rewrite IH. change (n0 (n:=RNum)) with 0. ring.
Qed.
Lemma batch_beta_sum : forall n m (a b : vec) (M : mat) reg (al be : vec) LA LB p q, (0 < n)%nat ->
  batches n LA -> (forall i, (i < n)%nat -> occ LA i = p) -> (forall j, (j < m)%nat -> occ LB j = q) ->
  forall j, (j < m)%nat -> sumL LB (fun B => sumL LA (fun A => snd (batch_grad_dual (N:=RNum) exp n m a b M reg al be A B) j))
  = INR p * INR q * (b j - col_sum n (dual_plan (N:=RNum) exp a b M reg al be) j).
Proof.
  intros n m a b M reg al be LA LB p q Hn HA HP HQ j Hj. set (T := dual_plan (N:=RNum) exp a b M reg al be).
  set (X := sumL LA (fun A => sumL A (fun i => b j / INR n - T i j))).
  rewrite (sumL_ext _ LB _ (fun B => if inb B j then X else 0)).
  - rewrite sumL_ind, HQ by auto. unfold X. rewrite (sum_batches LA n p _ HA HP), rsum_minus, rsum_const. unfold col_sum. fold T. field. apply not_0_INR. lia.
  - intros B _. unfold batch_grad_dual. cbn [snd]. destruct (inb B j).
    + apply sumL_ext. intros A _. rewrite lsum_R, !nofnat_INR. cbn [nadd nmul ndiv RNum]. unfold batch_G. fold T. cbn [nsub n0 RNum].
      rewrite (sumL_ext _ A (fun i => b j / INR n - T i j) (fun i => b j / INR n * 1 + (0 - T i j))) by (intros; rn; ring). rewrite sumL_plus, sumL_scal, sumL_one. rn. field. apply not_0_INR. lia.
    + clear. induction LA as [|A LA IH]; [reflexivity|]. cbn [sumL]. rewrite IH. change (n0 (n:=RNum)) with 0. ring.
Qed.
