(** Entropic barycenters: the certificate behind the iterative Bregman projections. *)
From Coq Require Import Reals Lra Lia Arith Bool List.
Import ListNotations.
From Verif Require Import Num Sums Spec Duals_proofs Entropy Emd1d_model Emd1d_perm_proofs Sinkhorn_model Bary_model.
Local Open Scope R_scope.

(** * Specification: plans P s from the s-th column of A to a common second marginal a *)
Definition bary_feasible (n h : nat) (A : mat) (P : nat -> mat) (a : vec) : Prop :=
  forall s, (s < h)%nat -> coupling n n (fun i => A i s) a (P s).
(** sum_s w_s (<M, P_s> + reg sum P_s log P_s) *)
Definition bary_obj (n h : nat) (w : vec) (M : mat) (reg : R) (P : nat -> mat) : R :=
  rsum h (fun s => w s * ent_obj n n M reg (P s)).

(** the plan with first marginal A_s and right scaling V_s, and its second marginal *)
Definition lscal (n : nat) (K A V : mat) (i s : nat) : R := A i s / rsum n (fun l => K i l * V l s).
Definition scal_plan (n : nat) (K A V : mat) (s : nat) : mat := fun i j => lscal n K A V i s * K i j * V j s.
Definition scal_col (n : nat) (K A V : mat) : mat := fun j s => V j s * rsum n (fun i => K i j * lscal n K A V i s).

(** ent_gap with rows that vanish in both plans *)
Lemma ent_gap0 : forall n m M reg P K f g c, 0 <= reg -> nonneg_mat n m P ->
  (forall i j, (i < n)%nat -> (j < m)%nat -> (0 < K i j /\ M i j + reg * ln (K i j) = f i + g j + c) \/ (K i j = 0 /\ P i j = 0)) ->
  rsum n (fun i => f i * (row_sum m P i - row_sum m K i)) + rsum m (fun j => g j * (col_sum n P j - col_sum n K j))
    + (c + reg) * (total n m P - total n m K) <= ent_obj n m M reg P - ent_obj n m M reg K.
Proof.
  intros n m M reg P K f g c Hr HP HE.
  apply Rle_trans with (dsum n m (fun i j => (f i * P i j - f i * K i j) + (g j * P i j - g j * K i j) + ((c + reg) * P i j - (c + reg) * K i j))).
  - right. rewrite !dsum_plus, !dsum_minus, !dsum_scal, !dsum_row, !dsum_col, (dsum_total n m P), (dsum_total n m K).
    rewrite (rsum_ext n (fun i => f i * (row_sum m P i - row_sum m K i)) (fun i => f i * row_sum m P i - f i * row_sum m K i)) by (intros; ring). rewrite rsum_minus.
    rewrite (rsum_ext m (fun j => g j * (col_sum n P j - col_sum n K j)) (fun j => g j * col_sum n P j - g j * col_sum n K j)) by (intros; ring). rewrite rsum_minus. ring.
  - unfold ent_obj, cost, ent.
    fold (dsum n m (fun i j => M i j * P i j)) (dsum n m (fun i j => M i j * K i j)).
    fold (dsum n m (fun i j => P i j * ln (P i j))) (dsum n m (fun i j => K i j * ln (K i j))).
    rewrite <- !dsum_scal, <- !dsum_plus, <- dsum_minus. apply dsum_le. intros i j Hi Hj.
    destruct (HE i j Hi Hj) as [[HK E]|[HK E]].
    + assert (B := xlnx_tangent (P i j) (K i j) (HP i j Hi Hj) HK). unfold xlnx in B.
      apply (Rmult_le_compat_l reg) in B; auto.
      replace (f i * P i j - f i * K i j + (g j * P i j - g j * K i j) + ((c + reg) * P i j - (c + reg) * K i j)) with ((f i + g j + c + reg) * (P i j - K i j)) by ring. rewrite <- E.
      lra.
    + rewrite HK, E. lra.
Qed.

Section Cert.
Variables (n h : nat) (M : mat) (reg : R) (A : mat) (w : vec).
Hypotheses (Hreg : 0 < reg) (HA : nonneg_mat n h A) (Hw : nonneg_vec h w).
Notation K := (fun i j => exp (- M i j / reg)).
Definition pos_mat (V : mat) : Prop := forall j s, (j < n)%nat -> (s < h)%nat -> 0 < V j s.
Lemma kv_pos : forall V i s, pos_mat V -> (i < n)%nat -> (s < h)%nat -> 0 < rsum n (fun l => K i l * V l s).
Proof.
  intros V i s HV Hi Hs. apply rsum_pos; [lia|]. intros l Hl. apply Rmult_lt_0_compat; [apply exp_pos|apply HV; auto].
Qed.
Lemma lscal_nonneg : forall V i s, pos_mat V -> (i < n)%nat -> (s < h)%nat -> 0 <= lscal n K A V i s.
Proof. intros. unfold lscal, Rdiv. apply Rmult_le_pos; [apply HA; auto|]. left. apply Rinv_0_lt_compat. apply kv_pos; auto. Qed.
Lemma plan_row : forall V i s, pos_mat V -> (i < n)%nat -> (s < h)%nat -> row_sum n (scal_plan n K A V s) i = A i s.
Proof.
  intros V i s HV Hi Hs. unfold row_sum, scal_plan. rewrite (rsum_ext n _ (fun j => lscal n K A V i s * (K i j * V j s))) by (intros; ring).
  rewrite rsum_scal. unfold lscal. field. pose proof (kv_pos V i s HV Hi Hs). lra.
Qed.
Lemma plan_col : forall V j s, col_sum n (scal_plan n K A V s) j = scal_col n K A V j s.
Proof. intros. unfold col_sum, scal_plan, scal_col. rewrite <- rsum_scal. apply rsum_ext; intros; ring. Qed.
Lemma plan_nonneg : forall V s, pos_mat V -> (s < h)%nat -> nonneg_mat n n (scal_plan n K A V s).
Proof.
  intros V s HV Hs i j Hi Hj. unfold scal_plan. apply Rmult_le_pos; [apply Rmult_le_pos|].
  - apply lscal_nonneg; auto.
  - left. apply exp_pos.
  - left. apply HV; auto.
Qed.
Lemma row_zero : forall m (P : mat) i, (forall j, (j < m)%nat -> 0 <= P i j) -> row_sum m P i = 0 -> forall j, (j < m)%nat -> P i j = 0.
Proof. intros m P i H Z j Hj. exact (rsum_nonneg_zero m (P i) H Z j Hj). Qed.
Lemma total_rows : forall m (P Q : mat), (forall i, (i < n)%nat -> row_sum m P i = row_sum m Q i) -> total n m P = total n m Q.
Proof. intros. unfold total. apply rsum_ext. intros i Hi. apply H; auto. Qed.
(** one histogram *)
Lemma cert1 : forall V s P a, pos_mat V -> (s < h)%nat -> coupling n n (fun i => A i s) a P ->
  reg * rsum n (fun j => ln (V j s) * (a j - scal_col n K A V j s)) <= ent_obj n n M reg P - ent_obj n n M reg (scal_plan n K A V s).
Proof.
  intros V s P a HV Hs (P1 & P2 & P3).
  assert (G := ent_gap0 n n M reg P (scal_plan n K A V s) (fun i => reg * ln (lscal n K A V i s)) (fun j => reg * ln (V j s)) 0 ltac:(lra) P1).
  rewrite (total_rows n P (scal_plan n K A V s)) in G by (intros i Hi; rewrite plan_row by auto; apply P2; auto).
  rewrite (rsum_0 n (fun i => reg * ln (lscal n K A V i s) * (row_sum n P i - row_sum n (scal_plan n K A V s) i))) in G.
  2:{ intros i Hi. rewrite plan_row by auto. rewrite (P2 i Hi). lra. }
  rewrite (rsum_ext n (fun j => reg * ln (V j s) * (col_sum n P j - col_sum n (scal_plan n K A V s) j)) (fun j => reg * (ln (V j s) * (a j - scal_col n K A V j s)))) in G.
  2:{ intros j Hj. rewrite plan_col. rewrite (P3 j Hj). ring. }
  rewrite rsum_scal in G. eapply Rle_trans; [|apply G]; [right; ring|].
  intros i j Hi Hj. destruct (Rle_lt_or_eq_dec 0 (A i s) (HA i s Hi Hs)) as [L|L].
  - left. assert (X : 0 < lscal n K A V i s) by (apply Rdiv_lt_0_compat; auto; apply kv_pos; auto). pose proof (HV j s Hj Hs) as Y.
    assert (E : 0 < exp (- M i j / reg)) by apply exp_pos. split; [apply Rmult_lt_0_compat; auto; apply Rmult_lt_0_compat; auto|].
    unfold scal_plan. rewrite !ln_mult, ln_exp; auto using Rmult_lt_0_compat. field. lra.
  - right. split; [unfold scal_plan, lscal; rewrite <- L; unfold Rdiv; ring|].
    apply (row_zero n P i); auto. rewrite (P2 i Hi). symmetry. exact L.
Qed.
(** the weighted sum; [bar] is arbitrary *)
Lemma cert : forall V P a bar, pos_mat V -> bary_feasible n h A P a ->
  bary_obj n h w M reg (scal_plan n K A V) <= bary_obj n h w M reg P
    + reg * rsum h (fun s => w s * rsum n (fun j => ln (V j s) * (scal_col n K A V j s - bar j)))
    + reg * rsum n (fun j => rsum h (fun s => w s * ln (V j s)) * (bar j - a j)).
Proof.
  intros V P a bar HV HP.
  assert (G : rsum h (fun s => w s * (reg * rsum n (fun j => ln (V j s) * (a j - scal_col n K A V j s)))) <= bary_obj n h w M reg P - bary_obj n h w M reg (scal_plan n K A V)).
  { unfold bary_obj. rewrite <- rsum_minus. apply rsum_le. intros s Hs. rewrite <- Rmult_minus_distr_l. apply Rmult_le_compat_l; [apply Hw; auto|]. apply cert1; auto. }
  assert (E : rsum h (fun s => w s * (reg * rsum n (fun j => ln (V j s) * (a j - scal_col n K A V j s)))) =
    - (reg * rsum h (fun s => w s * rsum n (fun j => ln (V j s) * (scal_col n K A V j s - bar j))) + reg * rsum n (fun j => rsum h (fun s => w s * ln (V j s)) * (bar j - a j)))).
  { rewrite (rsum_ext n (fun j => rsum h (fun s => w s * ln (V j s)) * (bar j - a j)) (fun j => rsum h (fun s => w s * (ln (V j s) * (bar j - a j))))).
    2:{ intros j Hj. rewrite <- rsum_scal_r. apply rsum_ext; intros; ring. }
    rewrite (rsum_swap n h). rewrite <- !rsum_scal, <- rsum_plus, <- rsum_opp. apply rsum_ext. intros s Hs.
    rewrite rsum_scal. rewrite <- Ropp_mult_distr_r_reverse || idtac.
    transitivity (w s * reg * rsum n (fun j => ln (V j s) * (a j - scal_col n K A V j s))); [ring|].
    transitivity (- (w s * reg) * (rsum n (fun j => ln (V j s) * (scal_col n K A V j s - bar j)) + rsum n (fun j => ln (V j s) * (bar j - a j)))); [|ring].
    rewrite <- rsum_plus. rewrite Ropp_mult_distr_l_reverse, Ropp_mult_distr_r, <- rsum_opp. f_equal. apply rsum_ext; intros; ring. }
  lra.
Qed.
End Cert.
