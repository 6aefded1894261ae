(** The Gaussian kernel of the pixel grid is positive semi-definite. *)
From Coq Require Import Reals Lra Lia Arith Rseries SeqProp Rprod.
From Verif Require Import Num Sums Spec Bary_proofs Bary_deb Conv_proofs.
Local Open Scope R_scope.

Section P.
Variables (n : nat) (x y : vec).
Notation dot := (fun q r => x q * x r + y q * y r).
Definition powq (k : nat) (z : vec) : R := rsum n (fun q => rsum n (fun r => z q * z r * dot q r ^ k)).
Lemma powq_nonneg : forall k z, 0 <= powq k z.
Proof.
  induction k as [|k IH]; intros z.
  - unfold powq. replace (rsum n (fun q => rsum n (fun r => z q * z r * dot q r ^ 0))) with (rsum n z * rsum n z); [apply Rle_0_sqr|].
    rewrite <- rsum_scal_r. apply rsum_ext. intros q _. rewrite <- rsum_scal. apply rsum_ext. intros; cbn [pow]; ring.
  - replace (powq (S k) z) with (powq k (fun q => z q * x q) + powq k (fun q => z q * y q)); [specialize (IH (fun q => z q * x q)) as I1; specialize (IH (fun q => z q * y q)); lra|].
    unfold powq. rewrite <- rsum_plus. apply rsum_ext. intros q _. rewrite <- rsum_plus. apply rsum_ext. intros r _. cbn [pow]. ring.
Qed.
Lemma cv_rsum : forall m (u : nat -> nat -> R) (l : nat -> R), (forall q, (q < m)%nat -> Un_cv (u q) (l q)) -> Un_cv (fun N => rsum m (fun q => u q N)) (rsum m l).
Proof.
  induction m as [|m IH]; intros u l H.
  - cbn [rsum]. intros e He. exists 0%nat. intros N _. unfold R_dist. rewrite Rminus_diag_eq, Rabs_R0 by auto. auto.
  - cbn [rsum]. apply (CV_plus (fun N => rsum m (fun q => u q N)) (u m)); [apply IH; auto|apply H; auto].
Qed.
Lemma cv_const_mult : forall (c : R) u l, Un_cv u l -> Un_cv (fun N => c * u N) (c * l).
Proof. intros c u l H. apply (CV_mult (fun _ => c) u c l); auto. intros e He. exists 0%nat. intros N _. unfold R_dist. rewrite Rminus_diag_eq, Rabs_R0 by auto. auto. Qed.
Lemma exp_cv : forall s, Un_cv (fun N => sum_f_R0 (fun i => / INR (fact i) * s ^ i) N) (exp s).
Proof. intros s. unfold exp. destruct (exist_exp s) as [v Hv]. exact Hv. Qed.
(** Sum of z_q z_r exp(t <p_q, p_r>) over all pairs *)
Lemma expq_nonneg : forall t z, 0 <= t -> 0 <= rsum n (fun q => rsum n (fun r => z q * z r * exp (t * dot q r))).
Proof.
  intros t z Ht.
  apply (@Rle_cv_lim (fun _ => 0) (fun N => rsum n (fun q => rsum n (fun r => z q * z r * sum_f_R0 (fun i => / INR (fact i) * (t * dot q r) ^ i) N)))).
  - intros N. induction N as [|N IH].
    + cbn [sum_f_R0]. rewrite (rsum_ext n _ (fun q => rsum n (fun r => z q * z r * dot q r ^ 0))); [apply (powq_nonneg 0 z)|]. intros q _. apply rsum_ext. intros r _. cbn. field.
    + cbn [sum_f_R0].
      rewrite (rsum_ext n _ (fun q => rsum n (fun r => z q * z r * sum_f_R0 (fun i => / INR (fact i) * (t * dot q r) ^ i) N) + (/ INR (fact (S N)) * t ^ S N) * rsum n (fun r => z q * z r * dot q r ^ S N))).
      * rewrite rsum_plus, rsum_scal. pose proof (powq_nonneg (S N) z) as Q. unfold powq in Q.
        assert (C : 0 <= / INR (fact (S N)) * t ^ S N) by (apply Rmult_le_pos; [left; apply Rinv_0_lt_compat; apply INR_fact_lt_0|apply pow_le; auto]).
        apply Rplus_le_le_0_compat; [exact IH|apply Rmult_le_pos; auto].
      * intros q _. rewrite <- rsum_scal, <- rsum_plus. apply rsum_ext. intros r _. rewrite Rpow_mult_distr. ring.
  - intros e He. exists 0%nat. intros N _. unfold R_dist. rewrite Rminus_diag_eq, Rabs_R0 by auto. auto.
  - apply (cv_rsum n (fun q N => rsum n (fun r => z q * z r * sum_f_R0 (fun i => / INR (fact i) * (t * dot q r) ^ i) N))). intros q _.
    apply (cv_rsum n (fun r N => z q * z r * sum_f_R0 (fun i => / INR (fact i) * (t * dot q r) ^ i) N)). intros r _. apply cv_const_mult. apply exp_cv.
Qed.
End P.

Lemma grid_psd : forall w h reg, 0 < reg -> psd (w * h) (grid_cost w h) reg.
Proof.
  intros w h reg Hr. split; [intros; apply grid_sym|]. intros z. unfold quad.
  set (x := fun q => pix w (q / h)). set (y := fun q => pix h (q mod h)).
  set (g := fun q => exp (- (x q ^ 2 + y q ^ 2) / reg)).
  pose proof (expq_nonneg (w * h) x y (2 / reg) (fun q => z q * g q) ltac:(apply Rmult_le_pos; [lra|left; apply Rinv_0_lt_compat; auto])) as E.
  eapply Rle_trans; [exact E|]. right. apply rsum_ext. intros q _. apply rsum_ext. intros r _. unfold g.
  replace (exp (- grid_cost w h q r / reg)) with (exp (- (x q ^ 2 + y q ^ 2) / reg) * exp (- (x r ^ 2 + y r ^ 2) / reg) * exp (2 / reg * (x q * x r + y q * y r))); [ring|].
  rewrite <- !exp_plus. f_equal. unfold grid_cost. fold (x q) (x r) (y q) (y r). field. lra.
Qed.
