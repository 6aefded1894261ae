(** Lemmas for the joint mapping estimation and the Brenier potentials. *)
From Coq Require Import Reals List Lra Lia Bool.
From Verif Require Import Num Sums Spec Duals_proofs Emd1d_model Emd1d_perm_proofs Optim_model Optim_proofs Weak_model Weak_proofs Da_reg_proofs Mapping_model.
Import ListNotations.
Local Open Scope R_scope.

(** ** regularised least squares, one column *)
Section Ls.
Variables (n k : nat) (P : mat) (y : vec) (eta : R) (Rg : mat) (J : vec).
Hypotheses (Heta : 0 <= eta)
  (Hsym : forall s r, (s < k)%nat -> (r < k)%nat -> Rg s r = Rg r s)
  (Hpsd : forall x : vec, 0 <= rsum k (fun s => rsum k (fun r => x s * Rg s r * x r))).
Definition lsq (l : vec) : R :=
  rsum n (fun i => (rsum k (fun s => P i s * l s) - y i) ^ 2) + eta * rsum k (fun s => rsum k (fun r => (l s - J s) * Rg s r * (l r - J r))).
Lemma ls_min : forall l l',
  (forall s, (s < k)%nat -> rsum n (fun i => P i s * (rsum k (fun r => P i r * l r) - y i)) + eta * rsum k (fun r => Rg s r * (l r - J r)) = 0) ->
  lsq l <= lsq l'.
Proof.
  intros l l' HN. set (D := fun s => l' s - l s). set (e := fun i => rsum k (fun r => P i r * l r) - y i). set (PD := fun i => rsum k (fun s => P i s * D s)).
  assert (E1 : forall i, rsum k (fun s => P i s * l' s) - y i = e i + PD i).
  { intros i. unfold e, PD, D. rewrite (rsum_ext k (fun s => P i s * l' s) (fun s => P i s * l s + P i s * (l' s - l s))) by (intros; ring). rewrite rsum_plus. ring. }
  assert (E2 : rsum n (fun i => (rsum k (fun s => P i s * l' s) - y i) ^ 2) = rsum n (fun i => e i ^ 2) + 2 * rsum n (fun i => e i * PD i) + rsum n (fun i => PD i ^ 2)).
  { rewrite (rsum_ext n _ (fun i => e i ^ 2 + 2 * (e i * PD i) + PD i ^ 2)) by (intros i Hi; rewrite E1; ring). rewrite !rsum_plus, rsum_scal. reflexivity. }
  set (z := fun s => l s - J s).
  assert (E3 : rsum k (fun s => rsum k (fun r => (l' s - J s) * Rg s r * (l' r - J r))) =
    rsum k (fun s => rsum k (fun r => z s * Rg s r * z r)) + 2 * rsum k (fun s => D s * rsum k (fun r => Rg s r * z r)) + rsum k (fun s => rsum k (fun r => D s * Rg s r * D r))).
  { assert (A : rsum k (fun s => rsum k (fun r => z s * Rg s r * D r)) = rsum k (fun s => D s * rsum k (fun r => Rg s r * z r))).
    { rewrite rsum_swap. apply rsum_ext; intros s Hs. rewrite <- rsum_scal. apply rsum_ext; intros r Hr. rewrite (Hsym r s) by auto. ring. }
    assert (B : rsum k (fun s => rsum k (fun r => D s * Rg s r * z r)) = rsum k (fun s => D s * rsum k (fun r => Rg s r * z r))).
    { apply rsum_ext; intros s Hs. rewrite <- rsum_scal. apply rsum_ext; intros; ring. }
    rewrite (rsum_ext k _ (fun s => rsum k (fun r => z s * Rg s r * z r) + rsum k (fun r => z s * Rg s r * D r) + rsum k (fun r => D s * Rg s r * z r) + rsum k (fun r => D s * Rg s r * D r))).
    - rewrite !rsum_plus, A, B. ring.
    - intros s Hs. rewrite <- !rsum_plus. apply rsum_ext; intros r Hr. unfold z, D. ring. }
  assert (E4 : rsum n (fun i => e i * PD i) + eta * rsum k (fun s => D s * rsum k (fun r => Rg s r * z r)) = 0).
  { assert (X : rsum n (fun i => e i * PD i) = rsum k (fun s => D s * rsum n (fun i => P i s * e i))).
    { rewrite (rsum_ext n _ (fun i => rsum k (fun s => D s * (P i s * e i)))).
      - rewrite rsum_swap. apply rsum_ext; intros s Hs. rewrite <- rsum_scal. reflexivity.
      - intros i Hi. unfold PD. rewrite <- rsum_scal. apply rsum_ext; intros; ring. }
    rewrite X, <- rsum_scal, <- rsum_plus. apply rsum_0. intros s Hs. specialize (HN s Hs).
    replace (D s * rsum n (fun i => P i s * e i) + eta * (D s * rsum k (fun r => Rg s r * z r))) with (D s * (rsum n (fun i => P i s * e i) + eta * rsum k (fun r => Rg s r * z r))) by ring.
    unfold e, z. rewrite HN. ring. }
  unfold lsq. rewrite E2, E3. fold z. change (fun i => (rsum k (fun s => P i s * l s) - y i) ^ 2) with (fun i => e i ^ 2).
  change (fun s => rsum k (fun r => (l s - J s) * Rg s r * (l r - J r))) with (fun s => rsum k (fun r => z s * Rg s r * z r)).
  assert (Q1 : 0 <= rsum n (fun i => PD i ^ 2)) by (apply rsum_nonneg; intros; apply pow2_ge_0).
  assert (Q2 := Rmult_le_pos _ _ Heta (Hpsd D)). nra.
Qed.
End Ls.

(** ** the Gaussian kernel is positive semidefinite *)
Section Gauss.
Variables (n d : nat) (x : mat).
Definition ipR (u v : vec) : R := rsum d (fun t => u t * v t).
Lemma pow_psd : forall p (c : vec), 0 <= rsum n (fun i => rsum n (fun j => c i * c j * ipR (x i) (x j) ^ p)).
Proof.
  induction p as [|p IH]; intros c.
  - rewrite (rsum_ext n _ (fun i => c i * rsum n c)) by (intros; rewrite <- rsum_scal; apply rsum_ext; intros; cbn; ring). rewrite rsum_scal_r. nra.
  - rewrite (rsum_ext n _ (fun i => rsum d (fun t => rsum n (fun j => (c i * x i t) * (c j * x j t) * ipR (x i) (x j) ^ p)))).
    + rewrite rsum_swap. apply rsum_nonneg. intros t Ht. apply (IH (fun i => c i * x i t)).
    + intros i Hi. rewrite rsum_swap. apply rsum_ext; intros j Hj. cbn [pow]. unfold ipR at 1. rewrite <- Rmult_assoc, (Rmult_comm (c i * c j)).
      rewrite Rmult_assoc, <- rsum_scal_r. apply rsum_ext; intros; ring.
Qed.
Lemma exp_series : forall z, infinite_sum (fun p => / INR (fact p) * z ^ p) (exp z).
Proof. intros z. unfold exp. destruct (exist_exp z) as [l H]. exact H. Qed.
Lemma cv_const_mult : forall c u l, Un_cv u l -> Un_cv (fun p => c * u p) (c * l).
Proof. intros. apply CV_mult; auto. intros e He. exists 0%nat. intros. unfold R_dist. rewrite Rminus_diag_eq, Rabs_R0; auto. Qed.
Lemma cv_rsum : forall k (u : nat -> nat -> R) (l : vec), (forall i, (i < k)%nat -> Un_cv (u i) (l i)) -> Un_cv (fun p => rsum k (fun i => u i p)) (rsum k l).
Proof.
  induction k; intros u l H; cbn.
  - intros e He. exists 0%nat. intros. unfold R_dist. rewrite Rminus_diag_eq, Rabs_R0; auto.
  - apply CV_plus; [apply IHk; intros; apply H; lia|apply H; lia].
Qed.
Lemma exp_psd : forall c : vec, 0 <= rsum n (fun i => rsum n (fun j => c i * c j * exp (ipR (x i) (x j)))).
Proof.
  intros c.
  set (u := fun i j p => c i * c j * sum_f_R0 (fun p => / INR (fact p) * ipR (x i) (x j) ^ p) p).
  assert (CV : Un_cv (fun p => rsum n (fun i => rsum n (fun j => u i j p))) (rsum n (fun i => rsum n (fun j => c i * c j * exp (ipR (x i) (x j)))))).
  { apply (cv_rsum n (fun i p => rsum n (fun j => u i j p))). intros i Hi. apply (cv_rsum n (fun j p => u i j p)). intros j Hj. unfold u.
    apply cv_const_mult. intros e He. destruct (exp_series (ipR (x i) (x j)) e He) as [N0 HN]. exists N0. intros p Hp. apply HN. exact Hp. }
  assert (NN : forall p, 0 <= rsum n (fun i => rsum n (fun j => u i j p))).
  { intros p. unfold u. induction p as [|p IH].
    - cbn [sum_f_R0 fact]. assert (Q := pow_psd 0 c). eapply Rle_trans; [exact Q|]. apply Req_le. apply rsum_ext; intros; apply rsum_ext; intros. cbn. field.
    - rewrite (rsum_ext n _ (fun i => rsum n (fun j => c i * c j * sum_f_R0 (fun p => / INR (fact p) * ipR (x i) (x j) ^ p) p) + / INR (fact (S p)) * rsum n (fun j => c i * c j * ipR (x i) (x j) ^ S p))).
      + rewrite rsum_plus, rsum_scal. apply Rplus_le_le_0_compat; [exact IH|]. apply Rmult_le_pos; [|apply pow_psd]. left. apply Rinv_0_lt_compat. apply INR_fact_lt_0.
      + intros i Hi. rewrite <- rsum_scal, <- rsum_plus. apply rsum_ext; intros j Hj. rewrite tech5. ring. }
  destruct (Rle_dec 0 (rsum n (fun i => rsum n (fun j => c i * c j * exp (ipR (x i) (x j)))))) as [|NL]; auto. exfalso.
  set (lim := rsum n (fun i => rsum n (fun j => c i * c j * exp (ipR (x i) (x j))))) in *.
  destruct (CV (- lim)) as [N0 H]; [lra|]. specialize (H N0 (le_n _)). unfold R_dist in H. specialize (NN N0). apply Rabs_def2 in H. lra.
Qed.
End Gauss.
Lemma gauss_psd : forall n d x sigma (c : vec), sigma <> 0 ->
  0 <= rsum n (fun i => rsum n (fun j => c i * exp (- rsum d (fun t => (x i t - x j t) ^ 2) / (2 * (sigma * sigma))) * c j)).
Proof.
  intros n d x sigma c Hs. set (y := fun i t => x i t / sigma). set (c' := fun i => c i * exp (- ipR d (y i) (y i) / 2)).
  assert (Q := exp_psd n d y c'). eapply Rle_trans; [exact Q|]. apply Req_le. apply rsum_ext; intros i Hi; apply rsum_ext; intros j Hj.
  unfold c'. replace (c i * exp (- ipR d (y i) (y i) / 2) * (c j * exp (- ipR d (y j) (y j) / 2)) * exp (ipR d (y i) (y j))) with
    (c i * (exp (- ipR d (y i) (y i) / 2) * exp (- ipR d (y j) (y j) / 2) * exp (ipR d (y i) (y j))) * c j) by ring.
  rewrite <- !exp_plus. f_equal. f_equal. f_equal. unfold ipR, y.
  rewrite (rsum_ext d (fun t => (x i t - x j t) ^ 2) (fun t => sigma ^ 2 * (x i t / sigma * (x i t / sigma)) + sigma ^ 2 * (x j t / sigma * (x j t / sigma)) - 2 * sigma ^ 2 * (x i t / sigma * (x j t / sigma)))) by (intros; field; auto).
  rewrite rsum_minus, rsum_plus, !rsum_scal. field. auto.
Qed.
