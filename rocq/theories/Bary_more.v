(** Entropic barycenters: the loops. *)
From Coq Require Import Reals Lra Lia Arith Bool List.
Import ListNotations.
From Verif Require Import Num Sums Spec Duals_proofs Entropy Emd1d_model Emd1d_perm_proofs Sinkhorn_model Sinkhorn_proofs Bary_model Bary_proofs.
Local Open Scope R_scope.

(** the weighted geometric mean of row i *)
Definition gmean_w (h : nat) (w : vec) (X : mat) (i : nat) : R := exp (rsum h (fun s => w s * ln (X i s))).
Lemma gbar_R : forall h w X i, geometricBar (N:=RNum) exp ln h w X i = gmean_w h w X i.
Proof. intros. unfold geometricBar, gmean_w. f_equal. rewrite nsum_R. apply rsum_ext; intros; cbn [nmul RNum]; ring. Qed.
Lemma gmean_w_pos : forall h w X i, 0 < gmean_w h w X i. Proof. intros. apply exp_pos. Qed.
Lemma ln_gmean : forall h w X i, ln (gmean_w h w X i) = rsum h (fun s => w s * ln (X i s)). Proof. intros. apply ln_exp. Qed.
Lemma gmean_ext : forall h w X Y i, (forall s, (s < h)%nat -> X i s = Y i s) -> gmean_w h w X i = gmean_w h w Y i.
Proof. intros. unfold gmean_w. f_equal. apply rsum_ext. intros s Hs. rewrite H; auto. Qed.
(** arithmetic-geometric mean *)
Lemma gmean_le_mean : forall h w X i, nonneg_vec h w -> rsum h w = 1 -> (forall s, (s < h)%nat -> 0 < X i s) ->
  gmean_w h w X i <= rsum h (fun s => w s * X i s).
Proof.
  intros h w X i Hw H1 HX. unfold gmean_w. set (G := rsum h (fun s => w s * ln (X i s))).
  apply Rle_trans with (rsum h (fun s => w s * (exp G * (1 + ln (X i s) - G)))).
  - rewrite (rsum_ext h _ (fun s => exp G * ((1 - G) * w s + w s * ln (X i s)))) by (intros; ring).
    rewrite rsum_scal, rsum_plus, rsum_scal, H1. fold G. right. ring.
  - apply rsum_le. intros s Hs. apply Rmult_le_compat_l; [apply Hw; auto|].
    rewrite <- (exp_ln (X i s)) at 2 by auto. replace (ln (X i s)) with (G + (ln (X i s) - G)) at 2 by ring. rewrite exp_plus.
    apply Rmult_le_compat_l; [left; apply exp_pos|]. pose proof (exp_ineq1_le (ln (X i s) - G)). lra.
Qed.
Lemma ln_le' : forall x y, 0 < x -> x <= y -> ln x <= ln y.
Proof. intros x y H [L|E]; [left; apply ln_increasing; auto|rewrite E; lra]. Qed.
Lemma gmean_bounds : forall h w X i lo hi, nonneg_vec h w -> rsum h w = 1 -> (forall s, (s < h)%nat -> 0 < X i s) ->
  (forall s, (s < h)%nat -> lo <= X i s <= hi) -> lo <= gmean_w h w X i <= hi.
Proof.
  intros h w X i lo hi Hw H1 HX HB. split.
  - destruct (Rle_lt_dec lo 0) as [L|L]; [pose proof (gmean_w_pos h w X i); lra|]. rewrite <- (exp_ln lo) by auto. unfold gmean_w.
    assert (Q : ln lo <= rsum h (fun s => w s * ln (X i s))).
    { rewrite <- (Rmult_1_l (ln lo)), <- H1, <- rsum_scal_r. apply rsum_le. intros s Hs. apply Rmult_le_compat_l; [apply Hw; auto|]. apply ln_le'; auto. apply HB; auto. }
    destruct Q as [Q|Q]; [left; apply exp_increasing; auto|right; rewrite Q; auto].
  - eapply Rle_trans; [apply gmean_le_mean; auto|]. rewrite <- (Rmult_1_l hi), <- H1, <- rsum_scal_r. apply rsum_le. intros s Hs. apply Rmult_le_compat_l; [apply Hw; auto|]. apply HB; auto.
Qed.

(** numpy's standard deviation (ddof=0) *)
Definition popstd (h : nat) (x : vec) : R := sqrt (rsum h (fun s => (x s - rsum h x / INR h) ^ 2) / INR h).
Lemma popstd_nonneg : forall h x, 0 <= popstd h x. Proof. intros. apply sqrt_pos. Qed.
Lemma popstd_dev : forall h x s, (s < h)%nat -> Rabs (x s - rsum h x / INR h) <= sqrt (INR h) * popstd h x.
Proof.
  intros h x s Hs. assert (H0 : 0 < INR h) by (apply lt_0_INR; lia). unfold popstd.
  assert (S0 : 0 <= rsum h (fun s => (x s - rsum h x / INR h) ^ 2)) by (apply rsum_nonneg; intros; apply pow2_ge_0).
  assert (S1 : 0 <= rsum h (fun s => (x s - rsum h x / INR h) ^ 2) / INR h) by (apply Rmult_le_pos; [exact S0|left; apply Rinv_0_lt_compat; auto]).
  rewrite <- sqrt_mult by (assumption || lra).
  replace (INR h * (rsum h (fun s => (x s - rsum h x / INR h) ^ 2) / INR h)) with (rsum h (fun s => (x s - rsum h x / INR h) ^ 2)) by (field; lra).
  rewrite <- sqrt_Rsqr_abs. apply sqrt_le_1_alt. unfold Rsqr.
  pose proof (rsum_le_one h (fun s => (x s - rsum h x / INR h) ^ 2) s (fun i _ => pow2_ge_0 _) Hs) as Q. cbn beta in Q. lra.
Qed.
Lemma gmean_dev : forall h w X i s, nonneg_vec h w -> rsum h w = 1 -> (forall s, (s < h)%nat -> 0 < X i s) -> (s < h)%nat ->
  Rabs (X i s - gmean_w h w X i) <= 2 * sqrt (INR h) * popstd h (X i).
Proof.
  intros h w X i s Hw H1 HX Hs. set (m := rsum h (X i) / INR h). set (r := sqrt (INR h) * popstd h (X i)).
  assert (D : forall t, (t < h)%nat -> m - r <= X i t <= m + r).
  { intros t Ht. pose proof (popstd_dev h (X i) t Ht) as Q. fold m r in Q. unfold Rabs in Q. destruct (Rcase_abs (X i t - m)); lra. }
  pose proof (gmean_bounds h w X i (m - r) (m + r) Hw H1 HX D) as B. specialize (D s Hs).
  replace (2 * sqrt (INR h) * popstd h (X i)) with (2 * r) by (unfold r; ring). apply Rabs_le. lra.
Qed.

Section Run.
Variables (n h : nat) (M : mat) (reg : R) (A : mat) (w : vec).
Hypotheses (HA : nonneg_mat n h A) (HA1 : forall s, (s < h)%nat -> exists i, (i < n)%nat /\ 0 < A i s).
Hypothesis (H1 : rsum h w = 1).
Notation K := (fun i j => exp (- M i j / reg)).
Definition tilt (V : mat) (j : nat) : R := rsum h (fun s => w s * ln (V j s)).
Notation pos := (pos_mat n h).
(** K.T @ (A / (K @ V)) *)
Definition ktv (V : mat) (j s : nat) : R := rsum n (fun i => K i j * lscal n K A V i s).
Lemma ktv_pos : forall V j s, pos V -> (s < h)%nat -> 0 < ktv V j s.
Proof.
  intros V j s HV Hs. destruct (HA1 s Hs) as (i & Hi & Ha). unfold ktv.
  pose proof (rsum_le_one n (fun i => K i j * lscal n K A V i s) i) as Q. cbn beta in Q.
  apply Rlt_le_trans with (K i j * lscal n K A V i s).
  - apply Rmult_lt_0_compat; [apply exp_pos|]. apply Rdiv_lt_0_compat; auto. apply (kv_pos n h M reg); auto.
  - apply Q; auto. intros l Hl. apply Rmult_le_pos; [left; apply exp_pos|]. apply (lscal_nonneg n h M reg A); auto.
Qed.
Lemma scal_col_ktv : forall V j s, scal_col n K A V j s = V j s * ktv V j s. Proof. reflexivity. Qed.
Lemma scal_col_pos : forall V j s, pos V -> (j < n)%nat -> (s < h)%nat -> 0 < scal_col n K A V j s.
Proof. intros. rewrite scal_col_ktv. apply Rmult_lt_0_compat; [apply H; auto|apply ktv_pos; auto]. Qed.
Lemma dotKt_R : forall V j s, dotKt (N:=RNum) n K (div_mat (N:=RNum) A (dotK (N:=RNum) n K V)) j s = ktv V j s.
Proof. intros. unfold dotKt, ktv. rewrite nsum_R. apply rsum_ext. intros i Hi. unfold div_mat, dotK, lscal. rewrite nsum_R. reflexivity. Qed.
Lemma bs_ukv_R : forall V j s, bs_ukv (N:=RNum) n A K V j s = scal_col n K A V j s.
Proof. intros. unfold bs_ukv. rewrite dotKt_R. reflexivity. Qed.
Lemma gbar_tilt : forall V j, pos V -> (j < n)%nat -> gmean_w h w (scal_col n K A V) j = exp (tilt V j) * gmean_w h w (ktv V) j.
Proof.
  intros V j HV Hj. unfold gmean_w, tilt. rewrite <- exp_plus. f_equal. rewrite <- rsum_plus. apply rsum_ext. intros s Hs.
  rewrite scal_col_ktv, ln_mult; [ring|apply HV; auto|apply ktv_pos; auto].
Qed.
(** the total mass of the geometric mean *)
Lemma mass_le : forall V, nonneg_vec h w -> pos V -> rsum n (gmean_w h w (scal_col n K A V)) <= rsum h (fun s => w s * rsum n (fun i => A i s)).
Proof.
  intros V Hw HV. apply Rle_trans with (rsum n (fun j => rsum h (fun s => w s * scal_col n K A V j s))).
  - apply rsum_le. intros j Hj. apply gmean_le_mean; auto. intros. apply scal_col_pos; auto.
  - right. rewrite rsum_swap. apply rsum_ext. intros s Hs. rewrite rsum_scal. f_equal.
    rewrite (rsum_ext n _ (col_sum n (scal_plan n K A V s))) by (intros; rewrite (plan_col n M reg A); auto). unfold col_sum. rewrite rsum_swap.
    apply rsum_ext. intros i Hi. apply (plan_row n h M reg A); auto.
Qed.

(** ** barycenter_sinkhorn *)
Notation ukv := (bs_ukv (N:=RNum) n A K).
Notation next := (bs_next (N:=RNum) exp ln n h A w K).
Lemma next_R : forall u j s, next u j s = u j s * gmean_w h w (scal_col n K A u) j / scal_col n K A u j s.
Proof.
  intros. unfold bs_next. rewrite gbar_R, bs_ukv_R. cbn [nmul ndiv RNum].
  rewrite (gmean_ext h w (ukv u) (scal_col n K A u)) by (intros; apply bs_ukv_R). reflexivity.
Qed.
Lemma next_pos : forall u, pos u -> pos (next u).
Proof.
  intros u Hu j s Hj Hs. rewrite next_R. apply Rdiv_lt_0_compat; [|apply scal_col_pos; auto]. apply Rmult_lt_0_compat; [apply Hu; auto|apply gmean_w_pos].
Qed.
Lemma next_tilt : forall u j, pos u -> (j < n)%nat -> tilt (next u) j = tilt u j.
Proof.
  intros u j Hu Hj. unfold tilt.
  rewrite (rsum_ext h _ (fun s => w s * ln (u j s) + (ln (gmean_w h w (scal_col n K A u) j) * w s - w s * ln (scal_col n K A u j s)))).
  2:{ intros s Hs. rewrite next_R. pose proof (scal_col_pos u j s Hu Hj Hs). pose proof (gmean_w_pos h w (scal_col n K A u) j). pose proof (Hu j s Hj Hs).
      unfold Rdiv. rewrite ln_mult, ln_mult, ln_Rinv; auto using Rmult_lt_0_compat, Rinv_0_lt_compat. ring. }
  rewrite rsum_plus, rsum_minus, rsum_scal, H1, ln_gmean. ring.
Qed.
Lemma bs_post : forall std thr left ii u from x errs, pos u -> (0 < left)%nat ->
  let o := bs_loop (N:=RNum) exp ln std n h A w K thr left ii u from x errs in
  exists u', bs_from o = Some u' /\ bs_UKv o = ukv u' /\ pos u' /\ (forall j, (j < n)%nat -> tilt u' j = tilt u j) /\
  (forall k, bs_exit o <> NumErr k) /\
  (forall k, bs_exit o = Converged k -> Nat.modulo k 10 = 1%nat /\ (ii <= k < ii + left)%nat /\ rsum n (fun i => std h (ukv u' i)) < thr).
Proof.
  intros std thr. induction left as [|left IH]; intros ii u from x errs Hu Hl; [lia|]. clear Hl. cbn [bs_loop].
  assert (R1 : forall errs', let o := bs_loop (N:=RNum) exp ln std n h A w K thr left (S ii) (next u) (Some u) (ukv u) errs' in
    exists u', bs_from o = Some u' /\ bs_UKv o = ukv u' /\ pos u' /\ (forall j, (j < n)%nat -> tilt u' j = tilt u j) /\
    (forall k, bs_exit o <> NumErr k) /\
    (forall k, bs_exit o = Converged k -> Nat.modulo k 10 = 1%nat /\ (ii <= k < ii + S left)%nat /\ rsum n (fun i => std h (ukv u' i)) < thr)).
  { intros errs'. destruct left as [|l].
    - cbn [bs_loop]. exists u. cbn. repeat split; auto; discriminate.
    - destruct (IH (S ii) (next u) (Some u) (ukv u) errs' (next_pos u Hu) ltac:(lia)) as (u' & B1 & B2 & B3 & B4 & B5 & B6).
      exists u'. repeat split; auto.
      + intros j Hj. rewrite (B4 j Hj). apply next_tilt; auto.
      + apply (B6 k H).
      + apply (B6 k) in H. lia.
      + apply (B6 k) in H. lia.
      + apply (B6 k H). }
  cbv zeta. destruct (Nat.eqb_spec (Nat.modulo ii 10) 1) as [E|E]; [|apply R1].
  destruct (nltb (n:=RNum) _ thr) eqn:B; [|apply R1]. cbn [bs_from bs_UKv bs_exit]. exists u. split; [reflexivity|]. split; [reflexivity|]. split; [auto|]. split; [auto|]. split; [discriminate|]. intros k Hk. injection Hk as <-.
  split; [auto|]. split; [lia|]. cbn [nltb RNum] in B. apply Rltb_true in B. rewrite nsum_R in B. exact B.
Qed.
Definition ukv_init (j s : nat) : R := rsum n (fun l => K j l * (A l s / rsum n (fun r => K r l))).
Lemma ukv0_R : forall j s, bs_ukv0 (N:=RNum) n A K j s = ukv_init j s.
Proof. intros. unfold bs_ukv0, dotK, ukv_init. rewrite nsum_R. apply rsum_ext. intros l Hl. rewrite nsum_R. reflexivity. Qed.
Lemma ukv_init_pos : forall j s, (s < h)%nat -> 0 < ukv_init j s.
Proof.
  intros j s Hs. destruct (HA1 s Hs) as (i & Hi & Ha). unfold ukv_init.
  assert (C : forall l, 0 < rsum n (fun r => K r l)) by (intros; apply rsum_pos; [lia|intros; apply exp_pos]).
  pose proof (rsum_le_one n (fun l => K j l * (A l s / rsum n (fun r => K r l))) i) as Q. cbn beta in Q.
  apply Rlt_le_trans with (K j i * (A i s / rsum n (fun r => K r i))).
  - apply Rmult_lt_0_compat; [apply exp_pos|]. apply Rdiv_lt_0_compat; [exact Ha|apply C].
  - apply Q; auto. intros l Hl. apply Rmult_le_pos; [left; apply exp_pos|]. unfold Rdiv. apply Rmult_le_pos; [apply HA; auto|]. left. apply Rinv_0_lt_compat. apply C.
Qed.
Lemma u0_R : forall j s, bs_u0 (N:=RNum) exp ln n h A K j s = exp (rsum h (fun t => ln (ukv_init j t)) / INR h) / ukv_init j s.
Proof.
  intros. unfold bs_u0. rewrite ukv0_R. unfold geometricMean. rewrite nsum_R, nofnat_INR.
  rewrite (rsum_ext h (fun t => ln (bs_ukv0 (N:=RNum) n A K j t)) (fun t => ln (ukv_init j t))) by (intros; rewrite ukv0_R; auto). reflexivity.
Qed.
Lemma u0_pos : pos (bs_u0 (N:=RNum) exp ln n h A K).
Proof. intros j s Hj Hs. rewrite u0_R. apply Rdiv_lt_0_compat; [apply exp_pos|apply ukv_init_pos; auto]. Qed.
(** the tilt of the initial scaling: unweighted minus weighted mean of the logarithms *)
Definition tilt0 (j : nat) : R := rsum h (fun s => ln (ukv_init j s)) / INR h - rsum h (fun s => w s * ln (ukv_init j s)).
Lemma u0_tilt : forall j, tilt (bs_u0 (N:=RNum) exp ln n h A K) j = tilt0 j.
Proof.
  intros j. unfold tilt, tilt0. rewrite (rsum_ext h _ (fun s => (rsum h (fun t => ln (ukv_init j t)) / INR h) * w s - w s * ln (ukv_init j s))).
  - rewrite rsum_minus, rsum_scal, H1. ring.
  - intros s Hs. rewrite u0_R. unfold Rdiv at 1. rewrite ln_mult, ln_exp, ln_Rinv; auto using exp_pos, ukv_init_pos, Rinv_0_lt_compat. ring.
Qed.
End Run.
