(** C121-C124: entropic barycenters of histograms (ot/bregman/_barycenter.py), exact reals.
    [bary_feasible n h A P a]: P s is a coupling of column s of A and a, for every s < h.
    [bary_obj n h w M reg P] = sum_s w_s (<M, P_s> + reg sum P_s log P_s), the objective whose
    minimisation over P and a defines the barycenter.
    [scal_plan n K A V s] = diag(A_s / (K V_s)) K diag(V_s);  [gmean_w h w X j] = prod_s X_js^{w_s}. *)
From Coq Require Import Reals Lra Lia Arith Bool List.
Import ListNotations.
From Verif Require Import Num Sums Spec Duals_proofs Entropy Emd1d_model Emd1d_perm_proofs Sinkhorn_model Sinkhorn_proofs Sinkhorn_more Bary_model Bary_proofs Bary_more Bary_loops Bary_deb.
Local Open Scope R_scope.

Definition gibbsK (M : mat) (reg : R) : mat := fun i j => exp (- M i j / reg).
(** every column of A is a non-zero histogram *)
Definition histograms (n h : nat) (A : mat) : Prop := nonneg_mat n h A /\ forall s, (s < h)%nat -> exists i, (i < n)%nat /\ 0 < A i s.
(** barycentric coordinates *)
Definition bary_coords (h : nat) (w : vec) : Prop := nonneg_vec h w /\ rsum h w = 1.
(** P is optimal for the weights w: feasible for some a and not above any other feasible family *)
Definition bary_optimal (n h : nat) (A : mat) (w : vec) (M : mat) (reg : R) (P : nat -> mat) (a : vec) : Prop :=
  bary_feasible n h A P a /\ forall P' a', bary_feasible n h A P' a' -> bary_obj n h w M reg P <= bary_obj n h w M reg P'.

Section Post.
Variables (n h : nat) (M : mat) (reg : R) (A : mat) (w : vec).
Hypotheses (Hreg : 0 < reg) (HA : histograms n h A) (Hw : bary_coords h w).
Notation K := (fun i j => exp (- M i j / reg)).
Lemma col_eq : forall V a j, (forall s, (s < h)%nat -> col_sum n (scal_plan n K A V s) j = a) -> forall s, (s < h)%nat -> scal_col n K A V j s = a.
Proof. intros V a j H s Hs. rewrite <- (plan_col n M reg A). apply H; auto. Qed.
Lemma gmean_cols : forall V j, gmean_w h w (scal_col n K A V) j = gmean_w h w (fun j s => col_sum n (scal_plan n K A V s) j) j.
Proof. intros. apply gmean_ext. intros. rewrite (plan_col n M reg A). auto. Qed.
Lemma post_cert : forall V (a t : vec), pos_mat n h V -> (forall j, (j < n)%nat -> tilt h w V j = t j) ->
  forall P' a', bary_feasible n h A P' a' -> bary_obj n h w M reg (scal_plan n K A V) <= bary_obj n h w M reg P'
    + reg * rsum h (fun s => w s * rsum n (fun j => ln (V j s) * (col_sum n (scal_plan n K A V s) j - a j)))
    + reg * rsum n (fun j => t j * (a j - a' j)).
Proof.
  intros V a t HV HT P' a' HF. pose proof (cert n h M reg A w Hreg (proj1 HA) (proj1 Hw) V P' a' a HV HF) as C.
  rewrite (rsum_ext n (fun j => rsum h (fun s => w s * ln (V j s)) * (a j - a' j)) (fun j => t j * (a j - a' j))) in C by (intros j Hj; rewrite <- (HT j Hj); auto).
  rewrite (rsum_ext h (fun s => w s * rsum n (fun j => ln (V j s) * (col_sum n (scal_plan n K A V s) j - a j))) (fun s => w s * rsum n (fun j => ln (V j s) * (scal_col n K A V j s - a j)))).
  - exact C.
  - intros s Hs. f_equal. apply rsum_ext. intros j Hj. rewrite (plan_col n M reg A). auto.
Qed.
Lemma post_opt : forall V (a : vec), pos_mat n h V -> (forall j, (j < n)%nat -> tilt h w V j = 0) ->
  (forall j s, (j < n)%nat -> (s < h)%nat -> col_sum n (scal_plan n K A V s) j = a j) -> bary_optimal n h A w M reg (scal_plan n K A V) a.
Proof.
  intros V a HV HT HC. split.
  - intros s Hs. split; [apply (plan_nonneg n h M reg A); auto; apply HA|]. split; [intros i Hi; apply (plan_row n h M reg A); auto|intros j Hj; apply HC; auto].
  - intros P' a' HF. pose proof (post_cert V a (fun _ => 0) HV HT P' a' HF) as C. cbn beta in C.
    rewrite (rsum_0 n (fun j => 0 * (a j - a' j))) in C by (intros; ring).
    rewrite (rsum_0 h) in C; [lra|]. intros s Hs. rewrite (rsum_0 n); [ring|]. intros j Hj. rewrite HC by auto. ring.
Qed.
Lemma dev_cols : forall V thr, pos_mat n h V -> rsum n (fun i => popstd h (scal_col n K A V i)) < thr ->
  forall j s, (j < n)%nat -> (s < h)%nat -> Rabs (col_sum n (scal_plan n K A V s) j - gmean_w h w (scal_col n K A V) j) <= 2 * sqrt (INR h) * thr.
Proof.
  intros V thr HV Hs j s Hj Hs'. rewrite (plan_col n M reg A).
  eapply Rle_trans; [apply gmean_dev; auto; try apply Hw; intros; apply (scal_col_pos n h M reg A); auto; apply HA|].
  apply Rmult_le_compat_l; [apply Rmult_le_pos; [lra|apply sqrt_pos]|].
  pose proof (rsum_le_one n (fun i => popstd h (scal_col n K A V i)) j (fun i _ => popstd_nonneg h _) Hj) as Q. cbn beta in Q. lra.
Qed.
End Post.

(** C121.  barycenter_sinkhorn, at least one iteration: the returned a is the weighted geometric mean
    of the second marginals of plans whose first marginals are exactly the columns of A; its mass is
    at most the mean mass of the columns; after convergence all second marginals are within
    2 sqrt(h) stopThr of a; and the plans minimise the objective up to the disagreement of the
    marginals and up to the tilt <t, a>, where t_j = mean_s log U_js - sum_s w_s log U_js for the
    initial U = K (A / K^T 1). *)
Theorem C121_certificate : forall n h M reg A w thr it, 0 < reg -> histograms n h A -> bary_coords h w -> (0 < it)%nat ->
  let run := barycenter_sinkhorn_run (N:=RNum) exp ln popstd n h A w (gibbsK M reg) it thr in
  let a := barycenter_sinkhorn (N:=RNum) exp ln popstd n h A w (gibbsK M reg) it thr in
  exists V, let P := scal_plan n (gibbsK M reg) A V in pos_mat n h V /\
  (forall s i, (s < h)%nat -> (i < n)%nat -> row_sum n (P s) i = A i s) /\
  (forall j, (j < n)%nat -> a j = gmean_w h w (fun j s => col_sum n (P s) j) j) /\
  rsum n a <= rsum h (fun s => w s * rsum n (fun i => A i s)) /\
  (forall k, bs_exit run = Converged k -> forall j s, (j < n)%nat -> (s < h)%nat -> Rabs (col_sum n (P s) j - a j) <= 2 * sqrt (INR h) * thr) /\
  (forall P' a', bary_feasible n h A P' a' -> bary_obj n h w M reg P <= bary_obj n h w M reg P'
    + reg * rsum h (fun s => w s * rsum n (fun j => ln (V j s) * (col_sum n (P s) j - a j)))
    + reg * rsum n (fun j => tilt0 n h M reg A w j * (a j - a' j))).
Proof.
  intros n h M reg A w thr it Hreg HA Hw Hit. unfold gibbsK. cbv zeta.
  destruct (bs_post n h M reg A w (proj1 HA) (proj2 HA) (proj2 Hw) popstd thr it 0 _ None (bs_ukv0 (N:=RNum) n A (fun i j => exp (- M i j / reg))) [] (u0_pos n h M reg A (proj1 HA) (proj2 HA)) Hit) as (V & B1 & B2 & B3 & B4 & B5 & B6).
  fold (barycenter_sinkhorn_run (N:=RNum) exp ln popstd n h A w (fun i j => exp (- M i j / reg)) it thr) in B1, B2, B5, B6.
  assert (E : forall j, barycenter_sinkhorn (N:=RNum) exp ln popstd n h A w (fun i j => exp (- M i j / reg)) it thr j = gmean_w h w (scal_col n (fun i j => exp (- M i j / reg)) A V) j).
  { intros j. unfold barycenter_sinkhorn. rewrite gbar_R, B2. apply gmean_ext. intros. apply bs_ukv_R. }
  exists V. split; [exact B3|]. split; [intros s i Hs Hi; apply (plan_row n h M reg A); auto|]. split; [intros j Hj; rewrite E; apply gmean_cols|].
  split; [|split].
  - rewrite (rsum_ext n _ (gmean_w h w (scal_col n (fun i j => exp (- M i j / reg)) A V))) by (intros; apply E). apply (mass_le n h M reg A w); auto; try apply HA; apply Hw.
  - intros k Hk j s Hj Hs. rewrite E. apply (dev_cols n h M reg A w HA Hw V thr B3); auto. destruct (B6 k Hk) as (_ & _ & L).
    rewrite (rsum_ext n _ (fun i => popstd h (bs_ukv (N:=RNum) n A (fun i j => exp (- M i j / reg)) V i))); [exact L|]. intros i Hi. unfold popstd. f_equal. f_equal. 
    assert (F : rsum h (scal_col n (fun i j => exp (- M i j / reg)) A V i) = rsum h (bs_ukv (N:=RNum) n A (fun i j => exp (- M i j / reg)) V i)) by (apply rsum_ext; intros; symmetry; apply bs_ukv_R).
    rewrite <- F. apply rsum_ext. intros. rewrite <- (bs_ukv_R n M reg A). reflexivity.
  - intros P' a' HF. apply (post_cert n h M reg A w Hreg HA Hw V); auto. intros j Hj. rewrite (B4 j Hj). apply (u0_tilt n h M reg A w); auto; try apply HA; apply Hw.
Qed.
Print Assumptions C121_certificate.
(** With equal weights (the default) the tilt vanishes: when the second marginals agree with a the
    plans are optimal, so a is the entropic barycenter. *)
Theorem C121_uniform : forall n h M reg A thr it, 0 < reg -> (0 < h)%nat -> histograms n h A -> (0 < it)%nat ->
  let w := bary_weights (N:=RNum) h None in
  let a := barycenter_sinkhorn (N:=RNum) exp ln popstd n h A w (gibbsK M reg) it thr in
  exists V, let P := scal_plan n (gibbsK M reg) A V in pos_mat n h V /\
  (forall j, (j < n)%nat -> a j = gmean_w h w (fun j s => col_sum n (P s) j) j) /\
  (forall P' a', bary_feasible n h A P' a' -> bary_obj n h w M reg P <= bary_obj n h w M reg P'
    + reg * rsum h (fun s => w s * rsum n (fun j => ln (V j s) * (col_sum n (P s) j - a j)))) /\
  ((forall j s, (j < n)%nat -> (s < h)%nat -> col_sum n (P s) j = a j) -> bary_optimal n h A w M reg P a).
Proof.
  intros n h M reg A thr it Hreg Hh HA Hit w a.
  assert (W : forall s, w s = / INR h) by (intros; unfold w, bary_weights; cbn [ndiv n1 RNum]; rewrite nofnat_INR; apply Rmult_1_l).
  assert (H0 : 0 < INR h) by (apply lt_0_INR; auto).
  assert (Hw : bary_coords h w).
  { split; [intros s Hs; rewrite W; left; apply Rinv_0_lt_compat; auto|]. rewrite (rsum_ext h w (fun _ => / INR h)) by auto. rewrite rsum_const. field. lra. }
  destruct (C121_certificate n h M reg A w thr it Hreg HA Hw Hit) as (V & B1 & B2 & B3 & B4 & B5 & B6). fold a in B3, B4, B5, B6.
  assert (T : forall j, tilt0 n h M reg A w j = 0).
  { intros j. unfold tilt0. rewrite (rsum_ext h (fun s => w s * ln (ukv_init n M reg A j s)) (fun s => / INR h * ln (ukv_init n M reg A j s))) by (intros; rewrite W; auto). rewrite rsum_scal. unfold Rdiv. ring. }
  assert (C : forall P' a', bary_feasible n h A P' a' -> bary_obj n h w M reg (scal_plan n (gibbsK M reg) A V) <= bary_obj n h w M reg P'
    + reg * rsum h (fun s => w s * rsum n (fun j => ln (V j s) * (col_sum n (scal_plan n (gibbsK M reg) A V s) j - a j)))).
  { intros P' a' HF. eapply Rle_trans; [apply (B6 P' a' HF)|]. rewrite (rsum_0 n (fun j => tilt0 n h M reg A w j * (a j - a' j))) by (intros; rewrite T; ring). lra. }
  exists V. split; [auto|]. split; [auto|]. split; [exact C|]. intros HC. split.
  - intros s Hs. split; [apply (plan_nonneg n h M reg A); auto; apply HA|]. split; [intros i Hi; apply B2; auto|intros j Hj; apply HC; auto].
  - intros P' a' HF. eapply Rle_trans; [apply (C P' a' HF)|]. rewrite (rsum_0 h); [lra|]. intros s Hs. rewrite (rsum_0 n); [ring|]. intros j Hj. rewrite HC by auto. ring.
Qed.
Print Assumptions C121_uniform.

(** * The counterexample data: two points at cost log 2, reg = 1, the uniform histogram with weight 1
    and a Dirac with weight 0; the barycenter is the uniform histogram *)
Definition Mc : mat := fun i j => if Nat.eqb i j then 0 else ln 2.
Definition Ac : mat := fun i s => match s with O => 1 / 2 | S _ => match i with O => 0 | S _ => 1 end end.
Definition wc : vec := fun s => match s with O => 1 | S _ => 0 end.
Definition half2 : vec := fun _ => 1 / 2.
Definition Kc : mat := gibbsK Mc 1.
Lemma Kc_v : forall i j, Kc i j = if Nat.eqb i j then 1 else 1 / 2.
Proof.
  intros. unfold Kc, gibbsK, Mc. destruct (Nat.eqb i j).
  - replace (- 0 / 1) with 0 by field. apply exp_0.
  - replace (- ln 2 / 1) with (- ln 2) by field. rewrite exp_Ropp, exp_ln by lra. lra.
Qed.
Lemma Ac_hist : histograms 2 2 Ac.
Proof.
  split.
  - intros i s Hi Hs. unfold Ac. destruct s; [lra|]. destruct i; lra.
  - intros s Hs. exists 1%nat. split; [lia|]. unfold Ac. destruct s; lra.
Qed.
Lemma wc_coords : bary_coords 2 wc.
Proof. split; [intros s Hs; unfold wc; destruct s; lra|]. cbn. lra. Qed.
Definition Pc (s : nat) : mat := match s with O => fun i j => if Nat.eqb i j then 1 / 3 else 1 / 6 | S _ => fun i _ => match i with O => 0 | S _ => 1 / 2 end end.
Lemma Pc_feasible : bary_feasible 2 2 Ac Pc half2.
Proof.
  intros s Hs. destruct s as [|[|s]]; [| |lia]; (split; [|split]).
  - intros i j Hi Hj. cbn. destruct (Nat.eqb i j); lra.
  - intros i Hi. destruct i as [|[|i]]; [| |lia]; unfold row_sum; cbn; lra.
  - intros j Hj. unfold half2. destruct j as [|[|j]]; [| |lia]; unfold col_sum; cbn; lra.
  - intros i j Hi Hj. cbn. destruct i; lra.
  - intros i Hi. destruct i as [|[|i]]; [| |lia]; unfold row_sum; cbn; lra.
  - intros j Hj. unfold half2, col_sum. cbn. lra.
Qed.
(** every family with another second marginal is strictly worse *)
Lemma Pc_best : forall P a, bary_feasible 2 2 Ac P a -> a 0%nat <> 1 / 2 -> bary_obj 2 2 wc Mc 1 Pc < bary_obj 2 2 wc Mc 1 P.
Proof.
  intros P a HF Ha. unfold bary_obj. cbn [rsum]. unfold wc.
  destruct (HF 0%nat ltac:(lia)) as (P1 & P2 & P3).
  assert (L2 : ln (1 / 6) = ln (1 / 3) - ln 2).
  { replace (1 / 6) with (1 / 3 * / 2) by lra. rewrite ln_mult, ln_Rinv by lra. ring. }
  assert (D : exists i, (i < 2)%nat /\ P 0%nat i 0%nat <> Pc 0%nat i 0%nat).
  { destruct (Req_dec (P 0%nat 0%nat 0%nat) (Pc 0%nat 0%nat 0%nat)) as [E0|E0]; [|exists 0%nat; split; [lia|auto]].
    destruct (Req_dec (P 0%nat 1%nat 0%nat) (Pc 0%nat 1%nat 0%nat)) as [E1|E1]; [|exists 1%nat; split; [lia|auto]].
    exfalso. apply Ha. rewrite <- (P3 0%nat) by lia. unfold col_sum. cbn [rsum]. rewrite E0, E1. cbn. lra. }
  destruct D as (i0 & Hi0 & D).
  assert (G := ent_gap_strict 2 2 Mc 1 (P 0%nat) (Pc 0%nat) (fun _ => ln (1 / 3)) (fun _ => 0) 0 i0 0%nat ltac:(lra) P1).
  assert (X : ent_obj 2 2 Mc 1 (Pc 0%nat) < ent_obj 2 2 Mc 1 (P 0%nat)); [|lra].
  assert (R0' : forall i, (i < 2)%nat -> row_sum 2 (P 0%nat) i = row_sum 2 (Pc 0%nat) i).
  { intros i Hi. rewrite (P2 i Hi). unfold row_sum. destruct i as [|[|i]]; [| |lia]; cbn; lra. }
  rewrite (total_rows 2 2 (P 0%nat) (Pc 0%nat)) in G by auto.
  rewrite (rsum_0 2 (fun i => ln (1 / 3) * (row_sum 2 (P 0%nat) i - row_sum 2 (Pc 0%nat) i))) in G by (intros i Hi; rewrite R0' by auto; ring).
  rewrite (rsum_0 2 (fun j => 0 * (col_sum 2 (P 0%nat) j - col_sum 2 (Pc 0%nat) j))) in G by (intros; ring).
  assert (Y : 0 + 0 + (0 + 1) * (total 2 2 (Pc 0%nat) - total 2 2 (Pc 0%nat)) < ent_obj 2 2 Mc 1 (P 0%nat) - ent_obj 2 2 Mc 1 (Pc 0%nat)); [|lra].
  apply G; auto; try lia.
  - intros i j Hi Hj. cbn. destruct (Nat.eqb i j); lra.
  - intros i j Hi Hj. unfold Mc, Pc. destruct (Nat.eqb i j); [|rewrite L2]; lra.
Qed.
(** the second marginal with right scaling (x, y) on the uniform histogram *)
Lemma col_xy : forall V, 0 < V 0%nat 0%nat -> 0 < V 1%nat 0%nat -> V 0%nat 0%nat <> V 1%nat 0%nat -> scal_col 2 Kc Ac V 0%nat 0%nat <> 1 / 2.
Proof.
  intros V H0 H1 D E. apply D. unfold scal_col, lscal in E. cbn [rsum] in E. rewrite !Kc_v in E. cbn [Nat.eqb] in E. unfold Ac in E.
  set (x := V 0%nat 0%nat) in *. set (y := V 1%nat 0%nat) in *.
  assert (F : x * (1 / 2 * x + y) + 1 / 2 * x * (x + 1 / 2 * y) = (x + 1 / 2 * y) * (1 / 2 * x + y)).
  { assert (E2 : x * (1 / 2 / (x + 1 / 2 * y) + 1 / 2 * (1 / 2 / (1 / 2 * x + y))) = 1 / 2) by (refine (eq_trans _ E); field; split; lra).
    assert (G : x * (1 / 2 / (x + 1 / 2 * y) + 1 / 2 * (1 / 2 / (1 / 2 * x + y))) * (2 * ((x + 1 / 2 * y) * (1 / 2 * x + y))) = x * (1 / 2 * x + y) + 1 / 2 * x * (x + 1 / 2 * y)) by (field; split; lra).
    rewrite E2 in G. lra. }
  assert (Q : (x - y) * (x + y) = 0) by lra. apply Rmult_integral in Q. destruct Q; lra.
Qed.
Lemma bs_keep : forall std thr left ii u from x errs (I : mat -> Prop), (0 < left)%nat -> I u ->
  (forall u, I u -> I (bs_next (N:=RNum) exp ln 2 2 Ac wc Kc u)) ->
  exists u', bs_UKv (bs_loop (N:=RNum) exp ln std 2 2 Ac wc Kc thr left ii u from x errs) = bs_ukv (N:=RNum) 2 Ac Kc u' /\ I u'.
Proof.
  intros std thr. induction left as [|left IH]; intros ii u from x errs I Hl HI HN; [lia|]. cbn [bs_loop]. cbv zeta.
  assert (R1 : forall e, exists u', bs_UKv (bs_loop (N:=RNum) exp ln std 2 2 Ac wc Kc thr left (S ii) (bs_next (N:=RNum) exp ln 2 2 Ac wc Kc u) (Some u) (bs_ukv (N:=RNum) 2 Ac Kc u) e) = bs_ukv (N:=RNum) 2 Ac Kc u' /\ I u').
  { intros e. destruct left; [exists u; cbn; auto|]. apply IH; [lia|apply HN; auto|auto]. }
  destruct (Nat.eqb (Nat.modulo ii 10) 1); [|apply R1]. destruct (nltb (n:=RNum) _ thr); [|apply R1]. exists u. cbn. auto.
Qed.
(** C121 refuted for unequal weights: with weights (1, 0) barycenter_sinkhorn never returns the
    barycenter of the first histogram, whatever the number of iterations: the histogram of weight 0
    enters the result through the initialisation, and every family of plans reaching the returned a
    is strictly worse than the one reaching the uniform histogram. *)
Theorem C121_weights_refuted : histograms 2 2 Ac /\ bary_coords 2 wc /\ bary_feasible 2 2 Ac Pc half2 /\
  forall it thr, (0 < it)%nat -> let a := barycenter_sinkhorn (N:=RNum) exp ln popstd 2 2 Ac wc (gibbsK Mc 1) it thr in
  a 0%nat <> 1 / 2 /\ forall P, bary_feasible 2 2 Ac P a -> bary_obj 2 2 wc Mc 1 Pc < bary_obj 2 2 wc Mc 1 P.
Proof.
  split; [apply Ac_hist|]. split; [apply wc_coords|]. split; [apply Pc_feasible|]. intros it thr Hit a.
  assert (Ha : a 0%nat <> 1 / 2); [|split; [auto|intros P HF; apply (Pc_best P a); auto]].
  destruct (bs_keep popstd thr it 0 (bs_u0 (N:=RNum) exp ln 2 2 Ac Kc) None (bs_ukv0 (N:=RNum) 2 Ac Kc) []
    (fun u => pos_mat 2 2 u /\ u 0%nat 0%nat < u 1%nat 0%nat) Hit) as (u & E & Hp & L).
  - split; [apply (u0_pos 2 2 Mc 1 Ac (proj1 Ac_hist) (proj2 Ac_hist))|].
    change Kc with (fun i j => exp (- Mc i j / 1)). rewrite !(u0_R 2 2 Mc 1 Ac). cbn [rsum].
    assert (U : forall j s, (j < 2)%nat -> ukv_init 2 Mc 1 Ac j s = match s with O => 1 / 2 | S _ => match j with O => 1 / 3 | S _ => 2 / 3 end end).
    { intros j s Hj. unfold ukv_init. cbn [rsum]. change (fun i j => exp (- Mc i j / 1)) with Kc.
      repeat match goal with |- context [exp (- Mc ?i ?j / 1)] => change (exp (- Mc i j / 1)) with (Kc i j) end. rewrite !Kc_v. unfold Ac. destruct j as [|[|j]]; [| |lia]; cbn [Nat.eqb]; destruct s; lra. }
    rewrite !U by lia. apply Rmult_lt_compat_r; [lra|]. apply exp_increasing. apply Rmult_lt_compat_r; [apply Rinv_0_lt_compat; apply lt_0_INR; lia|].
    assert (ln (1 / 3) < ln (2 / 3)) by (apply ln_increasing; lra). lra.
  - intros v [Hv Lv]. split.
    + apply (next_pos 2 2 Mc 1 Ac wc (proj1 Ac_hist) (proj2 Ac_hist)); auto.
    + assert (F : forall j, (j < 2)%nat -> bs_next (N:=RNum) exp ln 2 2 Ac wc Kc v j 0%nat = v j 0%nat).
      { intros j Hj. change Kc with (fun i j => exp (- Mc i j / 1)). rewrite (next_R 2 2 Mc 1 Ac wc). unfold gmean_w. cbn [rsum]. unfold wc at 1 2.
        pose proof (scal_col_pos 2 2 Mc 1 Ac (proj1 Ac_hist) (proj2 Ac_hist) v j 0%nat Hv Hj ltac:(lia)) as SP.
        replace (0 + 1 * ln (scal_col 2 (fun i j => exp (- Mc i j / 1)) Ac v j 0%nat) + 0 * ln (scal_col 2 (fun i j => exp (- Mc i j / 1)) Ac v j 1%nat)) with (ln (scal_col 2 (fun i j => exp (- Mc i j / 1)) Ac v j 0%nat)) by ring.
        rewrite exp_ln by auto. match goal with |- ?x = ?y => change (@eq R x y) end. field. lra. }
      rewrite !F by lia. auto.
  - assert (Ea : a 0%nat = scal_col 2 Kc Ac u 0%nat 0%nat).
    { unfold a, barycenter_sinkhorn, barycenter_sinkhorn_run. change (gibbsK Mc 1) with Kc. rewrite gbar_R, E. unfold gmean_w. cbn [rsum]. unfold wc.
      change Kc with (fun i j => exp (- Mc i j / 1)) at 1 2. rewrite !(bs_ukv_R 2 Mc 1 Ac). change (fun i j => exp (- Mc i j / 1)) with Kc.
      pose proof (scal_col_pos 2 2 Mc 1 Ac (proj1 Ac_hist) (proj2 Ac_hist) u 0%nat 0%nat Hp ltac:(lia) ltac:(lia)) as SP. change (fun i j => exp (- Mc i j / 1)) with Kc in SP.
      replace (0 + 1 * ln (scal_col 2 Kc Ac u 0%nat 0%nat) + 0 * ln (scal_col 2 Kc Ac u 0%nat 1%nat)) with (ln (scal_col 2 Kc Ac u 0%nat 0%nat)) by ring. apply exp_ln. exact SP. }
    rewrite Ea. apply col_xy; [apply Hp; lia|apply Hp; lia|lra].
Qed.
Print Assumptions C121_weights_refuted.

(** C122.  _barycenter_sinkhorn_log (method="sinkhorn_log"), any weights summing to one, at least one
    iteration: the same guarantees for the histograms A + tiny and without the tilt, so agreement of
    the second marginals means optimality.  With numItermax = 0 it raises (log_bar is unbound). *)
Theorem C122_log : forall n h M reg A w tiny thr it, 0 < reg -> 0 < tiny -> (0 < n)%nat -> nonneg_mat n h A -> bary_coords h w ->
  let Mr := fun i j => - M i j / reg in
  barycenter_sinkhorn_log (N:=RNum) exp ln popstd n h A w Mr tiny 0 thr = None /\
  ((0 < it)%nat -> exists run a, barycenter_sinkhorn_log_run (N:=RNum) exp ln popstd n h A w Mr tiny it thr = Some run /\
   barycenter_sinkhorn_log (N:=RNum) exp ln popstd n h A w Mr tiny it thr = Some a /\
   exists V, let P := scal_plan n (gibbsK M reg) (fun i s => A i s + tiny) V in pos_mat n h V /\
   (forall s i, (s < h)%nat -> (i < n)%nat -> row_sum n (P s) i = A i s + tiny) /\
   (forall j, (j < n)%nat -> a j = gmean_w h w (fun j s => col_sum n (P s) j) j) /\
   (forall k, bl_exit run = Converged k -> forall j s, (j < n)%nat -> (s < h)%nat -> Rabs (col_sum n (P s) j - a j) <= 2 * sqrt (INR h) * thr) /\
   (forall P' a', bary_feasible n h (fun i s => A i s + tiny) P' a' -> bary_obj n h w M reg P <= bary_obj n h w M reg P'
     + reg * rsum h (fun s => w s * rsum n (fun j => ln (V j s) * (col_sum n (P s) j - a j)))) /\
   ((forall j s, (j < n)%nat -> (s < h)%nat -> col_sum n (P s) j = a j) -> bary_optimal n h (fun i s => A i s + tiny) w M reg P a)).
Proof.
  intros n h M reg A w tiny thr it Hreg Ht Hn HA Hw Mr. split; [reflexivity|]. intros Hit.
  set (A' := fun i s => A i s + tiny).
  assert (HA' : histograms n h A') by (split; [apply (Aeps_nonneg n h A tiny HA Ht)|apply (Aeps_mass n h A tiny HA Ht Hn)]).
  destruct (bl_post n h M reg A w tiny Hn (proj2 Hw) popstd thr it 0 (fun _ _ => 0) None [] (wG_0 n h w) ltac:(auto) ltac:(discriminate)) as (o & B1 & B2 & B3 & B4 & B5).
  assert (BR : barycenter_sinkhorn_log_run (N:=RNum) exp ln popstd n h A w Mr tiny it thr = Some o) by exact B1.
  exists o, (fun j => exp (bl_logbar o j)). split; [exact BR|]. split; [unfold barycenter_sinkhorn_log; rewrite BR; reflexivity|].
  assert (E : forall j, (j < n)%nat -> exp (bl_logbar o j) = gmean_w h w (scal_col n (gibbsK M reg) A' (expm (bl_G o))) j).
  { intros j Hj. rewrite B3. apply (expbar n h M reg A w tiny HA Ht Hn); auto. }
  assert (PV := expm_pos n h (bl_G o)).
  assert (TV : forall j, (j < n)%nat -> tilt h w (expm (bl_G o)) j = 0) by (intros j Hj; apply (wG_tilt n h w (bl_G o) (fun _ => 0)); auto).
  exists (expm (bl_G o)). cbv zeta. fold A'. split; [exact PV|]. split; [intros s i Hs Hi; apply (plan_row n h M reg A'); auto|].
  split; [intros j Hj; rewrite E by auto; apply (gmean_cols n h M reg A' w)|]. split; [|split].
  - intros k Hk j s Hj Hs. rewrite E by auto. apply (dev_cols n h M reg A' w HA' Hw _ thr PV); auto. destruct (B5 k Hk) as (_ & L). rewrite bl_err_R in L. refine (Rle_lt_trans _ _ _ _ L). right. apply rsum_ext. intros i Hi.
    assert (F : forall s, (s < h)%nat -> scal_col n (fun i j => exp (- M i j / reg)) A' (expm (bl_G o)) i s = exp (bl_G o i s + bl_KU (N:=RNum) exp ln n A (fun i j => - M i j / reg) tiny (bl_G o) i s)) by (intros; symmetry; apply (exp_GKU n h M reg A tiny HA Ht Hn); auto).
    unfold popstd. rewrite (rsum_ext h (scal_col n (fun i j => exp (- M i j / reg)) A' (expm (bl_G o)) i) (fun s => exp (bl_G o i s + bl_KU (N:=RNum) exp ln n A (fun i j => - M i j / reg) tiny (bl_G o) i s))) by auto.
    f_equal. f_equal. apply rsum_ext. intros t Ht'. rewrite F by auto. reflexivity.
  - intros P' a' HF. pose proof (post_cert n h M reg A' w Hreg HA' Hw (expm (bl_G o)) (fun j => exp (bl_logbar o j)) (fun _ => 0) PV TV P' a' HF) as C. cbn beta in C.
    rewrite (rsum_0 n (fun j => 0 * (exp (bl_logbar o j) - a' j))) in C by (intros; ring). unfold gibbsK. lra.
  - intros HC. apply (post_opt n h M reg A' w Hreg HA' Hw); auto.
Qed.
Print Assumptions C122_log.

(** C123.  barycenter_stabilized, after two or more iterations: the same guarantees, the tilt being
    beta/reg for the absorbed potential beta of the iteration before; without absorption beta = 0.
    No numerical-error exit with exact arithmetic. *)
Theorem C123_stabilized : forall n h M reg A w tau thr it, 0 < reg -> (0 < n)%nat -> (0 < h)%nat -> histograms n h A -> bary_coords h w -> (2 <= it)%nat ->
  let o := barycenter_stabilized (N:=RNum) exp ln n h A w M reg tau no_nan no_nan it thr in
  let iterate := fun k => sb_iter n h M reg A w tau k (sb_start (N:=RNum) exp n M reg) in
  let a := st_q (fst (fst o)) in
  (forall k, snd o <> NumErr k) /\
  (snd o <> Converged 0 -> exists k V, (1 <= k < it)%nat /\ let P := scal_plan n (gibbsK M reg) A V in pos_mat n h V /\
   (forall s i, (s < h)%nat -> (i < n)%nat -> row_sum n (P s) i = A i s) /\
   (forall j, (j < n)%nat -> a j = gmean_w h w (fun j s => col_sum n (P s) j) j) /\
   (forall P' a', bary_feasible n h A P' a' -> bary_obj n h w M reg P <= bary_obj n h w M reg P'
     + reg * rsum h (fun s => w s * rsum n (fun j => ln (V j s) * (col_sum n (P s) j - a j)))
     + reg * rsum n (fun j => st_be (iterate k) j / reg * (a j - a' j))) /\
   ((forall l, (l < k)%nat -> sb_absorbs (N:=RNum) exp ln n h A w tau (iterate l) = false) ->
     (forall j, st_be (iterate k) j = 0) /\
     ((forall j s, (j < n)%nat -> (s < h)%nat -> col_sum n (P s) j = a j) -> bary_optimal n h A w M reg P a))).
Proof.
  intros n h M reg A w tau thr it Hreg Hn Hh HA Hw Hit o iterate a.
  pose proof (start_inv n h M reg Hn) as I0.
  destruct (sb_post n h M reg A w tau Hreg (proj1 HA) (proj2 HA) Hh (proj2 Hw) thr it 0 _ [] I0) as (k & K1 & K2 & K3 & K4 & K5).
  fold (barycenter_stabilized (N:=RNum) exp ln n h A w M reg tau no_nan no_nan it thr) in K2, K3, K4, K5. fold o in K2, K3, K4, K5.
  split; [exact K4|]. intros NC.
  assert (K6 : (2 <= k)%nat).
  { destruct (snd o) as [j|j|] eqn:EX.
    - destruct (K5 j eq_refl) as (J1 & J2 & _). destruct j; [congruence|lia].
    - exfalso. apply (K4 j). auto.
    - rewrite K3; auto. }
  destruct k as [|k]; [lia|]. rewrite sb_iter_S in K2. fold (iterate k) in K2.
  destruct (iter_inv n h M reg A w tau Hreg (proj1 HA) (proj2 HA) Hh (proj2 Hw) k _ I0) as [Ik Bk]. fold (iterate k) in Ik, Bk. specialize (Bk ltac:(lia)).
  assert (PV := sb_V_pos n h M reg (iterate k) Ik).
  assert (TV : forall j, (j < n)%nat -> tilt h w (sb_V reg (iterate k)) j = st_be (iterate k) j / reg) by (intros j Hj; apply (sb_tilt n h M reg w (proj2 Hw)); auto).
  assert (E : forall j, (j < n)%nat -> a j = gmean_w h w (scal_col n (gibbsK M reg) A (sb_V reg (iterate k))) j).
  { intros j Hj. unfold a. rewrite K2, step_q. apply (sb_q_bal n h M reg A w Hreg (proj1 HA) (proj2 HA)); auto. }
  exists k, (sb_V reg (iterate k)). split; [lia|]. cbv zeta. split; [exact PV|]. split; [intros s i Hs Hi; apply (plan_row n h M reg A); auto|].
  split; [intros j Hj; rewrite E by auto; apply (gmean_cols n h M reg A w)|]. split.
  - intros P' a' HF. apply (post_cert n h M reg A w Hreg HA Hw); auto.
  - intros NA. destruct (no_absorb n h M reg A w tau Hh k _ NA) as [Z1 _]. fold (iterate k) in Z1.
    assert (Z : forall j, st_be (iterate k) j = 0) by (intros j; rewrite Z1; reflexivity).
    split; [exact Z|]. intros HC. apply (post_opt n h M reg A w Hreg HA Hw); auto. intros j Hj. rewrite TV, Z by auto. unfold Rdiv. ring.
Qed.
Print Assumptions C123_stabilized.

Lemma gm_wc : forall X j, 0 < X j 0%nat -> gmean_w 2 wc X j = X j 0%nat.
Proof.
  intros X j H. unfold gmean_w. cbn [rsum]. unfold wc. replace (0 + 1 * ln (X j 0%nat) + 0 * ln (X j 1%nat)) with (ln (X j 0%nat)) by ring. apply exp_ln. auto.
Qed.
Definition sc0 : st (N:=RNum) := sb_start (N:=RNum) exp 2 Mc 1.
Lemma sc0_inv : sb_inv 2 2 Mc 1 sc0. Proof. apply start_inv. lia. Qed.
Lemma sc0_V : forall j k, sb_V 1 sc0 j k = 1 / 2.
Proof. intros. unfold sb_V, sc0, sb_start. cbn [st_be st_v n0 n1 ndiv RNum]. rewrite nofnat_INR. replace (0 / 1) with 0 by field. rewrite exp_0. cbn [INR]. lra. Qed.
Lemma sc0_lscal : forall i k, (i < 2)%nat -> lscal 2 (fun i j => exp (- Mc i j / 1)) Ac (sb_V 1 sc0) i k = Ac i k * (4 / 3).
Proof.
  intros i k Hi. unfold lscal. cbn [rsum]. rewrite !sc0_V.
  repeat match goal with |- context [exp (- Mc ?i ?j / 1)] => change (exp (- Mc i j / 1)) with (Kc i j) end. rewrite !Kc_v. destruct i as [|[|i]]; [| |lia]; cbn [Nat.eqb]; field.
Qed.
Lemma sc0_u : forall i k, (i < 2)%nat -> (k < 2)%nat -> sb_u (N:=RNum) 2 Ac sc0 i k = Ac i k * (4 / 3).
Proof.
  intros i k Hi Hk. rewrite (sb_u_R 2 2 Mc 1 Ac ltac:(lra) sc0 i k sc0_inv Hi Hk). rewrite sc0_lscal by auto. cbn [sc0 sb_start st_al n0 RNum].
  replace (- (0 / 1)) with 0 by field. rewrite exp_0. lra.
Qed.
Lemma sc0_Ktu : forall j k, (j < 2)%nat -> (k < 2)%nat -> sb_Ktu (N:=RNum) 2 Ac sc0 j k = match k with O => 1 | S _ => match j with O => 2 / 3 | S _ => 4 / 3 end end.
Proof.
  intros j k Hj Hk. rewrite (sb_Ktu_R 2 2 Mc 1 Ac ltac:(lra) sc0 j k sc0_inv Hj Hk). unfold ktv. cbn [rsum]. rewrite !sc0_lscal by lia. cbn [sc0 sb_start st_be n0 RNum].
  replace (0 / 1) with 0 by field. rewrite exp_0.
  repeat match goal with |- context [exp (- Mc ?i ?j / 1)] => change (exp (- Mc i j / 1)) with (Kc i j) end. rewrite !Kc_v. unfold Ac.
  destruct j as [|[|j]]; [| |lia]; destruct k as [|[|k]]; try lia; cbn [Nat.eqb]; lra.
Qed.
Lemma sc0_v : forall j k, (j < 2)%nat -> (k < 2)%nat -> sb_v (N:=RNum) exp ln 2 2 Ac wc sc0 j k = match k with O => 1 | S _ => match j with O => 3 / 2 | S _ => 3 / 4 end end.
Proof.
  intros j k Hj Hk. unfold sb_v. rewrite sb_q_R. rewrite gm_wc by (rewrite sc0_Ktu by lia; lra). rewrite !sc0_Ktu by lia. cbn [ndiv RNum].
  destruct j as [|[|j]]; [| |lia]; destruct k as [|[|k]]; try lia; lra.
Qed.
Lemma sb_error_nonneg : forall n h A w M reg tau s, 0 <= sb_error (N:=RNum) exp ln n h A w M reg tau s.
Proof.
  intros. unfold sb_error. eapply Rle_trans; [|apply (nmaxk_ge (n - 1)) with (i := 0%nat); lia]. eapply Rle_trans; [|apply (nmaxk_ge (h - 1)) with (i := 0%nat); lia].
  rewrite nabs_R. apply Rabs_pos.
Qed.
Lemma stab2 : forall tau, st_q (fst (fst (barycenter_stabilized (N:=RNum) exp ln 2 2 Ac wc Mc 1 tau no_nan no_nan 2 0))) 0%nat =
  scal_col 2 Kc Ac (sb_V 1 (sb_step (N:=RNum) exp ln 2 2 Ac wc Mc 1 tau sc0)) 0%nat 0%nat.
Proof.
  intros tau.
  destruct (sb_post 2 2 Mc 1 Ac wc tau ltac:(lra) (proj1 Ac_hist) (proj2 Ac_hist) ltac:(lia) (proj2 wc_coords) 0 2 0 sc0 [] sc0_inv) as (k & K1 & K2 & K3 & K4 & K5).
  fold sc0. unfold barycenter_stabilized. fold sc0. set (o := sb_loop (N:=RNum) exp ln 2 2 Ac wc Mc 1 tau no_nan no_nan 0 2 0 sc0 []) in *.
  assert (E : k = 2%nat).
  { destruct (snd o) as [j|j|] eqn:EX; [|exfalso; apply (K4 j); auto|auto]. exfalso. destruct (K5 j eq_refl) as (_ & _ & L).
    exact (Rle_not_lt _ _ (sb_error_nonneg 2 2 Ac wc Mc 1 tau (sb_iter 2 2 Mc 1 Ac wc tau (k - 1) sc0)) L). }
  subst k. rewrite K2. change (sb_iter 2 2 Mc 1 Ac wc tau 2 sc0) with (sb_step (N:=RNum) exp ln 2 2 Ac wc Mc 1 tau (sb_step (N:=RNum) exp ln 2 2 Ac wc Mc 1 tau sc0)).
  rewrite step_q. destruct (step_inv 2 2 Mc 1 Ac wc tau ltac:(lra) (proj1 Ac_hist) (proj2 Ac_hist) (proj2 wc_coords) sc0 sc0_inv) as [I1 B1].
  rewrite (sb_q_bal 2 2 Mc 1 Ac wc ltac:(lra) (proj1 Ac_hist) (proj2 Ac_hist) _ 0%nat I1 B1 ltac:(lia)). apply gm_wc.
  apply (scal_col_pos 2 2 Mc 1 Ac (proj1 Ac_hist) (proj2 Ac_hist)); try lia. apply (sb_V_pos 2 2 Mc 1 _ I1).
Qed.
(** C123 refuted once an absorption happens: on the data above (two iterations) a large tau returns
    the barycenter, while tau = 1 triggers an absorption, which resets the per-histogram scalings and
    leaves a wrong result. *)
Theorem C123_absorption_refuted : 
  let run := fun tau => st_q (fst (fst (barycenter_stabilized (N:=RNum) exp ln 2 2 Ac wc Mc 1 tau no_nan no_nan 2 0))) in
  run 10 0%nat = 1 / 2 /\ run 1 0%nat <> 1 / 2 /\ bary_feasible 2 2 Ac Pc half2 /\
  (forall P, bary_feasible 2 2 Ac P (run 1) -> bary_obj 2 2 wc Mc 1 Pc < bary_obj 2 2 wc Mc 1 P).
Proof.
  cbv zeta.
  assert (N10 : sb_absorbs (N:=RNum) exp ln 2 2 Ac wc 10 sc0 = false).
  { unfold sb_absorbs, any2. rewrite orb_false_iff. split; apply any_false; intros i Hi; apply any_false; intros k Hk; apply Rltb_false.
    - rewrite sc0_u by auto. unfold Ac. destruct k; [lra|]. destruct i; lra.
    - rewrite sc0_v by auto. destruct k; [lra|]. destruct i; lra. }
  assert (Y1 : sb_absorbs (N:=RNum) exp ln 2 2 Ac wc 1 sc0 = true).
  { unfold sb_absorbs. apply orb_true_iff. right. destruct (any2 2 2 _) eqn:E; [reflexivity|]. unfold any2 in E. rewrite any_false in E. specialize (E 0%nat ltac:(lia)). rewrite any_false in E. specialize (E 1%nat ltac:(lia)).
    apply Rltb_false in E. rewrite sc0_v in E by lia. exfalso. lra. }
  assert (R1 : st_q (fst (fst (barycenter_stabilized (N:=RNum) exp ln 2 2 Ac wc Mc 1 1 no_nan no_nan 2 0))) 0%nat <> 1 / 2).
  { rewrite stab2. unfold sb_step. rewrite Y1.
    assert (V0 : forall j, (j < 2)%nat -> sb_V 1 (sb_absorb (N:=RNum) exp ln 2 2 Ac wc Mc 1 sc0) j 0%nat = match j with O => 3 / 2 | S _ => 1 end).
    { intros j Hj. unfold sb_V, sb_absorb. cbn [st_be st_v]. cbn [Nat.sub nmaxk]. rewrite nmax_R, !sc0_v by lia. cbn [sc0 sb_start st_be n0 n1 nadd nmul RNum].
      change (carrier RNum) with R. assert (X : forall y, 0 < Rmax 1 y) by (intros; apply Rlt_le_trans with 1; [lra|apply Rmax_l]).
      assert (Y : forall y, exp ((0 + 1 * ln (Rmax 1 y)) / 1) * 1 = Rmax 1 y) by (intros; replace ((0 + 1 * ln (Rmax 1 y)) / 1) with (ln (Rmax 1 y)) by field; rewrite exp_ln; auto; ring).
      rewrite (Y (match j with O => 3 / 2 | S _ => 3 / 4 end)). destruct j; [apply Rmax_right|apply Rmax_left]; lra. }
    apply col_xy; rewrite !V0 by lia; lra. }
  split; [|split; [exact R1|split; [apply Pc_feasible|intros P HF; apply (Pc_best P _ HF R1)]]].
  rewrite stab2. unfold sb_step. rewrite N10.
  assert (V0 : forall j, (j < 2)%nat -> sb_V 1 (mkSt (N:=RNum) (st_K sc0) (st_al sc0) (st_be sc0) (sb_v (N:=RNum) exp ln 2 2 Ac wc sc0) (sb_q (N:=RNum) exp ln 2 2 Ac wc sc0)) j 0%nat = 1).
  { intros j Hj. unfold sb_V. cbn [st_be st_v]. rewrite sc0_v by lia. cbn [sc0 sb_start st_be n0 RNum]. replace (0 / 1) with 0 by field. rewrite exp_0. ring. }
  unfold scal_col, lscal. cbn [rsum]. rewrite !V0 by lia. rewrite !Kc_v. cbn [Nat.eqb]. unfold Ac. lra.
Qed.
Print Assumptions C123_absorption_refuted.

(** C124.  The debiased barycenter.  [psd]: M symmetric and K = exp(-M/reg) positive semidefinite (as
    for a squared Euclidean cost).  A state (u, c) that the loop of _barycenter_debiased reproduces is
    a global minimiser of the debiased objective: its plans are couplings of the columns of A and the
    returned a, c K c = a, and no other plans, common marginal and positive d do better. *)
Theorem C124_fixed_point : forall n h M reg A w s, 0 < reg -> histograms n h A -> bary_coords h w -> psd n M reg -> db_pos n h s ->
  let s' := db_step (N:=RNum) exp ln sqrt n h A w (gibbsK M reg) s in
  (forall j k, (j < n)%nat -> (k < h)%nat -> db_u s' j k = db_u s j k) -> (forall j, (j < n)%nat -> db_c s' j = db_c s j) ->
  let P := scal_plan n (gibbsK M reg) A (db_u s) in let a := db_bar s' in
  bary_feasible n h A P a /\ coupling n n a a (fun i j => db_c s i * gibbsK M reg i j * db_c s j) /\
  forall P' a' d, bary_feasible n h A P' a' -> pos_vec n d -> deb_obj n h w M reg P a (db_c s) <= deb_obj n h w M reg P' a' d.
Proof.
  intros n h M reg A w s Hreg HA Hw HP Hs s' Fu Fc P a.
  pose proof (db_bar_pos n h M reg A w (proj1 HP) s Hs) as Bp. fold (gibbsK M reg) in Bp. fold s' in Bp. fold a in Bp.
  assert (HS := Hs). destruct Hs as [Hu Hc].
  assert (KT : forall j k, (j < n)%nat -> (k < h)%nat -> scal_col n (gibbsK M reg) A (db_u s) j k = a j).
  { intros j k Hj Hk. pose proof (db_u_R n h M reg A w (proj1 HP) s j k Hj) as E. fold (gibbsK M reg) in E. fold s' in E. fold a in E. rewrite Fu in E by auto.
    unfold gibbsK. rewrite scal_col_ktv. rewrite E at 1. pose proof (ktv_pos n h M reg A (proj1 HA) (proj2 HA) (db_u s) j k Hu Hk). field. lra. }
  assert (CK : forall j, (j < n)%nat -> kmul n M reg (db_c s) j = a j / db_c s j).
  { intros j Hj. pose proof (db_c_R n h M reg A w s j Hj) as E. fold (gibbsK M reg) in E. fold s' in E. fold a in E. rewrite Fc in E by auto.
    pose proof (Hc j Hj) as C0. pose proof (Bp j Hj) as B0. pose proof (kmul_pos n M reg (db_c s) j Hj Hc) as K0.
    assert (Q : db_c s j * db_c s j = db_c s j * a j / kmul n M reg (db_c s) j).
    { rewrite E at 1 2. apply sqrt_def. left. apply Rdiv_lt_0_compat; [apply Rmult_lt_0_compat|]; auto. }
    apply (Rmult_eq_reg_l (db_c s j * db_c s j)); [|apply Rgt_not_eq, Rmult_lt_0_compat; auto]. rewrite Q at 1. field. split; lra. }
  assert (TV : forall j, (j < n)%nat -> tilt h w (db_u s) j = ln (db_c s j)).
  { intros j Hj. rewrite <- (db_step_tilt n h M reg A w (proj1 HA) (proj2 HA) (proj2 Hw) (proj1 HP) s j HS Hj). unfold tilt. apply rsum_ext. intros k Hk. rewrite <- (Fu j k Hj Hk). reflexivity. }
  split; [|split].
  - intros k Hk. split; [apply (plan_nonneg n h M reg A); auto; apply HA|]. split; [intros i Hi; apply (plan_row n h M reg A); auto|].
    intros j Hj. unfold P, gibbsK. rewrite (plan_col n M reg A). apply KT; auto.
  - split; [|split].
    + intros i j Hi Hj. apply Rmult_le_pos; [apply Rmult_le_pos|]; left; auto; apply exp_pos.
    + intros i Hi. unfold row_sum, gibbsK. rewrite (rsum_ext n _ (fun j => db_c s i * (exp (- M i j / reg) * db_c s j))) by (intros; ring). rewrite rsum_scal. fold (kmul n M reg (db_c s) i). rewrite CK by auto. field. pose proof (Hc i Hi). lra.
    + intros j Hj. unfold col_sum, gibbsK. rewrite (rsum_ext n _ (fun i => db_c s j * (exp (- M j i / reg) * db_c s i))) by (intros i Hi; rewrite (proj1 HP i j) by auto; ring). rewrite rsum_scal. fold (kmul n M reg (db_c s) j). rewrite CK by auto. field. pose proof (Hc j Hj). lra.
  - intros P' a' d HF Hd. pose proof (deb_cert n h M reg A w Hreg (proj1 HA) (proj1 Hw) (db_u s) P' a' a (db_c s) d HP (proj2 Hw) Hu Hc Hd HF TV) as C.
    rewrite (rsum_0 h) in C.
    2:{ intros k Hk. rewrite (rsum_0 n); [ring|]. intros j Hj. fold (gibbsK M reg). rewrite KT by auto. ring. }
    rewrite (rsum_0 n (fun j => (rsum h (fun k => w k * scal_col n (fun i j => exp (- M i j / reg)) A (db_u s) j k) / db_c s j - kmul n M reg (db_c s) j) * (d j - db_c s j))) in C.
    2:{ intros j Hj. rewrite CK by auto. fold (gibbsK M reg). rewrite (rsum_ext h _ (fun k => a j * w k)) by (intros k Hk; rewrite KT by auto; ring). rewrite rsum_scal, (proj2 Hw). unfold Rdiv. ring. }
    unfold P, gibbsK. lra.
Qed.
Print Assumptions C124_fixed_point.
(** After two or more iterations, with the scalings u and c of the last but one state and the c0 before
    it: the value of the plans is optimal up to the disagreement of their second marginals with the
    returned a and the residual of c0 K c0 = (mean second marginal). *)
Theorem C124_certificate : forall n h M reg A w thr it, 0 < reg -> histograms n h A -> bary_coords h w -> psd n M reg -> (2 <= it)%nat ->
  let o := barycenter_debiased (N:=RNum) exp ln sqrt n h A w (gibbsK M reg) it thr in
  let a := db_bar (fst (fst o)) in
  (forall k, snd o <> NumErr k) /\ (forall k, snd o = Converged k -> (20 < k)%nat) /\
  exists V c0 c, let P := scal_plan n (gibbsK M reg) A V in pos_mat n h V /\ pos_vec n c0 /\ pos_vec n c /\ pos_vec n a /\
  (forall s i, (s < h)%nat -> (i < n)%nat -> row_sum n (P s) i = A i s) /\
  (forall j, (j < n)%nat -> a j = c j / c0 j * gmean_w h w (fun j s => col_sum n (P s) j) j) /\
  (forall P' a' d, bary_feasible n h A P' a' -> pos_vec n d -> deb_obj n h w M reg P a c0 <= deb_obj n h w M reg P' a' d
    + reg * rsum h (fun s => w s * rsum n (fun j => ln (V j s) * (col_sum n (P s) j - a j)))
    + reg * rsum n (fun j => (rsum h (fun s => w s * col_sum n (P s) j) / c0 j - rsum n (fun i => gibbsK M reg j i * c0 i)) * (d j - c0 j))).
Proof.
  intros n h M reg A w thr it Hreg HA Hw HP Hit o a.
  destruct (db_post n h M reg A w thr it 0 (db_start (N:=RNum) exp ln n h A (gibbsK M reg)) []) as (k & K1 & K2 & K3 & K4 & K5).
  fold (gibbsK M reg) in K2, K3, K4, K5. fold (barycenter_debiased (N:=RNum) exp ln sqrt n h A w (gibbsK M reg) it thr) in K2, K3, K4, K5. fold o in K2, K3, K4, K5.
  split; [exact K4|]. split; [intros j Hj; apply (K5 j Hj)|].
  assert (K6 : (2 <= k)%nat).
  { destruct (snd o) as [j|j|] eqn:EX; [destruct (K5 j eq_refl); lia|exfalso; apply (K4 j); auto|rewrite K3; auto]. }
  destruct k as [|[|k]]; [lia|lia|]. rewrite !db_iter_S in K2. fold (gibbsK M reg) in K2.
  set (s0 := db_iter n h M reg A w k (db_start (N:=RNum) exp ln n h A (gibbsK M reg))) in *.
  assert (P0 : db_pos n h s0) by (apply (db_iter_pos n h M reg A w (proj1 HA) (proj2 HA) (proj1 HP)); apply (db_start_pos n h M reg A (proj1 HA) (proj2 HA))).
  set (s1 := db_step (N:=RNum) exp ln sqrt n h A w (gibbsK M reg) s0) in *.
  assert (P1 : db_pos n h s1) by (apply (db_step_pos n h M reg A w (proj1 HA) (proj2 HA) (proj1 HP)); auto).
  assert (T1 : forall j, (j < n)%nat -> tilt h w (db_u s1) j = ln (db_c s0 j)) by (intros j Hj; apply (db_step_tilt n h M reg A w (proj1 HA) (proj2 HA) (proj2 Hw) (proj1 HP)); auto).
  exists (db_u s1), (db_c s0), (db_c s1). cbv zeta. split; [apply P1|]. split; [apply P0|]. split; [apply P1|].
  split; [unfold a; rewrite K2; apply (db_bar_pos n h M reg A w (proj1 HP)); auto|]. split; [intros s i Hs Hi; apply (plan_row n h M reg A); auto; apply P1|]. split.
  - intros j Hj. unfold a. rewrite K2. unfold gibbsK at 1. rewrite (db_bar_R n h M reg A w (proj1 HP)) by auto. unfold gibbsK. rewrite <- (gmean_cols n h M reg A w).
    rewrite (gbar_tilt n h M reg A w (proj1 HA) (proj2 HA) (db_u s1) j (proj1 P1) Hj). rewrite T1 by auto. pose proof (proj2 P0 j Hj). rewrite exp_ln by auto.
    match goal with |- ?x = ?y => change (@eq R x y) end. field. lra.
  - intros P' a' d HF Hd. pose proof (deb_cert n h M reg A w Hreg (proj1 HA) (proj1 Hw) (db_u s1) P' a' a (db_c s0) d HP (proj2 Hw) (proj1 P1) (proj2 P0) Hd HF T1) as C.
    rewrite (rsum_ext h (fun s => w s * rsum n (fun j => ln (db_u s1 j s) * (col_sum n (scal_plan n (gibbsK M reg) A (db_u s1) s) j - a j))) (fun s => w s * rsum n (fun j => ln (db_u s1 j s) * (scal_col n (gibbsK M reg) A (db_u s1) j s - a j)))).
    2:{ intros s Hs. f_equal. apply rsum_ext. intros j Hj. unfold gibbsK. rewrite (plan_col n M reg A). auto. }
    rewrite (rsum_ext n (fun j => (rsum h (fun s => w s * col_sum n (scal_plan n (gibbsK M reg) A (db_u s1) s) j) / db_c s0 j - rsum n (fun i => gibbsK M reg j i * db_c s0 i)) * (d j - db_c s0 j))
       (fun j => (rsum h (fun s => w s * scal_col n (gibbsK M reg) A (db_u s1) j s) / db_c s0 j - kmul n M reg (db_c s0) j) * (d j - db_c s0 j))).
    2:{ intros j Hj. f_equal. f_equal. f_equal. apply rsum_ext. intros s Hs. unfold gibbsK. rewrite (plan_col n M reg A). auto. }
    exact C.
Qed.
Print Assumptions C124_certificate.

(** The log-domain version, on A + tiny. *)
Theorem C124_log : forall n h M reg A w tiny thr it, 0 < reg -> 0 < tiny -> (0 < n)%nat -> nonneg_mat n h A -> bary_coords h w -> psd n M reg ->
  let Mr := fun i j => - M i j / reg in
  let A' := fun i s => A i s + tiny in
  barycenter_debiased_log (N:=RNum) exp ln popstd n h A w Mr tiny (1 / 2) 0 thr = None /\
  ((0 < it)%nat -> exists run a, barycenter_debiased_log_run (N:=RNum) exp ln popstd n h A w Mr tiny (1 / 2) it thr = Some run /\
   barycenter_debiased_log (N:=RNum) exp ln popstd n h A w Mr tiny (1 / 2) it thr = Some a /\
   exists V c0 c, let P := scal_plan n (gibbsK M reg) A' V in pos_mat n h V /\ pos_vec n c0 /\ pos_vec n c /\ pos_vec n a /\
   (forall s i, (s < h)%nat -> (i < n)%nat -> row_sum n (P s) i = A' i s) /\
   (forall j, (j < n)%nat -> a j = c j / c0 j * gmean_w h w (fun j s => col_sum n (P s) j) j) /\
   (forall k, dl_exit run = Converged k -> (20 < k)%nat /\ 
      forall j s, (j < n)%nat -> (s < h)%nat -> Rabs (col_sum n (P s) j - gmean_w h w (fun j s => col_sum n (P s) j) j) <= 2 * sqrt (INR h) * thr) /\
   (forall P' a' d, bary_feasible n h A' P' a' -> pos_vec n d -> deb_obj n h w M reg P a c0 <= deb_obj n h w M reg P' a' d
    + reg * rsum h (fun s => w s * rsum n (fun j => ln (V j s) * (col_sum n (P s) j - a j)))
    + reg * rsum n (fun j => (rsum h (fun s => w s * col_sum n (P s) j) / c0 j - rsum n (fun i => gibbsK M reg j i * c0 i)) * (d j - c0 j)))).
Proof.
  intros n h M reg A w tiny thr it Hreg Ht Hn HA Hw HP Mr A'. split; [reflexivity|]. intros Hit.
  assert (HA' : histograms n h A') by (split; [apply (Aeps_nonneg n h A tiny HA Ht)|apply (Aeps_mass n h A tiny HA Ht Hn)]).
  destruct (dl_post n h M reg A w tiny (1 / 2) Hn (proj2 Hw) popstd thr it 0 (fun _ _ => 0) (fun _ => 0) None [] (ex_intro _ _ (wG_0 n h w)) ltac:(auto) ltac:(discriminate)) as (o & B1 & (e0 & B2) & B3 & B4 & B5).
  assert (BR : barycenter_debiased_log_run (N:=RNum) exp ln popstd n h A w Mr tiny (1 / 2) it thr = Some o) by exact B1.
  exists o, (fun j => exp (dl_logbar o j)). split; [exact BR|]. split; [unfold barycenter_debiased_log; rewrite BR; reflexivity|].
  assert (PV := expm_pos n h (dl_G o)).
  assert (TV : forall j, (j < n)%nat -> tilt h w (expm (dl_G o)) j = ln (exp (e0 j))) by (intros j Hj; rewrite ln_exp; apply (wG_tilt n h w (dl_G o) e0); auto).
  assert (Q : forall j s, col_sum n (scal_plan n (gibbsK M reg) A' (expm (dl_G o)) s) j = scal_col n (gibbsK M reg) A' (expm (dl_G o)) j s) by (intros; unfold gibbsK; rewrite (plan_col n M reg A'); auto).
  exists (expm (dl_G o)), (fun j => exp (e0 j)), (fun j => exp (dl_cc o j)). cbv zeta. split; [exact PV|]. split; [intros j _; apply exp_pos|]. split; [intros j _; apply exp_pos|]. split; [intros j _; apply exp_pos|].
  split; [intros s i Hs Hi; apply (plan_row n h M reg A'); auto|]. split; [|split].
  - intros j Hj. rewrite B3, exp_plus. rewrite (expbar_c n h M reg A w tiny HA Ht Hn (dl_G o) e0 j B2 Hj). rewrite <- (gmean_cols n h M reg A' w). unfold gibbsK. change (Aeps A tiny) with A'. unfold Rdiv. match goal with |- ?x = ?y => change (@eq R x y) end. ring.
  - intros k Hk. destruct (B5 k Hk) as (L1 & _ & L). split; [exact L1|]. intros j s Hj Hs. rewrite <- (gmean_cols n h M reg A' w). apply (dev_cols n h M reg A' w HA' Hw _ thr PV); auto. rewrite bl_err_R in L. refine (Rle_lt_trans _ _ _ _ L). right. apply rsum_ext. intros i Hi.
    assert (F : forall s, (s < h)%nat -> scal_col n (fun i j => exp (- M i j / reg)) A' (expm (dl_G o)) i s = exp (dl_G o i s + bl_KU (N:=RNum) exp ln n A (fun i j => - M i j / reg) tiny (dl_G o) i s)) by (intros; symmetry; apply (exp_GKU n h M reg A tiny HA Ht Hn); auto).
    unfold popstd. rewrite (rsum_ext h (scal_col n (fun i j => exp (- M i j / reg)) A' (expm (dl_G o)) i) (fun s => exp (dl_G o i s + bl_KU (N:=RNum) exp ln n A (fun i j => - M i j / reg) tiny (dl_G o) i s))) by auto.
    f_equal. f_equal. apply rsum_ext. intros t Ht'. rewrite F by auto. reflexivity.
  - intros P' a' d HF Hd. pose proof (deb_cert n h M reg A' w Hreg (proj1 HA') (proj1 Hw) (expm (dl_G o)) P' a' (fun j => exp (dl_logbar o j)) (fun j => exp (e0 j)) d HP (proj2 Hw) PV ltac:(intros j _; apply exp_pos) Hd HF TV) as C.
    rewrite (rsum_ext h (fun s => w s * rsum n (fun j => ln (expm (dl_G o) j s) * (col_sum n (scal_plan n (gibbsK M reg) A' (expm (dl_G o)) s) j - exp (dl_logbar o j)))) (fun s => w s * rsum n (fun j => ln (expm (dl_G o) j s) * (scal_col n (gibbsK M reg) A' (expm (dl_G o)) j s - exp (dl_logbar o j))))).
    2:{ intros s Hs. f_equal. apply rsum_ext. intros j Hj. rewrite Q. auto. }
    rewrite (rsum_ext n (fun j => (rsum h (fun s => w s * col_sum n (scal_plan n (gibbsK M reg) A' (expm (dl_G o)) s) j) / exp (e0 j) - rsum n (fun i => gibbsK M reg j i * exp (e0 i))) * (d j - exp (e0 j)))
       (fun j => (rsum h (fun s => w s * scal_col n (gibbsK M reg) A' (expm (dl_G o)) j s) / exp (e0 j) - kmul n M reg (fun j => exp (e0 j)) j) * (d j - exp (e0 j)))).
    2:{ intros j Hj. f_equal. f_equal. f_equal. apply rsum_ext. intros s Hs. rewrite Q. auto. }
    exact C.
Qed.
Print Assumptions C124_log.
(** The debiasing term of the log-domain loop (line 860) is the logarithm of the plain one: each
    update is c <- sqrt(c b / (K^T c)), and it leaves c unchanged exactly when diag(c) K diag(c) has
    column sums b, the barycenter. *)
Theorem C124_log_debias : forall n M reg (b c : vec), (0 < n)%nat ->
  let Mr := fun i j => - M i j / reg in let c' := dl_c1 (N:=RNum) exp ln n Mr (1 / 2) b c in
  let K := gibbsK M reg in
  (forall j, exp (c' j) = sqrt (exp (c j) * exp (b j) / rsum n (fun i => K i j * exp (c i)))) /\
  (forall j, c' j = c j <-> col_sum n (fun i j => exp (c i) * K i j * exp (c j)) j = exp (b j)).
Proof.
  intros n M reg b c Hn Mr c' K.
  assert (E : forall j, 2 * c' j = c j + b j - ln (rsum n (fun i => K i j * exp (c i)))).
  { intros j. unfold c', dl_c1. rewrite lse_R. cbn [nmul nadd nsub RNum]. rewrite (rsum_ext n (fun i => exp (Mr i j + c i)) (fun i => K i j * exp (c i))) by (intros; rewrite exp_plus; reflexivity).
    match goal with |- @eq _ ?x ?y => change (@eq R x y) end. field. }
  assert (P : forall j, 0 < rsum n (fun i => K i j * exp (c i))). { intros j. apply rsum_pos; auto. intros i _. apply Rmult_lt_0_compat; apply exp_pos. }
  split; intros j.
  - specialize (E j). specialize (P j). rewrite <- (sqrt_square (exp (c' j))) by (left; apply exp_pos). f_equal. rewrite <- exp_plus. replace (c' j + c' j) with (c j + b j - ln (rsum n (fun i => K i j * exp (c i)))) by (rewrite <- E; match goal with |- @eq _ ?x ?y => change (@eq R x y) end; ring).
    unfold Rminus. rewrite !exp_plus, exp_Ropp, exp_ln by auto. reflexivity.
  - specialize (E j). specialize (P j).
    assert (X : col_sum n (fun i j => exp (c i) * K i j * exp (c j)) j = exp (c j + ln (rsum n (fun i => K i j * exp (c i))))).
    { rewrite exp_plus, exp_ln by auto. unfold col_sum. rewrite <- rsum_scal. apply rsum_ext; intros; ring. }
    rewrite X. split; intros H.
    + f_equal. rewrite H in E. lra.
    + apply exp_inv in H. change (carrier RNum) with R in *. lra.
Qed.
Print Assumptions C124_log_debias.
(** The hypotheses hold: the kernel of Mc is positive definite, and with one histogram (1/2, 1/2) the
    state u = c = (3^{-1/2}, 3^{-1/2}) is reproduced by the loop. *)
Lemma Mc_psd : psd 2 Mc 1.
Proof.
  split; [intros i j _ _; unfold Mc; rewrite (Nat.eqb_sym i j); auto|]. intros x. unfold quad. cbn [rsum].
  repeat match goal with |- context [exp (- Mc ?i ?j / 1)] => change (exp (- Mc i j / 1)) with (Kc i j) end. rewrite !Kc_v. cbn [Nat.eqb].
  pose proof (Rle_0_sqr (x 0%nat + x 1%nat / 2)). pose proof (Rle_0_sqr (x 1%nat)). unfold Rsqr in *. nra.
Qed.
Definition s3 : R := sqrt (1 / 3).
Definition sx : db (N:=RNum) := mkDb (N:=RNum) (fun _ _ => s3) (fun _ => s3) (fun _ => 1 / 2).
Example C124_example : let A := fun _ _ : nat => 1 / 2 in let w := fun _ : nat => 1 in
  histograms 2 1 A /\ bary_coords 1 w /\ psd 2 Mc 1 /\ db_pos 2 1 sx /\
  let s' := db_step (N:=RNum) exp ln sqrt 2 1 A w (gibbsK Mc 1) sx in
  (forall j k, (j < 2)%nat -> (k < 1)%nat -> db_u s' j k = db_u sx j k) /\ (forall j, (j < 2)%nat -> db_c s' j = db_c sx j) /\ (forall j, (j < 2)%nat -> db_bar s' j = 1 / 2).
Proof.
  cbv zeta. assert (S0 : 0 < s3) by (apply sqrt_lt_R0; lra). assert (S1 : s3 * s3 = 1 / 3) by (apply sqrt_def; lra).
  set (A := fun _ _ : nat => 1 / 2). set (w := fun _ : nat => 1).
  assert (KT : forall j k, (j < 2)%nat -> ktv 2 Mc 1 A (db_u sx) j k = 3 / 2 * s3).
  { intros j k Hj. unfold ktv, lscal. cbn [rsum]. repeat match goal with |- context [exp (- Mc ?i ?j / 1)] => change (exp (- Mc i j / 1)) with (Kc i j) end. rewrite !Kc_v. unfold A. cbn [sx db_u].
    assert (I : 1 / 2 / (3 / 2 * s3) = s3) by (apply (Rmult_eq_reg_r (3 / 2 * s3)); [|lra]; replace (s3 * (3 / 2 * s3)) with (3 / 2 * (s3 * s3)) by ring; rewrite S1; field; lra).
    destruct j as [|[|j]]; [| |lia]; cbn [Nat.eqb]; replace (0 + 1 * s3 + 1 / 2 * s3) with (3 / 2 * s3) by lra; replace (0 + 1 / 2 * s3 + 1 * s3) with (3 / 2 * s3) by lra; rewrite I; lra. }
  assert (GM : forall j, (j < 2)%nat -> gmean_w 1 w (ktv 2 Mc 1 A (db_u sx)) j = 3 / 2 * s3).
  { intros j Hj. unfold gmean_w. cbn [rsum]. rewrite KT by auto. unfold w. replace (0 + 1 * ln (3 / 2 * s3)) with (ln (3 / 2 * s3)) by ring. apply exp_ln. lra. }
  assert (BR : forall j, (j < 2)%nat -> db_bar (db_step (N:=RNum) exp ln sqrt 2 1 A w (gibbsK Mc 1) sx) j = 1 / 2).
  { intros j Hj. unfold gibbsK. rewrite (db_bar_R 2 1 Mc 1 A w (proj1 Mc_psd) sx j Hj). rewrite GM by auto. cbn [sx db_c]. change (@eq R (s3 * (3 / 2 * s3)) (1 / 2)). nra. }
  split; [split; [intros i s _ _; unfold A; lra|intros s Hs; exists 0%nat; split; [lia|unfold A; lra]]|]. split; [split; [intros s _; unfold w; lra|cbn [rsum]; unfold w; ring]|]. split; [apply Mc_psd|].
  split; [split; [intros j k _ _; exact S0|intros j _; exact S0]|]. split; [|split; [|exact BR]].
  - intros j k Hj Hk. unfold gibbsK. rewrite (db_u_R 2 1 Mc 1 A w (proj1 Mc_psd) sx j k Hj). fold (gibbsK Mc 1). rewrite BR by auto. rewrite KT by auto. cbn [sx db_u].
    change (@eq R (1 / 2 / (3 / 2 * s3)) s3). apply (Rmult_eq_reg_r (3 / 2 * s3)); [|lra]. replace (s3 * (3 / 2 * s3)) with (3 / 2 * (s3 * s3)) by ring. rewrite S1. field. lra.
  - intros j Hj. unfold gibbsK. rewrite (db_c_R 2 1 Mc 1 A w sx j Hj). fold (gibbsK Mc 1). rewrite BR by auto.
    assert (KM : kmul 2 Mc 1 (db_c sx) j = 3 / 2 * s3).
    { unfold kmul. cbn [rsum]. repeat match goal with |- context [exp (- Mc ?i ?j / 1)] => change (exp (- Mc i j / 1)) with (Kc i j) end. rewrite !Kc_v. cbn [sx db_c]. destruct j as [|[|j]]; [| |lia]; cbn [Nat.eqb]; lra. }
    rewrite KM. cbn [sx db_c]. unfold s3 at 3. f_equal. change (@eq R (s3 * (1 / 2) / (3 / 2 * s3)) (1 / 3)). field. lra.
Qed.
