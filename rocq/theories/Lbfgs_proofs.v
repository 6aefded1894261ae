(** The function minimised by lbfgsb_unbalanced: value, gradient, stationary
    points. *)
From Coq Require Import List Arith Reals Lra Lia Bool String.
From Verif Require Import Num Sums Spec Entropy Sinkhorn_model Duals_proofs Sinkhorn_more Gw_more Lbfgs_model.
Import ListNotations.
Local Open Scope R_scope.

Ltac toR := match goal with |- @eq _ ?a ?b => change (@eq R a b) end.

Notation rmat := (nat -> nat -> R).
Notation rvec := (nat -> R).

(** ** specification: the documented objective *)
Section S.
Variable eps : R.

(** divergence of one marginal entry [p] from [q]; [eps] is the constant
    inside the logarithms of the code (0 in the documentation) *)
Definition dmarg (md : mdiv) (p q : R) : R :=
  match md with
  | MKl => p * ln (p / q + eps) - p + q
  | ML2 => (p - q) ^ 2 / 2
  | MTv => Rabs (p - q)
  end.
Definition dreg (m n : nat) (c : rmat) (rd : rdiv (N:=RNum)) (G : rmat) : R :=
  match rd with
  | RKl => dsum m n (fun i j => G i j * ln (G i j / c i j + eps) - G i j + c i j)
  | REntropy => dsum m n (fun i j => G i j * ln (G i j + eps) - G i j)
  | RL2 => dsum m n (fun i j => (G i j - c i j) ^ 2 / 2)
  | RCustom f _ => f G
  end.
Definition objective (m n : nat) (a b : rvec) (c M : rmat) (reg r1 r2 : R) (rd : rdiv (N:=RNum)) (md : mdiv) (G : rmat) : R :=
  dsum m n (fun i j => G i j * M i j) + reg * dreg m n c rd G
  + r1 * rsum m (fun i => dmarg md (row_sum n G i) (a i))
  + r2 * rsum n (fun j => dmarg md (col_sum m G j) (b j)).

(** what the constant costs: the difference between the divergence and the
    convex function of which the code uses the gradient *)
Definition gap (md : mdiv) (h p q : R) : R :=
  match md with MKl => q * eps * (ln (h / q + eps) - ln (p / q + eps)) | _ => 0 end.
Definition rgap (m n : nat) (c : rmat) (rd : rdiv (N:=RNum)) (H G : rmat) : R :=
  match rd with
  | RKl => dsum m n (fun i j => c i j * eps * (ln (H i j / c i j + eps) - ln (G i j / c i j + eps)))
  | REntropy => dsum m n (fun i j => eps * (ln (H i j + eps) - ln (G i j + eps)))
  | _ => 0
  end.
Definition total_gap (m n : nat) (a b : rvec) (c : rmat) (reg r1 r2 : R) (rd : rdiv (N:=RNum)) (md : mdiv) (H G : rmat) : R :=
  reg * rgap m n c rd H G + r1 * rsum m (fun i => gap md (row_sum n H i) (row_sum n G i) (a i))
  + r2 * rsum n (fun j => gap md (col_sum m H j) (col_sum m G j) (b j)).

(** ** the model is that objective *)
Notation value := (uot_value (N:=RNum) ln eps (/ 2)).
Notation grad := (uot_grad (N:=RNum) ln eps).

Lemma nsum2_R : forall m n (f : rmat), nsum (N:=RNum) m (fun i => nsum (N:=RNum) n (fun j => f i j)) = dsum m n f.
Proof. intros. unfold dsum. rewrite nsum_R. apply rsum_ext; intros. apply nsum_R. Qed.

Lemma marg1_R : forall md k (r q : rvec), marg1 (N:=RNum) ln eps (/ 2) md k r q = rsum k (fun i => dmarg md (r i) (q i)).
Proof.
  intros md k r q. destruct md; unfold marg1, kl_vec, sq, dmarg; cbn [nadd nsub nmul ndiv RNum].
  - rewrite !nsum_R, <- rsum_plus. apply rsum_ext; intros. cbn [nadd nsub nmul ndiv RNum]. ring.
  - rewrite nsum_R, <- rsum_scal. apply rsum_ext; intros. cbn [nadd nsub nmul ndiv RNum]. field.
  - rewrite nsum_R. apply rsum_ext; intros. rewrite nabs_R. reflexivity.
Qed.

Lemma rowsum_R : forall n (G : rmat) i, rowsum (N:=RNum) n G i = row_sum n G i.
Proof. intros. unfold rowsum. apply nsum_R. Qed.
Lemma colsum_R : forall m (G : rmat) j, colsum (N:=RNum) m G j = col_sum m G j.
Proof. intros. unfold colsum. apply nsum_R. Qed.

Lemma reg_fun_R : forall m n (c : rmat) rd (G : rmat), reg_fun (N:=RNum) ln eps (/ 2) m n c rd G = dreg m n c rd G.
Proof.
  intros m n c rd G. destruct rd; unfold reg_fun, kl_mat, sq, dreg; cbn [nadd nsub nmul ndiv RNum]; try reflexivity.
  - rewrite !nsum2_R, <- dsum_plus. apply dsum_ext; intros. cbn [nadd nsub nmul ndiv RNum]. ring.
  - rewrite !nsum2_R, <- dsum_minus. reflexivity.
  - rewrite nsum2_R, <- dsum_scal. apply dsum_ext; intros. cbn [nadd nsub nmul ndiv RNum]. field.
Qed.

Lemma value_R : forall m n (a b : rvec) (c M : rmat) reg r1 r2 rd md (G : rmat), 0 <= reg ->
  value m n a b c M reg r1 r2 rd md G = objective m n a b c M reg r1 r2 rd md G.
Proof.
  intros m n a b c M reg r1 r2 rd md G Hr. unfold uot_value, objective. cbn [nltb RNum].
  change (@n0 RNum) with 0. rewrite nsum2_R, !marg1_R, reg_fun_R.
  rewrite (rsum_ext m (fun i => dmarg md (rowsum (N:=RNum) n G i) (a i)) (fun i => dmarg md (row_sum n G i) (a i)))
    by (intros; rewrite rowsum_R; reflexivity).
  rewrite (rsum_ext n (fun i => dmarg md (colsum (N:=RNum) m G i) (b i)) (fun i => dmarg md (col_sum m G i) (b i)))
    by (intros; rewrite colsum_R; reflexivity).
  cbn [nadd nsub nmul ndiv RNum]. destruct (Rltb 0 reg) eqn:E; toR.
  - ring.
  - apply Rltb_false in E. replace reg with 0 by lra. ring.
Qed.

(** gradient, entry by entry *)
Definition gm (md : mdiv) (p q : R) : R :=
  match md with MKl => ln (p / q + eps) | ML2 => p - q | MTv => sgn (N:=RNum) (p - q) end.
Definition gr (c : rmat) (rd : rdiv (N:=RNum)) (G : rmat) : rmat :=
  match rd with
  | RKl => fun i j => ln (G i j / c i j + eps)
  | REntropy => fun i j => ln (G i j + eps)
  | RL2 => fun i j => G i j - c i j
  | RCustom _ df => df G
  end.

Lemma grad_R : forall m n (a b : rvec) (c M : rmat) reg r1 r2 rd md (G : rmat) i j, 0 <= reg ->
  grad m n a b c M reg r1 r2 rd md G i j =
  M i j + reg * gr c rd G i j + r1 * gm md (row_sum n G i) (a i) + r2 * gm md (col_sum m G j) (b j).
Proof.
  intros m n a b c M reg r1 r2 rd md G i j Hr. unfold uot_grad. cbn [nltb RNum]. change (@n0 RNum) with 0.
  assert (E1 : gmarg1 (N:=RNum) ln eps md (rowsum (N:=RNum) n G) a i = gm md (row_sum n G i) (a i))
    by (destruct md; unfold gmarg1, gm; cbn [nadd nsub ndiv RNum]; rewrite rowsum_R; reflexivity).
  assert (E2 : gmarg1 (N:=RNum) ln eps md (colsum (N:=RNum) m G) b j = gm md (col_sum m G j) (b j))
    by (destruct md; unfold gmarg1, gm; cbn [nadd nsub ndiv RNum]; rewrite colsum_R; reflexivity).
  assert (E3 : grad_reg (N:=RNum) ln eps c rd G i j = gr c rd G i j) by (destruct rd; reflexivity).
  rewrite E1, E2, E3. cbn [nadd nsub nmul ndiv RNum]. destruct (Rltb 0 reg) eqn:E; toR.
  - ring.
  - apply Rltb_false in E. replace reg with 0 by lra. ring.
Qed.

(** ** convexity *)
Lemma ln_le : forall x y, 0 < x -> x <= y -> ln x <= ln y.
Proof. intros x y Hx [L|L]; [left; apply ln_increasing; auto|subst; right; reflexivity]. Qed.

(** w ln w - w lies above its tangent at u *)
Lemma ent_tangent : forall u w, 0 < u -> 0 < w -> u * ln u - u + ln u * (w - u) <= w * ln w - w.
Proof.
  intros u w Hu Hw. assert (A : ln (u / w) <= u / w - 1).
  { rewrite <- (ln_exp (u / w - 1)). apply ln_le. apply Rdiv_lt_0_compat; auto.
    pose proof (exp_ineq1_le (u / w - 1)). lra. }
  unfold Rdiv in A at 1. rewrite ln_mult, ln_Rinv in A; auto using Rinv_0_lt_compat.
  assert (B : w * (ln u + - ln w) <= w * (u / w - 1)) by (apply Rmult_le_compat_l; lra).
  replace (w * (u / w - 1)) with (u - w) in B by (field; lra). lra.
Qed.

Lemma kl_sub : forall p h q, 0 < eps -> 0 <= p -> 0 <= h -> 0 < q ->
  p * ln (p / q + eps) - p + q + ln (p / q + eps) * (h - p) <= h * ln (h / q + eps) - h + q + q * eps * (ln (h / q + eps) - ln (p / q + eps)).
Proof.
  intros p h q He Hp Hh Hq.
  assert (Pu : 0 < p / q + eps). { assert (0 <= p / q) by (apply Rmult_le_pos; [auto|apply Rlt_le, Rinv_0_lt_compat; auto]). lra. }
  assert (Pw : 0 < h / q + eps). { assert (0 <= h / q) by (apply Rmult_le_pos; [auto|apply Rlt_le, Rinv_0_lt_compat; auto]). lra. }
  pose proof (ent_tangent _ _ Pu Pw) as T. apply (Rmult_le_compat_l q) in T; [|lra].
  remember (ln (p / q + eps)) as lu. remember (ln (h / q + eps)) as lw.
  replace (q * ((p / q + eps) * lu - (p / q + eps) + lu * (h / q + eps - (p / q + eps))))
    with ((p + q * eps) * lu - p - q * eps + lu * (h - p)) in T by (field; lra).
  replace (q * ((h / q + eps) * lw - (h / q + eps))) with ((h + q * eps) * lw - h - q * eps) in T by (field; lra). lra.
Qed.

Lemma ent_sub : forall p h, 0 < eps -> 0 <= p -> 0 <= h ->
  p * ln (p + eps) - p + ln (p + eps) * (h - p) <= h * ln (h + eps) - h + eps * (ln (h + eps) - ln (p + eps)).
Proof.
  intros p h He Hp Hh. pose proof (ent_tangent (p + eps) (h + eps) ltac:(lra) ltac:(lra)) as T.
  remember (ln (p + eps)) as lu. remember (ln (h + eps)) as lw. lra.
Qed.

Lemma tv_sub : forall x y, Rabs x + sgn (N:=RNum) x * (y - x) <= Rabs y.
Proof.
  intros x y. unfold sgn. cbn [nltb nsub RNum]. change (@n0 RNum) with 0. change (@n1 RNum) with 1.
  destruct (Rltb x 0) eqn:E; [apply Rltb_true in E|apply Rltb_false in E; destruct (Rltb 0 x) eqn:F; [apply Rltb_true in F|apply Rltb_false in F]];
    unfold Rabs; destruct (Rcase_abs x); destruct (Rcase_abs y); lra.
Qed.

Definition m_ok (md : mdiv) (q : R) : Prop := md = MKl -> 0 < eps /\ 0 < q.

Lemma dmarg_sub : forall md p h q, m_ok md q -> 0 <= p -> 0 <= h ->
  dmarg md p q + gm md p q * (h - p) <= dmarg md h q + gap md h p q.
Proof.
  intros md p h q Hk Hp Hh. destruct md; unfold dmarg, gm, gap.
  - destruct (Hk eq_refl). apply kl_sub; auto.
  - replace ((h - q) ^ 2 / 2 + 0) with ((p - q) ^ 2 / 2 + (p - q) * (h - p) + (h - p) ^ 2 / 2) by field. pose proof (pow2_ge_0 (h - p)). lra.
  - pose proof (tv_sub (p - q) (h - q)). replace (h - q - (p - q)) with (h - p) in H by ring. lra.
Qed.

(** conditions on the regularisation at [G]: the reference measure is positive
    for kl; a custom pair is a convex function and its (sub)gradient *)
Definition r_ok (m n : nat) (c : rmat) (rd : rdiv (N:=RNum)) (G : rmat) : Prop :=
  match rd with
  | RKl => 0 < eps /\ forall i j, (i < m)%nat -> (j < n)%nat -> 0 < c i j
  | REntropy => 0 < eps
  | RL2 => True
  | RCustom f df => forall H : rmat, (forall i j, (i < m)%nat -> (j < n)%nat -> 0 <= H i j) ->
      f G + dsum m n (fun i j => df G i j * (H i j - G i j)) <= f H
  end.

Definition nonneg (m n : nat) (G : rmat) : Prop := forall i j, (i < m)%nat -> (j < n)%nat -> 0 <= G i j.

Lemma dreg_sub : forall m n c rd G H, r_ok m n c rd G -> nonneg m n G -> nonneg m n H ->
  dreg m n c rd G + dsum m n (fun i j => gr c rd G i j * (H i j - G i j)) <= dreg m n c rd H + rgap m n c rd H G.
Proof.
  intros m n c rd G H Hk HG HH. destruct rd; unfold dreg, gr, rgap; cbn [r_ok] in Hk.
  - destruct Hk as [He Hc]. rewrite <- !dsum_plus. apply dsum_le; intros. apply kl_sub; auto.
  - rewrite <- !dsum_plus. apply dsum_le; intros. apply ent_sub; auto.
  - rewrite Rplus_0_r, <- dsum_plus. apply dsum_le; intros.
    replace ((H i j - c i j) ^ 2 / 2) with ((G i j - c i j) ^ 2 / 2 + (G i j - c i j) * (H i j - G i j) + (H i j - G i j) ^ 2 / 2) by field.
    pose proof (pow2_ge_0 (H i j - G i j)). lra.
  - rewrite Rplus_0_r. apply Hk. exact HH.
Qed.

Lemma row_pos : forall m n G i, nonneg m n G -> (i < m)%nat -> 0 <= row_sum n G i.
Proof. intros m n G i H Hi. apply rsum_nonneg. intros; auto. Qed.
Lemma col_pos : forall m n G j, nonneg m n G -> (j < n)%nat -> 0 <= col_sum m G j.
Proof. intros m n G j H Hj. apply rsum_nonneg. intros; auto. Qed.

Lemma dsum_rowdir : forall m n (f : rvec) (D : rmat), dsum m n (fun i j => f i * D i j) = rsum m (fun i => f i * row_sum n D i).
Proof. intros. apply dsum_row. Qed.

Lemma row_diff : forall n (H G : rmat) i, row_sum n (fun i j => H i j - G i j) i = row_sum n H i - row_sum n G i.
Proof. intros. unfold row_sum. apply rsum_minus. Qed.
Lemma col_diff : forall m (H G : rmat) j, col_sum m (fun i j => H i j - G i j) j = col_sum m H j - col_sum m G j.
Proof. intros. unfold col_sum. apply rsum_minus. Qed.

(** the objective lies above its linearisation, up to the gap *)
Lemma objective_sub : forall m n (a b : rvec) (c M : rmat) reg r1 r2 rd md (G H : rmat),
  0 <= reg -> 0 <= r1 -> 0 <= r2 ->
  (forall i, (i < m)%nat -> m_ok md (a i)) -> (forall j, (j < n)%nat -> m_ok md (b j)) -> r_ok m n c rd G ->
  nonneg m n G -> nonneg m n H ->
  objective m n a b c M reg r1 r2 rd md G + dsum m n (fun i j => grad m n a b c M reg r1 r2 rd md G i j * (H i j - G i j))
  <= objective m n a b c M reg r1 r2 rd md H + total_gap m n a b c reg r1 r2 rd md H G.
Proof.
  intros m n a b c M reg r1 r2 rd md G H Hr H1 H2 Ha Hb Hk HG HH.
  assert (E : dsum m n (fun i j => grad m n a b c M reg r1 r2 rd md G i j * (H i j - G i j)) =
    (dsum m n (fun i j => H i j * M i j) - dsum m n (fun i j => G i j * M i j))
    + reg * dsum m n (fun i j => gr c rd G i j * (H i j - G i j))
    + r1 * rsum m (fun i => gm md (row_sum n G i) (a i) * (row_sum n H i - row_sum n G i))
    + r2 * rsum n (fun j => gm md (col_sum m G j) (b j) * (col_sum m H j - col_sum m G j))).
  { rewrite (dsum_ext m n _ (fun i j => ((H i j * M i j - G i j * M i j) + reg * (gr c rd G i j * (H i j - G i j)))
      + (r1 * gm md (row_sum n G i) (a i)) * (H i j - G i j) + (r2 * gm md (col_sum m G j) (b j)) * (H i j - G i j)))
      by (intros; rewrite grad_R by auto; ring).
    rewrite !dsum_plus, dsum_minus, dsum_scal. rewrite (dsum_row m n (fun i => r1 * gm md (row_sum n G i) (a i)) (fun i j => H i j - G i j)).
    rewrite (dsum_col m n (fun j => r2 * gm md (col_sum m G j) (b j)) (fun i j => H i j - G i j)).
    rewrite <- !rsum_scal. f_equal; [f_equal|].
    - apply rsum_ext; intros. rewrite row_diff. ring.
    - apply rsum_ext; intros. rewrite col_diff. ring. }
  rewrite E. unfold objective, total_gap.
  pose proof (dreg_sub m n c rd G H Hk HG HH) as A. apply (Rmult_le_compat_l reg) in A; [|auto].
  assert (B : rsum m (fun i => dmarg md (row_sum n G i) (a i)) + rsum m (fun i => gm md (row_sum n G i) (a i) * (row_sum n H i - row_sum n G i))
    <= rsum m (fun i => dmarg md (row_sum n H i) (a i)) + rsum m (fun i => gap md (row_sum n H i) (row_sum n G i) (a i))).
  { rewrite <- !rsum_plus. apply rsum_le; intros. apply dmarg_sub; [auto| |]; apply row_pos with m; auto. }
  assert (C : rsum n (fun j => dmarg md (col_sum m G j) (b j)) + rsum n (fun j => gm md (col_sum m G j) (b j) * (col_sum m H j - col_sum m G j))
    <= rsum n (fun j => dmarg md (col_sum m H j) (b j)) + rsum n (fun j => gap md (col_sum m H j) (col_sum m G j) (b j))).
  { rewrite <- !rsum_plus. apply rsum_le; intros. apply dmarg_sub; [auto| |]; apply col_pos with n; auto. }
  apply (Rmult_le_compat_l r1) in B; [|auto]. apply (Rmult_le_compat_l r2) in C; [|auto]. lra.
Qed.

(** ** stationary points *)
(** projected gradient at most [d], the test of L-BFGS-B for the bounds [0, inf) *)
Definition stationary_for (m n : nat) (d : R) (g : rmat -> rmat) (G : rmat) : Prop :=
  forall i j, (i < m)%nat -> (j < n)%nat -> 0 <= G i j /\ - d <= g G i j /\ (g G i j <= d \/ G i j <= d).

Lemma stat_lower : forall m n d g (G H : rmat), 0 <= d -> stationary_for m n d g G -> nonneg m n H ->
  - (d * dsum m n (fun i j => G i j + H i j + Rabs (g G i j))) <= dsum m n (fun i j => g G i j * (H i j - G i j)).
Proof.
  intros m n d g G H Hd Hs HH. rewrite <- dsum_scal.
  rewrite <- (Rmult_1_l (dsum m n (fun i j => d * _))), Ropp_mult_distr_l, <- dsum_scal.
  apply dsum_le; intros i j Hi Hj. destruct (Hs i j Hi Hj) as (Gp & Gl & Gu). specialize (HH i j Hi Hj).
  pose proof (Rabs_pos (g G i j)). pose proof (Rle_abs (g G i j)).
  assert (0 <= d * G i j) by nra. assert (0 <= d * H i j) by nra. assert (0 <= d * Rabs (g G i j)) by nra.
  destruct (Rlt_le_dec (g G i j) 0) as [L|L].
  - nra.
  - destruct Gu as [U|U]; nra.
Qed.

Lemma stationary_opt : forall m n (a b : rvec) (c M : rmat) reg r1 r2 rd md (G H : rmat) d,
  0 <= reg -> 0 <= r1 -> 0 <= r2 -> 0 <= d ->
  (forall i, (i < m)%nat -> m_ok md (a i)) -> (forall j, (j < n)%nat -> m_ok md (b j)) -> r_ok m n c rd G ->
  stationary_for m n d (grad m n a b c M reg r1 r2 rd md) G -> nonneg m n H ->
  objective m n a b c M reg r1 r2 rd md G <= objective m n a b c M reg r1 r2 rd md H + total_gap m n a b c reg r1 r2 rd md H G
    + d * dsum m n (fun i j => G i j + H i j + Rabs (grad m n a b c M reg r1 r2 rd md G i j)).
Proof.
  intros m n a b c M reg r1 r2 rd md G H d Hr H1 H2 Hd Ha Hb Hk Hs HH.
  assert (HG : nonneg m n G) by (intros i j Hi Hj; apply Hs; auto).
  pose proof (objective_sub m n a b c M reg r1 r2 rd md G H Hr H1 H2 Ha Hb Hk HG HH).
  pose proof (stat_lower m n d _ G H Hd Hs HH). lra.
Qed.

(** ** uniqueness *)
Lemma sgn_mono : forall x y, 0 <= (sgn (N:=RNum) x - sgn (N:=RNum) y) * (x - y).
Proof. intros x y. pose proof (tv_sub x y). pose proof (tv_sub y x). lra. Qed.

Lemma ln_mono0 : forall x y, 0 < x -> 0 < y -> 0 <= (ln x - ln y) * (x - y).
Proof.
  intros x y Hx Hy. destruct (Rle_lt_dec x y).
  - assert (ln x <= ln y) by (apply ln_le; auto). nra.
  - assert (ln y <= ln x) by (apply ln_le; lra). nra.
Qed.
Lemma ln_mono_eq : forall x y, 0 < x -> 0 < y -> (ln x - ln y) * (x - y) = 0 -> x = y.
Proof.
  intros x y Hx Hy E. apply Rmult_integral in E. destruct E as [E|E]; [|lra].
  apply ln_inv; auto; lra.
Qed.

Lemma quot_pos : forall p q, 0 < eps -> 0 <= p -> 0 < q -> 0 < p / q + eps.
Proof. intros p q He Hp Hq. assert (0 <= p / q) by (apply Rmult_le_pos; [auto|apply Rlt_le, Rinv_0_lt_compat; auto]). lra. Qed.

Lemma kl_mono : forall p h q, 0 < eps -> 0 <= p -> 0 <= h -> 0 < q ->
  0 <= (ln (p / q + eps) - ln (h / q + eps)) * (p - h) /\ ((ln (p / q + eps) - ln (h / q + eps)) * (p - h) = 0 -> p = h).
Proof.
  intros p h q He Hp Hh Hq. pose proof (quot_pos p q He Hp Hq) as P. pose proof (quot_pos h q He Hh Hq) as Q.
  assert (E : (ln (p / q + eps) - ln (h / q + eps)) * (p - h) = q * ((ln (p / q + eps) - ln (h / q + eps)) * (p / q + eps - (h / q + eps)))) by (field; lra).
  rewrite E. pose proof (ln_mono0 _ _ P Q) as A. split; [nra|]. intros Z. apply Rmult_integral in Z. destruct Z as [Z|Z]; [lra|].
  apply ln_mono_eq in Z; auto. assert (p / q = h / q) by lra. apply (f_equal (fun x => x * q)) in H. unfold Rdiv in H. rewrite !Rmult_assoc, Rinv_l in H by lra. lra.
Qed.

Lemma gm_mono : forall md p h q, m_ok md q -> 0 <= p -> 0 <= h -> 0 <= (gm md p q - gm md h q) * (p - h).
Proof.
  intros md p h q Hk Hp Hh. destruct md; unfold gm.
  - destruct (Hk eq_refl). apply kl_mono; auto.
  - replace ((p - q - (h - q)) * (p - h)) with ((p - h) ^ 2) by ring. apply pow2_ge_0.
  - pose proof (sgn_mono (p - q) (h - q)). replace (p - q - (h - q)) with (p - h) in H by ring. exact H.
Qed.

Definition standard (rd : rdiv (N:=RNum)) : Prop := match rd with RCustom _ _ => False | _ => True end.

Lemma gr_mono : forall m n c rd G H, standard rd -> r_ok m n c rd G -> nonneg m n G -> nonneg m n H ->
  forall i j, (i < m)%nat -> (j < n)%nat ->
  0 <= (gr c rd G i j - gr c rd H i j) * (G i j - H i j) /\ ((gr c rd G i j - gr c rd H i j) * (G i j - H i j) = 0 -> G i j = H i j).
Proof.
  intros m n c rd G H Hs Hk HG HH i j Hi Hj. specialize (HG i j Hi Hj). specialize (HH i j Hi Hj).
  destruct rd; cbn [gr r_ok standard] in *; try contradiction.
  - destruct Hk as [He Hc]. apply kl_mono; auto.
  - split.
    + pose proof (ln_mono0 (G i j + eps) (H i j + eps) ltac:(lra) ltac:(lra)). replace (G i j + eps - (H i j + eps)) with (G i j - H i j) in H0 by ring. exact H0.
    + intros E. assert (G i j + eps = H i j + eps); [|lra]. apply ln_mono_eq; lra.
  - replace ((G i j - c i j - (H i j - c i j)) * (G i j - H i j)) with ((G i j - H i j) ^ 2) by ring. split; [apply pow2_ge_0|].
    intros E. assert (G i j - H i j = 0); [|lra]. apply Rsqr_0_uniq. unfold Rsqr. rewrite <- E. ring.
Qed.

Lemma stationary_unique : forall m n (a b : rvec) (c M : rmat) reg r1 r2 rd md (G H : rmat),
  0 < reg -> 0 <= r1 -> 0 <= r2 -> standard rd ->
  (forall i, (i < m)%nat -> m_ok md (a i)) -> (forall j, (j < n)%nat -> m_ok md (b j)) -> r_ok m n c rd G ->
  stationary_for m n 0 (grad m n a b c M reg r1 r2 rd md) G ->
  stationary_for m n 0 (grad m n a b c M reg r1 r2 rd md) H ->
  forall i j, (i < m)%nat -> (j < n)%nat -> G i j = H i j.
Proof.
  intros m n a b c M reg r1 r2 rd md G H Hr H1 H2 Hs Ha Hb Hk SG SH.
  assert (HG : nonneg m n G) by (intros i j Hi Hj; apply SG; auto).
  assert (HH : nonneg m n H) by (intros i j Hi Hj; apply SH; auto).
  pose proof (stat_lower m n 0 _ G H (Rle_refl 0) SG HH) as A. pose proof (stat_lower m n 0 _ H G (Rle_refl 0) SH HG) as B.
  rewrite Rmult_0_l, Ropp_0 in A, B.
  set (X := fun i j => reg * ((gr c rd G i j - gr c rd H i j) * (G i j - H i j))).
  set (Y := fun i j => r1 * (gm md (row_sum n G i) (a i) - gm md (row_sum n H i) (a i)) * (G i j - H i j)).
  set (Z := fun i j => r2 * (gm md (col_sum m G j) (b j) - gm md (col_sum m H j) (b j)) * (G i j - H i j)).
  assert (E : dsum m n X + dsum m n Y + dsum m n Z = - (dsum m n (fun i j => grad m n a b c M reg r1 r2 rd md G i j * (H i j - G i j))
     + dsum m n (fun i j => grad m n a b c M reg r1 r2 rd md H i j * (G i j - H i j)))).
  { rewrite <- !dsum_plus. rewrite <- (Rmult_1_l (dsum m n (fun i j => grad _ _ _ _ _ _ _ _ _ _ _ G i j * _ + _))), Ropp_mult_distr_l, <- dsum_scal.
    apply dsum_ext; intros. unfold X, Y, Z. rewrite !grad_R by lra. ring. }
  assert (PX : 0 <= dsum m n X) by (apply dsum_nonneg; intros; unfold X; apply Rmult_le_pos; [lra|]; apply (gr_mono m n); auto).
  assert (PY : 0 <= dsum m n Y).
  { unfold Y. rewrite (dsum_row m n (fun i => r1 * (gm md (row_sum n G i) (a i) - gm md (row_sum n H i) (a i))) (fun i j => G i j - H i j)).
    apply rsum_nonneg; intros. rewrite row_diff. rewrite Rmult_assoc. apply Rmult_le_pos; [auto|].
    apply gm_mono; auto; apply (row_pos m); auto. }
  assert (PZ : 0 <= dsum m n Z).
  { unfold Z. rewrite (dsum_col m n (fun j => r2 * (gm md (col_sum m G j) (b j) - gm md (col_sum m H j) (b j))) (fun i j => G i j - H i j)).
    apply rsum_nonneg; intros. rewrite col_diff. rewrite Rmult_assoc. apply Rmult_le_pos; [auto|].
    apply gm_mono; auto; apply (col_pos m n); auto. }
  assert (X0 : dsum m n X = 0) by lra.
  intros i j Hi Hj. assert (X i j = 0).
  { apply (dsum_zero m n X); auto. intros. unfold X. apply Rmult_le_pos; [lra|]. apply (gr_mono m n); auto. }
  unfold X in H0. apply Rmult_integral in H0. destruct H0 as [H0|H0]; [lra|]. apply (gr_mono m n c rd G H Hs Hk HG HH i j Hi Hj). exact H0.
Qed.

End S.
