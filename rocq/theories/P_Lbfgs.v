(** C153: unbalanced transport by L-BFGS-B (ot/unbalanced/_lbfgs.py).
    The documented objective [objective], the quantities [total_gap] and the
    stopping test [stationary_for] are specified in Lbfgs_proofs.v, the excess
    of the gradient in Lbfgs_grad.v. *)
From Coq Require Import List Arith Reals Lra Lia Bool String.
From Verif Require Import Num Sums Spec Entropy Sinkhorn_model Sinkhorn_stab Duals_proofs Sinkhorn_more Gw_more Lbfgs_model Lbfgs_proofs Lbfgs_grad.
Import ListNotations.
Local Open Scope R_scope.

(** ** what is solved and returned *)

(** reading of the arguments *)
Definition marg_named (s : string) (md : mdiv) : Prop :=
  match md with MKl => lower s = "kl"%string | ML2 => lower s = "l2"%string | MTv => lower s = "tv"%string end.
Definition reg_named (r : rarg (N:=RNum)) (rd : rdiv (N:=RNum)) : Prop :=
  match r, rd with
  | RaStr s, RKl => lower s = "kl"%string
  | RaStr s, REntropy => lower s = "entropy"%string
  | RaStr s, RL2 => lower s = "l2"%string
  | RaTuple f df, RCustom f' df' => f = f' /\ df = df'
  | _, _ => False
  end.
Definition pair_named (p : parg (N:=RNum)) (r1 r2 : R) : Prop :=
  (p = PScalar (N:=RNum) r1 /\ r2 = r1) \/ (p = PList (N:=RNum) [r1] /\ r2 = r1) \/ p = PList (N:=RNum) [r1; r2].
(** an empty array of weights stands for uniform weights *)
Definition weights_are (n : nat) (w : option rvec) (a : rvec) : Prop :=
  match w with Some v => forall i, a i = v i | None => forall i, a i = / INR n end.
Definition ref_is (c0 : option rmat) (a b : rvec) (c : rmat) : Prop :=
  match c0 with Some v => forall i j, c i j = v i j | None => forall i j, c i j = a i * b j end.

Notation lbfgsb eps := (lbfgsb_unbalanced (N:=RNum) ln eps (/ 2)).
Notation lbfgsb2 eps := (lbfgsb_unbalanced2 (N:=RNum) ln eps (/ 2)).
Notation grad eps := (uot_grad (N:=RNum) ln eps).

Lemma check_regm_named : forall s md, marg_named s md -> check_regm s = UOk md.
Proof. intros s md H. unfold check_regm. destruct md; cbn in H; rewrite H; reflexivity. Qed.
Lemma check_reg_named : forall r rd, reg_named r rd -> check_reg (N:=RNum) r = UOk rd.
Proof.
  intros r rd H. unfold check_reg. destruct r, rd; cbn in H; try contradiction; try (rewrite H; reflexivity).
  destruct H; subst; reflexivity.
Qed.
Lemma pair_ok : forall p r1 r2, pair_named p r1 r2 -> get_parameter_pair (N:=RNum) p = UOk (r1, r2).
Proof. intros p r1 r2 [[E F]|[[E F]|E]]; subst; reflexivity. Qed.

(** With valid arguments, whatever the minimiser returns is the plan; the two
    costs are its linear part and its documented objective. *)
Theorem C153_value : forall eps opt m n wa wb (M : rmat) reg p r1 r2 c0 r rd s md G0,
  marg_named s md -> reg_named r rd -> pair_named p r1 r2 -> 0 <= reg ->
  (exists a' b' c', weights_are m wa a' /\ weights_are n wb b' /\ ref_is c0 a' b' c' /\
   exists G, lbfgsb eps opt m n wa wb M reg p c0 r s G0 =
     UOk (mk_ulog (N:=RNum) G (dsum m n (fun i j => G i j * M i j)) (objective eps m n a' b' c' M reg r1 r2 rd md G)) /\
   (exists f, G = opt f (grad eps m n a' b' c' M reg r1 r2 rd md) (match G0 with Some g => g | None => fun i j => a' i * b' j end) /\
      forall H, f H = objective eps m n a' b' c' M reg r1 r2 rd md H) /\
   lbfgsb2 eps opt m n wa wb M reg p c0 r s G0 "linear"%string = UOk (dsum m n (fun i j => G i j * M i j)) /\
   lbfgsb2 eps opt m n wa wb M reg p c0 r s G0 "total"%string = UOk (objective eps m n a' b' c' M reg r1 r2 rd md G)).
Proof.
  intros eps opt m n wa wb M reg p r1 r2 c0 r rd s md G0 Hm Hd Hp Hr.
  set (a' := weights (N:=RNum) m wa). set (b' := weights (N:=RNum) n wb).
  set (c' := match c0 with Some c => c | None => fun i j => a' i * b' j end).
  exists a', b', c'.
  assert (WN : forall k w, weights_are k w (weights (N:=RNum) k w)).
  { intros k w. unfold weights_are, weights. destruct w; [reflexivity|]. intros. cbn [ndiv RNum]. change (@n1 RNum) with 1. rewrite nat_num_INR. unfold Rdiv. ring. }
  split; [apply WN|]. split; [apply WN|]. split.
  { unfold ref_is, c'. destruct c0; reflexivity. }
  set (f := uot_value (N:=RNum) ln eps (/ 2) m n a' b' c' M reg r1 r2 rd md).
  set (G := opt f (grad eps m n a' b' c' M reg r1 r2 rd md) (match G0 with Some g => g | None => fun i j => a' i * b' j end)).
  assert (E : lbfgsb eps opt m n wa wb M reg p c0 r s G0 =
     UOk (mk_ulog (N:=RNum) G (dsum m n (fun i j => G i j * M i j)) (objective eps m n a' b' c' M reg r1 r2 rd md G))).
  { unfold lbfgsb_unbalanced. rewrite (check_regm_named s md Hm), (check_reg_named r rd Hd), (pair_ok p r1 r2 Hp).
    change (UOk (mk_ulog (N:=RNum) G (nsum (N:=RNum) m (fun i => nsum (N:=RNum) n (fun j => G i j * M i j))) (f G)) =
      UOk (mk_ulog (N:=RNum) G (dsum m n (fun i j => G i j * M i j)) (objective eps m n a' b' c' M reg r1 r2 rd md G))).
    rewrite (nsum2_R m n (fun i j => G i j * M i j)). unfold f. rewrite value_R by auto. reflexivity. }
  exists G. split; [exact E|]. split; [|split].
  - exists f. split; [reflexivity|]. intros H. apply value_R; auto.
  - unfold lbfgsb_unbalanced2. rewrite E. reflexivity.
  - unfold lbfgsb_unbalanced2. rewrite E. reflexivity.
Qed.

(** ** stationary points are optimal *)

(** A point passing the stopping test of L-BFGS-B with tolerance [d] is
    optimal up to [d] times a mass and up to the gap due to the constant
    [eps] inside the logarithms. *)
Theorem C153_optimal : forall eps m n (a b : rvec) (c M : rmat) reg r1 r2 rd md (G H : rmat) d,
  0 <= reg -> 0 <= r1 -> 0 <= r2 -> 0 <= d ->
  (forall i, (i < m)%nat -> m_ok eps md (a i)) -> (forall j, (j < n)%nat -> m_ok eps md (b j)) -> r_ok eps m n c rd G ->
  stationary_for m n d (grad eps m n a b c M reg r1 r2 rd md) G -> nonneg m n H ->
  objective eps m n a b c M reg r1 r2 rd md G <= objective eps m n a b c M reg r1 r2 rd md H
    + total_gap eps m n a b c reg r1 r2 rd md H G
    + d * dsum m n (fun i j => G i j + H i j + Rabs (grad eps m n a b c M reg r1 r2 rd md G i j)).
Proof. apply stationary_opt. Qed.

(** No logarithm, no gap: half-squared or total variation marginals with
    half-squared (or custom convex) regularisation. *)
Theorem C153_exact : forall eps m n (a b : rvec) (c M : rmat) reg r1 r2 rd md (G H : rmat),
  0 <= reg -> 0 <= r1 -> 0 <= r2 -> md <> MKl -> rd <> RKl -> rd <> REntropy -> r_ok eps m n c rd G ->
  stationary_for m n 0 (grad eps m n a b c M reg r1 r2 rd md) G -> nonneg m n H ->
  objective eps m n a b c M reg r1 r2 rd md G <= objective eps m n a b c M reg r1 r2 rd md H.
Proof.
  intros eps m n a b c M reg r1 r2 rd md G H Hr H1 H2 Hm Hd1 Hd2 Hk Hs HH.
  assert (Ho : forall q, m_ok eps md q) by (intros q E; contradiction).
  pose proof (stationary_opt eps m n a b c M reg r1 r2 rd md G H 0 Hr H1 H2 (Rle_refl 0) (fun i _ => Ho _) (fun j _ => Ho _) Hk Hs HH) as A.
  assert (Z : total_gap eps m n a b c reg r1 r2 rd md H G = 0).
  { unfold total_gap. assert (E1 : rgap eps m n c rd H G = 0) by (destruct rd; cbn; congruence).
    rewrite E1, !rsum_0 by (intros; unfold gap; destruct md; congruence). ring. }
  rewrite Z in A. lra.
Qed.

(** The gap is at most eps times the reference mass times a logarithm. *)
Lemma gap_le : forall eps h p q, 0 < eps -> 0 <= h -> 0 <= p -> 0 < q ->
  q * eps * (ln (h / q + eps) - ln (p / q + eps)) <= q * eps * ln (1 + h / (q * eps)).
Proof.
  intros eps h p q He Hh Hp Hq. apply Rmult_le_compat_l; [nra|].
  assert (A : 0 <= h / q) by (apply Rmult_le_pos; [auto|apply Rlt_le, Rinv_0_lt_compat; auto]).
  assert (B : 0 <= p / q) by (apply Rmult_le_pos; [auto|apply Rlt_le, Rinv_0_lt_compat; auto]).
  assert (L : ln eps <= ln (p / q + eps)) by (apply ln_le; lra).
  assert (E : ln (h / q + eps) = ln eps + ln (1 + h / (q * eps))).
  { rewrite <- ln_mult; auto. - f_equal. field. split; lra.
    - assert (0 <= h / (q * eps)) by (apply Rmult_le_pos; [auto|apply Rlt_le, Rinv_0_lt_compat; nra]). lra. }
  lra.
Qed.

Theorem C153_gap : forall eps m n (a b : rvec) (c : rmat) reg r1 r2 (G H : rmat),
  0 < eps -> 0 <= reg -> 0 <= r1 -> 0 <= r2 ->
  (forall i, (i < m)%nat -> 0 < a i) -> (forall j, (j < n)%nat -> 0 < b j) ->
  (forall i j, (i < m)%nat -> (j < n)%nat -> 0 < c i j) -> nonneg m n G -> nonneg m n H ->
  total_gap eps m n a b c reg r1 r2 RKl MKl H G <=
    reg * dsum m n (fun i j => c i j * eps * ln (1 + H i j / (c i j * eps)))
    + r1 * rsum m (fun i => a i * eps * ln (1 + row_sum n H i / (a i * eps)))
    + r2 * rsum n (fun j => b j * eps * ln (1 + col_sum m H j / (b j * eps))).
Proof.
  intros eps m n a b c reg r1 r2 G H He Hr H1 H2 Ha Hb Hc HG HH. unfold total_gap, rgap, gap.
  assert (A : dsum m n (fun i j => c i j * eps * (ln (H i j / c i j + eps) - ln (G i j / c i j + eps))) <= dsum m n (fun i j => c i j * eps * ln (1 + H i j / (c i j * eps))))
    by (apply dsum_le; intros; apply gap_le; auto).
  assert (B : rsum m (fun i => a i * eps * (ln (row_sum n H i / a i + eps) - ln (row_sum n G i / a i + eps))) <= rsum m (fun i => a i * eps * ln (1 + row_sum n H i / (a i * eps))))
    by (apply rsum_le; intros; apply gap_le; auto; apply (row_pos m); auto).
  assert (C : rsum n (fun j => b j * eps * (ln (col_sum m H j / b j + eps) - ln (col_sum m G j / b j + eps))) <= rsum n (fun j => b j * eps * ln (1 + col_sum m H j / (b j * eps))))
    by (apply rsum_le; intros; apply gap_le; auto; apply (col_pos m n); auto).
  apply (Rmult_le_compat_l reg) in A; auto. apply (Rmult_le_compat_l r1) in B; auto. apply (Rmult_le_compat_l r2) in C; auto. lra.
Qed.

(** With a positive regularisation there is one stationary point at most: the
    plan does not depend on [G0] nor on the path of the minimiser. *)
Theorem C153_unique : forall eps m n (a b : rvec) (c M : rmat) reg r1 r2 rd md (G H : rmat),
  0 < reg -> 0 <= r1 -> 0 <= r2 -> standard rd ->
  (forall i, (i < m)%nat -> m_ok eps md (a i)) -> (forall j, (j < n)%nat -> m_ok eps md (b j)) -> r_ok eps m n c rd G ->
  stationary_for m n 0 (grad eps m n a b c M reg r1 r2 rd md) G ->
  stationary_for m n 0 (grad eps m n a b c M reg r1 r2 rd md) H ->
  forall i j, (i < m)%nat -> (j < n)%nat -> G i j = H i j.
Proof. apply stationary_unique. Qed.

(** ** the gradient *)

(** Derivative of the returned value in any direction: the returned gradient
    minus an excess which vanishes without logarithm and lies between 0 and
    the weight of each logarithmic term. *)
Theorem C153_gradient : forall eps m n (a b : rvec) (c M : rmat) reg r1 r2 rd md (G D : rmat), 0 <= reg ->
  (forall i, (i < m)%nat -> m_smooth eps md (row_sum n G i) (a i)) ->
  (forall j, (j < n)%nat -> m_smooth eps md (col_sum m G j) (b j)) -> r_smooth eps m n c rd G ->
  derivable_pt_lim (fun t => uot_value (N:=RNum) ln eps (/ 2) m n a b c M reg r1 r2 rd md (fun i j => G i j + t * D i j)) 0
    (dsum m n (fun i j => (grad eps m n a b c M reg r1 r2 rd md G i j
       - (reg * rexcess eps c rd G i j + r1 * excess eps md (row_sum n G i) (a i) + r2 * excess eps md (col_sum m G j) (b j))) * D i j)).
Proof.
  intros. apply deriv_ext with (fun t => objective eps m n a b c M reg r1 r2 rd md (fun i j => G i j + t * D i j)).
  { intros. symmetry. apply value_R; auto. }
  apply d_objective; auto.
Qed.

(** The excess is not zero: at an empty plan the kl gradient is off by the
    whole regularisation weight. *)
Theorem C153_gradient_refuted : forall eps reg, 0 < eps -> 0 < reg ->
  let one := (fun _ => 1) : rvec in let C := (fun _ _ => 1) : rmat in let Z := (fun _ _ => 0) : rmat in
  derivable_pt_lim (fun t => uot_value (N:=RNum) ln eps (/ 2) 1 1 one one C Z reg 0 0 RKl MKl (fun i j => 0 + t * 1)) 0
     (grad eps 1 1 one one C Z reg 0 0 RKl MKl Z 0%nat 0%nat - reg).
Proof.
  intros eps reg He Hr one C Z.
  assert (P : 0 < 0 / 1 + eps) by lra.
  eapply deriv_eq; [apply (C153_gradient eps 1 1 one one C Z reg 0 0 RKl MKl Z (fun _ _ => 1))|].
  - lra.
  - intros. unfold m_smooth, row_sum, one, Z. cbn [rsum]. split; [lra|]. replace (0 + 0) with 0 by ring. exact P.
  - intros. unfold m_smooth, col_sum, one, Z. cbn [rsum]. split; [lra|]. replace (0 + 0) with 0 by ring. exact P.
  - intros i j _ _. unfold C, Z. split; [lra|exact P].
  - unfold dsum. cbn [rsum]. unfold rexcess, Z, C. replace (0 / 1 + eps) with eps by field. field. lra.
Qed.

(** ** half-squared: exactly the minimisers *)
Lemma deriv_right : forall f d t0, derivable_pt_lim f 0 d -> 0 < t0 -> (forall t, 0 < t < t0 -> f 0 <= f t) -> 0 <= d.
Proof.
  intros f d t0 D Ht H. destruct (Rle_lt_dec 0 d) as [L|L]; [auto|exfalso].
  destruct (D (- d / 2) ltac:(lra)) as [de Hd]. set (h := Rmin (t0 / 2) (de / 2)).
  assert (P : 0 < h) by (apply Rmin_glb_lt; [lra|]; pose proof (cond_pos de); lra).
  assert (H1 : h <= t0 / 2) by apply Rmin_l. assert (H2 : h <= de / 2) by apply Rmin_r.
  assert (A : Rabs ((f (0 + h) - f 0) / h - d) < - d / 2) by (apply Hd; [lra|]; rewrite Rabs_right; pose proof (cond_pos de); lra).
  specialize (H h ltac:(lra)). rewrite Rplus_0_l in A. apply Rabs_def2 in A. destruct A as [A _].
  assert (0 <= (f h - f 0) / h) by (apply Rmult_le_pos; [lra|apply Rlt_le, Rinv_0_lt_compat; auto]). lra.
Qed.

Theorem C153_l2_iff : forall eps m n (a b : rvec) (c M : rmat) reg r1 r2 (G : rmat),
  0 <= reg -> 0 <= r1 -> 0 <= r2 ->
  (stationary_for m n 0 (grad eps m n a b c M reg r1 r2 RL2 ML2) G <->
   nonneg m n G /\ forall H, nonneg m n H -> objective eps m n a b c M reg r1 r2 RL2 ML2 G <= objective eps m n a b c M reg r1 r2 RL2 ML2 H).
Proof.
  intros eps m n a b c M reg r1 r2 G Hr H1 H2. split.
  - intros S. split; [intros i j Hi Hj; apply S; auto|]. intros H HH. apply C153_exact; auto; try congruence; try exact Logic.I.
  - intros [HG Hmin].
    assert (Dv : forall D : rmat, derivable_pt_lim (fun t => objective eps m n a b c M reg r1 r2 RL2 ML2 (fun i j => G i j + t * D i j)) 0
      (dsum m n (fun i j => grad eps m n a b c M reg r1 r2 RL2 ML2 G i j * D i j))).
    { intros D. eapply deriv_eq; [apply d_objective; cbn; auto|]. apply dsum_ext; intros. cbn [rexcess excess]. ring. }
    assert (One : forall i0 j0 (s : R), (i0 < m)%nat -> (j0 < n)%nat ->
      dsum m n (fun i j => grad eps m n a b c M reg r1 r2 RL2 ML2 G i j * (if (i =? i0)%nat && (j =? j0)%nat then s else 0)) = grad eps m n a b c M reg r1 r2 RL2 ML2 G i0 j0 * s).
    { intros i0 j0 s Hi Hj. unfold dsum. rewrite (rsum_single m i0 _ Hi).
      - rewrite (rsum_single n j0 _ Hj). + rewrite !Nat.eqb_refl. reflexivity.
        + intros j Hj' N. rewrite Nat.eqb_refl, (proj2 (Nat.eqb_neq j j0) N). cbn. ring.
      - intros i Hi' N. apply rsum_0. intros. rewrite (proj2 (Nat.eqb_neq i i0) N). cbn. ring. }
    assert (Base : forall D : rmat, objective eps m n a b c M reg r1 r2 RL2 ML2 (fun i j => G i j + 0 * D i j) = objective eps m n a b c M reg r1 r2 RL2 ML2 G).
    { intros D. assert (RS : forall i, row_sum n (fun i j => G i j + 0 * D i j) i = row_sum n G i) by (intros; unfold row_sum; apply rsum_ext; intros; ring).
      assert (CS : forall j, col_sum m (fun i j => G i j + 0 * D i j) j = col_sum m G j) by (intros; unfold col_sum; apply rsum_ext; intros; ring).
      unfold objective. f_equal; [f_equal; [f_equal|]|].
      - apply dsum_ext; intros; ring.
      - f_equal. unfold dreg. apply dsum_ext; intros. f_equal. f_equal. ring.
      - f_equal. apply rsum_ext; intros. rewrite RS. reflexivity.
      - f_equal. apply rsum_ext; intros. rewrite CS. reflexivity. }
    intros i0 j0 Hi Hj. split; [auto|]. rewrite Ropp_0.
    assert (Lo : 0 <= grad eps m n a b c M reg r1 r2 RL2 ML2 G i0 j0).
    { set (D := fun i j => if (i =? i0)%nat && (j =? j0)%nat then 1 else 0).
      rewrite <- (Rmult_1_r (grad eps m n a b c M reg r1 r2 RL2 ML2 G i0 j0)), <- (One i0 j0 1 Hi Hj).
      apply (deriv_right _ _ 1 (Dv D)); [lra|]. intros t Ht. rewrite (Base D). apply Hmin. intros i j Hi' Hj'.
      unfold D. specialize (HG i j Hi' Hj'). destruct ((i =? i0)%nat && (j =? j0)%nat); lra. }
    split; [exact Lo|]. destruct (Rle_lt_dec (G i0 j0) 0) as [Z|P]; [right; exact Z|left].
    set (D := fun i j => if (i =? i0)%nat && (j =? j0)%nat then -1 else 0).
    assert (0 <= grad eps m n a b c M reg r1 r2 RL2 ML2 G i0 j0 * -1); [|lra].
    rewrite <- (One i0 j0 (-1) Hi Hj). apply (deriv_right _ _ (G i0 j0) (Dv D)); [lra|]. intros t Ht. rewrite (Base D). apply Hmin. intros i j Hi' Hj'.
    unfold D. specialize (HG i j Hi' Hj'). destruct ((i =? i0)%nat && (j =? j0)%nat) eqn:E; [|lra].
    apply andb_true_iff in E. destruct E as [E1 E2]. apply Nat.eqb_eq in E1, E2. subst. lra.
Qed.

(** Total variation: the minimiser need not pass the stopping test.  Here the
    only minimiser is 1 and no plan at all is stationary. *)
Theorem C153_tv_refuted : forall eps,
  let one := (fun _ => 1) : rvec in let Z := (fun _ _ => 0) : rmat in let M := (fun _ _ => / 2) : rmat in
  (forall H, nonneg 1 1 H -> objective eps 1 1 one one Z M 0 1 1 RL2 MTv (fun _ _ => 1) <= objective eps 1 1 one one Z M 0 1 1 RL2 MTv H) /\
  (forall G d, d < / 2 -> ~ stationary_for 1 1 d (grad eps 1 1 one one Z M 0 1 1 RL2 MTv) G).
Proof.
  intros eps one Z M. split.
  - intros H HH. specialize (HH 0%nat 0%nat ltac:(lia) ltac:(lia)). unfold objective, dsum, dreg, dmarg, row_sum, col_sum, one, Z, M. unfold dsum. cbn [rsum].
    unfold Rabs. repeat destruct (Rcase_abs _); lra.
  - intros G d Hd S. destruct (S 0%nat 0%nat ltac:(lia) ltac:(lia)) as (P & L & U). rewrite grad_R in L, U by lra.
    unfold gm, gr, row_sum, col_sum, one, Z, M in L, U. cbn [rsum] in L, U. unfold sgn in L, U. cbn [nltb nsub RNum] in L, U.
    change (@n0 RNum) with 0 in L, U. change (@n1 RNum) with 1 in L, U. rewrite !Rplus_0_l in L, U.
    destruct (Rltb (G 0%nat 0%nat - 1) 0) eqn:E; [apply Rltb_true in E|apply Rltb_false in E; destruct (Rltb 0 (G 0%nat 0%nat - 1)) eqn:F; [apply Rltb_true in F|apply Rltb_false in F]];
    destruct U as [U|U]; lra.
Qed.

(** ** total and linear cost *)
Lemma kl_nonneg : forall eps p q, 0 <= eps -> 0 <= p -> 0 < q -> 0 <= p * ln (p / q + eps) - p + q.
Proof.
  intros eps p q He Hp Hq. destruct Hp as [Hp|Hp].
  - assert (P : 0 < p / q) by (apply Rdiv_lt_0_compat; auto).
    assert (L : ln (p / q) <= ln (p / q + eps)) by (apply ln_le; lra).
    pose proof (ent_tangent 1 (p / q) ltac:(lra) P) as T. rewrite ln_1 in T. apply (Rmult_le_compat_l q) in T; [|lra].
    replace (q * (p / q * ln (p / q) - p / q)) with (p * ln (p / q) - p) in T by (field; lra).
    assert (p * ln (p / q) <= p * ln (p / q + eps)) by (apply Rmult_le_compat_l; lra). lra.
  - subst. lra.
Qed.

(** The total cost is never below the linear one, except with 'entropy' (and
    custom functions). *)
Theorem C153_total : forall eps m n (a b : rvec) (c M : rmat) reg r1 r2 rd md (G : rmat),
  0 <= eps -> 0 <= reg -> 0 <= r1 -> 0 <= r2 -> (rd = RKl \/ rd = RL2) ->
  (md = MKl -> (forall i, (i < m)%nat -> 0 < a i) /\ (forall j, (j < n)%nat -> 0 < b j)) ->
  (rd = RKl -> forall i j, (i < m)%nat -> (j < n)%nat -> 0 < c i j) -> nonneg m n G ->
  dsum m n (fun i j => G i j * M i j) <= objective eps m n a b c M reg r1 r2 rd md G.
Proof.
  intros eps m n a b c M reg r1 r2 rd md G He Hr H1 H2 Hd Hm Hc HG. unfold objective.
  assert (A : 0 <= dreg eps m n c rd G).
  { destruct Hd; subst rd; unfold dreg; apply dsum_nonneg; intros; [apply kl_nonneg; auto|]. pose proof (pow2_ge_0 (G i j - c i j)). lra. }
  assert (S : forall p q, 0 <= p -> (md = MKl -> 0 < q) -> 0 <= dmarg eps md p q).
  { intros p q Hp Hq. unfold dmarg. destruct md; [apply kl_nonneg; auto|pose proof (pow2_ge_0 (p - q)); lra|apply Rabs_pos]. }
  assert (B : 0 <= rsum m (fun i => dmarg eps md (row_sum n G i) (a i))).
  { apply rsum_nonneg; intros. apply S; [apply (row_pos m); auto|]. intros E; apply (Hm E); auto. }
  assert (C : 0 <= rsum n (fun j => dmarg eps md (col_sum m G j) (b j))).
  { apply rsum_nonneg; intros. apply S; [apply (col_pos m n); auto|]. intros E; apply (Hm E); auto. }
  assert (0 <= reg * dreg eps m n c rd G) by (apply Rmult_le_pos; auto).
  assert (0 <= r1 * rsum m (fun i => dmarg eps md (row_sum n G i) (a i))) by (apply Rmult_le_pos; auto).
  assert (0 <= r2 * rsum n (fun j => dmarg eps md (col_sum m G j) (b j))) by (apply Rmult_le_pos; auto). lra.
Qed.

Theorem C153_entropy_refuted : forall eps, 0 < eps < 1 ->
  let one := (fun _ => 1) : rvec in let Z := (fun _ _ => 0) : rmat in let G := (fun _ _ => 1 - eps) : rmat in
  stationary_for 1 1 0 (grad eps 1 1 one one Z Z 1 0 0 REntropy MKl) G /\
  objective eps 1 1 one one Z Z 1 0 0 REntropy MKl G < dsum 1 1 (fun i j => G i j * Z i j).
Proof.
  intros eps He one Z G. split.
  - intros i j _ _. rewrite grad_R by lra. unfold gr, G, Z. replace (1 - eps + eps) with 1 by ring. rewrite ln_1. split; [lra|]. split; [lra|]. left; lra.
  - unfold objective, dreg, dsum, G, Z. cbn [rsum]. replace (1 - eps + eps) with 1 by ring. rewrite ln_1. lra.
Qed.

(** ** arguments *)
Theorem C153_errors : forall (N : NumOps) lg tiny half opt m n a b M reg p c r s G0,
  (lower s <> "kl" -> lower s <> "l2" -> lower s <> "tv" ->
     lbfgsb_unbalanced (N:=N) lg tiny half opt m n a b M reg p c r s G0 = UExn UValueError)%string /\
  (forall s', r = RaStr s' -> (lower s' <> "kl" -> lower s' <> "l2" -> lower s' <> "entropy" ->
     exists e, lbfgsb_unbalanced (N:=N) lg tiny half opt m n a b M reg p c r s G0 = UExn e /\ e = UValueError)%string) /\
  (forall l, p = PList l -> (3 <= List.length l)%nat -> exists e, lbfgsb_unbalanced (N:=N) lg tiny half opt m n a b M reg p c r s G0 = UExn e /\ e = UValueError) /\
  (forall md rd, check_regm s = UOk md -> check_reg (N:=N) r = UOk rd ->
     lbfgsb_unbalanced (N:=N) lg tiny half opt m n a b M reg (PList []) c r s G0 = UExn UIndexError /\
     lbfgsb_unbalanced (N:=N) lg tiny half opt m n a b M reg PNoLen c r s G0 = UExn UTypeError) /\
  (forall l rc, lbfgsb_unbalanced (N:=N) lg tiny half opt m n a b M reg p c r s G0 = UOk l -> (rc <> "linear" -> rc <> "total" ->
     lbfgsb_unbalanced2 (N:=N) lg tiny half opt m n a b M reg p c r s G0 rc = UExn UValueError)%string).
Proof.
  intros N lg tiny half opt m n a b M reg p c r s G0.
  assert (RM : check_regm s = UExn UValueError \/ exists md, check_regm s = UOk md).
  { unfold check_regm. destruct (String.eqb (lower s) "kl"); [eauto|]. destruct (String.eqb (lower s) "l2"); [eauto|]. destruct (String.eqb (lower s) "tv"); eauto. }
  assert (RR : check_reg (N:=N) r = UExn UValueError \/ exists rd, check_reg (N:=N) r = UOk rd).
  { unfold check_reg. destruct r as [s'|f df|]; [|eauto|eauto]. destruct (String.eqb (lower s') "kl"); [eauto|]. destruct (String.eqb (lower s') "entropy"); [eauto|]. destruct (String.eqb (lower s') "l2"); eauto. }
  split; [|split; [|split; [|split]]].
  - intros A B C. unfold lbfgsb_unbalanced, check_regm. rewrite (proj2 (String.eqb_neq _ _) A), (proj2 (String.eqb_neq _ _) B), (proj2 (String.eqb_neq _ _) C). reflexivity.
  - intros s' -> A B C. exists UValueError. split; [|reflexivity]. unfold lbfgsb_unbalanced. destruct RM as [E|[md E]]; rewrite E; [reflexivity|].
    unfold check_reg. rewrite (proj2 (String.eqb_neq _ _) A), (proj2 (String.eqb_neq _ _) B), (proj2 (String.eqb_neq _ _) C). reflexivity.
  - intros l -> L. exists UValueError. split; [|reflexivity]. unfold lbfgsb_unbalanced. destruct RM as [E|[md E]]; rewrite E; [reflexivity|].
    destruct RR as [F|[rd F]]; rewrite F; [reflexivity|]. destruct l as [|x [|y [|z l]]]; cbn in L; try lia. reflexivity.
  - intros md rd E F. unfold lbfgsb_unbalanced. rewrite E, F. split; reflexivity.
  - intros l rc E A B. unfold lbfgsb_unbalanced2. rewrite E, (proj2 (String.eqb_neq _ _) A), (proj2 (String.eqb_neq _ _) B). reflexivity.
Qed.

(** A pair of functions given as a list (or anything else that is neither a
    string nor a tuple) is silently replaced by 'l2'. *)
Theorem C153_list_refuted : forall (N : NumOps) lg tiny half opt m n a b M reg p c s G0,
  lbfgsb_unbalanced (N:=N) lg tiny half opt m n a b M reg p c RaOther s G0 =
  lbfgsb_unbalanced (N:=N) lg tiny half opt m n a b M reg p c (RaStr "l2") s G0.
Proof. reflexivity. Qed.

(** the documented example: reg_m = 5, 'l2'; the plan is stationary, hence
    optimal, and the linear cost is 0.8 *)
Definition ex_M : rmat := fun i j => match i, j with 0%nat, 0%nat => 1 | 0%nat, _ => 36 | _, 0%nat => 9 | _, _ => 4 end.
Definition ex_G : rmat := fun i j => match i, j with 0%nat, 0%nat => 2 / 5 | 1%nat, 1%nat => 1 / 10 | _, _ => 0 end.
Example C153_case : forall eps,
  stationary_for 2 2 0 (grad eps 2 2 (fun _ => / 2) (fun _ => / 2) (fun _ _ => / 4) ex_M 0 5 5 RL2 ML2) ex_G /\
  lbfgsb2 eps (fun _ _ _ => ex_G) 2 2 (Some (fun _ => / 2)) (Some (fun _ => / 2)) ex_M 0 (PScalar (5 : RNum)) None (RaStr "L2") "l2" None "linear"%string = UOk (4 / 5) /\
  nonneg 2 2 ex_G.
Proof.
  intros eps. split; [|split].
  - intros i j Hi Hj. rewrite grad_R by lra. unfold gm, gr, row_sum, col_sum.
    destruct i as [|[|i]]; try lia; destruct j as [|[|j]]; try lia; cbn; lra.
  - unfold lbfgsb_unbalanced2, lbfgsb_unbalanced.
    assert (E1 : check_reg (N:=RNum) (RaStr "L2") = UOk RL2) by reflexivity. assert (E2 : check_regm "l2" = UOk ML2) by reflexivity.
    rewrite E1, E2. cbn [get_parameter_pair u_cost]. change (String.eqb "linear" "linear") with true. cbn. f_equal. toR. field.
  - intros i j Hi Hj. destruct i as [|[|i]]; try lia; destruct j as [|[|j]]; try lia; cbn; lra.
Qed.

Print Assumptions C153_value.
Print Assumptions C153_optimal.
Print Assumptions C153_exact.
Print Assumptions C153_gap.
Print Assumptions C153_unique.
Print Assumptions C153_gradient.
Print Assumptions C153_gradient_refuted.
Print Assumptions C153_l2_iff.
Print Assumptions C153_tv_refuted.
Print Assumptions C153_total.
Print Assumptions C153_entropy_refuted.
Print Assumptions C153_errors.
Print Assumptions C153_list_refuted.
