(** Finite sums of reals indexed by naturals: rsum n f = f 0 + ... + f (n-1). *)
From Coq Require Import Reals Lra Lia Arith.
Local Open Scope R_scope.

Fixpoint rsum (n : nat) (f : nat -> R) : R :=
  match n with O => 0 | S k => rsum k f + f k end.

Lemma rsum_ext : forall n f g, (forall i, (i < n)%nat -> f i = g i) -> rsum n f = rsum n g.
Proof. induction n; intros f g H; simpl; auto. rewrite (IHn f g), H; auto; intros; apply H; lia. Qed.

Lemma rsum_0 : forall n f, (forall i, (i < n)%nat -> f i = 0) -> rsum n f = 0.
Proof. induction n; intros f H; simpl; auto. rewrite IHn, H; auto; try lra; intros; apply H; lia. Qed.

Lemma rsum_plus : forall n f g, rsum n (fun i => f i + g i) = rsum n f + rsum n g.
Proof. induction n; intros; simpl; [lra|]. rewrite IHn; lra. Qed.

Lemma rsum_minus : forall n f g, rsum n (fun i => f i - g i) = rsum n f - rsum n g.
Proof. induction n; intros; simpl; [lra|]. rewrite IHn; lra. Qed.

Lemma rsum_opp : forall n f, rsum n (fun i => - f i) = - rsum n f.
Proof. induction n; intros; simpl; [lra|]. rewrite IHn; lra. Qed.

Lemma rsum_scal : forall n c f, rsum n (fun i => c * f i) = c * rsum n f.
Proof. induction n; intros; simpl; [lra|]. rewrite IHn; lra. Qed.

Lemma rsum_scal_r : forall n c f, rsum n (fun i => f i * c) = rsum n f * c.
Proof. induction n; intros; simpl; [lra|]. rewrite IHn; lra. Qed.

Lemma rsum_div : forall n c f, rsum n (fun i => f i / c) = rsum n f / c.
Proof. intros; unfold Rdiv; apply rsum_scal_r. Qed.

Lemma rsum_const : forall n c, rsum n (fun _ => c) = INR n * c.
Proof. induction n; intros; [simpl; lra|]. cbn [rsum]. rewrite IHn, S_INR; lra. Qed.

Lemma rsum_le : forall n f g, (forall i, (i < n)%nat -> f i <= g i) -> rsum n f <= rsum n g.
Proof.
  induction n; intros f g H; simpl; [lra|].
  apply Rplus_le_compat; [apply IHn; intros; apply H; lia | apply H; lia].
Qed.

Lemma rsum_nonneg : forall n f, (forall i, (i < n)%nat -> 0 <= f i) -> 0 <= rsum n f.
Proof. intros; rewrite <- (rsum_0 n (fun _ => 0)); auto. apply rsum_le; auto. Qed.

Lemma rsum_lt : forall n f g,
  (forall i, (i < n)%nat -> f i <= g i) ->
  (exists i, (i < n)%nat /\ f i < g i) -> rsum n f < rsum n g.
Proof.
  induction n; intros f g H [i [Hi Hlt]]; [lia|]. simpl.
  destruct (Nat.eq_dec i n) as [->|Hne].
  - apply Rplus_le_lt_compat; auto. apply rsum_le; intros; apply H; lia.
  - apply Rplus_lt_le_compat; [|apply H; lia].
    apply IHn; [intros; apply H; lia | exists i; split; auto; lia].
Qed.

Lemma rsum_pos : forall n f, (0 < n)%nat -> (forall i, (i < n)%nat -> 0 < f i) -> 0 < rsum n f.
Proof.
  intros n f Hn H. rewrite <- (rsum_0 n (fun _ => 0)); auto.
  apply rsum_lt; [intros; left; auto | exists 0%nat; auto].
Qed.

Lemma rsum_nonneg_zero : forall n f,
  (forall i, (i < n)%nat -> 0 <= f i) -> rsum n f = 0 -> forall i, (i < n)%nat -> f i = 0.
Proof.
  induction n; intros f H H0 i Hi; [lia|]. simpl in H0.
  assert (0 <= rsum n f) by (apply rsum_nonneg; intros; apply H; lia).
  assert (0 <= f n) by (apply H; lia).
  destruct (Nat.eq_dec i n) as [->|]; [lra|].
  apply (IHn f); try lia; [intros; apply H; lia | lra].
Qed.

Lemma rsum_le_one : forall n f i,
  (forall k, (k < n)%nat -> 0 <= f k) -> (i < n)%nat -> f i <= rsum n f.
Proof.
  induction n; intros f i H Hi; [lia|]. simpl.
  destruct (Nat.eq_dec i n) as [->|].
  - assert (0 <= rsum n f) by (apply rsum_nonneg; intros; apply H; lia). lra.
  - assert (f i <= rsum n f) by (apply IHn; [intros; apply H; lia|lia]).
    assert (0 <= f n) by (apply H; lia). lra.
Qed.

Lemma rsum_swap : forall n m (f : nat -> nat -> R),
  rsum n (fun i => rsum m (fun j => f i j)) = rsum m (fun j => rsum n (fun i => f i j)).
Proof.
  induction n; intros m f; simpl.
  - symmetry; apply rsum_0; auto.
  - rewrite IHn, <- rsum_plus; auto.
Qed.

Lemma rsum_split : forall n m f, rsum (n + m) f = rsum n f + rsum m (fun k => f (n + k)%nat).
Proof.
  intros n m; induction m; intros f; simpl.
  - rewrite Nat.add_0_r; lra.
  - rewrite Nat.add_succ_r; simpl. rewrite IHm; lra.
Qed.

Lemma rsum_first : forall n f, rsum (S n) f = f 0%nat + rsum n (fun k => f (S k)).
Proof.
  induction n; intros f; [simpl; lra|].
  change (rsum (S (S n)) f) with (rsum (S n) f + f (S n)). rewrite IHn. simpl; lra.
Qed.

(** Kronecker-style sums *)
Lemma rsum_single : forall n i (f : nat -> R),
  (i < n)%nat -> (forall k, (k < n)%nat -> k <> i -> f k = 0) -> rsum n f = f i.
Proof.
  induction n; intros i f Hi H; [lia|]. simpl.
  destruct (Nat.eq_dec i n) as [->|Hne].
  - rewrite rsum_0; [lra|]. intros; apply H; lia.
  - rewrite (IHn i f); [|lia|intros; apply H; lia]. rewrite (H n); try lia; lra.
Qed.

Lemma rsum_delta : forall n i c, (i < n)%nat ->
  rsum n (fun k => if Nat.eqb k i then c else 0) = c.
Proof.
  intros n i c Hi. rewrite (rsum_single n i); auto.
  - rewrite Nat.eqb_refl; auto.
  - intros k _ Hk. apply Nat.eqb_neq in Hk. rewrite Hk; auto.
Qed.

Lemma rsum_delta_mul : forall n i f, (i < n)%nat ->
  rsum n (fun k => if Nat.eqb k i then f k else 0) = f i.
Proof.
  intros n i f Hi. rewrite (rsum_single n i); auto.
  - rewrite Nat.eqb_refl; auto.
  - intros k _ Hk. apply Nat.eqb_neq in Hk. rewrite Hk; auto.
Qed.

(** changing one term *)
Lemma rsum_upd : forall n i f g, (i < n)%nat ->
  (forall k, (k < n)%nat -> k <> i -> f k = g k) -> rsum n f = rsum n g + (f i - g i).
Proof.
  intros n i f g Hi H.
  assert (E : rsum n (fun k => f k - g k) = f i - g i).
  { apply (rsum_single n i (fun k => f k - g k)); auto. intros k Hk Hki. rewrite H; auto; lra. }
  rewrite rsum_minus in E. lra.
Qed.

Lemma rsum_abs : forall n f, Rabs (rsum n f) <= rsum n (fun i => Rabs (f i)).
Proof.
  induction n; intros; simpl. { rewrite Rabs_R0; lra. }
  eapply Rle_trans; [apply Rabs_triang|]. specialize (IHn f). lra.
Qed.

Lemma rsum_mult : forall n m f g,
  rsum n f * rsum m g = rsum n (fun i => rsum m (fun j => f i * g j)).
Proof.
  intros. rewrite <- rsum_scal_r. apply rsum_ext; intros. rewrite <- rsum_scal; auto.
Qed.

(** monotone in the number of terms *)
Lemma rsum_mono_n : forall n m f, (n <= m)%nat ->
  (forall i, (n <= i < m)%nat -> 0 <= f i) -> rsum n f <= rsum m f.
Proof.
  intros n m f Hle H. replace m with (n + (m - n))%nat by lia. rewrite rsum_split.
  assert (0 <= rsum (m - n) (fun k => f (n + k)%nat)) by (apply rsum_nonneg; intros; apply H; lia). lra.
Qed.

(** Cauchy-Schwarz *)
Lemma rsum_CS : forall n f g,
  (rsum n (fun i => f i * g i)) ^ 2 <= rsum n (fun i => f i ^ 2) * rsum n (fun i => g i ^ 2).
Proof.
  intros n f g.
  set (A := rsum n (fun i => f i ^ 2)). set (B := rsum n (fun i => g i ^ 2)).
  set (C := rsum n (fun i => f i * g i)).
  assert (HA : 0 <= A) by (apply rsum_nonneg; intros; apply pow2_ge_0).
  assert (HB : 0 <= B) by (apply rsum_nonneg; intros; apply pow2_ge_0).
  assert (Q : forall t, 0 <= A * t ^ 2 - 2 * C * t + B).
  { intros t. assert (E : rsum n (fun i => (f i * t - g i) ^ 2) = A * t ^ 2 - 2 * C * t + B).
    { unfold A, B, C. rewrite <- (rsum_scal_r n (t^2)).
      replace (2 * rsum n (fun i => f i * g i) * t) with (rsum n (fun i => (f i * g i)) * (2 * t)) by ring.
      rewrite <- (rsum_scal_r n (2*t)). rewrite <- rsum_minus, <- rsum_plus. apply rsum_ext; intros; ring. }
    rewrite <- E. apply rsum_nonneg; intros; apply pow2_ge_0. }
  destruct (Req_dec A 0) as [HA0|HA0].
  - assert (C = 0).
    { unfold C. apply rsum_0; intros i Hi.
      assert (f i ^ 2 = 0) by (apply (rsum_nonneg_zero n (fun i => f i ^ 2)); auto; intros; apply pow2_ge_0).
      assert (f i = 0) by nra. rewrite H0; ring. }
    rewrite H; nra.
  - specialize (Q (C / A)).
    assert (E : A * (C / A) ^ 2 - 2 * C * (C / A) + B = B - C^2 / A) by (field; auto).
    rewrite E in Q. assert (C ^ 2 / A <= B) by lra.
    apply (Rmult_le_compat_l A) in H; auto. replace (A * (C^2/A)) with (C^2) in H by (field; auto). lra.
Qed.
