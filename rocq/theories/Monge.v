(** Monge costs: the coupling with cumulative function min(A_k,B_l) is optimal. *)
From Coq Require Import Reals Lra Lia.
From Verif Require Import Sums Spec.
Local Open Scope R_scope.

Definition cumF (G : mat) (k l : nat) : R := rsum k (fun i => rsum l (fun j => G i j)).

(** c(k,l) + c(k+1,l+1) <= c(k,l+1) + c(k+1,l) for adjacent pairs *)
Definition monge (n m : nat) (c : mat) : Prop :=
  forall k l, (S k < n)%nat -> (S l < m)%nat -> c k l + c (S k) (S l) <= c k (S l) + c (S k) l.

Lemma abel : forall n (c g : vec),
  rsum (S n) (fun i => c i * g i) =
  c n * rsum (S n) g - rsum n (fun k => (c (S k) - c k) * rsum (S k) g).
Proof.
  induction n; intros c g; [simpl; lra|].
  change (rsum (S (S n)) (fun i => c i * g i)) with (rsum (S n) (fun i => c i * g i) + c (S n) * g (S n)).
  rewrite IHn. cbn [rsum]. lra.
Qed.

Lemma abel2 : forall n m (c P : mat),
  cost (S n) (S m) c P =
    rsum (S n) (fun i => c i m * row_sum (S m) P i)
    - rsum m (fun l => (c n (S l) - c n l) * cumF P (S n) (S l))
    + rsum m (fun l => rsum n (fun k =>
        (c (S k) (S l) - c (S k) l - (c k (S l) - c k l)) * cumF P (S k) (S l))).
Proof.
  intros n m c P. unfold cost.
  rewrite (rsum_ext (S n) (fun i => rsum (S m) (fun j => c i j * P i j))
    (fun i => c i m * row_sum (S m) P i - rsum m (fun l => (c i (S l) - c i l) * rsum (S l) (P i)))).
  2:{ intros i Hi. rewrite abel. reflexivity. }
  rewrite rsum_minus. rewrite (rsum_swap (S n) m).
  rewrite (rsum_ext m (fun l => rsum (S n) (fun i => (c i (S l) - c i l) * rsum (S l) (P i)))
    (fun l => (c n (S l) - c n l) * cumF P (S n) (S l)
       - rsum n (fun k => (c (S k) (S l) - c (S k) l - (c k (S l) - c k l)) * cumF P (S k) (S l)))).
  2:{ intros l Hl. rewrite (abel n (fun i => c i (S l) - c i l) (fun i => rsum (S l) (P i))). reflexivity. }
  rewrite rsum_minus. lra.
Qed.

Lemma cumF_le : forall n m a b P k l, coupling n m a b P -> (k <= n)%nat -> (l <= m)%nat ->
  cumF P k l <= Rmin (rsum k a) (rsum l b).
Proof.
  intros n m a b P k l (Hn & Hr & Hc) Hk Hl. apply Rmin_glb; unfold cumF.
  - apply rsum_le; intros i Hi. rewrite <- (Hr i) by lia. apply rsum_mono_n; auto.
    intros; apply Hn; lia.
  - rewrite rsum_swap. apply rsum_le; intros j Hj. rewrite <- (Hc j) by lia. apply rsum_mono_n; auto.
    intros; apply Hn; lia.
Qed.

Lemma cumF_full_col : forall n m a b P l, coupling n m a b P -> (l <= m)%nat -> cumF P n l = rsum l b.
Proof.
  intros n m a b P l (Hn & Hr & Hc) Hl. unfold cumF. rewrite rsum_swap. apply rsum_ext; intros.
  apply Hc; lia.
Qed.

Lemma monge_min_optimal : forall n m a b c Q,
  monge n m c -> coupling n m a b Q ->
  (forall k l, (k <= n)%nat -> (l <= m)%nat -> cumF Q k l = Rmin (rsum k a) (rsum l b)) ->
  optimal_coupling n m a b c Q.
Proof.
  intros n m a b c Q Hm HQ HF. split; auto. intros P HP.
  destruct n as [|n]; [apply Rle_refl|].
  destruct m as [|m].
  { unfold cost. rewrite !rsum_0; intros; simpl; lra. }
  rewrite !abel2.
  rewrite (rsum_ext (S n) (fun i => c i m * row_sum (S m) Q i) (fun i => c i m * row_sum (S m) P i)).
  2:{ intros i Hi. destruct HQ as (_ & HQ & _), HP as (_ & HP & _). rewrite HQ, HP; auto. }
  rewrite (rsum_ext m (fun l => (c n (S l) - c n l) * cumF Q (S n) (S l))
                      (fun l => (c n (S l) - c n l) * cumF P (S n) (S l))).
  2:{ intros l Hl. rewrite (cumF_full_col _ _ _ _ Q (S l) HQ), (cumF_full_col _ _ _ _ P (S l) HP); auto; lia. }
  apply Rplus_le_compat_l. apply rsum_le; intros l Hl. apply rsum_le; intros k Hk.
  assert (D : c (S k) (S l) - c (S k) l - (c k (S l) - c k l) <= 0).
  { specialize (Hm k l ltac:(lia) ltac:(lia)). lra. }
  assert (F : cumF P (S k) (S l) <= cumF Q (S k) (S l)).
  { rewrite HF by lia. apply (cumF_le (S n) (S m)); auto; lia. }
  nra.
Qed.

(** ** Convex ground costs on sorted points are Monge *)
Definition convex (h : R -> R) : Prop :=
  forall s t lam, 0 <= lam <= 1 -> h (lam * s + (1 - lam) * t) <= lam * h s + (1 - lam) * h t.

Definition sorted (n : nat) (x : vec) : Prop := forall k, (S k < n)%nat -> x k <= x (S k).

Lemma convex_mid : forall h, convex h -> forall lo hi s t,
  lo <= s <= hi -> lo <= t <= hi -> s + t = lo + hi -> h s + h t <= h lo + h hi.
Proof.
  intros h Hc lo hi s t Hs Ht E.
  destruct (Req_dec lo hi) as [->|Hne]. { assert (s = hi) by lra. assert (t = hi) by lra. subst; lra. }
  set (lam := (hi - s) / (hi - lo)).
  assert (Hl : 0 <= lam <= 1).
  { unfold lam; split; [apply Rle_mult_inv_pos; lra|]. apply (Rmult_le_reg_r (hi - lo)); [lra|].
    unfold Rdiv; rewrite Rmult_assoc, Rinv_l by lra. lra. }
  assert (E1 : s = lam * lo + (1 - lam) * hi) by (unfold lam; field; lra).
  assert (E2 : t = (1 - lam) * lo + (1 - (1 - lam)) * hi) by (rewrite E1 in E; lra).
  pose proof (Hc lo hi lam Hl). pose proof (Hc lo hi (1 - lam) ltac:(lra)).
  rewrite <- E1 in H. rewrite <- E2 in H0. lra.
Qed.

Lemma convex_monge : forall n m x y h, convex h -> sorted n x -> sorted m y ->
  monge n m (fun i j => h (x i - y j)).
Proof.
  intros n m x y h Hc Hx Hy k l Hk Hl.
  specialize (Hx k Hk). specialize (Hy l Hl).
  apply (convex_mid h Hc); lra.
Qed.

Lemma convex_sq : convex (fun t => t * t).
Proof. intros s t lam H. assert (0 <= lam * (1 - lam) * (s - t)^2) by (apply Rmult_le_pos; [nra|apply pow2_ge_0]). nra. Qed.

Lemma convex_abs : convex Rabs.
Proof.
  intros s t lam H. eapply Rle_trans; [apply Rabs_triang|]. rewrite !Rabs_mult.
  rewrite (Rabs_right lam), (Rabs_right (1 - lam)) by lra. lra.
Qed.

(** Bernoulli's inequality for real exponents *)
Lemma bernoulli : forall x p, 0 < x -> 1 <= p -> 1 + p * (x - 1) <= Rpower x p.
Proof.
  intros x p Hx Hp. unfold Rpower. set (y := ln x).
  assert (Ex : x = exp y) by (unfold y; rewrite exp_ln; auto).
  assert (T1 : exp y * (1 + (p - 1) * y) <= exp (p * y)).
  { replace (p * y) with (y + (p - 1) * y) by ring. rewrite exp_plus.
    apply Rmult_le_compat_l; [left; apply exp_pos|]. apply exp_ineq1_le. }
  assert (T2 : exp y * (1 - y) <= 1).
  { replace 1 with (exp y * exp (- y)) at 2 by (rewrite <- exp_plus; replace (y + - y) with 0 by ring; apply exp_0).
    apply Rmult_le_compat_l; [left; apply exp_pos|]. replace (1 - y) with (1 + - y) by ring. apply exp_ineq1_le. }
  rewrite Ex. pose proof (exp_pos y). nra.
Qed.

(** x^p for x >= 0, p > 0, with 0^p = 0 as in C *)
Definition rpow (x p : R) : R := if Req_EM_T x 0 then 0 else Rpower x p.

Lemma rpow_0 : forall p, rpow 0 p = 0.
Proof. intros; unfold rpow; destruct (Req_EM_T 0 0); auto; contradiction. Qed.
Lemma rpow_pos_eq : forall x p, 0 < x -> rpow x p = Rpower x p.
Proof. intros; unfold rpow; destruct (Req_EM_T x 0); auto; lra. Qed.
Lemma rpow_nonneg : forall x p, 0 <= rpow x p.
Proof. intros; unfold rpow; destruct (Req_EM_T x 0); [lra|]. left; apply exp_pos. Qed.

Lemma rpow_tangent : forall s t p, 0 <= s -> 0 < t -> 1 <= p ->
  rpow t p + p * (rpow t p / t) * (s - t) <= rpow s p.
Proof.
  intros s t p Hs Ht Hp. rewrite (rpow_pos_eq t) by auto.
  set (T := Rpower t p). assert (HT : 0 < T) by apply exp_pos.
  replace (T + p * (T / t) * (s - t)) with (T * (1 + p * (s / t - 1))) by (field; lra).
  destruct (Req_dec s 0) as [->|Hs0].
  - rewrite rpow_0. replace (0 / t) with 0 by (field; lra). nra.
  - rewrite rpow_pos_eq by lra.
    replace (Rpower s p) with (T * Rpower (s / t) p).
    + apply Rmult_le_compat_l; [lra|]. apply bernoulli; auto. apply Rdiv_lt_0_compat; lra.
    + unfold T. rewrite Rpower_mult_distr; [|lra|apply Rdiv_lt_0_compat; lra].
      f_equal; field; lra.
Qed.

Lemma rpow_mono : forall s t p, 0 <= s <= t -> 1 <= p -> rpow s p <= rpow t p.
Proof.
  intros s t p [Hs Hst] Hp. destruct (Req_dec s 0) as [->|Hs0].
  - rewrite rpow_0; apply rpow_nonneg.
  - pose proof (rpow_tangent t s p ltac:(lra) ltac:(lra) Hp).
    assert (0 <= p * (rpow s p / s) * (t - s)).
    { apply Rmult_le_pos; [|lra]. apply Rmult_le_pos; [lra|].
      apply Rle_mult_inv_pos; [apply rpow_nonneg|lra]. }
    lra.
Qed.

Lemma convex_rpow_abs : forall p, 1 <= p -> convex (fun t => rpow (Rabs t) p).
Proof.
  intros p Hp s t lam Hl.
  set (z := lam * Rabs s + (1 - lam) * Rabs t).
  pose proof (Rabs_pos s) as Ps. pose proof (Rabs_pos t) as Pt.
  assert (Hz : 0 <= z) by (unfold z; nra).
  apply Rle_trans with (rpow z p).
  { apply rpow_mono; auto. split; [apply Rabs_pos|]. apply convex_abs; auto. }
  destruct (Req_dec z 0) as [Hz0|Hz0].
  - rewrite Hz0, rpow_0. pose proof (rpow_nonneg (Rabs s) p). pose proof (rpow_nonneg (Rabs t) p). nra.
  - pose proof (rpow_tangent (Rabs s) z p Ps ltac:(lra) Hp) as A.
    pose proof (rpow_tangent (Rabs t) z p Pt ltac:(lra) Hp) as B.
    apply (Rmult_le_compat_l lam) in A; [|lra]. apply (Rmult_le_compat_l (1 - lam)) in B; [|lra].
    set (D := p * (rpow z p / z)) in *.
    replace (rpow z p) with (lam * (rpow z p + D * (Rabs s - z)) + (1 - lam) * (rpow z p + D * (Rabs t - z))); [lra|].
    unfold z; ring.
Qed.
