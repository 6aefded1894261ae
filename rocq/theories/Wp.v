(** Powers, Minkowski's inequality and the triangle inequality of the transport cost, over R.
    Nothing here refers to a model. *)
From Coq Require Import Reals Lra Lia.
From Verif Require Import Sums Spec Monge.
Local Open Scope R_scope.

Lemma rpow_1 : forall x, 0 <= x -> rpow x 1 = x.
Proof. intros x H. destruct (Req_dec x 0) as [-> |]; [apply rpow_0|]. rewrite rpow_pos_eq by lra. apply Rpower_1; lra. Qed.
Lemma rpow_pos : forall x p, 0 < x -> 0 < rpow x p.
Proof. intros; rewrite rpow_pos_eq by auto; apply exp_pos. Qed.
Lemma rpow_le : forall s t p, 0 <= s <= t -> 0 < p -> rpow s p <= rpow t p.
Proof.
  intros s t p [H1 H2] Hp. destruct (Req_dec s 0) as [-> |]; [rewrite rpow_0; apply rpow_nonneg|].
  rewrite !rpow_pos_eq by lra. apply Rle_Rpower_l; lra.
Qed.
Lemma rpow_rpow : forall x p q, 0 <= x -> rpow (rpow x p) q = rpow x (p * q).
Proof.
  intros x p q H. destruct (Req_dec x 0) as [-> |]; [rewrite !rpow_0; auto|].
  rewrite (rpow_pos_eq x p) by lra. rewrite (rpow_pos_eq x (p * q)) by lra. rewrite rpow_pos_eq by apply exp_pos. apply Rpower_mult.
Qed.
Lemma rpow_root : forall x p, 0 <= x -> 0 < p -> rpow (rpow x p) (1 / p) = x.
Proof. intros. rewrite rpow_rpow by auto. replace (p * (1 / p)) with 1 by (field; lra). apply rpow_1; auto. Qed.
Lemma rpow_root' : forall x p, 0 <= x -> 0 < p -> rpow (rpow x (1 / p)) p = x.
Proof. intros. rewrite rpow_rpow by auto. replace (1 / p * p) with 1 by (field; lra). apply rpow_1; auto. Qed.
Lemma rpow_mult : forall x y p, 0 <= x -> 0 <= y -> rpow (x * y) p = rpow x p * rpow y p.
Proof.
  intros x y p Hx Hy. destruct (Req_dec x 0) as [-> |]; [rewrite Rmult_0_l, !rpow_0; ring|].
  destruct (Req_dec y 0) as [-> |]; [rewrite Rmult_0_r, !rpow_0; ring|].
  rewrite (rpow_pos_eq (x * y)) by (apply Rmult_lt_0_compat; lra). rewrite (rpow_pos_eq x), (rpow_pos_eq y) by lra. symmetry. apply Rpower_mult_distr; lra.
Qed.
Lemma rpow_zero : forall x p, 0 <= x -> rpow x p = 0 -> x = 0.
Proof. intros x p H E. destruct (Req_dec x 0); auto. pose proof (rpow_pos x p ltac:(lra)). lra. Qed.

(** Minkowski for a positive linear functional *)
Section Mink.
Variables (I : Type) (s : (I -> R) -> R).
Hypothesis s_mono : forall f g, (forall i, f i <= g i) -> s f <= s g.
Hypothesis s_lin : forall c f e g, s (fun i => c * f i + e * g i) = c * s f + e * s g.
Lemma s_nonneg : forall f, (forall i, 0 <= f i) -> 0 <= s f.
Proof.
  intros f H. apply Rle_trans with (s (fun i => 0 * f i + 0 * f i)); [rewrite s_lin; lra|]. apply s_mono. intros i. specialize (H i). lra.
Qed.
Lemma minkowski : forall p (f g : I -> R), 1 <= p -> (forall i, 0 <= f i) -> (forall i, 0 <= g i) ->
  rpow (s (fun i => rpow (f i + g i) p)) (1 / p) <= rpow (s (fun i => rpow (f i) p)) (1 / p) + rpow (s (fun i => rpow (g i) p)) (1 / p).
Proof.
  intros p f g Hp Hf Hg. set (A := rpow (s (fun i => rpow (f i) p)) (1 / p)). set (B := rpow (s (fun i => rpow (g i) p)) (1 / p)).
  assert (Sf : 0 <= s (fun i => rpow (f i) p)) by (apply s_nonneg; intros; apply rpow_nonneg).
  assert (Sg : 0 <= s (fun i => rpow (g i) p)) by (apply s_nonneg; intros; apply rpow_nonneg).
  assert (Sfg : 0 <= s (fun i => rpow (f i + g i) p)) by (apply s_nonneg; intros; apply rpow_nonneg).
  assert (HA : 0 <= A) by apply rpow_nonneg. assert (HB : 0 <= B) by apply rpow_nonneg.
  assert (EA : rpow A p = s (fun i => rpow (f i) p)) by (apply rpow_root'; lra).
  assert (EB : rpow B p = s (fun i => rpow (g i) p)) by (apply rpow_root'; lra).
  apply Rnot_lt_le. intros Lt.
  set (e := (rpow (s (fun i => rpow (f i + g i) p)) (1 / p) - (A + B)) / 4). assert (He : 0 < e) by (unfold e; lra).
  set (A' := A + e). set (B' := B + e). assert (HA' : 0 < A') by (unfold A'; lra). assert (HB' : 0 < B') by (unfold B'; lra).
  assert (PA : 0 < rpow A' p) by (apply rpow_pos; auto). assert (PB : 0 < rpow B' p) by (apply rpow_pos; auto).
  assert (PAB : 0 < rpow (A' + B') p) by (apply rpow_pos; lra).
  set (l := A' / (A' + B')). assert (Hl : 0 <= l <= 1). { unfold l. split; [apply Rle_mult_inv_pos; lra|]. apply Rmult_le_reg_r with (A' + B'); [lra|]. unfold Rdiv. rewrite Rmult_assoc, Rinv_l by lra. lra. }
  assert (El : 1 - l = B' / (A' + B')) by (unfold l; field; lra).
  assert (Pt : forall i, rpow (f i + g i) p <= rpow (A' + B') p * (l / rpow A' p) * rpow (f i) p + rpow (A' + B') p * ((1 - l) / rpow B' p) * rpow (g i) p).
  { intros i. assert (C := convex_rpow_abs p Hp (f i / A') (g i / B') l Hl). cbv beta in C.
    rewrite (Rabs_pos_eq (f i / A')) in C by (apply Rle_mult_inv_pos; auto). rewrite (Rabs_pos_eq (g i / B')) in C by (apply Rle_mult_inv_pos; auto).
    replace (l * (f i / A') + (1 - l) * (g i / B')) with ((f i + g i) * / (A' + B')) in C by (rewrite El; unfold l; field; lra).
    assert (Ip : 0 < / (A' + B')) by (apply Rinv_0_lt_compat; lra). rewrite Rabs_pos_eq in C by (apply Rmult_le_pos; [specialize (Hf i); specialize (Hg i)|]; lra).
    assert (Q : forall x y, 0 <= x -> 0 < y -> rpow (x / y) p = rpow x p / rpow y p).
    { intros x y Hx Hy. apply Rmult_eq_reg_r with (rpow y p); [|pose proof (rpow_pos y p Hy); lra]. rewrite <- rpow_mult; [|apply Rle_mult_inv_pos; auto|lra].
      replace (x / y * y) with x by (field; lra). field. pose proof (rpow_pos y p Hy); lra. }
    fold (Rdiv (f i + g i) (A' + B')) in C. rewrite Q in C by (specialize (Hf i); specialize (Hg i); lra). rewrite (Q (f i)), (Q (g i)) in C by auto.
    apply (Rmult_le_compat_l (rpow (A' + B') p)) in C; [|lra].
    replace (rpow (A' + B') p * (rpow (f i + g i) p / rpow (A' + B') p)) with (rpow (f i + g i) p) in C by (field; lra).
    eapply Rle_trans; [exact C|]. right. field. lra. }
  assert (S := s_mono _ _ Pt). rewrite s_lin in S. rewrite <- EA, <- EB in S.
  assert (LA : rpow A p <= rpow A' p) by (apply rpow_le; unfold A'; lra). assert (LB : rpow B p <= rpow B' p) by (apply rpow_le; unfold B'; lra).
  assert (S2 : s (fun i => rpow (f i + g i) p) <= rpow (A' + B') p).
  { eapply Rle_trans; [exact S|]. replace (rpow (A' + B') p) with (rpow (A' + B') p * (l / rpow A' p) * rpow A' p + rpow (A' + B') p * ((1 - l) / rpow B' p) * rpow B' p) at 3 by (field; lra).
    apply Rplus_le_compat; apply Rmult_le_compat_l; auto; apply Rmult_le_pos; try lra; apply Rle_mult_inv_pos; lra. }
  assert (S3 := rpow_le _ _ (1 / p) (conj Sfg S2) ltac:(apply Rdiv_lt_0_compat; lra)). rewrite rpow_root in S3 by lra. unfold A', B', e in S3. lra.
Qed.
End Mink.

(** composing two plans *)
Section Compose.
Variables (n m l : nat) (a b c : vec) (G H : mat).
Hypotheses (HG : coupling n m a b G) (HH : coupling m l b c H).
Definition glued (i j k : nat) : R := G i j * H j k / b j.
Lemma b_nonneg : forall j, (j < m)%nat -> 0 <= b j.
Proof. intros j Hj. destruct HG as (P & _ & C). rewrite <- (C j Hj). apply rsum_nonneg. intros. apply P; auto. Qed.
Lemma glued_nonneg : forall i j k, (i < n)%nat -> (j < m)%nat -> (k < l)%nat -> 0 <= glued i j k.
Proof.
  intros i j k Hi Hj Hk. unfold glued. destruct (Req_dec (b j) 0) as [E|E]; [unfold Rdiv; rewrite E, Rinv_0; lra|].
  apply Rle_mult_inv_pos; [|pose proof (b_nonneg j Hj); lra]. apply Rmult_le_pos; [apply HG|apply HH]; auto.
Qed.
Lemma glued_12 : forall i j, (i < n)%nat -> (j < m)%nat -> rsum l (fun k => glued i j k) = G i j.
Proof.
  intros i j Hi Hj. unfold glued. rewrite (rsum_ext l _ (fun k => (G i j / b j) * H j k)) by (intros; unfold Rdiv; ring). rewrite rsum_scal.
  destruct HH as (_ & R & _). unfold row_sum in R. match goal with |- context [rsum l ?f] => replace (rsum l f) with (b j) by (symmetry; exact (R j Hj)) end. destruct (Req_dec (b j) 0) as [E|E]; [|field; auto].
  destruct HG as (P & _ & C). unfold col_sum in C. rewrite E, Rmult_0_r. symmetry.
  apply (rsum_nonneg_zero n (fun i => G i j)); auto. rewrite C; auto.
Qed.
Lemma glued_23 : forall j k, (j < m)%nat -> (k < l)%nat -> rsum n (fun i => glued i j k) = H j k.
Proof.
  intros j k Hj Hk. unfold glued. rewrite (rsum_ext n _ (fun i => (H j k / b j) * G i j)) by (intros; unfold Rdiv; ring). rewrite rsum_scal.
  destruct HG as (_ & _ & C). unfold col_sum in C. match goal with |- context [rsum n ?f] => replace (rsum n f) with (b j) by (symmetry; exact (C j Hj)) end. destruct (Req_dec (b j) 0) as [E|E]; [|field; auto].
  destruct HH as (P & R & _). unfold row_sum in R. rewrite E, Rmult_0_r. symmetry.
  apply (rsum_nonneg_zero l (fun k => H j k)); auto. rewrite R; auto.
Qed.
Definition composed (i k : nat) : R := rsum m (fun j => glued i j k).
Lemma composed_coupling : coupling n l a c composed.
Proof.
  split; [|split].
  - intros i k Hi Hk. apply rsum_nonneg. intros. apply glued_nonneg; auto.
  - intros i Hi. unfold row_sum, composed. rewrite rsum_swap. rewrite (rsum_ext m _ (fun j => G i j)) by (intros; apply glued_12; auto). apply HG; auto.
  - intros k Hk. unfold col_sum, composed. rewrite rsum_swap. rewrite (rsum_ext m _ (fun j => H j k)) by (intros; apply glued_23; auto). apply HH; auto.
Qed.
Definition s3 (f : nat * nat * nat -> R) : R := rsum n (fun i => rsum m (fun j => rsum l (fun k => glued i j k * f (i, j, k)))).
Lemma s3_12 : forall f : mat, s3 (fun t => f (fst (fst t)) (snd (fst t))) = cost n m f G.
Proof.
  intros f. unfold s3, cost. apply rsum_ext; intros i Hi. apply rsum_ext; intros j Hj. cbn [fst snd].
  rewrite (rsum_ext l _ (fun k => f i j * glued i j k)) by (intros; ring). rewrite rsum_scal, glued_12 by auto. ring.
Qed.
Lemma s3_23 : forall f : mat, s3 (fun t => f (snd (fst t)) (snd t)) = cost m l f H.
Proof.
  intros f. unfold s3, cost. rewrite rsum_swap. apply rsum_ext; intros j Hj. rewrite rsum_swap. apply rsum_ext; intros k Hk. cbn [fst snd].
  rewrite (rsum_ext n _ (fun i => f j k * glued i j k)) by (intros; ring). rewrite rsum_scal, glued_23 by auto. ring.
Qed.
Lemma s3_13 : forall f : mat, s3 (fun t => f (fst (fst t)) (snd t)) = cost n l f composed.
Proof.
  intros f. unfold s3, cost, composed. apply rsum_ext; intros i Hi. rewrite rsum_swap. apply rsum_ext; intros k Hk. cbn [fst snd].
  rewrite (rsum_ext m _ (fun j => f i k * glued i j k)) by (intros; ring). rewrite rsum_scal. ring.
Qed.
(** Wasserstein's triangle inequality, along given couplings *)
Lemma triangle : forall p (D12 D23 D13 : mat), 1 <= p ->
  (forall i j, 0 <= D12 i j) -> (forall i j, 0 <= D23 i j) -> (forall i j, 0 <= D13 i j) -> (forall i j k, D13 i k <= D12 i j + D23 j k) ->
  rpow (cost n l (fun i k => rpow (D13 i k) p) composed) (1 / p)
    <= rpow (cost n m (fun i j => rpow (D12 i j) p) G) (1 / p) + rpow (cost m l (fun j k => rpow (D23 j k) p) H) (1 / p).
Proof.
  intros p D12 D23 D13 Hp P12 P23 P13 T.
  rewrite <- (s3_13 (fun i k => rpow (D13 i k) p)), <- (s3_12 (fun i j => rpow (D12 i j) p)), <- (s3_23 (fun j k => rpow (D23 j k) p)).
  set (w := fun i j k => if ((i <? n) && (j <? m) && (k <? l))%nat%bool then glued i j k else 0).
  assert (Hw : forall i j k, 0 <= w i j k).
  { intros i j k. unfold w. destruct (Nat.ltb_spec i n), (Nat.ltb_spec j m), (Nat.ltb_spec k l); cbn; try lra. apply glued_nonneg; auto. }
  set (s := fun f : nat * nat * nat -> R => rsum n (fun i => rsum m (fun j => rsum l (fun k => w i j k * f (i, j, k))))).
  assert (E : forall f, s3 f = s f).
  { intros f. unfold s3, s. apply rsum_ext; intros i Hi. apply rsum_ext; intros j Hj. apply rsum_ext; intros k Hk. unfold w.
    rewrite (proj2 (Nat.ltb_lt i n)), (proj2 (Nat.ltb_lt j m)), (proj2 (Nat.ltb_lt k l)) by auto. reflexivity. }
  rewrite !E.
  assert (M : forall f g, (forall t, f t <= g t) -> s f <= s g).
  { intros f g Hfg. unfold s. apply rsum_le; intros. apply rsum_le; intros. apply rsum_le; intros. apply Rmult_le_compat_l; auto. }
  assert (Li : forall c0 f e g, s (fun t => c0 * f t + e * g t) = c0 * s f + e * s g).
  { intros. unfold s. rewrite <- !rsum_scal, <- rsum_plus. apply rsum_ext; intros. rewrite <- !rsum_scal, <- rsum_plus. apply rsum_ext; intros.
    rewrite <- !rsum_scal, <- rsum_plus. apply rsum_ext; intros. ring. }
  eapply Rle_trans; [|apply (minkowski _ s M Li p (fun t => D12 (fst (fst t)) (snd (fst t))) (fun t => D23 (snd (fst t)) (snd t)) Hp); auto].
  apply rpow_le; [|apply Rdiv_lt_0_compat; lra]. split; [apply s_nonneg; auto; intros; apply rpow_nonneg|].
  apply M. intros t. apply rpow_mono; [|auto]. split; auto.
Qed.
End Compose.
