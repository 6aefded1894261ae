(** Moments of weighted samples and the cost of couplings. *)
From Coq Require Import Reals Lra Lia List Arith Setoid Morphisms.
From Verif Require Import Num Sums Spec Entropy Mat Emd1d_model Optim_model Utils_model Da_model Duals_proofs Da_reg_proofs Emd1d_perm_proofs Fsb_proofs Coot_proofs Gaussian_model Gaussian_proofs.
Local Open Scope R_scope.
Notation dot := Mat.dot.

(** weighted mean and second moment about mu *)
Definition gmean (n : nat) (w : vec) (X : mat) : vec := fun t => rsum n (fun i => w i * X i t) / rsum n w.
Definition gmom (n : nat) (w : vec) (X : mat) (mu : vec) : mat := fun s t => rsum n (fun i => w i * (X i s - mu s) * (X i t - mu t)) / rsum n w.

Lemma mom_qf : forall n d w X mu A, rsum n w <> 0 ->
  rsum n (fun i => w i * qf d A (fun t => X i t - mu t)) = rsum n w * tr d (mul d A (gmom n w X mu)).
Proof.
  intros n d w X mu A Hs. set (x := fun i t => X i t - mu t).
  rewrite (rsum_ext n _ (fun i => rsum d (fun p => rsum d (fun q => w i * (x i p * (A p q * x i q)))))).
  2:{ intros i Hi. unfold qf, Mat.dot, mv. rewrite <- rsum_scal. apply rsum_ext; intros p Hp. fold (x i p).
      rewrite <- rsum_scal, <- rsum_scal. apply rsum_ext; intros; reflexivity. }
  rewrite rsum_swap. unfold tr, mul. rewrite <- rsum_scal. apply rsum_ext; intros p Hp.
  rewrite rsum_swap. rewrite <- rsum_scal. apply rsum_ext; intros q Hq. unfold gmom.
  replace (rsum n w * (A p q * (rsum n (fun i => w i * (X i q - mu q) * (X i p - mu p)) / rsum n w)))
    with (A p q * rsum n (fun i => w i * (X i q - mu q) * (X i p - mu p))) by (field; auto).
  rewrite <- rsum_scal. apply rsum_ext; intros i Hi. unfold x. ring.
Qed.
Lemma mom_dot : forall n d w X mu, rsum n w <> 0 -> rsum n (fun i => w i * dot d (fun t => X i t - mu t) (fun t => X i t - mu t)) = rsum n w * tr d (gmom n w X mu).
Proof.
  intros. rewrite <- (mul1l d (gmom n w X mu)), <- mom_qf by auto. apply rsum_ext; intros i Hi. f_equal. unfold qf. apply dot_ext; intros; auto. symmetry; apply mv_I; auto.
Qed.
Lemma gmom_sym : forall n d w X mu, sym d (gmom n w X mu).
Proof. intros n d w X mu i j _ _. unfold tp, gmom. f_equal. apply rsum_ext; intros; ring. Qed.
Lemma gmean_centre : forall n w X t, rsum n w <> 0 -> rsum n (fun i => w i * (X i t - gmean n w X t)) = 0.
Proof.
  intros. rewrite (rsum_ext n _ (fun i => w i * X i t - w i * gmean n w X t)) by (intros; ring).
  rewrite rsum_minus, rsum_scal_r. unfold gmean. field; auto.
Qed.
Lemma coupling_sums : forall n m a b T, coupling n m a b T -> forall f g, dsum n m (fun i j => T i j * (f i + g j)) = rsum n (fun i => a i * f i) + rsum m (fun j => b j * g j).
Proof.
  intros n m a b T [_ [HR HC]] f g. unfold dsum.
  rewrite (rsum_ext n _ (fun i => rsum m (fun j => T i j * f i) + rsum m (fun j => T i j * g j))) by (intros; rewrite <- rsum_plus; apply rsum_ext; intros; ring).
  rewrite rsum_plus. f_equal.
  - apply rsum_ext; intros i Hi. rewrite rsum_scal_r. rewrite <- (HR i Hi). reflexivity.
  - rewrite rsum_swap. apply rsum_ext; intros j Hj. rewrite rsum_scal_r. rewrite <- (HC j Hj). reflexivity.
Qed.
Lemma coupling_mass : forall n m a b T, coupling n m a b T -> rsum n a = rsum m b.
Proof.
  intros n m a b T [_ [HR HC]]. rewrite (rsum_ext n a (fun i => rsum m (fun j => T i j))) by (intros i Hi; symmetry; apply HR; auto).
  rewrite rsum_swap. apply rsum_ext; intros j Hj. apply HC; auto.
Qed.
(** expanding the squared distance about the two centres *)
Lemma sq_expand : forall d (x y p q : vec), rsum d (fun t => (x t - y t) ^ 2) =
  (dot d (fun t => x t - p t) (fun t => x t - p t) + 2 * rsum d (fun t => (x t - p t) * (p t - q t)) + dot d (fun t => p t - q t) (fun t => p t - q t))
  + (dot d (fun t => y t - q t) (fun t => y t - q t) - 2 * rsum d (fun t => (y t - q t) * (p t - q t))) - 2 * dot d (fun t => x t - p t) (fun t => y t - q t).
Proof.
  intros. unfold Mat.dot. rewrite <- !rsum_scal.
  rewrite <- rsum_plus, <- rsum_plus, <- rsum_minus, <- rsum_plus, <- rsum_minus. apply rsum_ext; intros; ring.
Qed.
Lemma cross_zero : forall n d w X (mu dl : vec), (forall t, (t < d)%nat -> rsum n (fun i => w i * (X i t - mu t)) * dl t = 0) ->
  rsum n (fun i => w i * rsum d (fun t => (X i t - mu t) * dl t)) = 0.
Proof.
  intros n d w X mu dl H.
  rewrite (rsum_ext n _ (fun i => rsum d (fun t => w i * (X i t - mu t) * dl t))) by (intros; rewrite <- rsum_scal; apply rsum_ext; intros; ring).
  rewrite rsum_swap. apply rsum_0; intros t Ht. rewrite rsum_scal_r. auto.
Qed.
Section LB.
Variables (n m d : nat) (a b : vec) (X Y : mat) (p q : vec) (T : mat).
Hypothesis HT : coupling n m a b T.
Hypothesis Hs : rsum n a <> 0.
Hypothesis Hp : forall t, (t < d)%nat -> rsum n (fun i => a i * (X i t - p t)) * (p t - q t) = 0.
Hypothesis Hq : forall t, (t < d)%nat -> rsum m (fun j => b j * (Y j t - q t)) * (p t - q t) = 0.
Let dl : vec := fun t => p t - q t.
Lemma cost_expand : cost n m (sqeu d X Y) T =
  rsum n a * (dot d dl dl + tr d (gmom n a X p) + tr d (gmom m b Y q)) - 2 * dsum n m (fun i j => T i j * dot d (fun t => X i t - p t) (fun t => Y j t - q t)).
Proof.
  pose proof (coupling_mass n m a b T HT) as Em.
  set (f := fun i => dot d (fun t => X i t - p t) (fun t => X i t - p t) + 2 * rsum d (fun t => (X i t - p t) * (p t - q t)) + dot d (fun t => p t - q t) (fun t => p t - q t)).
  set (g := fun j => dot d (fun t => Y j t - q t) (fun t => Y j t - q t) - 2 * rsum d (fun t => (Y j t - q t) * (p t - q t))).
  assert (E : cost n m (sqeu d X Y) T = dsum n m (fun i j => T i j * (f i + g j)) - 2 * dsum n m (fun i j => T i j * dot d (fun t => X i t - p t) (fun t => Y j t - q t))).
  { rewrite <- dsum_scal, <- dsum_minus. unfold cost, dsum. apply rsum_ext; intros i Hi; apply rsum_ext; intros j Hj.
    unfold sqeu. rewrite (sq_expand d (fun t => X i t) (fun t => Y j t) p q). fold (f i) (g j). ring. }
  rewrite E, (coupling_sums n m a b T HT). f_equal. unfold f, g.
  rewrite (rsum_ext n _ (fun i => a i * dot d (fun t => X i t - p t) (fun t => X i t - p t) + 2 * (a i * rsum d (fun t => (X i t - p t) * dl t)) + a i * dot d dl dl)) by (intros; unfold dl; ring).
  rewrite (rsum_ext m _ (fun j => b j * dot d (fun t => Y j t - q t) (fun t => Y j t - q t) - 2 * (b j * rsum d (fun t => (Y j t - q t) * dl t)))) by (intros; unfold dl; ring).
  rewrite !rsum_plus, rsum_minus, !rsum_scal, rsum_scal_r, !cross_zero by auto. rewrite mom_dot by auto. rewrite mom_dot by (rewrite <- Em; auto). rewrite <- Em. ring.
Qed.
Lemma cost_lower : forall A Ai, sym d A -> psd d A -> is_inv d A Ai ->
  rsum n a * (dot d dl dl + tr d (gmom n a X p) + tr d (gmom m b Y q) - tr d (mul d A (gmom n a X p)) - tr d (mul d Ai (gmom m b Y q))) <= cost n m (sqeu d X Y) T.
Proof.
  intros A Ai H1 H2 H3. rewrite cost_expand. pose proof (coupling_mass n m a b T HT) as Em.
  assert (H : 2 * dsum n m (fun i j => T i j * dot d (fun t => X i t - p t) (fun t => Y j t - q t)) <= rsum n a * (tr d (mul d A (gmom n a X p)) + tr d (mul d Ai (gmom m b Y q)))).
  { rewrite Rmult_plus_distr_l. rewrite <- mom_qf by auto. rewrite Em, <- mom_qf by (rewrite <- Em; auto). rewrite <- (coupling_sums n m a b T HT), <- dsum_scal.
    apply dsum_le; intros i j Hi Hj. destruct HT as [HN _]. pose proof (young d A Ai (fun t => X i t - p t) (fun t => Y j t - q t) H1 H2 H3) as K.
    pose proof (HN i j Hi Hj). nra. }
  lra.
Qed.
End LB.

(** the model's moments *)
Lemma emp_mean_R : forall n w X bias t, emp_mean (N:=RNum) n w X bias t = if bias then gmean n w X t else 0.
Proof. intros. unfold emp_mean, gmean. destruct bias; [|reflexivity]. rewrite !nsum_R. reflexivity. Qed.
Lemma emp_cov_R : forall n w X reg bias s t, emp_cov (N:=RNum) n w X reg bias s t = gmom n w X (emp_mean (N:=RNum) n w X bias) s t + reg * mI s t.
Proof.
  intros. unfold emp_cov, gmom. rewrite !nsum_R. cbn. f_equal. f_equal. apply rsum_ext; intros i Hi. unfold centre. destruct bias; cbn; ring.
Qed.
Lemma mdot_mul : forall d A B, meq d (mdot (N:=RNum) d A B) (mul d A B).
Proof. intros d A B i j _ _. rewrite mdot_R. reflexivity. Qed.
Lemma dots3_mul : forall d A B C, meq d (dots3 (N:=RNum) d A B C) (mul d (mul d A B) C).
Proof. intros. unfold dots3. rewrite mdot_mul, mdot_mul. reflexivity. Qed.
Lemma vdot_R : forall d x A j, vdot (N:=RNum) d x A j = rsum d (fun i => x i * A i j).
Proof. intros. unfold vdot. rewrite nsum_R. reflexivity. Qed.
Lemma emp_w_sum : forall n w, match w with Some w => 0 < rsum n w | None => (0 < n)%nat end -> 0 < rsum n (emp_w (N:=RNum) n w).
Proof.
  intros n [w|] H; auto. unfold emp_w. rewrite nofnat_INR. cbn. rewrite rsum_const. apply lt_INR in H. cbn in H.
  replace (INR n * (1 / INR n)) with 1 by (field; lra). lra.
Qed.
