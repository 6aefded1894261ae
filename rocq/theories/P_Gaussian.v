(** C111-C115: Gaussian transport. *)
From Coq Require Import Reals Lra Lia List Arith Setoid Morphisms.
From Verif Require Import Num Sums Spec Entropy Mat Emd1d_model Optim_model Utils_model Da_model Duals_proofs Da_reg_proofs Emd1d_perm_proofs Fsb_proofs Coot_proofs Gaussian_model Gaussian_proofs Gaussian_emp.
Local Open Scope R_scope.
Ltac req := match goal with |- ?x = ?y => change (@eq R x y) end.

(** The contract of the backend on one pair of covariances: sqrtm returns the symmetric positive semidefinite
    root of Cs and of Cs^(1/2) Ct Cs^(1/2), and inv inverts the first. *)
Definition pair_ok (sqrtm inv : nat -> mat -> mat) (d : nat) (Cs Ct : mat) : Prop :=
  let S := sqrtm d Cs in let P := dots3 (N:=RNum) d S Ct S in is_sqrt d S Cs /\ is_inv d S (inv d S) /\ is_sqrt d (sqrtm d P) P.
Definition Mof (sqrtm : nat -> mat -> mat) (d : nat) (Cs Ct : mat) : mat := sqrtm d (dots3 (N:=RNum) d (sqrtm d Cs) Ct (sqrtm d Cs)).
Lemma pair_M : forall sqrtm inv d Cs Ct, pair_ok sqrtm inv d Cs Ct -> is_sqrt d (Mof sqrtm d Cs Ct) (mul d (mul d (sqrtm d Cs) Ct) (sqrtm d Cs)).
Proof. intros sqrtm inv d Cs Ct [_ [_ H]]. rewrite <- dots3_mul. exact H. Qed.
Lemma bures_A_bA : forall sqrtm inv d Cs Ct, meq d (bures_A (N:=RNum) sqrtm inv d Cs Ct) (bA d (inv d (sqrtm d Cs)) (Mof sqrtm d Cs Ct)).
Proof. intros. unfold bures_A, bA. cbv zeta. rewrite dots3_mul. reflexivity. Qed.
Lemma A_facts : forall sqrtm inv d Cs Ct, pair_ok sqrtm inv d Cs Ct -> let A := bures_A (N:=RNum) sqrtm inv d Cs Ct in
  sym d A /\ psd d A /\ meq d (mul d (mul d A Cs) A) Ct.
Proof.
  intros sqrtm inv d Cs Ct H A. pose proof (pair_M _ _ _ _ _ H) as HM. destruct H as [H1 [H2 _]]. unfold A. rewrite !bures_A_bA.
  split; [|split]; [apply (bA_sym d Cs Ct (sqrtm d Cs)); auto | apply (bA_psd d Cs Ct (sqrtm d Cs)); auto | apply (bA_maps d Cs Ct (sqrtm d Cs)); auto].
Qed.
(** bures_wasserstein_mapping, covariances and means *)
Theorem C111_mapping : forall sqrtm inv d ms mt Cs Ct, pair_ok sqrtm inv d Cs Ct ->
  let A := fst (bures_wasserstein_mapping (N:=RNum) sqrtm inv d ms mt Cs Ct) in let b := snd (bures_wasserstein_mapping (N:=RNum) sqrtm inv d ms mt Cs Ct) in
  sym d A /\ psd d A /\ meq d (mul d (mul d A Cs) A) Ct /\ forall t, rsum d (fun s => ms s * A s t) + b t = mt t.
Proof.
  intros sqrtm inv d ms mt Cs Ct H. cbv zeta. cbn [fst snd bures_wasserstein_mapping].
  destruct (A_facts _ _ _ _ _ H) as [H1 [H2 H3]]. repeat split; auto. intros t. rewrite vdot_R. cbn. ring.
Qed.
Lemma lt_apply_R : forall d A b x t, lt_apply (N:=RNum) d (A, b) x t = rsum d (fun s => x s * A s t) + b t.
Proof. intros. unfold lt_apply. cbn [fst snd]. rewrite vdot_R. reflexivity. Qed.
Lemma gmom_image : forall n d w X A mu (y : mat) (c : vec), (forall i t, (t < d)%nat -> y i t - c t = rsum d (fun s => (X i s - mu s) * A s t)) ->
  meq d (gmom n w y c) (mul d (mul d (tp A) (gmom n w X mu)) A).
Proof.
  intros n d w X A mu y c H p q Hp Hq. unfold gmom, mul, tp.
  rewrite (rsum_ext n _ (fun i => rsum d (fun r => rsum d (fun s => A s p * (w i * (X i s - mu s) * (X i r - mu r)) * A r q)))).
  2:{ intros i Hi. rewrite (H i p Hp), (H i q Hq), Rmult_assoc, rsum_mult, <- rsum_scal.
      rewrite (rsum_ext d _ (fun s => rsum d (fun r => A s p * (w i * (X i s - mu s) * (X i r - mu r)) * A r q))) by (intros; rewrite <- rsum_scal; apply rsum_ext; intros; ring).
      apply rsum_swap. }
  rewrite rsum_swap. unfold Rdiv. rewrite <- rsum_scal_r. apply rsum_ext; intros r Hr. rewrite rsum_swap.
  rewrite <- !rsum_scal_r. apply rsum_ext; intros s Hs'.
  rewrite (rsum_ext n _ (fun i => (A s p * A r q) * (w i * (X i s - mu s) * (X i r - mu r)))) by (intros; ring).
  rewrite rsum_scal. ring.
Qed.
Definition centre_of (n : nat) (w : vec) (X : mat) (bias : bool) : vec := fun t => if bias then gmean n w X t else 0.
(** the weights the empirical functions use are sound: given weights have a positive sum, default ones a sample *)
Definition mass_ok (n : nat) (w : option vec) : Prop := match w with Some w => 0 < rsum n w | None => (0 < n)%nat end.
Definition wts (n : nat) (w : option vec) : vec := match w with Some w => w | None => fun _ => 1 / INR n end.
Lemma wts_emp : forall n w i, emp_w (N:=RNum) n w i = wts n w i.
Proof. intros n [w|] i; auto. unfold emp_w, wts. rewrite nofnat_INR. reflexivity. Qed.
Lemma wts_sum : forall n w, rsum n (emp_w (N:=RNum) n w) = rsum n (wts n w).
Proof. intros. apply rsum_ext; intros; apply wts_emp. Qed.
Lemma gmean_w : forall n w X t, gmean n (emp_w (N:=RNum) n w) X t = gmean n (wts n w) X t.
Proof. intros. unfold gmean. rewrite wts_sum. f_equal. apply rsum_ext; intros; rewrite wts_emp; reflexivity. Qed.
Lemma gmom_w : forall n w X mu s t, gmom n (emp_w (N:=RNum) n w) X mu s t = gmom n (wts n w) X mu s t.
Proof. intros. unfold gmom. rewrite wts_sum. f_equal. apply rsum_ext; intros; rewrite wts_emp; reflexivity. Qed.
Lemma gmom_ext : forall n w X mu mu' s t, mu s = mu' s -> mu t = mu' t -> gmom n w X mu s t = gmom n w X mu' s t.
Proof. intros. unfold gmom. rewrite H, H0. reflexivity. Qed.
Lemma emp_mean_w : forall n w X bias t, emp_mean (N:=RNum) n (emp_w (N:=RNum) n w) X bias t = centre_of n (wts n w) X bias t.
Proof. intros. rewrite emp_mean_R. unfold centre_of. rewrite gmean_w. reflexivity. Qed.
Lemma emp_cov_w : forall n w X reg bias s t, emp_cov (N:=RNum) n (emp_w (N:=RNum) n w) X reg bias s t = gmom n (wts n w) X (centre_of n (wts n w) X bias) s t + reg * mI s t.
Proof. intros. rewrite emp_cov_R, gmom_w. f_equal. apply gmom_ext; apply emp_mean_w. Qed.

Section Emp.
Variables (sqrtm inv : nat -> mat -> mat) (n m d : nat) (xs xt : mat) (reg : R) (ws wt : option vec) (bias : bool).
Let Cs := emp_cov (N:=RNum) n (emp_w (N:=RNum) n ws) xs reg bias.
Let Ct := emp_cov (N:=RNum) m (emp_w (N:=RNum) m wt) xt reg bias.
Let AB := empirical_mapping (N:=RNum) sqrtm inv n m d xs xt reg ws wt bias.
Let w := wts n ws.
Let v := wts m wt.
Definition image : mat := fun i => lt_apply (N:=RNum) d AB (xs i).
Lemma image_eq : forall i t, image i t - centre_of m v xt bias t = rsum d (fun s => (xs i s - centre_of n w xs bias s) * fst AB s t).
Proof.
  intros. unfold image. rewrite (surjective_pairing AB), lt_apply_R. cbn [fst snd]. set (A := fst AB).
  assert (Eb : snd AB t = centre_of m v xt bias t - rsum d (fun s => centre_of n w xs bias s * A s t)).
  { unfold AB, empirical_mapping, bures_wasserstein_mapping. cbn [snd]. rewrite vdot_R. change (nsub (n:=RNum)) with Rminus. rewrite emp_mean_w. f_equal.
    apply rsum_ext; intros s Hs. rewrite emp_mean_w. reflexivity. }
  rewrite Eb. rewrite (rsum_ext d (fun s => (xs i s - centre_of n w xs bias s) * A s t) (fun s => xs i s * A s t - centre_of n w xs bias s * A s t)) by (intros; ring).
  rewrite rsum_minus. ring.
Qed.
(** the image of the source samples has the mean and (reg = 0) the covariance of the target samples; in general the
    regularisation enters as reg (A A - I); without bias the second moments are matched *)
Theorem C111_moments : mass_ok n ws -> mass_ok m wt -> pair_ok sqrtm inv d Cs Ct ->
  (bias = true -> forall t, (t < d)%nat -> gmean n w image t = gmean m v xt t) /\
  meq d (ma (gmom n w image (centre_of m v xt bias)) (ms reg (mul d (fst AB) (fst AB)))) (ma (gmom m v xt (centre_of m v xt bias)) (ms reg mI)).
Proof.
  intros Hw Hv H. pose proof (A_facts _ _ _ _ _ H) as [H1 [H2 H3]]. set (A := fst AB) in *. change (bures_A (N:=RNum) sqrtm inv d Cs Ct) with A in *.
  assert (Hs : rsum n w <> 0). { pose proof (emp_w_sum n ws Hw) as P. rewrite wts_sum in P. unfold w. lra. }
  split.
  - intros Eb t Ht. assert (P : rsum n (fun i => w i * (image i t - centre_of m v xt bias t)) = 0).
    { rewrite (rsum_ext n _ (fun i => rsum d (fun s => w i * (xs i s - centre_of n w xs bias s) * A s t))) by (intros; rewrite image_eq, <- rsum_scal; apply rsum_ext; intros; fold A; ring).
      rewrite rsum_swap. apply rsum_0; intros s Hs'. rewrite rsum_scal_r. unfold centre_of. rewrite Eb, gmean_centre by auto. ring. }
    rewrite (rsum_ext n _ (fun i => w i * image i t - w i * centre_of m v xt bias t)) in P by (intros; ring). rewrite rsum_minus, rsum_scal_r in P.
    unfold gmean at 1. replace (rsum n (fun i => w i * image i t)) with (rsum n w * centre_of m v xt bias t) by lra.
    unfold centre_of. rewrite Eb. field. auto.
  - rewrite (gmom_image n d w xs A (centre_of n w xs bias) image (centre_of m v xt bias) (fun i t _ => image_eq i t)).
    unfold sym in H1. rewrite H1.
    assert (EC : meq d Cs (ma (gmom n w xs (centre_of n w xs bias)) (ms reg mI))) by (intros i j _ _; apply emp_cov_w).
    assert (ET : meq d Ct (ma (gmom m v xt (centre_of m v xt bias)) (ms reg mI))) by (intros i j _ _; apply emp_cov_w).
    rewrite <- ET, <- H3, EC, mul_maR, mul_maL, !mul_msR, !mul_msL, mul1r. reflexivity.
Qed.
(** matching any sample with its image is an optimal plan between the sample and the image *)
Theorem C111_optimal : forall k u X T, pair_ok sqrtm inv d Cs Ct ->
  let Y := fun i => lt_apply (N:=RNum) d AB (X i) in coupling k k u u T -> rsum k (fun i => u i * sqeu d X Y i i) <= cost k k (sqeu d X Y) T.
Proof.
  intros k u X T H Y HT. pose proof (A_facts _ _ _ _ _ H) as [H1 [H2 H3]]. set (A := fst AB) in *. change (bures_A (N:=RNum) sqrtm inv d Cs Ct) with A in *. set (b := snd AB).
  assert (EY : forall i t, (t < d)%nat -> Y i t = mv d A (X i) t + b t).
  { intros i t Ht. unfold Y. rewrite (surjective_pairing AB), lt_apply_R. fold A b. f_equal. unfold mv. apply rsum_ext; intros s Hs. rewrite <- (H1 t s Ht Hs). unfold tp. ring. }
  set (f := fun i => dot d (X i) (X i) - qf d A (X i) - 2 * dot d (X i) b). set (g := fun j => dot d (Y j) (Y j) - qf d A (X j)).
  assert (ES : forall i j, sqeu d X Y i j = dot d (X i) (X i) + dot d (Y j) (Y j) - 2 * dot d (X i) (Y j)).
  { intros. unfold sqeu, Mat.dot. rewrite <- rsum_scal, <- rsum_plus, <- rsum_minus. apply rsum_ext; intros; ring. }
  assert (EXY : forall i j, dot d (X i) (Y j) = dot d (X i) (mv d A (X j)) + dot d (X i) b).
  { intros. rewrite <- dot_plus_r. apply dot_ext; intros; auto. }
  assert (L : forall i j, f i + g j <= sqeu d X Y i j).
  { intros i j. rewrite ES, EXY. unfold f, g. pose proof (H2 (fun t => X i t - X j t)) as P. unfold qf in *.
    rewrite dot_minus_l, !(fun x => dot_ext d x x (mv d A (fun t => X i t - X j t)) (fun t => mv d A (X i) t - mv d A (X j) t) (fun _ _ => eq_refl) (fun t _ => mv_minus d A (X i) (X j) t)), !dot_minus_r in P.
    rewrite (dot_sym_mv d A (X j) (X i) H1), (dotC d (mv d A (X j)) (X i)) in P. lra. }
  rewrite (rsum_ext k _ (fun i => u i * f i + u i * g i)).
  2:{ intros i Hi. rewrite ES, EXY. unfold f, g, qf. ring. }
  rewrite rsum_plus, <- (coupling_sums k k u u T HT). unfold cost. apply dsum_le; intros i j Hi Hj. rewrite Rmult_comm.
  apply Rmult_le_compat_r; [apply HT; auto | apply L].
Qed.
End Emp.
Print Assumptions C111_mapping.
Print Assumptions C111_moments.
Print Assumptions C111_optimal.
Lemma mv_row : forall d (x : vec) A t, rsum d (fun s => x s * A s t) = mv d (tp A) x t.
Proof. intros. unfold mv, tp. apply rsum_ext; intros; ring. Qed.
(** LinearTransport: the two maps are inverse of each other *)
Theorem C111_inverse : forall inv d A B x t, is_inv d A (inv d A) -> (t < d)%nat ->
  lt_apply (N:=RNum) d (lt_inverse (N:=RNum) inv d A B) (lt_apply (N:=RNum) d (A, B) x) t = x t /\
  lt_apply (N:=RNum) d (A, B) (lt_apply (N:=RNum) d (lt_inverse (N:=RNum) inv d A B) x) t = x t.
Proof.
  intros inv d A B x t Hi Ht. pose proof (inv_tp _ _ _ Hi) as [Q1 Q2]. unfold lt_inverse. cbv zeta. set (Ai := inv d A) in *.
  assert (P1 : forall y, mv d (tp Ai) (mv d (tp A) y) t = y t) by (intros; rewrite <- mv_mul, (mv_ext d _ mI y y t); auto; apply mv_I; auto).
  assert (P2 : forall y, mv d (tp A) (mv d (tp Ai) y) t = y t) by (intros; rewrite <- mv_mul, (mv_ext d _ mI y y t); auto; apply mv_I; auto).
  assert (Hb : forall s, nopp (N:=RNum) (vdot (N:=RNum) d B Ai s) = - mv d (tp Ai) B s) by (intros; rewrite vdot_R, mv_row; unfold nopp; cbn; ring).
  split.
  - rewrite lt_apply_R, mv_row, Hb.
    rewrite (mv_ext d (tp Ai) (tp Ai) _ (fun s => mv d (tp A) x s + B s) t); auto; [|reflexivity|intros; rewrite lt_apply_R, mv_row; reflexivity].
    replace (mv d (tp Ai) (fun s => mv d (tp A) x s + B s) t) with (mv d (tp Ai) (mv d (tp A) x) t + mv d (tp Ai) B t) by (unfold mv; rewrite <- rsum_plus; apply rsum_ext; intros; ring).
    rewrite P1. req; ring.
  - rewrite lt_apply_R, mv_row.
    rewrite (mv_ext d (tp A) (tp A) _ (fun s => mv d (tp Ai) x s - mv d (tp Ai) B s) t); auto; [|reflexivity|intros; rewrite lt_apply_R, mv_row, Hb; req; ring].
    rewrite mv_minus, !P2. req; ring.
Qed.
Print Assumptions C111_inverse.

(** * distances *)
Lemma bures_sq_R : forall sqrtm d Cs Ct, bures_sq (N:=RNum) sqrtm d Cs Ct = bsq d Cs Ct (Mof sqrtm d Cs Ct).
Proof.
  intros. unfold bures_sq, trace, bsq, tr. cbv zeta. fold (Mof sqrtm d Cs Ct). rewrite nsum_R, <- rsum_plus, <- rsum_scal, <- rsum_minus.
  apply rsum_ext; intros. unfold two. cbn. ring.
Qed.
Lemma bures_R : forall sqrtm inv d Cs Ct, pair_ok sqrtm inv d Cs Ct -> bures_distance (N:=RNum) sqrtm sqrt d Cs Ct = sqrt (bsq d Cs Ct (Mof sqrtm d Cs Ct)) /\ 0 <= bsq d Cs Ct (Mof sqrtm d Cs Ct).
Proof.
  intros sqrtm inv d Cs Ct H. pose proof (pair_M _ _ _ _ _ H) as HM. destruct H as [H1 [H2 _]].
  pose proof (bsq_nonneg d Cs Ct _ _ _ H1 H2 HM) as P. split; auto. unfold bures_distance. rewrite bures_sq_R, nmax_R, Rmax_left; auto.
Qed.
Lemma bw_R : forall sqrtm inv d ms mt Cs Ct, pair_ok sqrtm inv d Cs Ct ->
  bures_wasserstein_distance (N:=RNum) sqrtm sqrt d ms mt Cs Ct = sqrt (dot d (fun t => ms t - mt t) (fun t => ms t - mt t) + bsq d Cs Ct (Mof sqrtm d Cs Ct)).
Proof.
  intros sqrtm inv d ms mt Cs Ct H. destruct (bures_R _ _ _ _ _ H) as [E P]. unfold bures_wasserstein_distance. cbv zeta. rewrite E. unfold vnorm. rewrite nsum_R.
  pose proof (dot_nonneg d (fun t => ms t - mt t)) as Q. rewrite nmax_R. f_equal. cbn.
  change (rsum d (fun i => (ms i - mt i) * (ms i - mt i))) with (dot d (fun t => ms t - mt t) (fun t => ms t - mt t)).
  rewrite !sqrt_sqrt by auto. apply Rmax_left. lra.
Qed.
Definition invertible (d : nat) (C : mat) : Prop := exists Ci, is_inv d C Ci.

Section EmpDist.
Variables (sqrtm inv : nat -> mat -> mat) (n m d : nat) (xs xt : mat) (reg : R) (ws wt : option vec) (bias : bool).
Let Cs := emp_cov (N:=RNum) n (emp_w (N:=RNum) n ws) xs reg bias.
Let Ct := emp_cov (N:=RNum) m (emp_w (N:=RNum) m wt) xt reg bias.
Let w := wts n ws.
Let v := wts m wt.
Let W := empirical_distance (N:=RNum) sqrtm sqrt n m d xs xt reg ws wt bias.
Let p := centre_of n w xs bias.
Let q := centre_of m v xt bias.
Lemma EC : meq d Cs (ma (gmom n w xs p) (ms reg mI)). Proof. intros i j _ _; apply emp_cov_w. Qed.
Lemma ET : meq d Ct (ma (gmom m v xt q) (ms reg mI)). Proof. intros i j _ _; apply emp_cov_w. Qed.
Lemma W_sq : pair_ok sqrtm inv d Cs Ct -> W * W = dot d (fun t => p t - q t) (fun t => p t - q t) + bsq d Cs Ct (Mof sqrtm d Cs Ct).
Proof.
  intros H. unfold W, empirical_distance. cbv zeta. fold Cs Ct. rewrite (bw_R _ _ _ _ _ _ _ H). rewrite sqrt_sqrt.
  - f_equal. apply dot_ext; intros; rewrite !emp_mean_w; reflexivity.
  - destruct (bures_R _ _ _ _ _ H) as [_ P]. pose proof (dot_nonneg d (fun t => emp_mean (N:=RNum) n (emp_w (N:=RNum) n ws) xs bias t - emp_mean (N:=RNum) m (emp_w (N:=RNum) m wt) xt bias t)). lra.
Qed.
(** the empirical Bures-Wasserstein distance never exceeds the squared-Euclidean Wasserstein distance of the samples *)
Theorem C112_lower : 0 <= reg -> mass_ok n ws -> mass_ok m wt -> pair_ok sqrtm inv d Cs Ct -> invertible d Ct ->
  forall T, coupling n m w v T -> rsum n w * (W * W) <= cost n m (sqeu d xs xt) T.
Proof.
  intros Hr Hw Hv H [Cti HI] T HT. rewrite (W_sq H). pose proof (pair_M _ _ _ _ _ H) as HM. destruct H as [H1 [H2 _]].
  set (S := sqrtm d Cs) in *. set (Si := inv d S) in *. set (M := Mof sqrtm d Cs Ct) in *.
  set (A := bA d Si M). set (Ai := bAi d S Si M Cti).
  assert (HA : is_inv d A Ai) by (exact (bA_inv d Ct S Si M H2 HM _ HI)).
  assert (Hsy : sym d A) by (exact (bA_sym d Cs Ct S Si M H1 H2 HM)).
  assert (Hps : psd d A) by (exact (bA_psd d Cs Ct S Si M H1 H2 HM)).
  assert (Ps : 0 < rsum n w). { pose proof (emp_w_sum n ws Hw) as P. rewrite wts_sum in P. exact P. }
  assert (Pv : 0 < rsum m v). { pose proof (emp_w_sum m wt Hv) as P. rewrite wts_sum in P. exact P. }
  assert (Hp : forall t, (t < d)%nat -> rsum n (fun i => w i * (xs i t - p t)) * (p t - q t) = 0).
  { intros t Ht. unfold p, q, centre_of. destruct bias; [rewrite gmean_centre by lra; ring | ring]. }
  assert (Hq : forall t, (t < d)%nat -> rsum m (fun i => v i * (xt i t - q t)) * (p t - q t) = 0).
  { intros t Ht. unfold p, q, centre_of. destruct bias; [rewrite gmean_centre by lra; ring | ring]. }
  eapply Rle_trans; [|exact (cost_lower n m d w v xs xt p q T HT (Rgt_not_eq _ _ Ps) Hp Hq A Ai Hsy Hps HA)].
  apply Rmult_le_compat_l; [lra|].
  pose proof (tr_CA d Cs S Si M H1 H2) as E1. pose proof (tr_TAi d Cs Ct S Si M H1 H2 HM _ HI) as E2.
  fold A in E1. fold Ai in E2. rewrite EC, tr_mulC, mul_maR, mul_msR, mul1r, tr_ma, tr_ms in E1. rewrite ET, tr_mulC, mul_maR, mul_msR, mul1r, tr_ma, tr_ms in E2.
  pose proof (tr_inv_ge d A Ai Hsy Hps HA) as E3. unfold bsq. rewrite EC at 1. rewrite ET at 1. rewrite !tr_ma, !tr_ms, tr_I.
  pose proof (Rmult_le_compat_l reg _ _ Hr E3). lra.
Qed.
(** and with reg = 0 it is the cost of the linear map of C111 *)
Theorem C112_attained : reg = 0 -> mass_ok n ws -> mass_ok m wt -> pair_ok sqrtm inv d Cs Ct ->
  rsum n w * (W * W) = rsum n (fun i => w i * sqeu d xs (image sqrtm inv n m d xs xt reg ws wt bias) i i).
Proof.
  intros Hr Hw Hv H. rewrite (W_sq H). pose proof (A_facts _ _ _ _ _ H) as [F1 [F2 F3]]. pose proof (pair_M _ _ _ _ _ H) as HM. destruct H as [H1 [H2 _]].
  assert (Ps : 0 < rsum n w). { pose proof (emp_w_sum n ws Hw) as P. rewrite wts_sum in P. exact P. }
  set (A := bures_A (N:=RNum) sqrtm inv d Cs Ct) in *. set (y := image sqrtm inv n m d xs xt reg ws wt bias).
  assert (Ey : forall i t, (t < d)%nat -> y i t - q t = mv d A (fun s => xs i s - p s) t).
  { intros i t Ht. unfold y, q, v. rewrite image_eq. change (fst (empirical_mapping (N:=RNum) sqrtm inv n m d xs xt reg ws wt bias)) with A.
    unfold mv. apply rsum_ext; intros s Hs. rewrite <- (F1 t s Ht Hs). unfold tp, p, w. ring. }
  assert (E : forall i, sqeu d xs y i i = dot d (fun t => xs i t - p t) (fun t => xs i t - p t) + 2 * rsum d (fun t => (xs i t - p t) * (p t - q t)) + dot d (fun t => p t - q t) (fun t => p t - q t)
     + (qf d (mul d A A) (fun t => xs i t - p t) - 2 * rsum d (fun t => (y i t - q t) * (p t - q t))) - 2 * qf d A (fun t => xs i t - p t)).
  { intros i. unfold sqeu. rewrite (sq_expand d (fun t => xs i t) (fun t => y i t) p q).
    rewrite (dot_ext d (fun t => xs i t - p t) (fun t => xs i t - p t) (fun t => y i t - q t) (mv d A (fun s => xs i s - p s))) by auto.
    rewrite (dot_ext d (fun t => y i t - q t) (mv d A (fun s => xs i s - p s)) (fun t => y i t - q t) (mv d A (fun s => xs i s - p s))) by auto.
    unfold qf. rewrite <- dot_sym_mv by auto. rewrite (dot_ext d _ (fun s => xs i s - p s) (mv d (mul d A A) (fun t => xs i t - p t)) (mv d A (mv d A (fun s => xs i s - p s)))); auto. intros; apply mv_mul. }
  rewrite (rsum_ext n (fun i => w i * sqeu d xs y i i) (fun i => w i * dot d (fun t => xs i t - p t) (fun t => xs i t - p t) + 2 * (w i * rsum d (fun t => (xs i t - p t) * (p t - q t))) + w i * dot d (fun t => p t - q t) (fun t => p t - q t)
     + w i * qf d (mul d A A) (fun t => xs i t - p t) - 2 * (w i * rsum d (fun t => (y i t - q t) * (p t - q t))) - 2 * (w i * qf d A (fun t => xs i t - p t)))) by (intros; rewrite E; ring).
  rewrite !rsum_minus, !rsum_plus, !rsum_scal, rsum_scal_r.
  rewrite (cross_zero n d w xs p (fun t => p t - q t)).
  2:{ intros t Ht. unfold p, q, centre_of. destruct bias; [rewrite gmean_centre by lra; ring | ring]. }
  rewrite (cross_zero n d w y q (fun t => p t - q t)).
  2:{ intros t Ht. destruct bias eqn:Eb; [|unfold p, q, centre_of; ring].
      rewrite (rsum_ext n _ (fun i => rsum d (fun s => A t s * (w i * (xs i s - p s))))) by (intros; rewrite Ey by auto; unfold mv; rewrite <- rsum_scal; apply rsum_ext; intros; ring).
      rewrite rsum_swap. rewrite rsum_0; [ring|]. intros s Hs. rewrite rsum_scal. unfold p, centre_of. rewrite gmean_centre by lra. ring. }
  rewrite mom_dot by lra. rewrite !mom_qf by lra.
  assert (G : meq d (gmom n w xs p) Cs). { intros i j Hi Hj. rewrite (EC i j Hi Hj), Hr. unfold ma, ms. ring. }
  rewrite G. assert (E1 : tr d (mul d A Cs) = tr d (Mof sqrtm d Cs Ct)).
  { rewrite tr_mulC. unfold A. rewrite bures_A_bA. apply (tr_CA d Cs (sqrtm d Cs)); auto. }
  rewrite E1. rewrite mulA, tr_mulC, F3. unfold bsq. ring.
Qed.
End EmpDist.
Print Assumptions C112_lower.
Print Assumptions C112_attained.

(** * the distance is a metric *)
Lemma mink2 : forall a b c x y z, 0 <= a -> 0 <= b -> 0 <= c -> 0 <= x -> 0 <= y -> 0 <= z -> a <= b + c -> x <= y + z ->
  sqrt (a * a + x * x) <= sqrt (b * b + y * y) + sqrt (c * c + z * z).
Proof.
  intros a b c x y z Ha Hb Hc Hx Hy Hz H1 H2. apply Rsqr_incr_0_var; [|apply Rplus_le_le_0_compat; apply sqrt_pos].
  rewrite Rsqr_plus, !Rsqr_sqrt by nra.
  assert (b * c + y * z <= sqrt (b * b + y * y) * sqrt (c * c + z * z)).
  { rewrite <- sqrt_mult by nra. rewrite <- (sqrt_square (b * c + y * z)) by nra. apply sqrt_le_1_alt.
    assert (0 <= (b * z - c * y) * (b * z - c * y)) by apply Rle_0_sqr. nra. }
  nra.
Qed.
Lemma vec_mink : forall d (x y : vec), sqrt (dot d (fun t => x t + y t) (fun t => x t + y t)) <= sqrt (dot d x x) + sqrt (dot d y y).
Proof.
  intros d x y. pose proof (dot_nonneg d x) as Hx. pose proof (dot_nonneg d y) as Hy.
  assert (E : dot d (fun t => x t + y t) (fun t => x t + y t) = dot d x x + 2 * dot d x y + dot d y y).
  { unfold Mat.dot. rewrite <- rsum_scal, <- !rsum_plus. apply rsum_ext; intros; ring. }
  pose proof (rsum_CS d x y) as H. rewrite (rsum_ext d (fun i => x i ^ 2) (fun i => x i * x i)), (rsum_ext d (fun i => y i ^ 2) (fun i => y i * y i)) in H by (intros; ring).
  fold (dot d x y) (dot d x x) (dot d y y) in H.
  apply Rsqr_incr_0_var; [|apply Rplus_le_le_0_compat; apply sqrt_pos]. rewrite Rsqr_plus, !Rsqr_sqrt by (auto; apply dot_nonneg). rewrite E.
  assert (dot d x y <= sqrt (dot d x x) * sqrt (dot d y y)); [|lra]. rewrite <- sqrt_mult by auto.
  eapply Rle_trans; [apply Rle_abs|]. rewrite <- sqrt_Rsqr_abs. apply sqrt_le_1_alt. unfold Rsqr. lra.
Qed.
Notation bwd sqrtm := (bures_wasserstein_distance (N:=RNum) sqrtm sqrt).
Lemma pair_inv : forall sqrtm inv d C T, pair_ok sqrtm inv d C T -> is_inv d C (mul d (inv d (sqrtm d C)) (inv d (sqrtm d C))).
Proof. intros sqrtm inv d C T [H [H' _]]. destruct H as [_ [_ E]]. generalize dependent (inv d (sqrtm d C)). generalize dependent (sqrtm d C). intros S E Si H'. rewrite <- E. apply inv_mul; auto. Qed.
Theorem C113_zero : forall sqrtm inv d m1 m2 C1 C2, pair_ok sqrtm inv d C1 C2 ->
  0 <= bwd sqrtm d m1 m2 C1 C2 /\ (bwd sqrtm d m1 m2 C1 C2 = 0 <-> (forall t, (t < d)%nat -> m1 t = m2 t) /\ meq d C1 C2).
Proof.
  intros sqrtm inv d m1 m2 C1 C2 H. rewrite (bw_R _ _ _ _ _ _ _ H). split; [apply sqrt_pos|].
  destruct (bures_R _ _ _ _ _ H) as [_ P]. pose proof (dot_nonneg d (fun t => m1 t - m2 t)) as Q. pose proof (pair_M _ _ _ _ _ H) as HM. destruct H as [H1 [H2 _]]. split.
  - intros E. apply sqrt_eq_0 in E; [|lra]. split.
    + intros t Ht. assert (E' : dot d (fun t => m1 t - m2 t) (fun t => m1 t - m2 t) = 0) by lra. unfold Mat.dot in E'.
      pose proof (rsum_nonneg_zero d _ (fun k _ => Rle_0_sqr (m1 k - m2 k)) E' t Ht) as E2. cbv beta in E2. destruct (Rmult_integral _ _ E2); lra.
    + eapply (bsq_zero d C1 C2); eauto. lra.
  - intros [E1 E2]. rewrite (bsq_self d C1 C2 _ _ _ H1 H2 HM E2). unfold Mat.dot. rewrite rsum_0; [rewrite Rplus_0_l; apply sqrt_0|]. intros i Hi. rewrite E1 by auto. ring.
Qed.
Theorem C113_symmetric : forall sqrtm inv d m1 m2 C1 C2, pair_ok sqrtm inv d C1 C2 -> pair_ok sqrtm inv d C2 C1 -> bwd sqrtm d m1 m2 C1 C2 = bwd sqrtm d m2 m1 C2 C1.
Proof.
  intros sqrtm inv d m1 m2 C1 C2 H H'. rewrite (bw_R _ _ _ _ _ _ _ H), (bw_R _ _ _ _ _ _ _ H'). f_equal. f_equal.
  - unfold Mat.dot. apply rsum_ext; intros; ring.
  - unfold bsq. pose proof (pair_M _ _ _ _ _ H) as HM. pose proof (pair_M _ _ _ _ _ H') as HM'. destruct H as [H1 [H2 _]]. destruct H' as [H1' [H2' _]].
    rewrite (trM_sym d C1 C2 _ _ _ _ _ _ H1 H2 HM H1' H2' HM'). ring.
Qed.
Theorem C113_triangle : forall sqrtm inv d m1 m2 m3 C1 C2 C3,
  pair_ok sqrtm inv d C1 C3 -> pair_ok sqrtm inv d C1 C2 -> pair_ok sqrtm inv d C2 C1 -> pair_ok sqrtm inv d C2 C3 -> invertible d C3 ->
  bwd sqrtm d m1 m3 C1 C3 <= bwd sqrtm d m1 m2 C1 C2 + bwd sqrtm d m2 m3 C2 C3.
Proof.
  intros sqrtm inv d m1 m2 m3 C1 C2 C3 H13 H12 H21 H23 [C3i HI]. rewrite (C113_symmetric sqrtm inv d m1 m2 C1 C2 H12 H21).
  rewrite (bw_R _ _ _ _ _ _ _ H13), (bw_R _ _ _ _ _ _ _ H21), (bw_R _ _ _ _ _ _ _ H23).
  destruct (bures_R _ _ _ _ _ H13) as [_ P13]. destruct (bures_R _ _ _ _ _ H21) as [_ P21]. destruct (bures_R _ _ _ _ _ H23) as [_ P23].
  pose proof (pair_M _ _ _ _ _ H13) as M13. pose proof (pair_M _ _ _ _ _ H21) as M21. pose proof (pair_M _ _ _ _ _ H23) as M23.
  destruct H13 as [S1 [I1 _]]. destruct H21 as [S2 [I2 _]].
  pose proof (bures_triangle d C1 C2 C3 _ _ _ _ _ _ _ C3i S1 I1 S2 I2 HI M13 M21 M23) as B.
  pose proof (vec_mink d (fun t => m1 t - m2 t) (fun t => m2 t - m3 t)) as V.
  rewrite (dot_ext d _ (fun t => m1 t - m3 t) _ (fun t => m1 t - m3 t)) in V by (intros; ring).
  assert (V2 : dot d (fun t => m1 t - m2 t) (fun t => m1 t - m2 t) = dot d (fun t => m2 t - m1 t) (fun t => m2 t - m1 t)) by (unfold Mat.dot; apply rsum_ext; intros; ring).
  rewrite V2 in V.
  pose proof (mink2 _ _ _ _ _ _ (sqrt_pos _) (sqrt_pos _) (sqrt_pos _) (sqrt_pos _) (sqrt_pos _) (sqrt_pos _) V B) as R.
  rewrite !sqrt_sqrt in R by (auto; apply dot_nonneg). exact R.
Qed.
Print Assumptions C113_zero.
Print Assumptions C113_symmetric.
Print Assumptions C113_triangle.

(** * barycenters *)
(** the barycenter functional: weighted sum of squared Bures distances *)
Definition gobj (sqrtm : nat -> mat -> mat) (k d : nat) (C : nat -> mat) (w : vec) (X : mat) : R :=
  rsum k (fun p => w p * (bures_distance (N:=RNum) sqrtm sqrt d X (C p)) ^ 2).
Definition frob (d : nat) (X : mat) : R := sqrt (fro d X X).
Definition prob (k : nat) (w : vec) : Prop := (forall p, (p < k)%nat -> 0 <= w p) /\ rsum k w = 1.
Definition all_ok (sqrtm inv : nat -> mat -> mat) (k d : nat) (C : nat -> mat) (X : mat) : Prop := forall p, (p < k)%nat -> pair_ok sqrtm inv d X (C p).
Lemma gobj_bobj : forall sqrtm inv k d C w X, all_ok sqrtm inv k d C X -> gobj sqrtm k d C w X = bobj d k C w X (fun p => Mof sqrtm d X (C p)).
Proof.
  intros sqrtm inv k d C w X H. unfold gobj, bobj. apply rsum_ext; intros p Hp. destruct (bures_R _ _ _ _ _ (H p Hp)) as [E P]. rewrite E.
  f_equal. cbn [pow]. rewrite Rmult_1_r. apply sqrt_sqrt; auto.
Qed.
Definition fixmap (sqrtm : nat -> mat -> mat) (k d : nat) (C : nat -> mat) (w : vec) (Cb : mat) : mat := fix_new (N:=RNum) sqrtm k d C w Cb.
Lemma fixmap_msum : forall sqrtm k d C w Cb, meq d (fixmap sqrtm k d C w Cb) (msum k w (fun p => Mof sqrtm d Cb (C p))).
Proof. intros sqrtm k d C w Cb i j _ _. unfold fixmap, fix_new, msum. cbv zeta. rewrite nsum_R. apply rsum_ext; intros. unfold Mof. cbn. ring. Qed.
Lemma fix_loop_post : forall sqrtm norm left it k d C w eps Cb last r diff i,
  match last with Some (_, df, _) => eps < df | None => True end ->
  fix_loop (N:=RNum) sqrtm norm left it k d C w eps Cb last = Some (r, diff, i) -> diff <= eps -> diff = norm d (fun i j => r i j - fixmap sqrtm k d C w r i j).
Proof.
  induction left as [|left IH]; intros it k d C w eps Cb last r diff i HL E Hd; cbn [fix_loop] in E.
  - destruct last as [[[? df] ?]|]; [|discriminate]. injection E; intros; subst. lra.
  - cbv zeta in E. destruct (nleb (n:=RNum) _ eps) eqn:B.
    + injection E; intros; subst. reflexivity.
    + refine (IH _ _ _ _ _ _ _ _ _ _ _ _ E Hd). apply Rleb_false in B. exact B.
Qed.
Theorem C114_certificate : forall sqrtm inv k d C w num_iter eps Cb diff it,
  bures_barycenter_fixpoint (N:=RNum) sqrtm frob k d C w num_iter eps = Some (Cb, diff, it) -> diff <= eps ->
  prob k (bar_w (N:=RNum) k w) -> (forall p, (p < k)%nat -> invertible d (C p)) -> all_ok sqrtm inv k d C Cb -> (0 < k)%nat ->
  forall X, all_ok sqrtm inv k d C X ->
  let Si := inv d (sqrtm d Cb) in
  gobj sqrtm k d C (bar_w (N:=RNum) k w) Cb <= gobj sqrtm k d C (bar_w (N:=RNum) k w) X + diff * frob d (mul d (mul d Si (fun i j => X i j - Cb i j)) Si).
Proof.
  intros sqrtm inv k d C w num_iter eps Cb diff it HR Hd [Hw Hw1] HI Hok Hk X HX Si. set (W := bar_w (N:=RNum) k w) in *.
  assert (Ed : diff = frob d (fun i j => Cb i j - fixmap sqrtm k d C W Cb i j)).
  { unfold bures_barycenter_fixpoint in HR. cbv zeta in HR. fold W in HR. refine (fix_loop_post _ _ _ _ _ _ _ _ _ _ None _ _ _ I HR Hd). }
  rewrite (gobj_bobj sqrtm inv) by auto. rewrite (gobj_bobj sqrtm inv k d C W X) by auto.
  assert (HCi : exists Ci : nat -> mat, forall p, (p < k)%nat -> is_inv d (C p) (Ci p)).
  { clear -HI. induction k as [|k IH]; [exists (fun _ => mI); intros; lia|]. destruct IH as [Ci H]; [intros; apply HI; lia|]. destruct (HI k) as [c Hc]; [lia|].
    exists (fun p => if Nat.eqb p k then c else Ci p). intros p Hp. destruct (Nat.eqb_spec p k); [subst; auto | apply H; lia]. }
  destruct HCi as [Ci HCi]. destruct (Hok 0%nat Hk) as [HS [HSi _]]. destruct (HX 0%nat Hk) as [HSX [HSXi _]].
  pose proof (bobj_cert d k C Ci W Cb (sqrtm d Cb) Si (fun p => Mof sqrtm d Cb (C p)) Hw HCi HS HSi (fun p Hp => pair_M _ _ _ _ _ (Hok p Hp))
    X (sqrtm d X) (inv d (sqrtm d X)) (fun p => Mof sqrtm d X (C p)) HSX HSXi (fun p Hp => pair_M _ _ _ _ _ (HX p Hp)) Hw1) as Cert.
  eapply Rle_trans; [exact Cert|]. apply Rplus_le_compat_l.
  set (D := fun i j => X i j - Cb i j). set (E := fun i j => Cb i j - fixmap sqrtm k d C W Cb i j) in *.
  assert (ES : meq d (mul d (sqrtm d Cb) (sqrtm d Cb)) Cb) by apply HS.
  assert (SCS : meq d (mul d (mul d Si Cb) Si) mI).
  { transitivity (mul d (mul d Si (mul d (sqrtm d Cb) (sqrtm d Cb))) Si); [rewrite ES; reflexivity|].
    rewrite <- mulA. destruct HSi as [Q1 Q2]. unfold Si. rewrite Q2, mul1l. exact Q1. }
  assert (EB : meq d (ma (bT d k W Si (fun p => Mof sqrtm d Cb (C p))) (ms (-1) mI)) (ms (-1) (mul d (mul d Si E) Si))).
  { rewrite bT_eq, <- fixmap_msum, <- SCS.
    assert (EE : meq d E (ma Cb (ms (-1) (fixmap sqrtm k d C W Cb)))) by (intros i j _ _; unfold E, ma, ms; ring).
    rewrite EE. rewrite mul_maR, mul_maL, mul_msR, mul_msL. intros i j _ _. unfold ma, ms. ring. }
  assert (ED : meq d (ma X (ms (-1) Cb)) D) by (intros i j _ _; unfold D, ma, ms; ring).
  rewrite EB, ED, mul_msR, tr_ms.
  assert (Sy : sym d D).
  { assert (sX : sym d X) by (destruct HSX as [a [_ b]]; rewrite <- b; unfold sym in *; rewrite tp_mul, a; reflexivity).
    assert (sC : sym d Cb) by (rewrite <- ES; destruct HS as [a _]; unfold sym in *; rewrite tp_mul, a; reflexivity).
    intros i j Hi Hj. unfold tp, D. rewrite <- (sX i j Hi Hj), <- (sC i j Hi Hj). reflexivity. }
  assert (SiS : sym d Si) by (apply (inv_is_sym d (sqrtm d Cb)); auto; apply HS).
  set (Z := mul d (mul d Si D) Si). assert (SZ : sym d Z) by (apply sym_conj; auto).
  assert (ET : tr d (mul d D (mul d (mul d Si E) Si)) = fro d Z E).
  { unfold fro. unfold sym in SZ. rewrite SZ. unfold Z. rewrite <- mulA, tr_mulC, !mulA. reflexivity. }
  rewrite ET, Ed. unfold frob. rewrite <- sqrt_mult by apply fro_nonneg.
  pose proof (fro_CS d Z E) as CS. rewrite <- (Rmult_comm (fro d Z Z)).
  eapply Rle_trans; [apply Rle_abs|]. rewrite Rabs_mult, Rabs_left by lra. replace (- -1) with 1 by ring. rewrite Rmult_1_l, <- sqrt_Rsqr_abs. apply sqrt_le_1_alt. exact CS.
Qed.
Print Assumptions C114_certificate.
Theorem C114_no_iterations : forall (N : NumOps) sqrtm norm k d C w eps, bures_barycenter_fixpoint (N:=N) sqrtm norm k d C w 0 eps = None.
Proof. reflexivity. Qed.
(** gradient descent *)
Lemma gd_step_eq : forall sqrtm inv k d C w step Cb, rsum k w = 1 ->
  let L := ma (ms (1 - step) mI) (ms step (bT d k w (inv d (sqrtm d Cb)) (fun p => Mof sqrtm d Cb (C p)))) in
  meq d (gd_step (N:=RNum) sqrtm inv k d C w step Cb) (mul d (mul d L Cb) L).
Proof.
  intros sqrtm inv k d C w step Cb Hw L. unfold gd_step, exp_bures. cbv zeta. rewrite dots3_mul.
  assert (E : meq d (fun i j => nadd (n:=RNum) (eye (N:=RNum) i j) (nmul (n:=RNum) (nopp (N:=RNum) step) (bw_grad (N:=RNum) sqrtm inv k d C w Cb i j))) L).
  { intros i j Hi Hj. unfold bw_grad, L, ma, ms, bT, msum, nopp. cbv zeta. rewrite nsum_R. change (eye (N:=RNum) i j) with (mI i j).
    rewrite (rsum_ext k _ (fun p => w p * bA d (inv d (sqrtm d Cb)) (Mof sqrtm d Cb (C p)) i j)).
    - cbn. ring.
    - intros p Hp. rewrite (dots3_mul d _ _ _ i j Hi Hj). unfold bA, Mof. cbn. ring. }
  rewrite E. reflexivity.
Qed.
Fixpoint iter (j : nat) (f : mat -> mat) (x : mat) : mat := match j with O => x | S j => iter j f (f x) end.
Lemma gd_loop_desc : forall sqrtm inv norm k d C w step eps left Cb L, prob k w -> (0 < k)%nat -> (forall p, (p < k)%nat -> invertible d (C p)) -> 0 <= step <= 2 ->
  (forall j, (j <= left)%nat -> all_ok sqrtm inv k d C (iter j (gd_step (N:=RNum) sqrtm inv k d C w step) Cb)) ->
  gobj sqrtm k d C w (gd_loop (N:=RNum) sqrtm inv norm left k d C w step eps Cb L) <= gobj sqrtm k d C w Cb.
Proof.
  intros sqrtm inv norm k d C w step eps left. induction left as [|left IH]; intros Cb L Hw Hk HI Hs H; cbn [gd_loop]; [apply Rle_refl|]. cbv zeta.
  destruct (nleb (n:=RNum) _ eps); [apply Rle_refl|].
  eapply Rle_trans; [apply IH; auto; intros j Hj; apply (H (S j)); lia|].
  assert (O0 := H 0%nat (Nat.le_0_l _)). assert (O1 := H 1%nat (proj1 (Nat.succ_le_mono 0 left) (Nat.le_0_l left))). cbn [iter] in O0, O1. set (Cn := gd_step (N:=RNum) sqrtm inv k d C w step Cb) in *.
  rewrite (gobj_bobj sqrtm inv k d C w Cn) by auto. rewrite (gobj_bobj sqrtm inv) by auto. destruct Hw as [Hw Hw1].
  assert (HCi : exists Ci : nat -> mat, forall p, (p < k)%nat -> is_inv d (C p) (Ci p)).
  { clear -HI. induction k as [|k IH]; [exists (fun _ => mI); intros; lia|]. destruct IH as [Ci H]; [intros; apply HI; lia|]. destruct (HI k) as [c Hc]; [lia|].
    exists (fun p => if Nat.eqb p k then c else Ci p). intros p Hp. destruct (Nat.eqb_spec p k); [subst; auto | apply H; lia]. }
  destruct HCi as [Ci HCi]. destruct (O0 0%nat Hk) as [HS [HSi _]]. destruct (O1 0%nat Hk) as [HSX [HSXi _]].
  pose proof (bobj_step d k C Ci w Cb (sqrtm d Cb) (inv d (sqrtm d Cb)) (fun p => Mof sqrtm d Cb (C p)) Hw HCi HS HSi (fun p Hp => pair_M _ _ _ _ _ (O0 p Hp))
    step Cn (sqrtm d Cn) (inv d (sqrtm d Cn)) (fun p => Mof sqrtm d Cn (C p)) HSX HSXi (fun p Hp => pair_M _ _ _ _ _ (O1 p Hp)) Hw1 (gd_step_eq sqrtm inv k d C w step Cb Hw1)) as B.
  match type of B with _ + step * (2 - step) * ?f <= _ => assert (0 <= f) by apply fro_nonneg end.
  assert (0 <= step * (2 - step)) by nra.
  match type of B with _ + ?a * ?f <= _ => assert (0 <= a * f) by (apply Rmult_le_pos; auto) end. lra.
Qed.
Theorem C114_descent : forall sqrtm inv norm k d C w num_iter eps step, let W := bar_w (N:=RNum) k w in prob k W -> (0 < k)%nat -> (forall p, (p < k)%nat -> invertible d (C p)) -> 0 <= step <= 2 ->
  (forall j, (j <= num_iter)%nat -> all_ok sqrtm inv k d C (iter j (gd_step (N:=RNum) sqrtm inv k d C W step) (bar_init (N:=RNum) k C W))) ->
  gobj sqrtm k d C W (bures_barycenter_gd (N:=RNum) sqrtm inv norm k d C w num_iter eps step) <= gobj sqrtm k d C W (bar_init (N:=RNum) k C W).
Proof. intros. unfold bures_barycenter_gd. apply gd_loop_desc; auto. Qed.
Print Assumptions C114_descent.
(** the mean *)
Theorem C114_mean : forall k d m w, prob k (bar_w (N:=RNum) k w) -> forall z,
  rsum k (fun p => bar_w (N:=RNum) k w p * rsum d (fun t => (bar_mean (N:=RNum) k m w t - m p t) ^ 2)) + rsum d (fun t => (z t - bar_mean (N:=RNum) k m w t) ^ 2)
  = rsum k (fun p => bar_w (N:=RNum) k w p * rsum d (fun t => (z t - m p t) ^ 2)).
Proof.
  intros k d m w [_ Hw1] z. set (W := bar_w (N:=RNum) k w) in *. set (mb := bar_mean (N:=RNum) k m w).
  assert (Em : forall t, mb t = rsum k (fun p => m p t * W p)) by (intros; unfold mb, bar_mean; rewrite nsum_R; reflexivity).
  rewrite !(rsum_ext k (fun p => W p * rsum d _) (fun p => rsum d (fun t => W p * _))) by (intros; rewrite <- rsum_scal; reflexivity).
  rewrite (rsum_swap k d), (rsum_swap k d), <- rsum_plus. apply rsum_ext; intros t Ht.
  rewrite (rsum_ext k (fun p => W p * (mb t - m p t) ^ 2) (fun p => W p * (mb t) ^ 2 - 2 * mb t * (m p t * W p) + W p * (m p t) ^ 2)) by (intros; ring).
  rewrite (rsum_ext k (fun p => W p * (z t - m p t) ^ 2) (fun p => W p * (z t) ^ 2 - 2 * z t * (m p t * W p) + W p * (m p t) ^ 2)) by (intros; ring).
  rewrite !rsum_plus, !rsum_minus, !rsum_scal_r, !rsum_scal, Hw1, <- Em. ring.
Qed.
Print Assumptions C114_mean.

(** * Gaussian Gromov-Wasserstein *)
Definition pad (n : nat) (x : vec) : vec := fun i => if Nat.ltb i n then x i else 0.
(** the documented value for spectra padded with zeros to a common length K *)
Definition ggw (K : nat) (x y : vec) : R := sqrt (4 * (rsum K x - rsum K y) ^ 2 + 8 * rsum K (fun i => (x i - y i) ^ 2)).
Lemma pad_sum : forall n K x, (n <= K)%nat -> rsum K (pad n x) = rsum n x.
Proof.
  intros n K x H. replace K with (n + (K - n))%nat by lia. rewrite rsum_split. rewrite (rsum_0 (K - n)).
  - rewrite Rplus_0_r. apply rsum_ext; intros i Hi. unfold pad. apply Nat.ltb_lt in Hi. rewrite Hi. reflexivity.
  - intros i Hi. unfold pad. destruct (Nat.ltb_spec (n + i) n); [lia | reflexivity].
Qed.
Lemma gw_value_ggw : forall m n K ds dt, (n <= m <= K)%nat -> gw_value (N:=RNum) sqrt m n ds dt = ggw K (pad m ds) (pad n dt).
Proof.
  intros m n K ds dt [H1 H2]. unfold gw_value, ggw. cbv zeta. f_equal. rewrite !nsum_R, !pad_sum by lia.
  assert (E : rsum K (fun i => (pad m ds i - pad n dt i) ^ 2) = rsum n (fun i => (ds i - dt i) * (ds i - dt i)) + rsum (m - n) (fun i => ds (n + i)%nat * ds (n + i)%nat)).
  { replace K with (n + ((m - n) + (K - m)))%nat by lia. rewrite !rsum_split. rewrite (rsum_0 (K - m)).
    - rewrite Rplus_0_r. f_equal; apply rsum_ext; intros i Hi; unfold pad.
      + destruct (Nat.ltb_spec i m), (Nat.ltb_spec i n); try lia. ring.
      + destruct (Nat.ltb_spec (n + i) m), (Nat.ltb_spec (n + i) n); try lia. ring.
    - intros i Hi. unfold pad. destruct (Nat.ltb_spec (n + (m - n + i)) m), (Nat.ltb_spec (n + (m - n + i)) n); try lia. ring. }
  rewrite E. unfold two. cbn. ring.
Qed.
Lemma ggw_sym : forall K x y, ggw K x y = ggw K y x.
Proof. intros. unfold ggw. f_equal. f_equal; [ring|]. f_equal. apply rsum_ext; intros; ring. Qed.
Theorem C115_value : forall eig ks kt Cs Ct K, (ks <= K)%nat -> (kt <= K)%nat ->
  gaussian_gw_distance (N:=RNum) sqrt eig ks kt Cs Ct = ggw K (pad ks (eig ks Cs)) (pad kt (eig kt Ct)).
Proof.
  intros eig ks kt Cs Ct K Hs Ht. unfold gaussian_gw_distance. destruct (Nat.ltb_spec ks kt).
  - rewrite (gw_value_ggw kt ks K) by lia. apply ggw_sym.
  - apply gw_value_ggw; lia.
Qed.
Lemma ggw_dot : forall K x y, ggw K x y = sqrt (dot (S K) (fun i => match i with O => 2 * (rsum K x - rsum K y) | S i => sqrt 8 * (x i - y i) end) (fun i => match i with O => 2 * (rsum K x - rsum K y) | S i => sqrt 8 * (x i - y i) end)).
Proof.
  intros. unfold ggw. f_equal. unfold Mat.dot. rewrite rsum_first. f_equal; [ring|]. rewrite <- rsum_scal. apply rsum_ext; intros i Hi.
  replace (sqrt 8 * (x i - y i) * (sqrt 8 * (x i - y i))) with (sqrt 8 * sqrt 8 * (x i - y i) ^ 2) by ring. rewrite sqrt_sqrt by lra. reflexivity.
Qed.
Lemma ggw_triangle : forall K x y z, ggw K x z <= ggw K x y + ggw K y z.
Proof.
  intros. rewrite !ggw_dot. eapply Rle_trans; [|apply vec_mink]. right. f_equal. apply dot_ext; intros [|i] Hi; ring.
Qed.
(** a pseudo-metric on covariances, of any dimensions, that vanishes exactly when the spectra agree up to zeros *)
Theorem C115_metric : forall eig k1 k2 k3 C1 C2 C3, let D := gaussian_gw_distance (N:=RNum) sqrt eig in
  0 <= D k1 k2 C1 C2 /\ D k1 k2 C1 C2 = D k2 k1 C2 C1 /\ D k1 k3 C1 C3 <= D k1 k2 C1 C2 + D k2 k3 C2 C3 /\
  (D k1 k2 C1 C2 = 0 <-> forall i, pad k1 (eig k1 C1) i = pad k2 (eig k2 C2) i).
Proof.
  intros eig k1 k2 k3 C1 C2 C3 D. unfold D. set (K := (k1 + k2 + k3)%nat).
  rewrite !(C115_value eig _ _ _ _ K) by (unfold K; lia).
  repeat split; [apply sqrt_pos | apply ggw_sym | apply ggw_triangle | |].
  - unfold ggw. intros E i. set (x := pad k1 (eig k1 C1)) in *. set (y := pad k2 (eig k2 C2)) in *.
    assert (P : 0 <= rsum K (fun i => (x i - y i) ^ 2)) by (apply rsum_nonneg; intros; apply pow2_ge_0).
    pose proof (pow2_ge_0 (rsum K x - rsum K y)). apply sqrt_eq_0 in E; [|lra].
    assert (E0 : rsum K (fun i => (x i - y i) ^ 2) = 0) by lra.
    destruct (Nat.lt_ge_cases i K) as [Hi|Hi].
    + pose proof (rsum_nonneg_zero K _ (fun k _ => pow2_ge_0 (x k - y k)) E0 i Hi) as Z. cbv beta in Z. nra.
    + unfold x, y, pad. destruct (Nat.ltb_spec i k1), (Nat.ltb_spec i k2); unfold K in *; try lia. reflexivity.
  - intros H. unfold ggw. rewrite (rsum_ext K _ _ (fun i _ => H i)). rewrite (rsum_0 K (fun i => (_ - _) ^ 2)); [|intros; rewrite H; ring].
    replace (4 * _ + 8 * 0) with 0 by ring. apply sqrt_0.
Qed.
Print Assumptions C115_value.
Print Assumptions C115_metric.
(** the eigendecomposition contract: orthonormal columns, positive (where divided) eigenvalues *)
Definition is_eig (k : nat) (C U : mat) (ev : vec) : Prop :=
  (forall i j, (i < k)%nat -> (j < k)%nat -> rsum k (fun t => U t i * U t j) = mI i j) /\ (forall i j, (i < k)%nat -> (j < k)%nat -> C i j = rsum k (fun t => U i t * ev t * U j t)).
(** the covariance of the image, A^T Cov_s A, keeps the first min(m, n) target eigenvalues times the square of the sign *)
Theorem C115_covariance : forall m n Cs Us ds Ut dt mus mut sg, is_eig m Cs Us ds -> (forall i, (i < Nat.min m n)%nat -> 0 < ds i /\ 0 <= dt i) ->
  let A := fst (gw_map (N:=RNum) sqrt m n mus mut ds dt sg Us Ut) in
  forall p q, (p < n)%nat -> (q < n)%nat -> rsum m (fun i => rsum m (fun j => A i p * Cs i j * A j q)) = rsum (Nat.min m n) (fun t => (sg t) ^ 2 * (Ut p t * dt t * Ut q t)).
Proof.
  intros m n Cs Us ds Ut dt mus mut sg [O1 O2] Hd A p q Hp Hq.
  set (M := Nat.min m n) in *. set (c := fun t => sg t * sqrt (dt t) / sqrt (ds t)).
  assert (EA : forall i q, (i < m)%nat -> A i q = rsum M (fun t => Us i t * (c t * Ut q t))).
  { intros i q' Hi. unfold A, gw_map. cbn [fst]. rewrite mdot_R.
    rewrite (rsum_ext n _ (fun l => if Nat.ltb l M then Us i l * (c l * Ut q' l) else 0)).
    - replace n with (M + (n - M))%nat at 1 by (unfold M; lia). rewrite rsum_split, (rsum_0 (n - M)).
      + rewrite Rplus_0_r. apply rsum_ext; intros l Hl. apply Nat.ltb_lt in Hl. rewrite Hl. reflexivity.
      + intros l Hl. destruct (Nat.ltb_spec (M + l) M); [lia | reflexivity].
    - intros l Hl. rewrite mdot_R. unfold transp, gw_diag. fold M. destruct (Nat.ltb_spec l M) as [HlM|HlM].
      + rewrite (rsum_single m l); [| unfold M in HlM; lia |].
        * rewrite Nat.eqb_refl. apply Nat.ltb_lt in HlM. rewrite HlM. cbn. unfold c. ring.
        * intros k Hk Hkl. apply Nat.eqb_neq in Hkl. rewrite Hkl. cbn. ring.
      + rewrite (rsum_0 m); [ring|]. intros k Hk. destruct (Nat.eqb_spec k l); [|cbn; ring]. subst k. destruct (Nat.ltb_spec l M); [lia|]. cbn; ring. }
  (* U' A has entries c t * Ut q t *)
  assert (EUA : forall q t, (t < m)%nat -> rsum m (fun j => Us j t * A j q) = if Nat.ltb t M then c t * Ut q t else 0).
  { intros q' t Ht. rewrite (rsum_ext m _ (fun j => rsum M (fun s => (Us j t * Us j s) * (c s * Ut q' s)))) by (intros; rewrite EA, <- rsum_scal by auto; apply rsum_ext; intros; ring).
    rewrite rsum_swap. rewrite (rsum_ext M _ (fun s => mI t s * (c s * Ut q' s))) by (intros s Hs; rewrite rsum_scal_r, O1 by (unfold M in Hs; lia); reflexivity).
    destruct (Nat.ltb_spec t M) as [HtM|HtM].
    - rewrite (rsum_single M t); auto; [unfold mI; rewrite Nat.eqb_refl; ring|]. intros s Hs Hn. unfold mI. apply not_eq_sym, Nat.eqb_neq in Hn. rewrite Hn. ring.
    - apply rsum_0; intros s Hs. unfold mI. destruct (Nat.eqb_spec t s); [lia | ring]. }
  rewrite (rsum_ext m _ (fun i => rsum m (fun t => (Us i t * A i p) * ds t * rsum m (fun j => Us j t * A j q)))).
  2:{ intros i Hi. rewrite (rsum_ext m _ (fun j => rsum m (fun t => (Us i t * A i p) * ds t * (Us j t * A j q)))).
      - rewrite rsum_swap. apply rsum_ext; intros t Ht. rewrite rsum_scal. reflexivity.
      - intros j Hj. rewrite O2 by auto. rewrite <- rsum_scal, <- rsum_scal_r. apply rsum_ext; intros; ring. }
  rewrite rsum_swap. rewrite (rsum_ext m _ (fun t => if Nat.ltb t M then (sg t) ^ 2 * (Ut p t * dt t * Ut q t) else 0)).
  - replace m with (M + (m - M))%nat at 1 by (unfold M; lia). rewrite rsum_split, (rsum_0 (m - M)).
    + rewrite Rplus_0_r. apply rsum_ext; intros l Hl. apply Nat.ltb_lt in Hl. rewrite Hl. reflexivity.
    + intros l Hl. destruct (Nat.ltb_spec (M + l) M); [lia | reflexivity].
  - intros t Ht. rewrite !rsum_scal_r, !EUA by auto. destruct (Nat.ltb_spec t M) as [HtM|HtM]; [|ring].
    destruct (Hd t HtM) as [D1 D2]. unfold c. assert (sqrt (ds t) <> 0) by (apply Rgt_not_eq, sqrt_lt_R0; auto).
    replace (sg t * sqrt (dt t) / sqrt (ds t) * Ut p t * ds t * (sg t * sqrt (dt t) / sqrt (ds t) * Ut q t))
      with (sg t ^ 2 * (Ut p t * (sqrt (dt t) * sqrt (dt t)) * Ut q t) * (ds t / (sqrt (ds t) * sqrt (ds t)))) by (field; auto).
    rewrite !sqrt_sqrt by lra. field. lra.
Qed.
Theorem C115_mapping : forall m n Cs Us ds Ct Ut dt mus mut sg, (n <= m)%nat -> is_eig m Cs Us ds -> is_eig n Ct Ut dt ->
  (forall i, (i < n)%nat -> 0 < ds i /\ 0 <= dt i /\ (sg i = 1 \/ sg i = -1)) ->
  let A := fst (gw_map (N:=RNum) sqrt m n mus mut ds dt sg Us Ut) in let b := snd (gw_map (N:=RNum) sqrt m n mus mut ds dt sg Us Ut) in
  (forall p q, (p < n)%nat -> (q < n)%nat -> rsum m (fun i => rsum m (fun j => A i p * Cs i j * A j q)) = Ct p q) /\ (forall t, rsum m (fun s => mus s * A s t) + b t = mut t).
Proof.
  intros m n Cs Us ds Ct Ut dt mus mut sg Hnm Hs [_ O2] Hd A b. split.
  - intros p q Hp Hq. unfold A. rewrite (C115_covariance m n Cs Us ds Ut dt mus mut sg Hs); auto.
    + rewrite Nat.min_r by auto. rewrite O2 by auto. apply rsum_ext; intros t Ht. destruct (Hd t Ht) as [_ [_ [E|E]]]; rewrite E; ring.
    + intros i Hi. rewrite Nat.min_r in Hi by auto. destruct (Hd i Hi) as [? [? _]]; auto.
  - intros t. unfold b, A, gw_map. cbn [fst snd]. rewrite vdot_R. cbn. ring.
Qed.
Print Assumptions C115_mapping.
Print Assumptions C115_covariance.
Definition one1 : mat := fun _ _ => 1.
Lemma one_eig : forall c, is_eig 1 (fun _ _ => c) one1 (fun _ => c).
Proof.
  intros c. split; intros i j Hi Hj; unfold one1; cbn [rsum]; [|ring]. replace i with 0%nat by lia. replace j with 0%nat by lia. unfold mI. cbn. ring.
Qed.
(** sign_eigs="skewness" on symmetric samples: both skewnesses vanish, the sign is 0 and every sample is sent to the
    target mean, although the covariances are 1 and 4 *)
Theorem C115_skewness_refuted : exists ns nt ws wt (Xs Xt : mat) Us Ut ds dt mus mut,
  is_eig 1 (gmom ns ws Xs (gmean ns ws Xs)) Us ds /\ is_eig 1 (gmom nt wt Xt (gmean nt wt Xt)) Ut dt /\ 0 < ds 0%nat /\ 0 < dt 0%nat /\
  let sg := skew_signs (N:=RNum) ns nt 1 1 ws wt Xs Xt Us Ut in let A := fst (gw_map (N:=RNum) sqrt 1 1 mus mut ds dt sg Us Ut) in
  A 0%nat 0%nat = 0 /\ A 0%nat 0%nat * gmom ns ws Xs (gmean ns ws Xs) 0%nat 0%nat * A 0%nat 0%nat <> gmom nt wt Xt (gmean nt wt Xt) 0%nat 0%nat.
Proof.
  set (w := fun _ : nat => 1 / 2). set (X := fun (c : R) (i _ : nat) => match i with O => - c | _ => c end).
  exists 2%nat, 2%nat, w, w, (X 1), (X 2), one1, one1, (fun _ => 1), (fun _ => 4), (fun _ => 0), (fun _ => 0).
  assert (Em : forall c t, gmean 2 w (X c) t = 0) by (intros; unfold gmean, w, X; cbn [rsum]; field).
  assert (Ec : forall c s t, gmom 2 w (X c) (gmean 2 w (X c)) s t = c * c) by (intros; unfold gmom; cbn [rsum]; rewrite !Em; unfold w, X; field).
  assert (Eg : forall c U dd, (forall i j, U i j = c) -> is_eig 1 (fun _ _ => c) one1 (fun _ => dd) -> is_eig 1 U one1 (fun _ => dd)).
  { intros c U dd H [h1 h2]. split; auto. intros. rewrite H. apply h2; auto. }
  split; [apply (Eg 1); [intros; rewrite Ec; ring | apply one_eig]|]. split; [apply (Eg 4); [intros; rewrite Ec; ring | apply one_eig]|].
  split; [lra|]. split; [lra|]. cbv zeta.
  assert (E0 : forall j, skew_signs (N:=RNum) 2 2 1 1 w w (X 1) (X 2) one1 one1 j = 0).
  { intros j. unfold skew_signs. assert (Ez : skewness (N:=RNum) 2 1 w (X 2) one1 j = 0) by (unfold skewness; cbn; unfold w, X, one1; field).
    rewrite Ez. unfold nsign. match goal with |- context [nltb ?a n0] => replace a with 0 by (cbn; ring) end.
    cbn. rewrite (proj2 (Rltb_false 0 0)) by lra. reflexivity. }
  assert (EA : fst (gw_map (N:=RNum) sqrt 1 1 (fun _ => 0) (fun _ => 0) (fun _ => 1) (fun _ => 4) (skew_signs (N:=RNum) 2 2 1 1 w w (X 1) (X 2) one1 one1) one1 one1) 0%nat 0%nat = 0).
  { unfold gw_map. cbn [fst]. rewrite mdot_R. cbn [rsum]. rewrite mdot_R. cbn [rsum]. unfold gw_diag. cbn [Nat.eqb Nat.ltb Nat.leb Nat.min andb]. rewrite E0. cbn. unfold Rdiv. ring. }
  split; [exact EA|]. rewrite EA, !Ec. apply Rlt_not_eq. lra.
Qed.
Print Assumptions C115_skewness_refuted.

(** * cases *)
(** dimension 1: roots and inverses of positive numbers *)
Definition sqrt1 : nat -> mat -> mat := fun _ C _ _ => sqrt (C 0%nat 0%nat).
Definition inv1 : nat -> mat -> mat := fun _ C _ _ => / C 0%nat 0%nat.
Lemma meq1 : forall A B : mat, A 0%nat 0%nat = B 0%nat 0%nat -> meq 1 A B.
Proof. intros A B H i j Hi Hj. replace i with 0%nat by lia. replace j with 0%nat by lia. exact H. Qed.
Lemma sqrt1_ok : forall C, 0 <= C 0%nat 0%nat -> is_sqrt 1 (sqrt1 1 C) C.
Proof.
  intros C H. split; [intros i j _ _; reflexivity|]. split.
  - intros x. unfold qf, Mat.dot, mv, sqrt1. cbn [rsum]. pose proof (sqrt_pos (C 0%nat 0%nat)). pose proof (Rle_0_sqr (x 0%nat)). unfold Rsqr in *. nra.
  - apply meq1. unfold mul, sqrt1. cbn [rsum]. rewrite sqrt_sqrt by auto. ring.
Qed.
Lemma pair1 : forall Cs Ct, 0 < Cs 0%nat 0%nat -> 0 <= Ct 0%nat 0%nat -> pair_ok sqrt1 inv1 1 Cs Ct.
Proof.
  intros Cs Ct Hs Ht. assert (Q : 0 < sqrt (Cs 0%nat 0%nat)) by (apply sqrt_lt_R0; auto). unfold pair_ok. cbv zeta. split; [apply sqrt1_ok; lra|]. split.
  - split; apply meq1; unfold mul, sqrt1, inv1, mI; cbn; field; lra.
  - apply sqrt1_ok. unfold dots3. rewrite mdot_R. cbn [rsum]. rewrite mdot_R. cbn [rsum]. unfold sqrt1.
    replace (0 + (0 + sqrt (Cs 0%nat 0%nat) * Ct 0%nat 0%nat) * sqrt (Cs 0%nat 0%nat)) with (sqrt (Cs 0%nat 0%nat) * sqrt (Cs 0%nat 0%nat) * Ct 0%nat 0%nat) by ring.
    rewrite sqrt_sqrt by lra. apply Rmult_le_pos; lra.
Qed.
Lemma bures1 : forall Cs Ct, 0 < Cs 0%nat 0%nat -> 0 <= Ct 0%nat 0%nat -> (bures_distance (N:=RNum) sqrt1 sqrt 1 Cs Ct) ^ 2 = (sqrt (Cs 0%nat 0%nat) - sqrt (Ct 0%nat 0%nat)) ^ 2.
Proof.
  intros Cs Ct Hs Ht. destruct (bures_R _ _ _ _ _ (pair1 Cs Ct Hs Ht)) as [E P]. rewrite E. cbn [pow]. rewrite !Rmult_1_r, sqrt_sqrt by auto.
  unfold bsq, tr, Mof, sqrt1 at 1. cbn [rsum]. unfold dots3. rewrite mdot_R. cbn [rsum]. rewrite mdot_R. cbn [rsum]. unfold sqrt1.
  replace (0 + (0 + sqrt (Cs 0%nat 0%nat) * Ct 0%nat 0%nat) * sqrt (Cs 0%nat 0%nat)) with (sqrt (Cs 0%nat 0%nat) * sqrt (Cs 0%nat 0%nat) * Ct 0%nat 0%nat) by ring.
  rewrite sqrt_sqrt, sqrt_mult by lra. rewrite <- (sqrt_sqrt (Cs 0%nat 0%nat)) at 1 by lra. rewrite <- (sqrt_sqrt (Ct 0%nat 0%nat)) at 1 by lra. ring.
Qed.
(** weights that do not sum to one are not rescaled: with two equal covariances 1 and weights 1/4 the routine stops at
    once, reporting convergence, at 1/4 *)
Theorem C114_unnormalised_refuted : exists k (C : nat -> mat) w X Cb it,
  (forall num_iter, (0 < num_iter)%nat -> bures_barycenter_fixpoint (N:=RNum) sqrt1 frob k 1 C (Some w) num_iter 0 = Some (Cb, 0, it)) /\ (forall p, 0 < w p) /\ all_ok sqrt1 inv1 k 1 C Cb /\ all_ok sqrt1 inv1 k 1 C X /\
  gobj sqrt1 k 1 C w X < gobj sqrt1 k 1 C w Cb.
Proof.
  set (C := fun _ : nat => one1). set (w := fun _ : nat => 1 / 4).
  exists 2%nat, C, w, one1, (bar_init (N:=RNum) 2 C w), 0%nat.
  assert (Ei : bar_init (N:=RNum) 2 C w 0%nat 0%nat = 1 / 4) by (unfold bar_init; rewrite nsum_R, nofnat_INR; cbn; unfold C, one1, w; field).
  assert (Hs : sqrt (1 / 4) = 1 / 2) by (replace (1 / 4) with (1 / 2 * (1 / 2)) by field; apply sqrt_square; lra).
  assert (Ef : fixmap sqrt1 2 1 C w (bar_init (N:=RNum) 2 C w) 0%nat 0%nat = 1 / 4).
  { unfold fixmap, fix_new. cbv zeta. rewrite nsum_R. cbn [rsum].
    assert (Eq : forall p, sqrt1 1 (dots3 (N:=RNum) 1 (sqrt1 1 (bar_init (N:=RNum) 2 C w)) (C p) (sqrt1 1 (bar_init (N:=RNum) 2 C w))) 0%nat 0%nat = 1 / 2).
    { intros p. unfold sqrt1 at 1. unfold dots3. rewrite mdot_R. cbn [rsum]. rewrite mdot_R. cbn [rsum]. unfold sqrt1. rewrite Ei, Hs. unfold C, one1. rewrite <- Hs. f_equal. rewrite Hs. field. }
    rewrite !Eq. cbn. unfold w. field. }
  repeat apply conj.
  - intros [|l] Hl; [lia|]. unfold bures_barycenter_fixpoint, bar_w. cbv zeta. cbn [fix_loop]. cbv zeta.
    assert (E0 : frob 1 (fun i j => nsub (n:=RNum) (bar_init (N:=RNum) 2 C w i j) (fix_new (N:=RNum) sqrt1 2 1 C w (bar_init (N:=RNum) 2 C w) i j)) = 0).
    { unfold frob, fro, tr, mul, tp. cbn [rsum]. fold (fixmap sqrt1 2 1 C w (bar_init (N:=RNum) 2 C w)). rewrite Ei, Ef. change (nsub (n:=RNum) (1 / 4) (1 / 4)) with (1 / 4 - 1 / 4). replace (1 / 4 - 1 / 4) with 0 by field. rewrite Rmult_0_l, !Rplus_0_l. apply sqrt_0. }
    rewrite E0. assert (Bz : nleb (n:=RNum) 0 0 = true) by (apply Rleb_true; lra). rewrite Bz. reflexivity.
  - intros; unfold w; lra.
  - intros p Hp. apply pair1; [rewrite Ei; lra | unfold C, one1; lra].
  - intros p Hp. apply pair1; unfold C, one1; lra.
  - unfold gobj. cbn [rsum]. rewrite !bures1 by (rewrite ?Ei; unfold C, one1; lra). rewrite Ei, Hs. unfold C, one1. rewrite sqrt_1. unfold w. lra.
Qed.
Print Assumptions C114_unnormalised_refuted.

(** a pair of covariances that do not commute: Cs = S S, Ct = A Cs A with S = [[2,1],[1,2]], A = diag(1,2) *)
Definition m22 (a b c e : R) : mat := fun i j => match i, j with O, O => a | O, _ => b | _, O => c | _, _ => e end.
Definition sqrtm2 : nat -> mat -> mat := fun _ C => if Rltb (C 0%nat 0%nat) 6 then m22 2 1 1 2 else m22 6 6 6 9.
Definition inv2 : nat -> mat -> mat := fun _ C => let a := C 0%nat 0%nat in let b := C 0%nat 1%nat in let c := C 1%nat 0%nat in let e := C 1%nat 1%nat in let D := a * e - b * c in
  m22 (e / D) (- b / D) (- c / D) (a / D).
Definition Cs2 : mat := m22 5 4 4 5.
Definition Ct2 : mat := m22 5 8 8 20.
Lemma meq2 : forall A B : mat, A 0%nat 0%nat = B 0%nat 0%nat -> A 0%nat 1%nat = B 0%nat 1%nat -> A 1%nat 0%nat = B 1%nat 0%nat -> A 1%nat 1%nat = B 1%nat 1%nat -> meq 2 A B.
Proof. intros A B H1 H2 H3 H4 i j Hi Hj. destruct i as [|[|i]]; destruct j as [|[|j]]; try lia; auto. Qed.
Lemma sqrtm2_s : sqrtm2 2 Cs2 = m22 2 1 1 2.
Proof. unfold sqrtm2, Cs2, m22. rewrite (proj2 (Rltb_true 5 6)) by lra. reflexivity. Qed.
Example pair_ok_ex : pair_ok sqrtm2 inv2 2 Cs2 Ct2 /\ invertible 2 Ct2 /\ ~ meq 2 (mul 2 Cs2 Ct2) (mul 2 Ct2 Cs2) /\
  meq 2 (bures_A (N:=RNum) sqrtm2 inv2 2 Cs2 Ct2) (m22 1 0 0 2) /\ (bures_distance (N:=RNum) sqrtm2 sqrt 2 Cs2 Ct2) ^ 2 = 5.
Proof.
  assert (EP : meq 2 (dots3 (N:=RNum) 2 (m22 2 1 1 2) Ct2 (m22 2 1 1 2)) (m22 72 90 90 117)).
  { rewrite dots3_mul. apply meq2; unfold mul, Ct2, m22; cbn [rsum]; ring. }
  assert (EM : sqrtm2 2 (dots3 (N:=RNum) 2 (m22 2 1 1 2) Ct2 (m22 2 1 1 2)) = m22 6 6 6 9).
  { unfold sqrtm2. rewrite (EP 0%nat 0%nat) by lia. unfold m22 at 1. rewrite (proj2 (Rltb_false 72 6)) by lra. reflexivity. }
  assert (OK : pair_ok sqrtm2 inv2 2 Cs2 Ct2).
  { unfold pair_ok. cbv zeta. rewrite sqrtm2_s. split; [|split].
    - split; [|split]; [apply meq2; reflexivity | | apply meq2; unfold mul, Cs2, m22; cbn [rsum]; ring].
      intros x. unfold qf, Mat.dot, mv, m22. cbn [rsum]. pose proof (pow2_ge_0 (x 0%nat + x 1%nat)). pose proof (pow2_ge_0 (x 0%nat)). pose proof (pow2_ge_0 (x 1%nat)). nra.
    - split; apply meq2; unfold mul, inv2, m22, mI; cbn [rsum Nat.eqb]; field.
    - rewrite EM, EP. split; [|split]; [apply meq2; reflexivity | | apply meq2; unfold mul, m22; cbn [rsum]; ring].
      intros x. unfold qf, Mat.dot, mv, m22. cbn [rsum]. pose proof (pow2_ge_0 (x 0%nat + x 1%nat)). pose proof (pow2_ge_0 (x 1%nat)). nra. }
  split; [exact OK|]. split; [|split; [|split]].
  - exists (m22 (20 / 36) (- 8 / 36) (- 8 / 36) (5 / 36)). split; apply meq2; unfold mul, Ct2, m22, mI; cbn [rsum Nat.eqb]; field.
  - intros H. specialize (H 0%nat 1%nat ltac:(lia) ltac:(lia)). unfold mul, Cs2, Ct2, m22 in H. cbn [rsum] in H. lra.
  - rewrite bures_A_bA. unfold bA, Mof. rewrite sqrtm2_s, EM. apply meq2; unfold mul, inv2, m22; cbn [rsum]; field.
  - destruct (bures_R _ _ _ _ _ OK) as [E P]. rewrite E. cbn [pow]. rewrite Rmult_1_r, sqrt_sqrt by auto. unfold bsq, tr, Mof. rewrite sqrtm2_s, EM. unfold Cs2, Ct2, m22. cbn [rsum]. lra.
Qed.
(** the barycenter theorems' hypotheses: two positive variances 1 and 4; all iterates stay positive *)
Lemma gd1_pos : forall k C w Cb, (0 < k)%nat -> prob k w -> (forall p, (p < k)%nat -> 0 < C p 0%nat 0%nat /\ 0 < w p) -> 0 < Cb 0%nat 0%nat ->
  0 < gd_step (N:=RNum) sqrt1 inv1 k 1 C w 1 Cb 0%nat 0%nat.
Proof.
  intros k C w Cb Hk [_ Hw] HC Hb. rewrite (gd_step_eq sqrt1 inv1 k 1 C w 1 Cb Hw 0%nat 0%nat) by lia.
  set (B := bT 1 k w (inv1 1 (sqrt1 1 Cb)) (fun p => Mof sqrt1 1 Cb (C p))).
  assert (0 < sqrt (Cb 0%nat 0%nat)) by (apply sqrt_lt_R0; auto). assert (0 < / sqrt (Cb 0%nat 0%nat)) by (apply Rinv_0_lt_compat; auto).
  assert (PB : 0 < B 0%nat 0%nat).
  { unfold B, bT, msum. apply rsum_pos; auto. intros p Hp. destruct (HC p Hp). apply Rmult_lt_0_compat; auto. unfold bA, mul, inv1, Mof. cbn [rsum].
    set (D := dots3 (N:=RNum) 1 (sqrt1 1 Cb) (C p) (sqrt1 1 Cb)).
    assert (PM : 0 < sqrt1 1 D 0%nat 0%nat).
    { unfold sqrt1 at 1. apply sqrt_lt_R0. unfold D, dots3. rewrite mdot_R. cbn [rsum]. rewrite mdot_R. cbn [rsum].
      rewrite !Rplus_0_l. apply Rmult_lt_0_compat; auto. apply Rmult_lt_0_compat; auto. }
    rewrite !Rplus_0_l. apply Rmult_lt_0_compat; auto. apply Rmult_lt_0_compat; auto. }
  unfold mul, ma, ms, mI. cbn [rsum Nat.eqb]. assert (0 < B 0%nat 0%nat * Cb 0%nat 0%nat) by (apply Rmult_lt_0_compat; auto).
  replace (0 + (0 + ((1 - 1) * 1 + 1 * B 0%nat 0%nat) * Cb 0%nat 0%nat) * ((1 - 1) * 1 + 1 * B 0%nat 0%nat)) with (B 0%nat 0%nat * Cb 0%nat 0%nat * B 0%nat 0%nat) by ring.
  apply Rmult_lt_0_compat; auto.
Qed.
Example C114_ex : forall num_iter, let C := fun p : nat => (fun _ _ : nat => match p with O => 1 | _ => 4 end) : mat in
  prob 2 (bar_w (N:=RNum) 2 None) /\ (forall p, (p < 2)%nat -> invertible 1 (C p)) /\
  forall j, (j <= num_iter)%nat -> all_ok sqrt1 inv1 2 1 C (iter j (gd_step (N:=RNum) sqrt1 inv1 2 1 C (bar_w (N:=RNum) 2 None) 1) (bar_init (N:=RNum) 2 C (bar_w (N:=RNum) 2 None))).
Proof.
  intros num_iter C. assert (Ew : forall p, bar_w (N:=RNum) 2 None p = 1 / 2) by (intros; unfold bar_w; rewrite nofnat_INR; cbn; field).
  assert (HP : prob 2 (bar_w (N:=RNum) 2 None)). { split; [intros; rewrite Ew; lra | cbn [rsum]; rewrite !Ew; lra]. }
  assert (HC : forall p, 0 < C p 0%nat 0%nat) by (intros [|p]; unfold C; lra).
  split; [exact HP|]. split.
  - intros p Hp. exists (fun _ _ => / C p 0%nat 0%nat). pose proof (HC p). split; apply meq1; unfold mul, mI; cbn [rsum Nat.eqb]; field; lra.
  - intros j _. assert (G : forall j X, 0 < X 0%nat 0%nat -> 0 < iter j (gd_step (N:=RNum) sqrt1 inv1 2 1 C (bar_w (N:=RNum) 2 None) 1) X 0%nat 0%nat).
    { induction j0; intros X HX; cbn [iter]; auto. apply IHj0. apply gd1_pos; auto. intros p Hp. split; auto. rewrite Ew. lra. }
    intros p Hp. apply pair1; [|left; apply HC]. apply G. unfold bar_init. rewrite nsum_R, nofnat_INR. cbn [rsum]. rewrite !Ew. unfold C. cbn. lra.
Qed.
Example C111_ex : is_inv 2 (m22 1 0 0 2) (inv2 2 (m22 1 0 0 2)).
Proof. split; apply meq2; unfold mul, inv2, m22, mI; cbn [rsum Nat.eqb]; field. Qed.
(** samples in dimension 1 with the contract of C111 and C112: {0, 2} and {0, 6} with the default weights *)
Example C112_ex : let xs := fun i _ : nat => 2 * INR i in let xt := fun i _ : nat => 6 * INR i in
  let Cs := emp_cov (N:=RNum) 2 (emp_w (N:=RNum) 2 None) xs 0 true in let Ct := emp_cov (N:=RNum) 2 (emp_w (N:=RNum) 2 None) xt 0 true in
  mass_ok 2 None /\ pair_ok sqrt1 inv1 1 Cs Ct /\ Cs 0%nat 0%nat = 1 /\ Ct 0%nat 0%nat = 9.
Proof.
  intros xs xt Cs Ct.
  assert (E : forall c X, (forall i t, X i t = c * INR i) -> emp_cov (N:=RNum) 2 (emp_w (N:=RNum) 2 None) X 0 true 0%nat 0%nat = c * c / 4).
  { intros c X HX. rewrite emp_cov_w. unfold gmom, centre_of, gmean, wts. cbn [rsum]. rewrite !HX. cbn [INR]. unfold mI. cbn [Nat.eqb]. req. field. }
  assert (E1 : Cs 0%nat 0%nat = 1) by (unfold Cs; rewrite (E 2) by reflexivity; req; field).
  assert (E2 : Ct 0%nat 0%nat = 9) by (unfold Ct; rewrite (E 6) by reflexivity; req; field).
  split; [unfold mass_ok; lia|]. split; [apply pair1; [rewrite E1; lra | rewrite E2; lra]|]. auto.
Qed.
