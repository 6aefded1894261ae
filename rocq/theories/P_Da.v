(** C103: semi-supervised costs; C104: transported samples; C105: propagated labels; C106: sinkhorn_lpl1_mm;
    C107: sinkhorn_l1l2_gl; C108: emd_laplace (ot/da.py). *)
From Coq Require Import Reals List Lra Lia ZArith QArith Sorted Bool ClassicalChoice.
From Verif Require Import Num Sums Spec Perm Duals_proofs Emd1d_model Optim_model Optim_proofs Circle_model Utils_model Sinkhorn_model Exist Weak_model Weak_proofs Da_model Da_proofs Da_reg_proofs.
Import ListNotations.
Local Open Scope R_scope.

(** ** C103 *)
(** whatever the labels, the cost used by fit is the unsupervised one *)
Theorem C103_labels_ignored : forall big n m C ys yt (l : ext RNum), l <> NaN -> nonneg_mat n m C ->
  exists C' l', fit_cost (N:=RNum) big n m C (Some (ys, yt)) (Some l) = Some (C', l') /\ forall i j, (i < n)%nat -> (j < m)%nat -> C' i j = C i j.
Proof.
  intros big n m C ys yt l Hl HC. unfold fit_cost. eexists. eexists. split; [reflexivity|]. intros i j Hi Hj. cbv beta.
  rewrite nmax_R, correction_R by (destruct l; [discriminate|discriminate|contradiction]). apply Rmax_left. apply HC; auto.
Qed.
Print Assumptions C103_labels_ignored.
(** documented: "Transport between labeled source and target samples of different classes will exhibit a
    cost defined by limit_max"; here two samples of different known classes, limit_max = 10 *)
Theorem C103_limit_max_refuted : exists (C : nat -> nat -> Q) ys yt C' (l' : Q),
  ys 0%nat <> yt 0%nat /\ ys 0%nat <> (-1)%Z /\ yt 0%nat <> (-1)%Z /\
  fit_cost (N:=QNum) (1000 # 1) 1 1 C (Some (ys, yt)) (Some (Fin (N:=QNum) (10 # 1))) = Some (C', Some (Fin (N:=QNum) l')) /\ (C' 0%nat 0%nat < l')%Q.
Proof.
  exists (fun _ _ => 1 # 1), (fun _ => 0%Z), (fun _ => 1%Z). eexists. eexists. split; [discriminate|]. split; [discriminate|]. split; [discriminate|]. split; [reflexivity|]. vm_compute. reflexivity.
Qed.
Print Assumptions C103_limit_max_refuted.
(** limit_max is a constructor parameter, yet every fit multiplies it by the largest cost *)
Theorem C103_limit_drifts : forall big n m C ys yt l, (0 < n * m)%nat ->
  exists mx, (forall i j, (i < n)%nat -> (j < m)%nat -> C i j <= mx) /\ (exists i j, (i < n)%nat /\ (j < m)%nat /\ C i j = mx) /\
  forall C1 l1, fit_cost (N:=RNum) big n m C (Some (ys, yt)) (Some (Fin (N:=RNum) l)) = Some (C1, l1) ->
  forall C2 l2, fit_cost (N:=RNum) big n m C (Some (ys, yt)) l1 = Some (C2, l2) -> l2 = Some (Fin (N:=RNum) (l * mx * mx)).
Proof.
  intros big n m C ys yt l Hnm. exists (nmaxk (N:=RNum) (n * m - 1) (fun k => C (k / m)%nat (k mod m)%nat)). split; [|split].
  - intros i j Hi Hj. assert (D1 : ((i * m + j) / m = i)%nat) by (symmetry; apply (Nat.div_unique _ m i j); lia).
    assert (D2 : ((i * m + j) mod m = j)%nat) by (symmetry; apply (Nat.mod_unique _ m i j); lia).
    assert (Q := nmaxk_ge (n * m - 1) (fun k => C (k / m)%nat (k mod m)%nat) (i * m + j)%nat ltac:(nia)). cbv beta in Q. rewrite D1, D2 in Q. exact Q.
  - destruct (nmaxk_In (n * m - 1) (fun k => C (k / m)%nat (k mod m)%nat)) as [k [Hk E]]. exists (k / m)%nat, (k mod m)%nat.
    split; [apply Nat.div_lt_upper_bound; nia|]. split; [apply Nat.mod_upper_bound; nia|]. symmetry. exact E.
  - intros C1 l1 E1 C2 l2 E2. unfold fit_cost in *. injection E1 as _ <-. injection E2 as _ <-. reflexivity.
Qed.
Print Assumptions C103_limit_drifts.
(** classes without limit_max raise as soon as both labels are given *)
Theorem C103_missing_attribute : forall (N : NumOps) big n m C ys yt, fit_cost (N:=N) big n m C (Some (ys, yt)) None = None.
Proof. reflexivity. Qed.
Print Assumptions C103_missing_attribute.

(** ** C104 *)
(** in-sample: conditional means.  Every sample of positive weight goes into the convex hull of the targets,
    the weighted mean is the mean of the targets and the spread around any point does not grow *)
Theorem C104_barycentric : forall n m d a b G Xs Xt bs, coupling n m a b G ->
  exists rows, base_transform (N:=RNum) n m d G Xs Xt n Xs bs = Some rows /\ length rows = n /\
  (forall i t, (i < n)%nat -> 0 < a i -> nth i rows (fun _ => 0) t = rsum m (fun j => G i j / a i * Xt j t)) /\
  (forall i, (i < n)%nat -> 0 < a i -> exists w, (forall j, (j < m)%nat -> 0 <= w j) /\ rsum m w = 1 /\ forall t, nth i rows (fun _ => 0) t = rsum m (fun j => w j * Xt j t)) /\
  (forall t, rsum n (fun i => a i * nth i rows (fun _ => 0) t) = rsum m (fun j => b j * Xt j t)) /\
  (forall z, rsum n (fun i => a i * rsum d (fun t => (nth i rows (fun _ => 0) t - z t) ^ 2)) <= rsum m (fun j => b j * rsum d (fun t => (Xt j t - z t) ^ 2))).
Proof.
  intros n m d a b G Xs Xt bs C. assert (AE : array_equal (N:=RNum) d n Xs n Xs = true) by (apply array_equal_true; auto).
  unfold base_transform. rewrite AE. eexists. split; [reflexivity|].
  assert (NT : forall i, (i < n)%nat -> nth i (map (bary_map (N:=RNum) m G Xt) (seq 0 n)) (fun _ => 0) = bary_map (N:=RNum) m G Xt i).
  { intros i Hi. rewrite (Sliced_plans.nth_map_d _ _ _ _ i 0%nat) by (rewrite seq_length; auto). rewrite seq_nth by auto. reflexivity. }
  split; [rewrite map_length, seq_length; reflexivity|]. assert (C' := C). destruct C' as (P & Rr & Cc).
  assert (RS : forall i, (i < n)%nat -> rsum m (G i) = a i) by (intros i Hi; apply (Rr i Hi)).
  split; [|split; [|split]].
  - intros i t Hi Pa. rewrite NT by auto. rewrite bary_R. apply rsum_ext. intros j Hj. rewrite row_norm_R, RS by auto. destruct (Req_EM_T (a i) 0); [lra|reflexivity].
  - intros i Hi Pa. exists (row_norm (N:=RNum) m G i). split; [intros j Hj; apply row_norm_nonneg; auto; intros; apply P; auto|]. split; [apply row_norm_sum; rewrite RS by auto; lra|].
    intros t. rewrite NT by auto. apply bary_R.
  - intros t. rewrite <- (bary_mean n m a b G Xt t C). apply rsum_ext. intros i Hi. rewrite NT by auto. reflexivity.
  - intros z. eapply Rle_trans; [|apply (bary_spread n m d a b G Xt z C)]. apply Req_le. apply rsum_ext. intros i Hi. f_equal. apply rsum_ext. intros t Ht. rewrite NT by auto. reflexivity.
Qed.
Print Assumptions C104_barycentric.
(** a sample without mass is sent to the origin, outside the hull of the targets *)
Theorem C104_zero_row_refuted : exists n m d (G Xs Xt : mat) a b rows, coupling n m a b G /\ base_transform (N:=RNum) n m d G Xs Xt n Xs 1 = Some rows /\
  exists i t, (i < n)%nat /\ forall j, (j < m)%nat -> nth i rows (fun _ => 0) t < Xt j t.
Proof.
  exists 2%nat, 1%nat, 1%nat, (fun i _ => INR i), (fun _ _ => 0), (fun _ _ => 1), (fun i => INR i), (fun _ => 1). eexists.
  split; [split; [intros i j _ _; apply pos_INR|split; [intros i Hi; unfold row_sum; cbn; lra|intros j Hj; unfold col_sum; cbn; lra]]|].
  split; [unfold base_transform; rewrite (proj2 (array_equal_true 1 2 _ 2 _)) by auto; reflexivity|].
  exists 0%nat, 0%nat. split; [lia|]. intros j Hj. cbn [map seq nth]. rewrite bary_R. cbn [rsum]. rewrite row_norm_R. destruct (Req_EM_T _ _) as [E|E]; [lra|]. exfalso. apply E. cbn. lra.
Qed.
Print Assumptions C104_zero_row_refuted.
(** out of sample: every positive batch size gives the same rows; each point is moved like its nearest
    training sample *)
Theorem C104_out_of_sample : forall n m d G Xs Xt n' X bs, (0 < n)%nat -> (0 < n')%nat -> (0 < bs)%nat -> array_equal (N:=RNum) d n Xs n' X = false ->
  exists rows, base_transform (N:=RNum) n m d G Xs Xt n' X bs = Some rows /\ length rows = n' /\
  (forall bs', (0 < bs')%nat -> base_transform (N:=RNum) n m d G Xs Xt n' X bs' = Some rows) /\
  forall i, (i < n')%nat -> exists k, (k < n)%nat /\
    (forall k', (k' < n)%nat -> rsum d (fun t => (X i t - Xs k t) ^ 2) <= rsum d (fun t => (X i t - Xs k' t) ^ 2)) /\
    forall t, nth i rows (fun _ => 0) t - X i t = bary_map (N:=RNum) m G Xt k t - Xs k t.
Proof.
  intros n m d G Xs Xt n' X bs Hn Hn' Hb AE. unfold base_transform. rewrite AE. eexists. split; [apply batched; auto|].
  split; [rewrite map_length, seq_length; reflexivity|]. split; [intros; apply batched; auto|].
  intros i Hi. exists (nearest (N:=RNum) d n Xs X i). destruct (nearest_spec d n Xs X i Hn) as [A B]. split; auto. split; [exact B|].
  intros t. rewrite (Sliced_plans.nth_map_d _ _ _ _ i 0%nat) by (rewrite seq_length; auto). rewrite seq_nth by auto. unfold oos_point. cbn [nsub nadd RNum plus]. lra.
Qed.
Print Assumptions C104_out_of_sample.
(** both branches agree: a training sample is sent to the same place inside any batch of new samples *)
Theorem C104_consistent : forall n m d G Xs Xt n' X bs rows i k, (0 < bs)%nat -> (i < n')%nat -> (k < n)%nat ->
  (forall k1 k2, (k1 < n)%nat -> (k2 < n)%nat -> k1 <> k2 -> exists t, (t < d)%nat /\ Xs k1 t <> Xs k2 t) ->
  (forall t, X i t = Xs k t) -> base_transform (N:=RNum) n m d G Xs Xt n' X bs = Some rows ->
  forall t, nth i rows (fun _ => 0) t = bary_map (N:=RNum) m G Xt k t.
Proof.
  intros n m d G Xs Xt n' X bs rows i k Hb Hi Hk D EX E t. unfold base_transform in E. destruct (array_equal (N:=RNum) d n Xs n' X) eqn:AE.
  - injection E as <-. rewrite (Sliced_plans.nth_map_d _ _ _ _ i 0%nat) by (rewrite seq_length; auto). rewrite seq_nth by auto. cbn [plus].
    apply array_equal_true in AE. destruct AE as [-> AE]. destruct (Nat.eq_dec i k) as [->|NE]; auto. exfalso. destruct (D i k Hi Hk NE) as [u [Hu Hd]]. apply Hd. rewrite AE, EX by auto. reflexivity.
  - rewrite batched in E by (auto; lia). injection E as <-. rewrite (Sliced_plans.nth_map_d _ _ _ _ i 0%nat) by (rewrite seq_length; auto). rewrite seq_nth by auto.
    unfold oos_point. cbn [plus]. rewrite (nearest_self d n Xs X i k); auto. cbn [nsub nadd RNum]. rewrite EX. lra.
Qed.
Print Assumptions C104_consistent.
(** the inverse transform is the transform of the transposed problem *)
Theorem C104_inverse : forall (N : NumOps) n m d G Xs Xt n' X bs,
  base_inverse (N:=N) n m d G Xs Xt n' X bs = base_transform (N:=N) m n d (fun j i => G i j) Xt Xs n' X bs.
Proof. reflexivity. Qed.
(** continuous map of SinkhornTransport: any number of Sinkhorn iterations gives, at a training sample, the
    barycentric image under the returned plan, and everywhere a point of the hull of the targets *)
Theorem C104_continuous : forall reg m (M : mat) f g Xt i t, (0 < m)%nat ->
  let P := lg_plan (N:=RNum) exp (fun i j => - M i j / reg) f g in
  cont_point (N:=RNum) exp reg m M g Xt i t = bary_map (N:=RNum) m P Xt i t /\
  exists w, (forall j, (j < m)%nat -> 0 < w j) /\ rsum m w = 1 /\ forall t, cont_point (N:=RNum) exp reg m M g Xt i t = rsum m (fun j => w j * Xt j t).
Proof.
  intros reg m M f g Xt i t Hm P.
  set (K := fun j => exp (- M i j / reg + g j)). assert (KP : forall j, 0 < K j) by (intros; apply exp_pos).
  assert (SP : 0 < rsum m K) by (apply rsum_pos; auto).
  assert (CP : forall t, cont_point (N:=RNum) exp reg m M g Xt i t = rsum m (fun j => K j / rsum m K * Xt j t)).
  { intros u. unfold cont_point. rewrite !nsum_R. cbn [ndiv nmul RNum].
    assert (KE : forall j, cont_kernel (N:=RNum) exp reg M g i j = K j) by (intros; unfold cont_kernel, K, nopp; cbn; do 3 f_equal; lra).
    rewrite (rsum_ext m (fun j => cont_kernel (N:=RNum) exp reg M g i j) K) by (intros; apply KE).
    unfold Rdiv at 1. rewrite <- rsum_scal_r. apply rsum_ext. intros j Hj. rewrite KE. toR. unfold Rdiv. generalize (Xt j u : R). intros x. ring. }
  split.
  - rewrite CP, bary_R. apply rsum_ext. intros j Hj. f_equal. rewrite row_norm_R.
    assert (PE : forall j, P i j = exp (f i) * K j) by (intros; unfold P, lg_plan, K; cbn [nadd RNum]; rewrite <- exp_plus; f_equal; lra).
    assert (SE : rsum m (P i) = exp (f i) * rsum m K) by (rewrite <- rsum_scal; apply rsum_ext; intros; apply PE).
    assert (E := exp_pos (f i)). rewrite SE, PE. destruct (Req_EM_T _ _) as [Z|Z]; [exfalso; apply Rmult_integral in Z; lra|]. field. split; lra.
  - exists (fun j => K j / rsum m K). split; [intros j Hj; apply Rdiv_lt_0_compat; auto|]. split; [|exact CP]. rewrite rsum_div. field. lra.
Qed.
Print Assumptions C104_continuous.
Example C104_ex : exists G, coupling 2 2 (fun _ => 1 / 2) (fun _ => 1 / 2) G /\ forall t, bary_map (N:=RNum) 2 G (fun j _ => INR j) 0 t = 1 / 2.
Proof.
  exists (fun _ _ => 1 / 4). split; [split; [intros i j _ _; lra|split; intros i Hi; unfold row_sum, col_sum; cbn; lra]|]. intros t. rewrite bary_R. cbn [rsum]. rewrite !row_norm_R. cbn [rsum]. destruct (Req_EM_T _ _); cbn; lra.
Qed.

(** ** C105 *)
Definition mass_from (n : nat) (G : mat) (ys : nat -> Z) (c : Z) (j : nat) : R := rsum n (fun i => if Z.eqb (ys i) c then G i j else 0).
(** the columns are the distinct labels in increasing order; entry (j, k) is the share of the mass arriving at j
    that comes from samples of the k-th label; rows sum to one, or vanish where no mass arrives *)
Theorem C105_transform_labels : forall n m G ys, nonneg_mat n m G ->
  let L := unique n ys in
  StronglySorted Z.lt L /\ (forall c, In c L <-> exists i, (i < n)%nat /\ ys i = c) /\
  forall j, (j < m)%nat ->
   (0 < col_sum n G j -> (forall k, (k < length L)%nat -> transform_labels (N:=RNum) n m G ys j k = mass_from n G ys (nth k L 0%Z) j / col_sum n G j /\ 0 <= transform_labels (N:=RNum) n m G ys j k) /\
      rsum (length L) (transform_labels (N:=RNum) n m G ys j) = 1) /\
   (col_sum n G j = 0 -> forall k, (k < length L)%nat -> transform_labels (N:=RNum) n m G ys j k = 0).
Proof.
  intros n m G ys HG L. split; [apply unique_sorted|]. split; [apply unique_In|]. intros j Hj.
  assert (CS : rsum n (transp (N:=RNum) G j) = col_sum n G j) by reflexivity.
  split.
  - intros Pc. split.
    + intros k Hk. rewrite transform_labels_R by auto.
      assert (E : rsum n (fun i => (if Z.eqb (ys i) (nth k L 0%Z) then 1 else 0) * row_norm (N:=RNum) n (transp (N:=RNum) G) j i) = mass_from n G ys (nth k L 0%Z) j / col_sum n G j).
      { unfold mass_from, Rdiv. rewrite <- rsum_scal_r. apply rsum_ext. intros i Hi. rewrite row_norm_R, CS. destruct (Req_EM_T _ _); [lra|]. unfold transp. destruct (Z.eqb _ _); [rewrite Rmult_1_l; reflexivity|rewrite !Rmult_0_l; reflexivity]. }
      fold L. rewrite E. split; auto. apply Rle_mult_inv_pos; auto. apply rsum_nonneg. intros i Hi. destruct (Z.eqb _ _); [apply HG; auto|lra].
    + unfold transform_labels. rewrite (rsum_ext (length L) _ (fun k => rsum n (fun i => masks (N:=RNum) n ys i k * row_norm (N:=RNum) n (transp (N:=RNum) G) j i))).
      * rewrite rsum_swap. rewrite (rsum_ext n _ (row_norm (N:=RNum) n (transp (N:=RNum) G) j)).
        -- apply row_norm_sum. rewrite CS. lra.
        -- intros i Hi. rewrite rsum_scal_r. unfold L. rewrite masks_row by auto. apply Rmult_1_l.
      * intros k Hk. rewrite nsum_R. apply rsum_ext. intros i Hi. rewrite masks_norm. reflexivity.
  - intros Zc k Hk. rewrite transform_labels_R by auto. apply rsum_0. intros i Hi. rewrite row_norm_R, CS. destruct (Req_EM_T _ _); [apply Rmult_0_r|contradiction].
Qed.
Print Assumptions C105_transform_labels.
(** target to source, through the transposed coupling *)
Theorem C105_inverse : forall (N : NumOps) n m (G : nat -> nat -> N) yt i k,
  inverse_transform_labels (N:=N) n m G yt i k = transform_labels (N:=N) m n (fun j i => G i j) yt i k.
Proof. reflexivity. Qed.
Example C105_ex : (transform_labels (N:=QNum) 3 1 (fun i _ => 1 # 3) (fun i => if Nat.eqb i 1 then 7%Z else (-2)%Z) 0 0 == 2 # 3)%Q /\
  unique 3 (fun i => if Nat.eqb i 1 then 7%Z else (-2)%Z) = [-2; 7]%Z.
Proof. vm_compute. split; reflexivity. Qed.

(** ** C106 *)
(** the regulariser of the documentation smoothed by eps = 1e-3: sum over targets and classes of
    sqrt(mass of the class + eps) *)
Definition lpl1 (n m L : nat) (lab : nat -> nat) (eps : R) (T : mat) : R :=
  rsum m (fun j => rsum L (fun c => sqrt (rsum n (fun i => if Nat.eqb (lab i) c then T i j else 0) + eps))).
Theorem C106_mm_descends : forall skh phi eps n m L lab a b M eta,
  0 < eps -> 0 <= eta -> (forall i, (i < n)%nat -> (lab i < L)%nat) ->
  (forall C, coupling n m a b (skh C) /\ forall T, coupling n m a b T -> cost n m C (skh C) + phi (skh C) <= cost n m C T + phi T) ->
  let run := sinkhorn_lpl1_mm (N:=RNum) (fun x => / sqrt x) skh eps (1 / 2) n L lab M eta in
  let F := fun T => cost n m M T + phi T + eta * lpl1 n m L lab eps T in
  run 0%nat = None /\
  (forall K, (0 < K)%nat -> exists T, run K = Some T /\ coupling n m a b T) /\
  (forall K K' T T', (0 < K <= K')%nat -> run K = Some T -> run K' = Some T' -> F T' <= F T) /\
  (forall T T', nonneg_mat n m T -> nonneg_mat n m T' ->
     lpl1 n m L lab eps T' <= lpl1 n m L lab eps T + cost n m (mm_W (N:=RNum) (fun x => / sqrt x) eps (1 / 2) n L lab T) (fun i j => T' i j - T i j)).
Proof.
  intros skh phi eps n m L lab a b M eta He Het Hl Hsk run F. split; [reflexivity|].
  assert (R1 := mm_run skh phi eps n m L lab a b M eta He Het Hl Hsk). split; [|split].
  - intros [|K] HK; [lia|]. destruct (R1 K) as [T [E [C _]]]. exists T. auto.
  - assert (MONO : forall p K T T', run (S K) = Some T -> run (S K + p)%nat = Some T' -> F T' <= F T).
    { induction p as [|p IH]; intros K T T' E E'.
      - rewrite Nat.add_0_r, E in E'. injection E' as <-. lra.
      - destruct (R1 (K + p)%nat) as [T1 [E1 [C1 D1]]]. specialize (IH K T T1 E E1). replace (S K + S p)%nat with (S (S (K + p)))%nat in E' by lia. specialize (D1 T' E').
        eapply Rle_trans; [exact D1|exact IH]. }
    intros [|K] K' T T' HK E E'; [lia|]. apply (MONO (K' - S K)%nat K T T' E). replace (S K + (K' - S K))%nat with K' by lia. exact E'.
  - intros T T' P P'. assert (Q := mm_majorise eps n m L lab He Hl T T' P P'). eapply Rle_trans; [exact Q|]. apply Req_le. unfold lpl1, class_mass. f_equal.
    unfold cost. rewrite <- rsum_minus. apply rsum_ext; intros. rewrite <- rsum_minus. apply rsum_ext; intros. toR. symmetry. apply Rmult_minus_distr_l.
Qed.
Print Assumptions C106_mm_descends.
Example C106_ex : exists skh, forall C, coupling 2 2 (fun _ => 1 / 2) (fun _ => 1 / 2) (skh C) /\ forall T, coupling 2 2 (fun _ => 1 / 2) (fun _ => 1 / 2) T -> cost 2 2 C (skh C) + 0 <= cost 2 2 C T + 0.
Proof.
  destruct (exact_oracle_exists 2 2 (fun _ => 1 / 2) (fun _ => 1 / 2)) as [lp H].
  - exists (fun _ _ => 1 / 4). split; [intros i j _ _; lra|split; intros i Hi; unfold row_sum, col_sum; cbn; lra].
  - exists lp. intros C. destruct (H C) as [A B]. split; auto. intros T HT. specialize (B T HT). lra.
Qed.

(** ** C107 *)
(** f is the sum over targets and source classes of the Euclidean norm of the class block; df is a subgradient
    up to eps/4 per block, exactly so when every block norm is zero or at least eps *)
Definition l1l2 (n m L : nat) (lab : nat -> nat) (G : mat) : R :=
  rsum m (fun j => rsum L (fun c => sqrt (rsum n (fun i => if Nat.eqb (lab i) c then G i j ^ 2 else 0)))).
Theorem C107_group_lasso : forall eps n m L lab, 0 < eps -> (forall i, (i < n)%nat -> (lab i < L)%nat) ->
  forall G, gl_f (N:=RNum) sqrt n m L lab G = l1l2 n m L lab G /\
  forall G', l1l2 n m L lab G' >= l1l2 n m L lab G + cost n m (gl_df (N:=RNum) sqrt eps n L lab G) (fun i j => G' i j - G i j) - INR m * INR L * (eps / 4).
Proof.
  intros eps n m L lab He Hl G. split; [apply gl_f_R|]. intros G'. assert (Q := gl_subgrad eps n m L lab He Hl G G'). unfold l1l2, grp_lasso, grp_norm in *. lra.
Qed.
Print Assumptions C107_group_lasso.
Theorem C107_exact : forall eps n m L lab G, 0 < eps -> (forall i, (i < n)%nat -> (lab i < L)%nat) ->
  (forall c j, (c < L)%nat -> (j < m)%nat -> let g := sqrt (rsum n (fun i => if Nat.eqb (lab i) c then G i j ^ 2 else 0)) in g = 0 \/ eps <= g) ->
  forall G', l1l2 n m L lab G' >= l1l2 n m L lab G + cost n m (gl_df (N:=RNum) sqrt eps n L lab G) (fun i j => G' i j - G i j).
Proof.
  intros eps n m L lab G He Hl HG G'.
  (* at such a point the subgradient is the same for every smaller eps *)
  apply Rle_ge. apply Rnot_lt_le. intros Hlt.
  set (x := l1l2 n m L lab G + cost n m (gl_df (N:=RNum) sqrt eps n L lab G) (fun i j => G' i j - G i j)) in *.
  set (del := x - l1l2 n m L lab G'). assert (PD : 0 < del) by (unfold del; lra).
  set (k := INR m * INR L + 1). assert (PK : 0 < k) by (unfold k; assert (A := pos_INR m); assert (B := pos_INR L); assert (0 <= INR m * INR L) by (apply Rmult_le_pos; auto); lra).
  set (e := Rmin eps (del / k)). assert (Pe : 0 < e) by (apply Rmin_pos; auto; apply Rdiv_lt_0_compat; auto).
  assert (Q := gl_subgrad e n m L lab Pe Hl G G').
  assert (EQ : cost n m (gl_df (N:=RNum) sqrt e n L lab G) (fun i j => G' i j - G i j) = cost n m (gl_df (N:=RNum) sqrt eps n L lab G) (fun i j => G' i j - G i j)).
  { unfold cost. apply rsum_ext; intros i Hi. apply rsum_ext; intros j Hj. f_equal. rewrite (gl_df_R e n L lab Hl), (gl_df_R eps n L lab Hl) by auto.
    destruct (HG (lab i) j (Hl i Hi) Hj) as [Z|Z]; fold (grp_norm n lab G (lab i) j) in Z.
    - assert (G0 : G i j = 0).
      { unfold grp_norm in Z. assert (P : forall r, (r < n)%nat -> 0 <= (if Nat.eqb (lab r) (lab i) then G r j ^ 2 else 0)) by (intros; destruct (Nat.eqb _ _); [apply pow2_ge_0|lra]).
        apply sqrt_eq_0 in Z; [|apply rsum_nonneg; auto]. assert (W := rsum_nonneg_zero n _ P Z i Hi). cbv beta in W. rewrite Nat.eqb_refl in W. apply Rsqr_0_uniq. unfold Rsqr. lra. }
      rewrite G0. unfold Rdiv. rewrite !Rmult_0_l. reflexivity.
    - assert (e <= eps) by apply Rmin_l. rewrite !Rmax_left by lra. reflexivity. }
  rewrite EQ in Q. fold (l1l2 n m L lab G) in *. change (grp_lasso n m L lab G) with (l1l2 n m L lab G) in Q. change (grp_lasso n m L lab G') with (l1l2 n m L lab G') in Q.
  fold x in Q. assert (E2 : e <= del / k) by apply Rmin_r.
  assert (E3 : INR m * (INR L * (e / 4)) <= del / 4).
  { assert (A := pos_INR m). assert (B := pos_INR L). assert (AB : 0 <= INR m * INR L) by (apply Rmult_le_pos; auto).
    assert (k * e <= del) by (apply (Rmult_le_compat_l k) in E2; [|lra]; replace (k * (del / k)) with del in E2 by (field; lra); exact E2). unfold k in *. nra. }
  unfold del in *. lra.
Qed.
Print Assumptions C107_exact.
Example C107_ex : 0 < 1 / 1000 /\ (forall i, (i < 2)%nat -> (i < 2)%nat) /\ forall c j, (c < 2)%nat -> (j < 1)%nat ->
  let g := sqrt (rsum 2 (fun i => if Nat.eqb i c then (1 : R) ^ 2 else 0)) in g = 0 \/ 1 / 1000 <= g.
Proof. split; [lra|]. split; auto. intros c j Hc Hj. right. destruct c as [|[|c]]; try lia; cbn [rsum Nat.eqb]; [replace (0 + 1 ^ 2 + 0) with 1 by lra|replace (0 + 0 + 1 ^ 2) with 1 by lra]; rewrite sqrt_1; lra. Qed.

(** ** C108 *)
(** row i of G xt, row j of G^T xs: for uniform weights 1/n (1/m) of the barycentric images *)
Definition image_s (m : nat) (xt G : mat) : mat := fun i t => rsum m (fun j => G i j * xt j t).
Definition image_t (n : nat) (xs G : mat) : mat := fun j t => rsum n (fun i => G i j * xs i t).
Definition roughness (k d : nat) (S A : mat) : R := 1 / 2 * rsum k (fun i => rsum k (fun l => S i l * rsum d (fun t => (A i t - A l t) ^ 2))).
Definition sym (k : nat) (S : mat) : Prop := forall i l, (i < k)%nat -> (l < k)%nat -> S i l = S l i.
Definition omega (n m d : nat) (xs xt sS sT : mat) (alpha : R) (G : mat) : R :=
  alpha * roughness n d sS (image_s m xt G) + (1 - alpha) * roughness m d sT (image_t n xs G).
(** the regulariser is alpha times the roughness of the source images plus (1 - alpha) times that of the target
    images (the roles of alpha and 1 - alpha are swapped in the docstring); it is quadratic with the gradient of
    the code, nonnegative and convex for alpha in [0, 1] and nonnegative similarities *)
Theorem C108_regulariser : forall n m d xs xt sS sT alpha, sym n sS -> sym m sT ->
  let f := lap_f (N:=RNum) n m d xs xt sS sT alpha in
  (forall G, f G = omega n m d xs xt sS sT alpha G) /\
  (forall G D s, f (fun i j => G i j + s * D i j) = f G + s * cost n m (lap_df (N:=RNum) n m d xs xt sS sT alpha G) D + s ^ 2 * f D) /\
  (0 <= alpha <= 1 -> nonneg_mat n n sS -> nonneg_mat m m sT -> forall G, 0 <= f G).
Proof.
  intros n m d xs xt sS sT alpha H1 H2 f. split; [|split].
  - intros G. unfold f. rewrite lap_f_R. rewrite !lform_diff by auto. reflexivity.
  - intros G D s. apply lap_expand; auto.
  - intros Ha P1 P2 G. apply lap_nonneg; auto.
Qed.
Print Assumptions C108_regulariser.
(** reg='disp' regularises displacements: same objective, up to a constant, with images minus samples *)
Theorem C108_displacement : forall n m d xs xt sS sT alpha eta M, sym n sS -> sym m sT -> (0 < n)%nat -> (0 < m)%nat ->
  exists c, forall G, cost n m (lap_M (N:=RNum) n m d xs xt sS sT alpha true eta M) G + eta * omega n m d xs xt sS sT alpha G
   = cost n m M G + eta * (alpha * roughness n d sS (fun i t => image_s m xt G i t - / INR n * xs i t) + (1 - alpha) * roughness m d sT (fun j t => image_t n xs G j t - / INR m * xt j t)) - c.
Proof.
  intros n m d xs xt sS sT alpha eta M H1 H2 Hn Hm. destruct (lap_disp n m d xs xt sS sT alpha H1 H2 eta M Hn Hm) as [c Hc]. exists c. intros G.
  specialize (Hc G). rewrite lap_f_R in Hc. rewrite !lform_diff in Hc by auto. exact Hc.
Qed.
Print Assumptions C108_displacement.
(** the run from a b^T: a coupling, never above the objective of the start, losses never increase *)
Theorem C108_run : forall fuel n m d xs xt sS sT alpha a b M disp eta lp search K t1 t2 r,
  sym n sS -> sym m sT -> nonneg_vec n a -> nonneg_vec m b -> mass n a = 1 -> mass m b = 1 ->
  (forall Mi, optimal_coupling n m a b Mi (lp Mi)) -> search_contract search ->
  emd_laplace (N:=RNum) n m d xs xt sS sT alpha fuel a b M disp eta lp search K t1 t2 = Some r ->
  let obj := fun G => cost n m (lap_M (N:=RNum) n m d xs xt sS sT alpha disp eta M) G + eta * omega n m d xs xt sS sT alpha G in
  coupling n m a b (cg_G r) /\ nonincreasing (cg_log r) /\ last (cg_log r) 0 = obj (cg_G r) /\ obj (cg_G r) <= obj (fun i j => a i * b j).
Proof.
  intros fuel n m d xs xt sS sT alpha a b M disp eta lp search K t1 t2 r H1 H2 Pa Pb Ma Mb Hlp Hs E obj.
  destruct (C108_regulariser n m d xs xt sS sT alpha H1 H2) as [FO _].
  assert (C0 : coupling n m a b (fun i j => a i * b j)).
  { eapply coupling_ext; [| | |apply (product_coupling n m a b)]; auto; try (unfold mass in *; lra). intros i j Hi Hj. unfold mass in Ma. rewrite Ma. field. }
  assert (Q := crun n m a b (lap_M (N:=RNum) n m d xs xt sS sT alpha disp eta M) eta (lap_f (N:=RNum) n m d xs xt sS sT alpha) (lap_df (N:=RNum) n m d xs xt sS sT alpha) lp search K t1 t2).
  assert (EXT : forall G G' : mat, (forall i j, (i < n)%nat -> (j < m)%nat -> G i j = G' i j) -> lap_f (N:=RNum) n m d xs xt sS sT alpha G = lap_f (N:=RNum) n m d xs xt sS sT alpha G').
  { intros G G' EG. rewrite !FO. unfold omega, roughness, image_s, image_t. f_equal; do 2 f_equal; apply rsum_ext; intros i Hi; apply rsum_ext; intros l Hl; f_equal; apply rsum_ext; intros t Ht; f_equal; f_equal; apply rsum_ext; intros; rewrite EG by auto; reflexivity. }
  specialize (Q EXT Hlp Hs fuel (outer (N:=RNum) a b) r C0 E). destruct Q as (A & B & C & D). split; auto. split; auto. unfold total in *.
  assert (TO : forall G, obj G = cost n m (lap_M (N:=RNum) n m d xs xt sS sT alpha disp eta M) G + eta * lap_f (N:=RNum) n m d xs xt sS sT alpha G) by (intros; unfold obj; rewrite FO; reflexivity).
  rewrite !TO. split; auto.
Qed.
Print Assumptions C108_run.
Example C108_ex : sym 2 (fun i j => if Nat.eqb i j then 0 else 1) /\ roughness 2 1 (fun i j => if Nat.eqb i j then 0 else 1) (fun i _ => INR i) = 1.
Proof. split; [intros i l _ _; rewrite Nat.eqb_sym; reflexivity|]. unfold roughness. cbn. lra. Qed.
