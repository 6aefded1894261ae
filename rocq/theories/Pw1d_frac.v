(** partial_wasserstein_1d: fractional plans cannot beat the best matching.
    The marginals of a fractional plan are rounded with K thresholds; the average cost of the
    rounded selections exceeds the fractional one by a vanishing amount. *)
From Coq Require Import Reals Lra Lia List Arith ZArith Permutation Bool.
From Verif Require Import Num Sums Spec Pw1d_model Pw1d_core.
Local Open Scope R_scope.

Lemma fl_spec : forall r, IZR (Int_part r) <= r < IZR (Int_part r) + 1.
Proof. intros r. destruct (base_Int_part r). lra. Qed.
Lemma fl_step : forall r r' (K : Z), r <= r' <= r + IZR K -> (Int_part r <= Int_part r' <= Int_part r + K)%Z.
Proof.
  intros r r' K H. pose proof (fl_spec r). pose proof (fl_spec r'). split.
  - apply Z.lt_succ_r. apply lt_IZR. rewrite succ_IZR. lra.
  - apply Z.lt_succ_r. apply lt_IZR. rewrite succ_IZR, plus_IZR. lra.
Qed.
Lemma fl_int : forall m, Int_part (IZR m) = m.
Proof. intros m. pose proof (fl_spec (IZR m)) as H. apply Z.le_antisymm; [apply le_IZR; lra|]. apply Z.lt_succ_r, lt_IZR. rewrite succ_IZR. lra. Qed.

(** the sum of the K roundings of m is m *)
Lemma hermite : forall (K : nat) (m : Z), (0 < K)%nat -> (0 <= m)%Z -> zsum K (fun j => (m + Z.of_nat j) / Z.of_nat K)%Z = m.
Proof.
  intros K m HK Hm. rewrite <- (Z2Nat.id m) by lia. induction (Z.to_nat m) as [|t IH].
  - assert (G : forall k, (k <= K)%nat -> zsum k (fun j => (Z.of_nat 0 + Z.of_nat j) / Z.of_nat K)%Z = 0%Z).
    { induction k as [|k IHk]; intros H; [reflexivity|]. cbn [zsum]. rewrite IHk by lia. rewrite Z.div_small by lia. lia. }
    rewrite G by lia. reflexivity.
  - rewrite Nat2Z.inj_succ.
    assert (SH : forall k f, (zsum (S k) f = f 0%nat + zsum k (fun j => f (S j)))%Z).
    { induction k; intros f; [cbn; lia|]. replace (zsum (S (S k)) f) with (zsum (S k) f + f (S k))%Z by reflexivity. rewrite IHk. cbn [zsum]. lia. }
    pose proof (SH K (fun j => (Z.of_nat t + Z.of_nat j) / Z.of_nat K)%Z) as Q. cbn [zsum] in Q. cbv beta in Q.
    rewrite (zsum_ext K (fun j => (Z.succ (Z.of_nat t) + Z.of_nat j) / Z.of_nat K)%Z (fun j => (Z.of_nat t + Z.of_nat (S j)) / Z.of_nat K)%Z) by (intros; f_equal; lia).
    replace ((Z.of_nat t + Z.of_nat K) / Z.of_nat K)%Z with (Z.of_nat t / Z.of_nat K + 1)%Z in Q by (symmetry; rewrite <- (Z.mul_1_l (Z.of_nat K)) at 1; apply Z.div_add; lia).
    replace (Z.of_nat t + Z.of_nat 0)%Z with (Z.of_nat t) in Q by lia. lia.
Qed.

Section Round.
Variables (N : nat) (isx : nat -> bool) (z w : nat -> R) (l : nat).
Hypothesis zmono : forall i, (S i < N)%nat -> z i <= z (S i).
Hypothesis w01 : forall i, (i < N)%nat -> 0 <= w i <= 1.
Let F (b : bool) (m : nat) : R := rsum m (fun i => if Bool.eqb (isx i) b then w i else 0).
Hypothesis tot : forall b, F b N = INR l.
Definition Dw (m : nat) : R := rsum m (fun i => if isx i then w i else - w i).
Variable K : nat.
Hypothesis HK : (0 < K)%nat.
Let kz := Z.of_nat K.
Let fm (b : bool) (m : nat) : Z := Int_part (INR K * F b m).
Let C (j : nat) (b : bool) (m : nat) : Z := ((fm b m + Z.of_nat j) / kz)%Z.
Let A (j : nat) (i : nat) : bool := negb (C j (isx i) (S i) =? C j (isx i) i)%Z.

Lemma F_S : forall b i, F b (S i) = F b i + (if Bool.eqb (isx i) b then w i else 0).
Proof. reflexivity. Qed.
Lemma Fnn : forall b m, (m <= N)%nat -> 0 <= F b m.
Proof. intros b m Hm. apply rsum_nonneg. intros i Hi. destruct (Bool.eqb (isx i) b); [apply w01; lia|lra]. Qed.
Lemma fm_nn : forall b m, (m <= N)%nat -> (0 <= fm b m)%Z.
Proof.
  intros b m Hm. unfold fm. pose proof (fl_spec (INR K * F b m)). pose proof (Fnn b m Hm). assert (0 <= INR K * F b m) by (apply Rmult_le_pos; [apply pos_INR|auto]).
  apply Z.lt_succ_r. apply lt_IZR. rewrite succ_IZR. lra.
Qed.
Lemma fm_step : forall b i, (i < N)%nat -> (fm b i <= fm b (S i) <= fm b i + kz)%Z /\ (isx i <> b -> fm b (S i) = fm b i).
Proof.
  intros b i Hi. split.
  - unfold fm, kz. apply fl_step. rewrite F_S, <- INR_IZR_INZ. pose proof (w01 i Hi). assert (0 < INR K) by (apply lt_0_INR; auto). rewrite Rmult_plus_distr_l. destruct (Bool.eqb (isx i) b).
    + assert (0 <= INR K * w i <= INR K) by (split; [apply Rmult_le_pos; lra|rewrite <- (Rmult_1_r (INR K)) at 2; apply Rmult_le_compat_l; lra]). lra.
    + rewrite Rmult_0_r. lra.
  - intros D. unfold fm. rewrite F_S. destruct (Bool.eqb (isx i) b) eqn:E; [apply eqb_prop in E; congruence|]. rewrite Rplus_0_r. reflexivity.
Qed.
Lemma C_step : forall j b i, (i < N)%nat -> (C j b (S i) - C j b i = (if Bool.eqb (isx i) b then ind (A j i) else 0))%Z.
Proof.
  intros j b i Hi. destruct (fm_step b i Hi) as [[S1 S2] S3].
  assert (kz > 0)%Z by (unfold kz; lia).
  destruct (Bool.eqb (isx i) b) eqn:E.
  - apply eqb_prop in E. subst b. unfold A, ind. 
    assert (M1 : (C j (isx i) i <= C j (isx i) (S i))%Z) by (unfold C; apply Z.div_le_mono; lia).
    assert (M2 : (C j (isx i) (S i) <= C j (isx i) i + 1)%Z).
    { unfold C. rewrite <- Z.div_add by lia. apply Z.div_le_mono; lia. }
    destruct (Z.eqb_spec (C j (isx i) (S i)) (C j (isx i) i)); cbn [negb]; lia.
  - assert (isx i <> b) by (intros X; rewrite X, eqb_reflx in E; discriminate). unfold C. rewrite S3 by auto. lia.
Qed.
Lemma C_0 : forall j b, (j < K)%nat -> C j b 0 = 0%Z.
Proof. intros j b Hj. unfold C, fm. change (F b 0) with 0. rewrite Rmult_0_r. replace 0 with (IZR 0) by reflexivity. rewrite fl_int. apply Z.div_small. unfold kz. lia. Qed.
Lemma C_N : forall j b, (j < K)%nat -> C j b N = Z.of_nat l.
Proof.
  intros j b Hj. unfold C, fm. rewrite tot, <- mult_INR, INR_IZR_INZ, fl_int, Nat2Z.inj_mul. fold kz.
  rewrite Z.mul_comm, Z.add_comm, Z.div_add by (unfold kz; lia). rewrite Z.div_small by (unfold kz; lia). lia.
Qed.
Lemma A_DD : forall j m, (j < K)%nat -> (m <= N)%nat -> DD isx (A j) m = (C j true m - C j false m)%Z.
Proof.
  intros j m Hj. induction m as [|m IH]; intros Hm; [rewrite !C_0 by auto; reflexivity|].
  unfold DD in *. cbn [zsum]. rewrite IH by lia. pose proof (C_step j true m ltac:(lia)). pose proof (C_step j false m ltac:(lia)).
  unfold steps, sgn, ind in *. destruct (isx m), (A j m); cbn [Bool.eqb] in *; lia.
Qed.
Lemma A_sel : forall j, (j < K)%nat -> sel N isx (Z.of_nat l) (A j).
Proof.
  intros j Hj. split; [rewrite A_DD, !C_N by auto; lia|].
  assert (G : forall m, (m <= N)%nat -> zsum m (fun i => if A j i then 1%Z else 0%Z) = (C j true m + C j false m)%Z).
  { induction m as [|m IH]; intros Hm; [rewrite !C_0 by auto; reflexivity|]. cbn [zsum]. rewrite IH by lia.
    pose proof (C_step j true m ltac:(lia)). pose proof (C_step j false m ltac:(lia)). unfold ind in *. destruct (isx m), (A j m); cbn [Bool.eqb] in *; lia. }
  unfold cnt. rewrite G, !C_N by auto. lia.
Qed.
(** the roundings of two numbers are ordered in the same way *)
Lemma C_abs : forall m, (m <= N)%nat -> zsum K (fun j => Z.abs (C j true m - C j false m)) = Z.abs (fm true m - fm false m).
Proof.
  intros m Hm. pose proof (fm_nn true m Hm). pose proof (fm_nn false m Hm).
  pose proof (hermite K (fm true m) HK ltac:(auto)) as H1. pose proof (hermite K (fm false m) HK ltac:(auto)) as H2.
  assert (kz > 0)%Z by (unfold kz; lia).
  destruct (Z_le_gt_dec (fm false m) (fm true m)) as [L|G].
  - rewrite (zsum_ext K _ (fun j => C j true m - C j false m)%Z); [rewrite zsum_minus; unfold C, kz; rewrite H1, H2; lia|].
    intros j Hj. assert (C j false m <= C j true m)%Z by (unfold C; apply Z.div_le_mono; lia). lia.
  - rewrite (zsum_ext K _ (fun j => C j false m - C j true m)%Z); [rewrite zsum_minus; unfold C, kz; rewrite H1, H2; lia|].
    intros j Hj. assert (C j true m <= C j false m)%Z by (unfold C; apply Z.div_le_mono; lia). lia.
Qed.
Lemma Dw_F : forall m, Dw m = F true m - F false m.
Proof. intros m. unfold Dw, F. rewrite <- rsum_minus. apply rsum_ext. intros i Hi. destruct (isx i); cbn; ring. Qed.
Lemma zsum_rsum : forall m f, IZR (zsum m f) = rsum m (fun j => IZR (f j)).
Proof. induction m; intros f; [reflexivity|]. cbn. rewrite plus_IZR, IHm. reflexivity. Qed.
Lemma average : forall T, opt N isx z (Z.of_nat l) T -> INR K * icost N isx z T <= rsum N (fun g => len N z g * (INR K * Rabs (Dw (S g)) + 1)).
Proof.
  intros T [_ HO].
  apply Rle_trans with (rsum K (fun j => icost N isx z (A j))).
  { rewrite <- rsum_const. apply rsum_le. intros j Hj. apply HO. apply A_sel. auto. }
  unfold icost. rewrite rsum_swap. apply rsum_le. intros g Hg.
  rewrite (rsum_scal K (len N z g) (fun j => IZR (Z.abs (DD isx (A j) (S g))))). apply Rmult_le_compat_l; [apply len_nn; exact zmono|].
  rewrite <- zsum_rsum. rewrite (zsum_ext K _ (fun j => Z.abs (C j true (S g) - C j false (S g)))) by (intros j Hj; rewrite A_DD by (auto; lia); reflexivity).
  rewrite C_abs by lia. rewrite Dw_F. unfold fm. pose proof (fl_spec (INR K * F true (S g))). pose proof (fl_spec (INR K * F false (S g))).
  assert (0 < INR K) by (apply lt_0_INR; auto).
  rewrite abs_IZR, minus_IZR. replace (INR K * Rabs (F true (S g) - F false (S g))) with (Rabs (INR K * F true (S g) - INR K * F false (S g))).
  2:{ rewrite <- Rmult_minus_distr_l, Rabs_mult, (Rabs_right (INR K)) by lra. reflexivity. }
  unfold Rabs at 1 2. destruct (Rcase_abs _), (Rcase_abs _); lra.
Qed.
End Round.

Lemma frac_lower : forall N isx z w l T, (forall i, (S i < N)%nat -> z i <= z (S i)) -> (forall i, (i < N)%nat -> 0 <= w i <= 1) ->
  (forall b, rsum N (fun i => if Bool.eqb (isx i) b then w i else 0) = INR l) -> opt N isx z (Z.of_nat l) T ->
  icost N isx z T <= rsum N (fun g => len N z g * Rabs (Dw isx w (S g))).
Proof.
  intros N isx z w l T zm w01 tot HO. set (X := rsum N (fun g => len N z g * Rabs (Dw isx w (S g)))). set (S0 := rsum N (len N z)).
  assert (S0n : 0 <= S0) by (apply rsum_nonneg; intros; apply len_nn; auto).
  destruct (Rle_lt_dec (icost N isx z T) X) as [L|G]; auto. exfalso.
  set (d := icost N isx z T - X). assert (Hd : 0 < d) by (unfold d; lra).
  destruct (archimed (S0 / d)) as [AR _]. assert (0 <= S0 / d) by (apply Rmult_le_pos; [auto|left; apply Rinv_0_lt_compat; auto]).
  set (K := Z.to_nat (up (S0 / d))). assert (UP : (0 < up (S0 / d))%Z) by (apply lt_IZR; lra).
  assert (HK : (0 < K)%nat) by (unfold K; lia). assert (EK : INR K = IZR (up (S0 / d))) by (unfold K; rewrite INR_IZR_INZ, Z2Nat.id by lia; reflexivity).
  pose proof (average N isx z w l zm w01 tot K HK T HO) as Q.
  rewrite (rsum_ext N _ (fun g => INR K * (len N z g * Rabs (Dw isx w (S g))) + len N z g)) in Q by (intros; ring).
  rewrite rsum_plus, rsum_scal in Q. fold X S0 in Q.
  assert (INR K * d <= S0) by (unfold d; rewrite Rmult_minus_distr_l; lra).
  assert (S0 < INR K * d) by (rewrite EK; apply Rmult_lt_reg_r with (/ d); [apply Rinv_0_lt_compat; auto|]; rewrite Rmult_assoc, Rinv_r by lra; unfold Rdiv in AR; lra).
  lra.
Qed.
