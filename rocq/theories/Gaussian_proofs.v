(** Linear algebra behind the Gaussian transport theorems. *)
From Coq Require Import Reals Lra Lia List Arith Setoid Morphisms.
From Verif Require Import Num Sums Mat Emd1d_model Optim_model Utils_model Da_model Duals_proofs Da_reg_proofs Emd1d_perm_proofs Gaussian_model.
Local Open Scope R_scope.

Section Bures.
Variable d : nat.
Variables (C T S Si M : rmat).
Hypothesis HS : is_sqrt d S C.
Hypothesis HSi : is_inv d S Si.
Hypothesis HM : is_sqrt d M (mul d (mul d S T) S).
Definition bA : rmat := mul d (mul d Si M) Si.
Lemma Si_sym : sym d Si.
Proof. apply (inv_is_sym d S); auto. apply HS. Qed.
Lemma bA_sym : sym d bA.
Proof. apply sym_conj; [apply HM | apply Si_sym]. Qed.
Lemma bA_psd : psd d bA.
Proof. apply psd_conj; [apply HM | apply Si_sym]. Qed.
Lemma bA_SAS : meq d (mul d (mul d S bA) S) M.
Proof.
  unfold bA. destruct HSi as [H1 H2]. rewrite !mulA, H2, mul1r. rewrite inv_cancel_l by exact HSi. reflexivity.
Qed.
Lemma bA_maps : meq d (mul d (mul d bA C) bA) T.
Proof.
  destruct HS as [_ [_ E]]. destruct HM as [_ [_ EM]]. destruct HSi as [H1 H2]. rewrite <- E. unfold bA. rewrite !mulA.
  rewrite (inv_cancel_l d S Si) by exact HSi. rewrite (inv_cancel_l' d S Si) by exact HSi.
  rewrite <- (mulA d M M Si), EM, !mulA, H1, mul1r. rewrite (inv_cancel_l' d S Si) by exact HSi. reflexivity.
Qed.
Lemma tr_CA : tr d (mul d C bA) = tr d M.
Proof. destruct HS as [_ [_ E]]. rewrite <- E, mulA, tr_mulC, bA_SAS. reflexivity. Qed.
Variable Ti : rmat.
Hypothesis HTi : is_inv d T Ti.
Definition bM2i : rmat := mul d Si (mul d Ti Si).
Lemma bM_inv : is_inv d M (mul d M bM2i).
Proof.
  apply (inv_of_square d M (mul d (mul d S T) S)); [apply HM|].
  apply inv_mul; auto. apply inv_mul; auto.
Qed.
Definition bAi : rmat := mul d S (mul d (mul d M bM2i) S).
Lemma bA_inv : is_inv d bA bAi.
Proof. unfold bA, bAi. apply inv_mul; [apply inv_mul; [apply inv_sym; exact HSi | exact bM_inv] | apply inv_sym; exact HSi]. Qed.
Lemma tr_TAi : tr d (mul d T bAi) = tr d M.
Proof. rewrite <- bA_maps, !mulA. destruct bA_inv as [H _]. rewrite H, mul1r, tr_mulC. apply tr_CA. Qed.
(** the variational formula: an upper bound on the trace from any positive definite B, attained at B = A *)
Lemma trM_le : forall B Bi, sym d B -> psd d B -> is_inv d B Bi -> 2 * tr d M <= tr d (mul d B C) + tr d (mul d Bi T).
Proof.
  intros B Bi H1 H2 H3. pose proof (young_fro d B Bi S (mul d bA S) H1 H2 H3) as H.
  destruct HS as [Hs [_ E]]. unfold sym in Hs. pose proof bA_sym as Ha. unfold sym in Ha.
  unfold fro in H. rewrite tp_mul, Hs, Ha, E, <- mulA, bA_SAS in H.
  rewrite (mulA d bA S (mul d S bA)), <- (mulA d S S bA), E, <- (mulA d bA C bA), bA_maps in H. exact H.
Qed.
(** and a lower bound from any pair of factors *)
Lemma trM_ge : forall X Y, meq d (mul d X (tp X)) C -> meq d (mul d Y (tp Y)) T -> fro d X Y <= tr d M.
Proof.
  intros X Y HX HY. pose proof (young_fro d bA bAi X Y bA_sym bA_psd bA_inv) as H.
  rewrite HX, HY, (tr_mulC d bA C), tr_CA, (tr_mulC d bAi T), tr_TAi in H. lra.
Qed.
(** the squared Bures distance, and its expression through the map *)
Definition bsq : R := tr d C + tr d T - 2 * tr d M.
Lemma bsq_map : bsq = fro d (ma S (ms (-1) (mul d bA S))) (ma S (ms (-1) (mul d bA S))).
Proof.
  rewrite fro_maL, !fro_maR, !fro_msL, !fro_msR, (froC d (mul d bA S) S).
  destruct HS as [Hs [_ E]]. unfold sym in Hs. pose proof bA_sym as Ha. unfold sym in Ha.
  unfold fro. rewrite tp_mul, Hs, Ha, E, <- (mulA d S bA S), bA_SAS.
  rewrite (mulA d S bA (mul d bA S)). rewrite (tr_mulC d S). rewrite (mulA d bA (mul d bA S) S), (mulA d bA S S), E.
  rewrite (tr_mulC d bA), bA_maps. unfold bsq. ring.
Qed.
Lemma bsq_nonneg : 0 <= bsq.
Proof. rewrite bsq_map. apply fro_nonneg. Qed.
Lemma bsq_zero : bsq = 0 -> meq d C T.
Proof.
  rewrite bsq_map. intros H. assert (E : meq d S (mul d bA S)).
  { intros i j Hi Hj. pose proof (fro_zero d _ H i j Hi Hj) as H0. unfold ma, ms in H0. lra. }
  destruct HS as [Hs [_ ES]]. unfold sym in Hs. pose proof bA_sym as Ha. unfold sym in Ha.
  assert (E' : meq d S (mul d S bA)). { transitivity (tp S); [symmetry; exact Hs|]. transitivity (tp (mul d bA S)); [rewrite <- E; reflexivity|]. rewrite tp_mul, Ha, Hs. reflexivity. }
  rewrite <- bA_maps, <- ES. transitivity (mul d (mul d bA S) (mul d S bA)); [|rewrite !mulA; reflexivity].
  rewrite <- E, <- E'. reflexivity.
Qed.
End Bures.

(** the distance of C to itself *)
Lemma bsq_self : forall d C T S Si M, is_sqrt d S C -> is_inv d S Si -> is_sqrt d M (mul d (mul d S T) S) -> meq d C T -> bsq d C T M = 0.
Proof.
  intros d C T S Si M HS HSi HM E. apply Rle_antisym; [|apply (bsq_nonneg d C T S Si M); auto].
  assert (HCi : is_inv d T (mul d Si Si)).
  { rewrite <- E. destruct HS as [_ [_ EE]]. rewrite <- EE. apply inv_mul; auto. }
  assert (HX : meq d (mul d S (tp S)) C). { destruct HS as [Hs [_ EE]]. unfold sym in Hs. rewrite Hs. exact EE. }
  pose proof (trM_ge d C T S Si M HS HSi HM _ HCi S S HX (transitivity HX E)) as H.
  unfold fro in H. destruct HS as [Hs [_ EE]]. unfold sym in Hs. rewrite Hs, EE in H. unfold bsq. rewrite <- E. lra.
Qed.

(** two orders of the same pair *)
Lemma trM_sym : forall d C T S Si M S' Si' M', is_sqrt d S C -> is_inv d S Si -> is_sqrt d M (mul d (mul d S T) S) ->
  is_sqrt d S' T -> is_inv d S' Si' -> is_sqrt d M' (mul d (mul d S' C) S') -> tr d M = tr d M'.
Proof.
  assert (W : forall d C T S Si M S' Si' M', is_sqrt d S C -> is_inv d S Si -> is_sqrt d M (mul d (mul d S T) S) ->
    is_sqrt d S' T -> is_inv d S' Si' -> is_sqrt d M' (mul d (mul d S' C) S') -> tr d M' <= tr d M).
  { intros d C T S Si M S' Si' M' HS HSi HM HS' HSi' HM'.
    assert (HTi : is_inv d T (mul d Si' Si')). { destruct HS' as [_ [_ EE]]. rewrite <- EE. apply inv_mul; auto. }
    set (A := bA d Si M). set (Ai := bAi d S Si M (mul d Si' Si')).
    assert (HA : is_inv d A Ai) by (exact (bA_inv d T S Si M HSi HM _ HTi)).
    assert (Hs : sym d A) by (exact (bA_sym d C T S Si M HS HSi HM)). assert (Hp : psd d A) by (exact (bA_psd d C T S Si M HS HSi HM)).
    pose proof (trM_le d T C S' Si' M' HS' HSi' HM' Ai A (inv_is_sym _ _ _ Hs HA) (inv_psd _ _ _ Hs Hp HA) (inv_sym _ _ _ HA)) as H.
    rewrite (tr_mulC d Ai T) in H. rewrite (tr_mulC d A C) in H. unfold Ai, A in H.
    rewrite (tr_TAi d C T S Si M HS HSi HM _ HTi) in H. rewrite (tr_CA d C S Si M HS HSi) in H. lra. }
  intros d C T S Si M S' Si' M' H1 H2 H3 H4 H5 H6. apply Rle_antisym;
    [exact (W d T C S' Si' M' S Si M H4 H5 H6 H1 H2 H3) | exact (W d C T S Si M S' Si' M' H1 H2 H3 H4 H5 H6)].
Qed.

(** factors of C and T give an upper bound on the squared distance *)
Lemma bsq_le : forall d C T S Si M Ti X Y, is_sqrt d S C -> is_inv d S Si -> is_sqrt d M (mul d (mul d S T) S) -> is_inv d T Ti ->
  meq d (mul d X (tp X)) C -> meq d (mul d Y (tp Y)) T -> bsq d C T M <= fro d (ma X (ms (-1) Y)) (ma X (ms (-1) Y)).
Proof.
  intros d C T S Si M Ti X Y HS HSi HM HTi HX HY. pose proof (trM_ge d C T S Si M HS HSi HM Ti HTi X Y HX HY) as H.
  rewrite fro_maL, !fro_maR, !fro_msL, !fro_msR, (froC d Y X).
  assert (EX : fro d X X = tr d C) by (unfold fro; rewrite tr_mulC, HX; reflexivity).
  assert (EY : fro d Y Y = tr d T) by (unfold fro; rewrite tr_mulC, HY; reflexivity).
  rewrite EX, EY. unfold bsq. lra.
Qed.
Lemma fro_neg : forall d X, fro d (ms (-1) X) (ms (-1) X) = fro d X X.
Proof. intros. rewrite fro_msL, fro_msR. ring. Qed.
Lemma factor_map : forall d C T S Si M, is_sqrt d S C -> is_inv d S Si -> is_sqrt d M (mul d (mul d S T) S) ->
  meq d (mul d (mul d (bA d Si M) S) (tp (mul d (bA d Si M) S))) T.
Proof.
  intros d C T S Si M HS HSi HM. pose proof (bA_sym d C T S Si M HS HSi HM) as Ha. unfold sym in Ha.
  pose proof HS as [Hs [_ E]]. unfold sym in Hs. rewrite tp_mul, Hs, Ha.
  rewrite (mulA d _ S), <- (mulA d S S), E, <- mulA. apply (bA_maps d C T S Si M); auto.
Qed.
Lemma bures_triangle : forall d C1 C2 C3 S1 S1i S2 S2i M13 M21 M23 C3i,
  is_sqrt d S1 C1 -> is_inv d S1 S1i -> is_sqrt d S2 C2 -> is_inv d S2 S2i -> is_inv d C3 C3i ->
  is_sqrt d M13 (mul d (mul d S1 C3) S1) -> is_sqrt d M21 (mul d (mul d S2 C1) S2) -> is_sqrt d M23 (mul d (mul d S2 C3) S2) ->
  sqrt (bsq d C1 C3 M13) <= sqrt (bsq d C2 C1 M21) + sqrt (bsq d C2 C3 M23).
Proof.
  intros d C1 C2 C3 S1 S1i S2 S2i M13 M21 M23 C3i H1 H1i H2 H2i H3i H13 H21 H23.
  set (X := mul d (bA d S2i M21) S2). set (Y := mul d (bA d S2i M23) S2).
  assert (HX : meq d (mul d X (tp X)) C1) by (apply (factor_map d C2 C1 S2 S2i M21); auto).
  assert (HY : meq d (mul d Y (tp Y)) C3) by (apply (factor_map d C2 C3 S2 S2i M23); auto).
  pose proof (bsq_le d C1 C3 S1 S1i M13 C3i X Y H1 H1i H13 H3i HX HY) as H.
  rewrite (bsq_map d C2 C1 S2 S2i M21), (bsq_map d C2 C3 S2 S2i M23) by auto. fold X Y.
  set (P := ma S2 (ms (-1) X)). set (Q := ma S2 (ms (-1) Y)).
  assert (E : meq d (ma X (ms (-1) Y)) (ma (ms (-1) P) Q)). { intros i j _ _. unfold P, Q, ma, ms. ring. }
  rewrite E in H. eapply Rle_trans; [apply sqrt_le_1_alt; exact H|]. rewrite <- (fro_neg d P). apply fro_minkowski.
Qed.

(** barycenters: the objective above its linearisation at Cb *)
Section Bary.
Variables (d k : nat) (C Ci : nat -> rmat) (w : rvec).
Variables (Cb S Si : rmat) (Mp : nat -> rmat).
Hypothesis Hw : forall p, (p < k)%nat -> 0 <= w p.
Hypothesis HCi : forall p, (p < k)%nat -> is_inv d (C p) (Ci p).
Hypothesis HS : is_sqrt d S Cb.
Hypothesis HSi : is_inv d S Si.
Hypothesis HM : forall p, (p < k)%nat -> is_sqrt d (Mp p) (mul d (mul d S (C p)) S).
Definition bobj (X : rmat) (M : nat -> rmat) : R := rsum k (fun p => w p * bsq d X (C p) (M p)).
Definition bT : rmat := msum k w (fun p => bA d Si (Mp p)).
Lemma bT_eq : meq d bT (mul d (mul d Si (msum k w Mp)) Si).
Proof. unfold bT, bA. rewrite mul_msumR, mul_msumL. reflexivity. Qed.
Lemma bobj_cert : forall X SX SXi MX, is_sqrt d SX X -> is_inv d SX SXi ->
  (forall p, (p < k)%nat -> is_sqrt d (MX p) (mul d (mul d SX (C p)) SX)) -> rsum k w = 1 ->
  bobj Cb Mp <= bobj X MX + tr d (mul d (ma X (ms (-1) Cb)) (ma bT (ms (-1) mI))).
Proof.
  intros X SX SXi MX HX HXi HMX Hw1. unfold bobj.
  assert (E : tr d (mul d (ma X (ms (-1) Cb)) (ma bT (ms (-1) mI))) =
    rsum k (fun p => w p * (tr d (mul d X (bA d Si (Mp p))) - tr d (mul d Cb (bA d Si (Mp p))) - tr d X + tr d Cb))).
  { rewrite mul_maL, !mul_maR, !mul_msL, !mul_msR, !mul1r. repeat first [rewrite tr_ma | rewrite tr_ms]. unfold bT. rewrite !mul_msumR, !tr_msum.
    rewrite (rsum_ext k (fun p => w p * (_ - _ - _ + _)) (fun p => w p * tr d (mul d X (bA d Si (Mp p))) - w p * tr d (mul d Cb (bA d Si (Mp p))) - w p * (tr d X - tr d Cb))) by (intros; ring).
    rewrite !rsum_minus, rsum_scal_r, Hw1. ring. }
  rewrite E, <- rsum_plus. apply rsum_le; intros p Hp. rewrite <- Rmult_plus_distr_l. apply Rmult_le_compat_l; auto.
  pose proof (HM p Hp) as Hm. set (A := bA d Si (Mp p)). set (Ai := bAi d S Si (Mp p) (Ci p)).
  assert (HA : is_inv d A Ai) by (exact (bA_inv d (C p) S Si (Mp p) HSi Hm _ (HCi p Hp))).
  assert (Hs : sym d A) by (exact (bA_sym d Cb (C p) S Si (Mp p) HS HSi Hm)).
  assert (Hq : psd d A) by (exact (bA_psd d Cb (C p) S Si (Mp p) HS HSi Hm)).
  pose proof (trM_le d X (C p) SX SXi (MX p) HX HXi (HMX p Hp) A Ai Hs Hq HA) as H.
  rewrite (tr_mulC d A X), (tr_mulC d Ai (C p)) in H. unfold Ai in H. rewrite (tr_TAi d Cb (C p) S Si (Mp p) HS HSi Hm _ (HCi p Hp)) in H.
  unfold bsq. unfold A in *. rewrite (tr_CA d Cb S Si (Mp p) HS HSi). lra.
Qed.
(** one gradient step of length eta along the tangent space *)
Lemma bobj_step : forall eta X SX SXi MX, is_sqrt d SX X -> is_inv d SX SXi ->
  (forall p, (p < k)%nat -> is_sqrt d (MX p) (mul d (mul d SX (C p)) SX)) -> rsum k w = 1 ->
  meq d X (mul d (mul d (ma (ms (1 - eta) mI) (ms eta bT)) Cb) (ma (ms (1 - eta) mI) (ms eta bT))) ->
  bobj X MX + eta * (2 - eta) * fro d (ma (mul d bT S) (ms (-1) S)) (ma (mul d bT S) (ms (-1) S)) <= bobj Cb Mp.
Proof.
  intros eta X SX SXi MX HX HXi HMX Hw1 EX. unfold bobj.
  pose proof HS as [Hs [_ ES]]. unfold sym in Hs.
  set (L := ma (ms (1 - eta) mI) (ms eta bT)) in *. set (G := fun p => mul d (bA d Si (Mp p)) S).
  assert (HbT : sym d bT).
  { intros i j Hi Hj. unfold tp, bT, msum. apply rsum_ext; intros p Hp. f_equal. exact (bA_sym d Cb (C p) S Si (Mp p) HS HSi (HM p Hp) i j Hi Hj). }
  assert (HL : sym d L). { intros i j Hi Hj. unfold tp, L, ma, ms. rewrite (HbT i j Hi Hj : bT j i = bT i j). pose proof (tp_I d i j Hi Hj) as HI. unfold tp in HI. rewrite HI. reflexivity. }
  unfold sym in HL.
  assert (HXX : meq d (mul d (mul d L S) (tp (mul d L S))) X). { rewrite tp_mul, Hs, HL, EX, <- ES, !mulA. reflexivity. }
  assert (ET : meq d (mul d bT S) (msum k w G)) by (unfold bT, G; rewrite mul_msumL; reflexivity).
  assert (EL : meq d (mul d L S) (ma (ms (1 - eta) S) (ms eta (msum k w G)))).
  { unfold L. rewrite mul_maL, !mul_msL, mul1l, ET. reflexivity. }
  set (tt := fro d (msum k w G) (msum k w G)). set (ss := fro d S S). set (st := fro d S (msum k w G)).
  assert (E1 : fro d (ma (mul d bT S) (ms (-1) S)) (ma (mul d bT S) (ms (-1) S)) = tt - 2 * st + ss).
  { rewrite ET, fro_maL, !fro_maR, !fro_msL, !fro_msR, (froC d (msum k w G) S). unfold tt, st, ss. ring. }
  assert (Est : st = rsum k (fun p => w p * fro d S (G p))) by (unfold st; apply fro_msumR).
  assert (Ett : tt = rsum k (fun p => w p * fro d (msum k w G) (G p))) by (unfold tt; apply fro_msumR).
  assert (B1 : rsum k (fun p => w p * bsq d X (C p) (MX p)) <= rsum k (fun p => w p * (fro d (G p) (G p) - 2 * ((1 - eta) * fro d S (G p) + eta * fro d (msum k w G) (G p)) + ((1 - eta) * (1 - eta) * ss + 2 * (1 - eta) * eta * st + eta * eta * tt)))).
  { apply rsum_le; intros p Hp. apply Rmult_le_compat_l; auto.
    assert (HG : meq d (mul d (G p) (tp (G p))) (C p)) by (apply (factor_map d Cb (C p) S Si (Mp p)); auto).
    pose proof (bsq_le d X (C p) SX SXi (MX p) (Ci p) (mul d L S) (G p) HX HXi (HMX p Hp) (HCi p Hp) HXX HG) as H.
    rewrite EL in H. repeat first [rewrite fro_maL in H | rewrite fro_maR in H | rewrite fro_msL in H | rewrite fro_msR in H].
    rewrite (froC d (G p) S), (froC d (G p) (msum k w G)), (froC d (msum k w G) S) in H. fold ss st tt in H. lra. }
  assert (B2 : rsum k (fun p => w p * bsq d Cb (C p) (Mp p)) = rsum k (fun p => w p * (fro d (G p) (G p) - 2 * fro d S (G p) + ss))).
  { apply rsum_ext; intros p Hp. f_equal. rewrite (bsq_map d Cb (C p) S Si (Mp p)) by auto. fold (G p).
    rewrite fro_maL, !fro_maR, !fro_msL, !fro_msR, (froC d (G p) S). fold ss. ring. }
  rewrite E1, B2.
  set (gg := rsum k (fun p => w p * fro d (G p) (G p))).
  assert (X1 : rsum k (fun p => w p * (fro d (G p) (G p) - 2 * ((1 - eta) * fro d S (G p) + eta * fro d (msum k w G) (G p)) + ((1 - eta) * (1 - eta) * ss + 2 * (1 - eta) * eta * st + eta * eta * tt)))
    = gg - 2 * ((1 - eta) * st + eta * tt) + ((1 - eta) * (1 - eta) * ss + 2 * (1 - eta) * eta * st + eta * eta * tt)).
  { rewrite (rsum_ext k _ (fun p => w p * fro d (G p) (G p) - (2 * (1 - eta)) * (w p * fro d S (G p)) - (2 * eta) * (w p * fro d (msum k w G) (G p)) + w p * ((1 - eta) * (1 - eta) * ss + 2 * (1 - eta) * eta * st + eta * eta * tt))) by (intros; ring).
    rewrite rsum_plus, !rsum_minus, !rsum_scal, rsum_scal_r, Hw1, <- Est, <- Ett. fold gg. ring. }
  assert (X2 : rsum k (fun p => w p * (fro d (G p) (G p) - 2 * fro d S (G p) + ss)) = gg - 2 * st + ss).
  { rewrite (rsum_ext k _ (fun p => w p * fro d (G p) (G p) - 2 * (w p * fro d S (G p)) + w p * ss)) by (intros; ring).
    rewrite rsum_plus, !rsum_minus, !rsum_scal, rsum_scal_r, Hw1, <- Est. fold gg. ring. }
  rewrite X1 in B1. rewrite X2. lra.
Qed.
End Bary.
