(** Greenkhorn bookkeeping, absorption in the stabilised solver, batched projections. *)
From Coq Require Import List Arith Bool Reals Lra Lia.
From Verif Require Import Num Sums Spec Duals_proofs Entropy Sinkhorn_model Sinkhorn_proofs.
Import ListNotations.
Local Open Scope R_scope.

(** ** greenkhorn *)
Section G.
Variables (n m : nat) (a b : vec) (K : mat).
Hypotheses (Hn : (0 < n)%nat) (Hm : (0 < m)%nat) (Ha : pos_vec n a) (Hb : pos_vec m b)
  (HK : forall i j, (i < n)%nat -> (j < m)%nat -> 0 < K i j).
Notation pl u v := (scaled (N:=RNum) K u v).

Record ginv (s : gs (N:=RNum)) : Prop := mk_ginv {
  gi_u : pos_vec n (g_u s);
  gi_v : pos_vec m (g_v s);
  gi_G : forall i j, (i < n)%nat -> (j < m)%nat -> g_G s i j = pl (g_u s) (g_v s) i j;
  gi_1 : forall i, (i < n)%nat -> g_viol s i = row_sum m (pl (g_u s) (g_v s)) i - a i;
  gi_2 : forall j, (j < m)%nat -> g_viol2 s j = col_sum n (pl (g_u s) (g_v s)) j - b j
}.
Lemma gk_init_inv : forall u v, pos_vec n u -> pos_vec m v -> ginv (gk_init (N:=RNum) n m a b K u v).
Proof. intros u v Hu Hv. constructor; cbn; auto; intros; rewrite nsum_R; reflexivity. Qed.

Lemma set_eq : forall i x (f : vec), set (N:=RNum) i x f i = x.
Proof. intros; unfold set; rewrite Nat.eqb_refl; auto. Qed.
Lemma set_neq : forall i k x (f : vec), k <> i -> set (N:=RNum) i x f k = f k.
Proof. intros i k x f H; unfold set; apply Nat.eqb_neq in H; rewrite H; auto. Qed.

Lemma gk_row_inv : forall s i1, (i1 < n)%nat -> ginv s -> ginv (gk_row (N:=RNum) m a K s i1).
Proof.
  intros s i1 Hi [I1 I2 I3 I4 I5].
  set (nw := a i1 / kv_sum m K (g_v s) i1).
  assert (E : ndiv (n:=RNum) (a i1) (nsum m (fun j => nmul (n:=RNum) (K i1 j) (g_v s j))) = nw) by (rewrite nsum_R; reflexivity).
  assert (Q : 0 < kv_sum m K (g_v s) i1) by (apply (kvs_pos n); auto).
  assert (P : 0 < nw) by (apply Rdiv_lt_0_compat; auto).
  unfold gk_row. rewrite E.
  assert (PU : pos_vec n (set (N:=RNum) i1 nw (g_u s))).
  { intros i Hi'. unfold set. destruct (Nat.eqb i i1); auto. }
  constructor; cbn [g_u g_v g_G g_viol g_viol2]; auto.
  - intros i j Hi' Hj. destruct (Nat.eqb_spec i i1) as [->|Hne].
    + unfold scaled. rewrite set_eq. reflexivity.
    + rewrite I3 by auto. unfold scaled. rewrite set_neq; auto.
  - intros i Hi'. destruct (Nat.eq_dec i i1) as [->|Hne].
    + rewrite set_eq, nsum_R. change (rsum m (fun j => pl (fun _ => nw) (g_v s) i1 j) - a i1 = row_sum m (pl (set (N:=RNum) i1 nw (g_u s)) (g_v s)) i1 - a i1).
      f_equal. apply rsum_ext; intros. unfold scaled. rewrite set_eq. reflexivity.
    + rewrite set_neq by auto. rewrite I4 by auto. f_equal. apply rsum_ext; intros. unfold scaled. rewrite set_neq; auto.
  - intros j Hj. rewrite I5 by auto. unfold col_sum.
    rewrite (rsum_ext n (fun i => pl (set (N:=RNum) i1 nw (g_u s)) (g_v s) i j)
       (fun i => pl (g_u s) (g_v s) i j + (if Nat.eqb i i1 then (nw - g_u s i1) * K i1 j * g_v s j else 0))).
    + rewrite rsum_plus, rsum_delta by auto. cbn. ring.
    + intros i Hi'. unfold scaled. destruct (Nat.eqb_spec i i1) as [->|Hne]; [rewrite set_eq|rewrite set_neq by auto]; cbn; ring.
Qed.
Lemma gk_col_inv : forall s i2, (i2 < m)%nat -> ginv s -> ginv (gk_col (N:=RNum) n b K s i2).
Proof.
  intros s i2 Hj2 [I1 I2 I3 I4 I5].
  set (nw := b i2 / ktu n K (g_u s) i2).
  assert (E : ndiv (n:=RNum) (b i2) (nsum n (fun i => nmul (n:=RNum) (K i i2) (g_u s i))) = nw) by (rewrite nsum_R; reflexivity).
  assert (Q : 0 < ktu n K (g_u s) i2) by (apply (ktu_pos n m); auto).
  assert (P : 0 < nw) by (apply Rdiv_lt_0_compat; auto).
  unfold gk_col. rewrite E.
  assert (PV : pos_vec m (set (N:=RNum) i2 nw (g_v s))).
  { intros j Hj'. unfold set. destruct (Nat.eqb j i2); auto. }
  constructor; cbn [g_u g_v g_G g_viol g_viol2]; auto.
  - intros i j Hi Hj. destruct (Nat.eqb_spec j i2) as [->|Hne].
    + unfold scaled. rewrite set_eq. reflexivity.
    + rewrite I3 by auto. unfold scaled. rewrite set_neq; auto.
  - intros i Hi. rewrite I4 by auto. unfold row_sum.
    rewrite (rsum_ext m (fun j => pl (g_u s) (set (N:=RNum) i2 nw (g_v s)) i j)
       (fun j => pl (g_u s) (g_v s) i j + (if Nat.eqb j i2 then (nw - g_v s i2) * K i i2 * g_u s i else 0))).
    + rewrite rsum_plus, rsum_delta by auto. set (S := rsum m (pl (g_u s) (g_v s) i)).
      change (S - a i + (0 - g_v s i2 + nw) * K i i2 * g_u s i = S + (nw - g_v s i2) * K i i2 * g_u s i - a i). ring.
    + intros j Hj. unfold scaled. destruct (Nat.eqb_spec j i2) as [->|Hne]; [rewrite set_eq|rewrite set_neq by auto]; cbn; ring.
  - intros j Hj. destruct (Nat.eq_dec j i2) as [->|Hne].
    + rewrite set_eq, nsum_R. rewrite pl_col, set_eq. change (nw * ktu n K (g_u s) i2 - b i2 = ktu n K (g_u s) i2 * nw - b i2). ring.
    + rewrite set_neq by auto. rewrite I5 by auto. f_equal. apply rsum_ext; intros. unfold scaled. rewrite set_neq; auto.
Qed.
Lemma argmaxk_le : forall (N : NumOps) k (f : nat -> N), (argmaxk k f <= k)%nat.
Proof. intros N k f. induction k; cbn [argmaxk]; auto. destruct (nltb _ _); lia. Qed.
Lemma argmaxk_max : forall k (f : vec) i, (i <= k)%nat -> f i <= f (argmaxk (N:=RNum) k f).
Proof.
  induction k; intros f i Hi; cbn [argmaxk]; [replace i with 0%nat by lia; lra|].
  change (@nltb RNum) with Rltb. destruct (Rltb (f (argmaxk (N:=RNum) k f)) (f (S k))) eqn:E.
  - apply Rltb_true in E. destruct (Nat.eq_dec i (S k)) as [->|]; [lra|]. specialize (IHk f i ltac:(lia)). lra.
  - apply Rltb_false in E. destruct (Nat.eq_dec i (S k)) as [->|]; [auto|]. apply IHk; lia.
Qed.
Lemma gk_i1_lt : forall s, (gk_i1 (N:=RNum) n s < n)%nat.
Proof. intros s. unfold gk_i1. assert (H := argmaxk_le RNum (n - 1) (fun i => nabs (g_viol s i))). lia. Qed.
Lemma gk_i2_lt : forall s, (gk_i2 (N:=RNum) m s < m)%nat.
Proof. intros s. unfold gk_i2. assert (H := argmaxk_le RNum (m - 1) (fun j => nabs (g_viol2 s j))). lia. Qed.
Lemma gk_step_inv : forall s, ginv s -> ginv (gk_step (N:=RNum) n m a b K s).
Proof. intros s I. unfold gk_step. destruct (nltb _ _); [apply gk_row_inv|apply gk_col_inv]; auto using gk_i1_lt, gk_i2_lt. Qed.

Lemma nabs_R : forall x : R, nabs (N:=RNum) x = Rabs x.
Proof.
  intros x. unfold nabs, nopp. change (@nltb RNum) with Rltb. destruct (Rltb x (@n0 RNum)) eqn:E.
  - apply Rltb_true in E. cbn in *. rewrite Rabs_left by auto. ring.
  - apply Rltb_false in E. cbn in *. rewrite Rabs_pos_eq; auto.
Qed.
Lemma gk_thr_ge : forall s, ginv s ->
  (forall i, (i < n)%nat -> Rabs (row_sum m (pl (g_u s) (g_v s)) i - a i) <= gk_thr (N:=RNum) n m s) /\
  (forall j, (j < m)%nat -> Rabs (col_sum n (pl (g_u s) (g_v s)) j - b j) <= gk_thr (N:=RNum) n m s).
Proof.
  intros s I. unfold gk_thr. rewrite nmax_R. split.
  - intros i Hi. rewrite <- (gi_1 s I) by auto. eapply Rle_trans; [|apply Rmax_l]. unfold gk_i1. rewrite <- nabs_R.
    apply (argmaxk_max (n - 1) (fun i => nabs (N:=RNum) (g_viol s i))). lia.
  - intros j Hj. rewrite <- (gi_2 s I) by auto. eapply Rle_trans; [|apply Rmax_r]. unfold gk_i2. rewrite <- nabs_R.
    apply (argmaxk_max (m - 1) (fun j => nabs (N:=RNum) (g_viol2 s j))). lia.
Qed.
(** one step from a state within t stays within 2t *)
Lemma abs_scale : forall x y z : R, Rabs (x * y * z) = Rabs x * Rabs y * Rabs z.
Proof. intros; rewrite !Rabs_mult; auto. Qed.
Lemma gk_step_close : forall s t, ginv s -> gk_thr (N:=RNum) n m s <= t ->
  let s' := gk_step (N:=RNum) n m a b K s in
  (forall i, (i < n)%nat -> Rabs (row_sum m (pl (g_u s') (g_v s')) i - a i) <= 2 * t) /\
  (forall j, (j < m)%nat -> Rabs (col_sum n (pl (g_u s') (g_v s')) j - b j) <= 2 * t).
Proof.
  intros s t I Ht s'. destruct (gk_thr_ge s I) as [B1 B2].
  assert (B1' : forall i, (i < n)%nat -> Rabs (row_sum m (pl (g_u s) (g_v s)) i - a i) <= t) by (intros i Hi; specialize (B1 i Hi); lra).
  assert (B2' : forall j, (j < m)%nat -> Rabs (col_sum n (pl (g_u s) (g_v s)) j - b j) <= t) by (intros j Hj; specialize (B2 j Hj); lra).
  assert (T0 : 0 <= t) by (eapply Rle_trans; [apply Rabs_pos|apply (B1' 0%nat); auto]).
  assert (I' : ginv s') by (apply gk_step_inv; auto).
  unfold s', gk_step in *. destruct (nltb _ _).
  - set (i1 := gk_i1 (N:=RNum) n s) in *. assert (Hi1 := gk_i1_lt s : (i1 < n)%nat).
    set (nw := a i1 / kv_sum m K (g_v s) i1).
    assert (E : ndiv (n:=RNum) (a i1) (nsum m (fun j => nmul (n:=RNum) (K i1 j) (g_v s j))) = nw) by (rewrite nsum_R; reflexivity).
    assert (Q : 0 < kv_sum m K (g_v s) i1) by (apply (kvs_pos n); auto; apply I).
    unfold gk_row in *. rewrite E in *. cbn [g_u g_v] in *. split.
    + intros i Hi. destruct (Nat.eq_dec i i1) as [->|Hne].
      * rewrite pl_row, set_eq. unfold nw. replace (a i1 / kv_sum m K (g_v s) i1 * kv_sum m K (g_v s) i1 - a i1) with 0 by (field; lra). rewrite Rabs_R0. lra.
      * rewrite pl_row, set_neq by auto. rewrite <- pl_row. specialize (B1' i Hi). lra.
    + intros j Hj. rewrite <- (gi_2 _ I') by auto. cbn [g_viol2]. rewrite (gi_2 s I) by auto.
      eapply Rle_trans; [apply Rabs_triang|]. specialize (B2' j Hj).
      assert (Rabs (K i1 j * (nw - g_u s i1) * g_v s j) <= t); [|cbn; lra].
      specialize (B1' i1 Hi1). rewrite pl_row in B1'.
      replace (g_u s i1 * kv_sum m K (g_v s) i1 - a i1) with ((g_u s i1 - nw) * kv_sum m K (g_v s) i1) in B1' by (unfold nw; field; lra).
      rewrite Rabs_mult, (Rabs_pos_eq (kv_sum _ _ _ _)) in B1' by lra. rewrite abs_scale.
      assert (P1 := HK i1 j Hi1 Hj). assert (P2 := gi_v s I j Hj). rewrite (Rabs_pos_eq (K i1 j)), (Rabs_pos_eq (g_v s j)) by (left; auto).
      rewrite Rabs_minus_sym. replace (K i1 j * Rabs (g_u s i1 - nw) * g_v s j) with (Rabs (g_u s i1 - nw) * (K i1 j * g_v s j)) by ring.
      eapply Rle_trans; [|exact B1']. apply Rmult_le_compat_l; [apply Rabs_pos|].
      apply (rsum_le_one m (fun j => K i1 j * g_v s j)); auto. intros k Hk. left. apply Rmult_lt_0_compat; auto. apply I; auto.
  - set (i2 := gk_i2 (N:=RNum) m s) in *. assert (Hi2 := gk_i2_lt s : (i2 < m)%nat).
    set (nw := b i2 / ktu n K (g_u s) i2).
    assert (E : ndiv (n:=RNum) (b i2) (nsum n (fun i => nmul (n:=RNum) (K i i2) (g_u s i))) = nw) by (rewrite nsum_R; reflexivity).
    assert (Q : 0 < ktu n K (g_u s) i2) by (apply (ktu_pos n m); auto; apply I).
    unfold gk_col in *. rewrite E in *. cbn [g_u g_v] in *. split.
    + intros i Hi. rewrite <- (gi_1 _ I') by auto. cbn [g_viol]. rewrite (gi_1 s I) by auto.
      eapply Rle_trans; [apply Rabs_triang|]. specialize (B1' i Hi).
      assert (Rabs ((0 - g_v s i2 + nw) * K i i2 * g_u s i) <= t); [|cbn; lra].
      specialize (B2' i2 Hi2). rewrite pl_col in B2'.
      replace (ktu n K (g_u s) i2 * g_v s i2 - b i2) with ((g_v s i2 - nw) * ktu n K (g_u s) i2) in B2' by (unfold nw; field; lra).
      rewrite Rabs_mult, (Rabs_pos_eq (ktu _ _ _ _)) in B2' by lra. rewrite abs_scale.
      assert (P1 := HK i i2 Hi Hi2). assert (P2 := gi_u s I i Hi). rewrite (Rabs_pos_eq (K i i2)), (Rabs_pos_eq (g_u s i)) by (left; auto).
      replace (0 - g_v s i2 + nw) with (nw - g_v s i2) by ring. rewrite Rabs_minus_sym.
      rewrite Rmult_assoc. eapply Rle_trans; [|exact B2']. apply Rmult_le_compat_l; [apply Rabs_pos|].
      apply (rsum_le_one n (fun i => K i i2 * g_u s i)); auto. intros k Hk. left. apply Rmult_lt_0_compat; auto. apply I; auto.
    + intros j Hj. destruct (Nat.eq_dec j i2) as [->|Hne].
      * rewrite pl_col, set_eq. unfold nw. replace (ktu n K (g_u s) i2 * (b i2 / ktu n K (g_u s) i2) - b i2) with 0 by (field; lra). rewrite Rabs_R0. lra.
      * rewrite pl_col, set_neq by auto. rewrite <- pl_col. specialize (B2' j Hj). lra.
Qed.
Lemma gk_loop_spec : forall thr left ii s, ginv s ->
  let r := gk_loop (N:=RNum) n m a b K thr left ii s in
  ginv (fst r) /\
  (forall k, snd r = Converged k ->
    (forall i, (i < n)%nat -> Rabs (row_sum m (pl (g_u (fst r)) (g_v (fst r))) i - a i) <= 2 * thr) /\
    (forall j, (j < m)%nat -> Rabs (col_sum n (pl (g_u (fst r)) (g_v (fst r))) j - b j) <= 2 * thr)).
Proof.
  intros thr. induction left; intros ii s I; cbn [gk_loop]; [cbn; split; auto; discriminate|].
  change (@nleb RNum) with Rleb. destruct (Rleb (gk_thr (N:=RNum) n m s) thr) eqn:E.
  - apply Rleb_true in E. cbn [fst snd]. split; [apply gk_step_inv; auto|]. intros k _. apply gk_step_close; auto.
  - apply IHleft. apply gk_step_inv; auto.
Qed.
End G.

(** ** greenkhorn terminates: every greedy step lowers a bounded function *)
Section GT.
Variables (n m : nat) (a b : vec) (K : mat).
Hypotheses (Hn : (0 < n)%nat) (Hm : (0 < m)%nat) (Ha : pos_vec n a) (Hb : pos_vec m b)
  (HK : forall i j, (i < n)%nat -> (j < m)%nat -> 0 < K i j) (Hmass : mass n a = mass m b).
Notation pl u v := (scaled (N:=RNum) K u v).
Let A := mass n a.
Definition kl1 (x y : R) : R := x * ln (x / y) - x + y.
Definition phi (u v : vec) : R := gap n m a b K u v - A + total n m (pl u v).
Lemma phi_nonneg : forall u v, pos_vec n u -> pos_vec m v -> 0 <= phi u v.
Proof.
  intros u v Hu Hv. assert (B : dsum n m (fun i j => prodm n a b i j - pl u v i j) <= gap n m a b K u v).
  { apply dsum_le. intros i j Hi Hj. assert (P := prodm_pos n m a b Hn Ha Hb i j Hi Hj). assert (Q := pl_pos n m K HK u v Hu Hv i j Hi Hj).
    assert (L := xlnx_div_ge (prodm n a b i j) (pl u v i j) (Rlt_le _ _ P) Q). rewrite ln_div in L by auto.
    replace (ln (pl u v i j)) with (ln (u i) + ln (K i j) + ln (v j)) in L.
    - eapply Rle_trans; [exact L|]. right. ring.
    - unfold scaled. cbn. rewrite !ln_mult; auto. apply Rmult_lt_0_compat; auto. }
  rewrite dsum_minus in B. rewrite (dsum_total n m (pl u v)) in B. unfold phi.
  replace (dsum n m (prodm n a b)) with A in B; [lra|]. unfold A, mass, dsum. apply rsum_ext; intros; symmetry; apply (prodm_row n m); auto.
Qed.
Lemma kl1_lower : forall x y t, 0 < x -> 0 < y -> x <= A -> 0 < t -> t < Rabs (y - x) -> Rmin (t * t / (9 * A)) A <= kl1 x y.
Proof.
  intros x y t Hx Hy HA Ht Hd. assert (H := hellinger1 x y Hx Hy). fold (kl1 x y) in H.
  assert (Sx := sqrt_lt_R0 x Hx). assert (Sy := sqrt_lt_R0 y Hy).
  assert (Ex := sqrt_sqrt x (Rlt_le _ _ Hx)). assert (Ey := sqrt_sqrt y (Rlt_le _ _ Hy)).
  set (p := sqrt x) in *. set (q := sqrt y) in *. eapply Rle_trans; [|exact H].
  destruct (Rle_lt_dec y (4 * A)) as [C|C].
  - eapply Rle_trans; [apply Rmin_l|]. apply (Rmult_le_reg_l (9 * A)); [lra|]. replace (9 * A * (t * t / (9 * A))) with (t * t) by (field; lra).
    assert (T : t * t <= (y - x) * (y - x)).
    { replace ((y - x) * (y - x)) with (Rabs (y - x) * Rabs (y - x)) by (rewrite <- Rabs_mult; apply Rabs_pos_eq, Rle_0_sqr). apply Rmult_le_compat; lra. }
    eapply Rle_trans; [exact T|]. rewrite <- Ex, <- Ey.
    replace ((q * q - p * p) * (q * q - p * p)) with ((p + q) * (p + q) * ((p - q) * (p - q))) by ring.
    apply Rmult_le_compat_r; [apply Rle_0_sqr|]. assert (0 <= (2 * p - q) * (2 * p - q)) by apply Rle_0_sqr. nra.
  - eapply Rle_trans; [apply Rmin_r|]. assert (2 * p < q). { apply Rsqr_incrst_0; unfold Rsqr; nra. } nra.
Qed.
Lemma phi_row : forall s i1, (i1 < n)%nat -> ginv n m a b K s ->
  let s' := gk_row (N:=RNum) m a K s i1 in
  phi (g_u s) (g_v s) - phi (g_u s') (g_v s') = kl1 (a i1) (row_sum m (pl (g_u s) (g_v s)) i1).
Proof.
  intros s i1 Hi [I1 I2 _ _ _] s'.
  set (nw := a i1 / kv_sum m K (g_v s) i1).
  assert (E : ndiv (n:=RNum) (a i1) (nsum m (fun j => nmul (n:=RNum) (K i1 j) (g_v s j))) = nw) by (rewrite nsum_R; reflexivity).
  assert (Q : 0 < kv_sum m K (g_v s) i1) by (apply (kvs_pos n); auto).
  unfold s', gk_row. rewrite E. cbn [g_u g_v].
  assert (G := gap_diff n m a b K Hn Ha Hmass (g_u s) (g_v s) (set (N:=RNum) i1 nw (g_u s)) (g_v s)).
  rewrite (rsum_0 m) in G by (intros; ring).
  rewrite (rsum_ext n _ (fun i => if Nat.eqb i i1 then a i1 * (ln nw - ln (g_u s i1)) else 0)) in G.
  2:{ intros i Hi'. destruct (Nat.eqb_spec i i1) as [->|Hne]; [rewrite set_eq|rewrite set_neq by auto]; ring. }
  rewrite rsum_delta in G by auto.
  assert (T : total n m (pl (set (N:=RNum) i1 nw (g_u s)) (g_v s)) = total n m (pl (g_u s) (g_v s)) + (nw - g_u s i1) * kv_sum m K (g_v s) i1).
  { unfold total. rewrite (rsum_ext n (fun i => rsum m (fun j => pl (set (N:=RNum) i1 nw (g_u s)) (g_v s) i j))
      (fun i => row_sum m (pl (g_u s) (g_v s)) i + (if Nat.eqb i i1 then (nw - g_u s i1) * kv_sum m K (g_v s) i1 else 0))).
    - rewrite rsum_plus, rsum_delta by auto. reflexivity.
    - intros i Hi'. change (row_sum m (pl (set (N:=RNum) i1 nw (g_u s)) (g_v s)) i = row_sum m (pl (g_u s) (g_v s)) i + (if Nat.eqb i i1 then (nw - g_u s i1) * kv_sum m K (g_v s) i1 else 0)).
      rewrite !pl_row. destruct (Nat.eqb_spec i i1) as [->|Hne]; [rewrite set_eq|rewrite set_neq by auto]; cbn; ring. }
  unfold phi. rewrite T, pl_row. unfold kl1. rewrite ln_div, ln_mult by (auto; apply Rmult_lt_0_compat; auto).
  unfold nw in *. rewrite ln_div in G by auto.
  replace ((a i1 / kv_sum m K (g_v s) i1 - g_u s i1) * kv_sum m K (g_v s) i1) with (a i1 - g_u s i1 * kv_sum m K (g_v s) i1) by (field; lra). lra.
Qed.
Lemma phi_col : forall s i2, (i2 < m)%nat -> ginv n m a b K s ->
  let s' := gk_col (N:=RNum) n b K s i2 in
  phi (g_u s) (g_v s) - phi (g_u s') (g_v s') = kl1 (b i2) (col_sum n (pl (g_u s) (g_v s)) i2).
Proof.
  intros s i2 Hj [I1 I2 _ _ _] s'.
  set (nw := b i2 / ktu n K (g_u s) i2).
  assert (E : ndiv (n:=RNum) (b i2) (nsum n (fun i => nmul (n:=RNum) (K i i2) (g_u s i))) = nw) by (rewrite nsum_R; reflexivity).
  assert (Q : 0 < ktu n K (g_u s) i2) by (apply (ktu_pos n m); auto).
  unfold s', gk_col. rewrite E. cbn [g_u g_v].
  assert (G := gap_diff n m a b K Hn Ha Hmass (g_u s) (g_v s) (g_u s) (set (N:=RNum) i2 nw (g_v s))).
  rewrite (rsum_0 n) in G by (intros; ring).
  rewrite (rsum_ext m _ (fun j => if Nat.eqb j i2 then b i2 * (ln nw - ln (g_v s i2)) else 0)) in G.
  2:{ intros i Hi'. destruct (Nat.eqb_spec i i2) as [->|Hne]; [rewrite set_eq|rewrite set_neq by auto]; ring. }
  rewrite rsum_delta in G by auto.
  assert (T : total n m (pl (g_u s) (set (N:=RNum) i2 nw (g_v s))) = total n m (pl (g_u s) (g_v s)) + (nw - g_v s i2) * ktu n K (g_u s) i2).
  { rewrite !tot_cols. rewrite (rsum_ext m (colm n K (g_u s) (set (N:=RNum) i2 nw (g_v s)))
      (fun j => colm n K (g_u s) (g_v s) j + (if Nat.eqb j i2 then (nw - g_v s i2) * ktu n K (g_u s) i2 else 0))).
    - rewrite rsum_plus, rsum_delta by auto. reflexivity.
    - intros j Hj'. unfold colm. rewrite !pl_col. destruct (Nat.eqb_spec j i2) as [->|Hne]; [rewrite set_eq|rewrite set_neq by auto]; cbn; ring. }
  unfold phi. rewrite T, pl_col. unfold kl1. rewrite ln_div, ln_mult by (auto; apply Rmult_lt_0_compat; auto).
  unfold nw in *. rewrite ln_div in G by auto.
  replace ((b i2 / ktu n K (g_u s) i2 - g_v s i2) * ktu n K (g_u s) i2) with (b i2 - ktu n K (g_u s) i2 * g_v s i2) by (field; lra). lra.
Qed.
Lemma phi_step : forall s t, ginv n m a b K s -> 0 < t -> t < gk_thr (N:=RNum) n m s ->
  let s' := gk_step (N:=RNum) n m a b K s in
  Rmin (t * t / (9 * A)) A <= phi (g_u s) (g_v s) - phi (g_u s') (g_v s').
Proof.
  intros s t I Ht Hv s'. unfold s', gk_step. unfold gk_thr in Hv. rewrite nmax_R, !nabs_R in Hv. change (@nltb RNum) with Rltb. rewrite !nabs_R.
  assert (HA : forall i, (i < n)%nat -> a i <= A) by (intros i Hi; apply (rsum_le_one n a); auto; intros k Hk; left; auto).
  assert (HB : forall j, (j < m)%nat -> b j <= A) by (intros j Hj; unfold A; rewrite Hmass; apply (rsum_le_one m b); auto; intros k Hk; left; auto).
  assert (L1 : (gk_i1 (N:=RNum) n s < n)%nat) by (eapply gk_i1_lt; eauto). assert (L2 : (gk_i2 (N:=RNum) m s < m)%nat) by (eapply gk_i2_lt; eauto).
  destruct (Rltb _ _) eqn:E.
  - apply Rltb_true in E. rewrite Rmax_left in Hv by lra. rewrite phi_row by auto. apply kl1_lower; auto.
    + apply rsum_pos; auto. intros; apply (pl_pos n m); auto; apply I.
    + rewrite <- (gi_1 _ _ _ _ _ _ I) by auto. auto.
  - apply Rltb_false in E. rewrite Rmax_right in Hv by lra. rewrite phi_col by auto. apply kl1_lower; auto.
    + apply rsum_pos; auto. intros; apply (pl_pos n m); auto; apply I.
    + rewrite <- (gi_2 _ _ _ _ _ _ I) by auto. auto.
Qed.
Lemma gk_loop_phi : forall thr left ii s, 0 < thr -> ginv n m a b K s ->
  snd (gk_loop (N:=RNum) n m a b K thr left ii s) = MaxIter ->
  INR left * Rmin (thr * thr / (9 * A)) A <= phi (g_u s) (g_v s).
Proof.
  intros thr. induction left; intros ii s Ht I.
  - intros _. change (INR 0) with 0. rewrite Rmult_0_l. apply phi_nonneg; apply I.
  - cbn [gk_loop]. change (@nleb RNum) with Rleb. destruct (Rleb (gk_thr (N:=RNum) n m s) thr) eqn:E; [discriminate|].
    apply Rleb_false in E. intros HX. specialize (IHleft (S ii) _ Ht (gk_step_inv n m a b K Hn Hm Ha Hb HK s I) HX).
    assert (P := phi_step s thr I Ht E). rewrite S_INR. lra.
Qed.
Lemma gk_loop_exit : forall thr left ii s k, snd (gk_loop (N:=RNum) n m a b K thr left ii s) <> NumErr k.
Proof.
  intros thr. induction left; intros ii s k; cbn [gk_loop]; [discriminate|]. destruct (nleb _ _); [discriminate|auto].
Qed.
End GT.
