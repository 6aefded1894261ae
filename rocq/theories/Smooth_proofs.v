(** Conjugates of the three regularizations, weak duality, supergradients and certificates *)
From Coq Require Import List Arith Bool Reals Lra Lia FunctionalExtensionality.
From Verif Require Import Num Sums Spec Perm Entropy Duals_proofs Optim_proofs Emd1d_model Emd1d_proofs Emd1d_perm_proofs Utils_model Utils_proofs Smooth_model.
Import ListNotations.
Local Open Scope R_scope.

(** ** specification *)
(** regularization of one column of the plan; ln 0 = 0 in Coq's reals so that 0 ln 0 = 0 *)
Definition Om (r : regul) (gamma : R) (n : nat) (y : vec) : R :=
  match r with NegEntropy => gamma * rsum n (fun i => y i * ln (y i)) | _ => gamma / 2 * rsum n (fun i => y i * y i) end.
Definition admissible (r : regul) (n : nat) (y : vec) : Prop :=
  nonneg_vec n y /\ match r with Sparse k => (nnz n y <= k)%nat | _ => True end.
Definition primal (r : regul) (gamma : R) (n m : nat) (C T : mat) : R := cost n m C T + rsum m (fun j => Om r gamma n (fun i => T i j)).

Notation delta r n g x := (delta_Omega (N:=RNum) exp r n g x).
Notation maxo r n g x b := (max_Omega (N:=RNum) exp ln r n g x b).

Lemma l2_pt : forall g x y, 0 < g -> 0 <= y -> x * y - g / 2 * (y * y) <= Rmax x 0 * Rmax x 0 / (2 * g).
Proof.
  intros g x y Hg Hy. set (X := Rmax x 0). assert (HX : 0 <= X /\ x <= X) by (unfold X; split; [apply Rmax_r|apply Rmax_l]).
  apply (Rmult_le_reg_r (2 * g)); [lra|]. unfold Rdiv at 2. rewrite Rmult_assoc, Rinv_l, Rmult_1_r by lra.
  assert (A : x * y <= X * y) by (apply Rmult_le_compat_r; lra). assert (A2 : g * (x * y) <= g * (X * y)) by (apply Rmult_le_compat_l; lra).
  pose proof (Rle_0_sqr (X - g * y)) as S. unfold Rsqr in S. replace ((x * y - g / 2 * (y * y)) * (2 * g)) with (2 * (g * (x * y)) - g * y * (g * y)) by field. nra.
Qed.
Lemma l2_eq : forall g x, 0 < g -> x * (Rmax x 0 / g) - g / 2 * (Rmax x 0 / g * (Rmax x 0 / g)) = Rmax x 0 * Rmax x 0 / (2 * g).
Proof. intros g x Hg. unfold Rmax. destruct (Rle_dec x 0); field; lra. Qed.
Lemma ent_pt : forall g x y, 0 < g -> 0 <= y -> x * y - g * (y * ln y) <= g * exp (x / g - 1).
Proof.
  intros g x y Hg Hy. set (z := exp (x / g - 1)). assert (Hz : 0 < z) by apply exp_pos. pose proof (xlnx_div_ge y z Hy Hz) as H.
  assert (E : y * ln (y / z) = y * ln y - y * (x / g - 1)).
  { destruct Hy as [Hy|<-]; [|ring]. unfold Rdiv at 1. rewrite ln_mult, ln_Rinv by (auto; apply Rinv_0_lt_compat; auto). unfold z. rewrite ln_exp. ring. }
  rewrite E in H. assert (E2 : x * y = g * (y * (x / g))) by (field; lra). rewrite E2. nra.
Qed.
Lemma ent_eq : forall g x, 0 < g -> x * exp (x / g - 1) - g * (exp (x / g - 1) * ln (exp (x / g - 1))) = g * exp (x / g - 1).
Proof. intros g x Hg. rewrite ln_exp. field. lra. Qed.

(** ** top-k selection *)
Definition indb (b : bool) : R := if b then 1 else 0.
Lemma top_desc : forall n (x : vec) k r, (k <= n)%nat -> (r < n)%nat -> top (N:=RNum) n x k (desc (N:=RNum) n x r) = Nat.ltb r k.
Proof.
  intros n x k r Hk Hr. unfold top. destruct (Nat.ltb_spec r k) as [H | H].
  - apply existsb_exists. exists r. split; [apply in_seq; lia|apply Nat.eqb_refl].
  - destruct (existsb _ _) eqn:E; [|reflexivity]. apply existsb_exists in E. destruct E as (r' & I & E). apply in_seq in I. apply Nat.eqb_eq in E. apply (proj2 (desc_perm n x)) in E; lia.
Qed.
Lemma rsum_indb_lt : forall n k, (k <= n)%nat -> rsum n (fun r => indb (Nat.ltb r k)) = INR k.
Proof.
  intros n k H. replace n with (k + (n - k))%nat by lia. rewrite rsum_split. rewrite (rsum_ext k _ (fun _ => 1)), rsum_const, (rsum_0 (n - k)).
  - ring. - intros i Hi. destruct (Nat.ltb_spec (k + i) k); [lia|reflexivity]. - intros i Hi. destruct (Nat.ltb_spec i k); [reflexivity|lia].
Qed.
Lemma nnz_rsum : forall n y, INR (nnz n y) = rsum n (fun i => indb (negb (Reqb (y i) 0))).
Proof.
  induction n; intros y; [reflexivity|]. cbn [nnz rsum]. rewrite plus_INR, IHn. f_equal. destruct (Req_EM_T (y n) 0) as [E | E].
  - rewrite (proj2 (Reqb_true (y n) 0) E). reflexivity.
  - rewrite (proj2 (Reqb_false (y n) 0) E). reflexivity.
Qed.
(** a non-decreasing non-negative score summed over at most k entries is at most its sum over the top k *)
Lemma top_best : forall n (x : vec) k (h : R -> R) (s : nat -> bool), (k <= n)%nat -> (forall u v, u <= v -> h u <= h v) -> (forall u, 0 <= h u) -> rsum n (fun i => indb (s i)) <= INR k ->
  rsum n (fun i => indb (s i) * h (x i)) <= rsum n (fun i => indb (top (N:=RNum) n x k i) * h (x i)).
Proof.
  intros n x k h s Hk Hm Hh Hs. pose proof (desc_perm n x) as P. set (d := desc (N:=RNum) n x) in *.
  destruct k as [|k].
  { rewrite (rsum_0 n (fun i => indb (s i) * h (x i))).
    - apply rsum_nonneg. intros i _. unfold indb. destruct (top _ _ _ _); rewrite ?Rmult_1_l, ?Rmult_0_l; [apply Hh|lra].
    - assert (Z : rsum n (fun i => indb (s i)) = 0) by (apply Rle_antisym; [exact Hs|apply rsum_nonneg; intros i _; unfold indb; destruct (s i); lra]).
      intros i Hi. assert (Zi : indb (s i) = 0) by (apply (rsum_nonneg_zero n (fun i => indb (s i))); auto; intros k _; unfold indb; destruct (s k); lra). rewrite Zi. ring. }
  rewrite <- (rsum_perm n d (fun i => indb (s i) * h (x i)) P), <- (rsum_perm n d (fun i => indb (top (N:=RNum) n x (S k) i) * h (x i)) P).
  set (t := h (x (d k))).
  assert (Cnt : rsum n (fun i => indb (s (d i))) <= INR (S k)) by (rewrite (rsum_perm n d (fun i => indb (s i)) P); exact Hs).
  assert (T : forall r, (r < n)%nat -> indb (s (d r)) * h (x (d r)) - indb (s (d r)) * t <= indb (top (N:=RNum) n x (S k) (d r)) * h (x (d r)) - indb (Nat.ltb r (S k)) * t).
  { intros r Hr. unfold d at 5. rewrite top_desc by auto. fold d. unfold indb. destruct (Nat.ltb_spec r (S k)).
    - assert (t <= h (x (d r))) by (apply Hm; apply (desc_le (fun r => x (d r)) n); [intros; apply desc_step; auto|lia|lia]). destruct (s (d r)); lra.
    - assert (h (x (d r)) <= t) by (apply Hm; apply (desc_le (fun r => x (d r)) n); [intros; apply desc_step; auto|lia|lia]). destruct (s (d r)); lra. }
  apply rsum_le in T. rewrite !rsum_minus, !rsum_scal_r, rsum_indb_lt in T by auto. assert (0 <= t) by apply Hh. nra.
Qed.

(** ** conjugates *)
Lemma l2_delta_R : forall n g (x : vec), l2_delta (N:=RNum) n g x = (rsum n (fun i => Rmax (x i) 0 * Rmax (x i) 0) / ((1 + 1) * g), fun i => Rmax (x i) 0 / g).
Proof.
  intros. unfold l2_delta. f_equal.
  - rewrite nsum_R. cbn [ndiv nmul two nadd n1 RNum]. f_equal. apply rsum_ext. intros. rewrite !nmax_R. reflexivity.
  - apply FunctionalExtensionality.functional_extensionality. intros. rewrite nmax_R. reflexivity.
Qed.
Lemma delta_fenchel : forall r n g x y, 0 < g -> delta_ok r n = true -> admissible r n y -> rsum n (fun i => x i * y i) - Om r g n y <= fst (delta r n g x).
Proof.
  intros r n g x y Hg Hok [Hy Hr]. destruct r as [| |k]; cbn [delta_Omega fst Om].
  - rewrite nsum_R. cbn [nmul nsub ndiv n1 RNum]. rewrite <- !rsum_scal, <- rsum_minus. apply rsum_le. intros i Hi. apply ent_pt; auto.
  - rewrite l2_delta_R. cbn [fst]. replace (1 + 1) with 2 by ring. rewrite <- rsum_div, <- rsum_scal, <- rsum_minus. apply rsum_le. intros i Hi. apply l2_pt; auto.
  - apply Nat.ltb_lt in Hok. rewrite l2_delta_R. cbn [fst]. replace (1 + 1) with 2 by ring. rewrite <- rsum_div, <- rsum_scal, <- rsum_minus.
    set (h := fun u => Rmax u 0 * Rmax u 0 / (2 * g)).
    assert (H0 : h 0 = 0) by (unfold h; rewrite Rmax_left by lra; unfold Rdiv; ring).
    apply Rle_trans with (rsum n (fun i => indb (negb (Reqb (y i) 0)) * h (x i))).
    + apply rsum_le. intros i Hi. destruct (Req_EM_T (y i) 0) as [E | E].
      * rewrite (proj2 (Reqb_true (y i) 0) E), E. cbn. lra.
      * rewrite (proj2 (Reqb_false (y i) 0) E). cbn [negb indb]. rewrite Rmult_1_l. apply l2_pt; auto.
    + eapply Rle_trans; [apply (top_best n x k h (fun i => negb (Reqb (y i) 0)))|].
      * lia.
      * intros u v H. unfold h. apply Rmult_le_compat_r; [left; apply Rinv_0_lt_compat; lra|]. assert (0 <= Rmax u 0) by apply Rmax_r. assert (Rmax u 0 <= Rmax v 0) by (apply Rle_max_compat_r; auto). nra.
      * intros u. unfold h. assert (0 <= Rmax u 0) by apply Rmax_r. apply Rmult_le_pos; [nra|left; apply Rinv_0_lt_compat; lra].
      * rewrite <- nnz_rsum. apply le_INR. exact Hr.
      * right. apply rsum_ext. intros i Hi. change (n0 (n:=RNum)) with 0. destruct (top (N:=RNum) n x k i); cbn [indb]; [rewrite Rmult_1_l; reflexivity|]. rewrite Rmult_0_l. symmetry. exact H0.
Qed.
Lemma nnz_le_top : forall n (x : vec) k (y : vec), (k <= n)%nat -> (forall i, (i < n)%nat -> top (N:=RNum) n x k i = false -> y i = 0) -> (nnz n y <= k)%nat.
Proof.
  intros n x k y Hk H. apply INR_le. rewrite nnz_rsum, <- (rsum_indb_lt n k Hk). pose proof (desc_perm n x) as P. rewrite <- (rsum_perm n _ (fun i => indb (negb (Reqb (y i) 0))) P).
  apply rsum_le. intros r Hr. rewrite <- (top_desc n x k r Hk Hr). specialize (H (desc (N:=RNum) n x r) (proj1 P r Hr)). destruct (top _ _ _ _).
  - unfold indb. destruct (negb _); lra.
  - rewrite (proj2 (Reqb_true (y (desc (N:=RNum) n x r)) 0)); [cbn; lra|auto].
Qed.
Lemma delta_attained : forall r n g x, 0 < g -> delta_ok r n = true -> let (v, G) := delta r n g x in admissible r n G /\ rsum n (fun i => x i * G i) - Om r g n G = v.
Proof.
  intros r n g x Hg Hok. assert (IG : 0 < / g) by (apply Rinv_0_lt_compat; auto). destruct r as [| |k]; cbn [delta_Omega Om].
  - rewrite nsum_R. cbn [nmul nsub ndiv n1 RNum]. split; [split; auto; intros i Hi; left; apply exp_pos|]. rewrite <- !rsum_scal, <- rsum_minus. apply rsum_ext. intros i Hi. apply ent_eq; auto.
  - rewrite l2_delta_R. split; [split; auto; intros i Hi; apply Rmult_le_pos; [apply Rmax_r|lra]|]. replace (1 + 1) with 2 by ring. rewrite <- rsum_div, <- rsum_scal, <- rsum_minus. apply rsum_ext. intros i Hi. apply l2_eq; auto.
  - apply Nat.ltb_lt in Hok. rewrite l2_delta_R. change (n0 (n:=RNum)) with 0. split; [split|].
    + intros i Hi; apply Rmult_le_pos; [apply Rmax_r|lra].
    + apply (nnz_le_top n x k); [lia|]. intros i Hi E. rewrite E. rewrite Rmax_left by lra. unfold Rdiv; ring.
    + replace (1 + 1) with 2 by ring. rewrite <- rsum_div, <- rsum_scal, <- rsum_minus. apply rsum_ext. intros i Hi. destruct (top (N:=RNum) n x k i); [apply l2_eq; auto|]. rewrite Rmax_left by lra. unfold Rdiv. ring.
Qed.

Lemma proj_support : forall r n (v : vec), (0 < n)%nat -> max_ok r n = true -> r <> NegEntropy ->
  let w := match r with Sparse k => match projection_sparse_simplex (N:=RNum) n v k 1 with Some w => w | None => fun _ => 0 end | _ => proj_simplex (N:=RNum) n v 1 end in
  admissible r n w /\ mass n w = 1 /\ forall y, admissible r n y -> mass n y = 1 -> sqdist n v w <= sqdist n v y.
Proof.
  intros r n v Hn Hok Hr. destruct r as [| |k]; [congruence| |]; cbv zeta.
  - split; [split; auto; apply proj_nonneg|]. split; [apply proj_mass; auto; lra|]. intros y [Hy _] My. pose proof (proj_best n v 1 Hn ltac:(lra) y Hy My). pose proof (sqdist_nonneg n (proj_simplex (N:=RNum) n v 1) y). lra.
  - destruct (projection_sparse_simplex (N:=RNum) n v k 1) as [w|] eqn:E.
    + assert (H1 : 0 < 1) by lra. split; [split; [eapply sparse_nonneg; eauto|eapply sparse_nnz; eauto]|]. split; [eapply sparse_mass; eauto|]. intros y [Hy Ny] My. eapply sparse_best; eauto.
    + exfalso. unfold projection_sparse_simplex in E. cbn [max_ok] in Hok. rewrite Hok in E. discriminate.
Qed.
Lemma sqdist_expand : forall n v y, sqdist n v y = rsum n (fun i => v i * v i) - 2 * (rsum n (fun i => v i * y i) - / 2 * rsum n (fun i => y i * y i)).
Proof. intros n v y. unfold sqdist. rewrite <- (rsum_scal n (/ 2)), <- rsum_minus, <- rsum_scal, <- rsum_minus. apply rsum_ext. intros. field. Qed.
Lemma Om_scale_l2 : forall r g n b y, r <> NegEntropy -> 0 < b -> Om r g n (fun i => b * y i) = b * (g / 2 * b * rsum n (fun i => y i * y i)).
Proof.
  intros r g n b y Hr Hb. assert (E : rsum n (fun i => b * y i * (b * y i)) = b * b * rsum n (fun i => y i * y i)) by (rewrite <- rsum_scal; apply rsum_ext; intros; ring).
  destruct r; [congruence| |]; cbn [Om]; rewrite E; ring.
Qed.
Lemma l2_max_fst : forall n (g : R) (x : vec) (b : R) (G : vec), fst (l2_max (N:=RNum) n g x b G) = rsum n (fun i => x i * G i) - g / 2 * b * rsum n (fun i => G i * G i).
Proof. intros. unfold l2_max. cbn [fst]. rewrite !nsum_R. unfold half, two. cbn [nsub nmul ndiv nadd n1 RNum]. change (carrier RNum) with R in *. field. Qed.
Definition proj_of (r : regul) (n : nat) (v : vec) : vec := match r with Sparse k => match projection_sparse_simplex (N:=RNum) n v k 1 with Some w => w | None => fun _ => 0 end | _ => proj_simplex (N:=RNum) n v 1 end.
Lemma max_l2 : forall r n (g : R) (x : vec) (b : R), r <> NegEntropy -> maxo r n g x b = l2_max (N:=RNum) n g x b (proj_of r n (fun i => x i / (b * g))).
Proof. intros r n g x b Hr. destruct r; [congruence| |]; reflexivity. Qed.

(** soft-max *)
Lemma lse_pos : forall n (f : vec), (0 < n)%nat -> 0 < rsum n (fun i => exp (f i)).
Proof. intros. apply rsum_pos; auto. intros; apply exp_pos. Qed.
Lemma max_ent : forall n (g : R) (x : vec) (b : R), (0 < n)%nat -> 0 < g -> let S := rsum n (fun i => exp (x i / g)) in
  fst (maxo NegEntropy n g x b) = g * ln S - g * ln b /\ forall i, snd (maxo NegEntropy n g x b) i = exp (x i / g) / S.
Proof.
  intros n g x b Hn Hg S. cbn [max_Omega fst snd]. cbv zeta. rewrite !nsum_R. cbn [nmul nsub nadd ndiv RNum]. set (mx := @nmaxk RNum (n - 1) x / g).
  assert (HS : 0 < S) by (apply lse_pos; auto).
  assert (E : forall i, exp (x i / g - mx) = exp (x i / g) * exp (- mx)) by (intros; rewrite <- exp_plus; reflexivity).
  assert (E2 : rsum n (fun i => exp (x i / g - mx)) = S * exp (- mx)) by (unfold S; rewrite <- rsum_scal_r; apply rsum_ext; intros; apply E).
  pose proof (exp_pos (- mx)) as Hm. split.
  - rewrite E2, ln_mult, ln_exp by auto. change (carrier RNum) with R in *. ring.
  - intros i. rewrite E2, E. change (carrier RNum) with R in *. field. split; lra.
Qed.
Lemma max_fenchel : forall r n (g : R) (x : vec) (b : R) (y : vec), (0 < n)%nat -> 0 < g -> 0 < b -> max_ok r n = true -> admissible r n y -> mass n y = 1 ->
  rsum n (fun i => x i * y i) - Om r g n (fun i => b * y i) / b <= fst (maxo r n g x b).
Proof.
  intros r n g x b y Hn Hg Hb Hok Hy My. assert (D : r = NegEntropy \/ r <> NegEntropy) by (destruct r; [left|right|right]; congruence). destruct D as [-> | Hr].
  - destruct (max_ent n g x b Hn Hg) as [-> _]. cbn [Om]. set (S := rsum n (fun i => exp (x i / g))). assert (HS : 0 < S) by (apply lse_pos; auto). destruct Hy as [Hy _].
    assert (K : 0 <= kl n y (fun i => exp (x i / g) / S)) by (apply kl_nonneg; auto; intros i _; apply Rdiv_lt_0_compat; [apply exp_pos|auto]). unfold kl in K.
    assert (E : rsum n (fun i => y i * ln (y i / (exp (x i / g) / S)) - y i + exp (x i / g) / S) = rsum n (fun i => y i * ln (y i)) - rsum n (fun i => x i * y i) / g + ln S).
    { transitivity (rsum n (fun i => y i * ln (y i) - x i * y i / g + ln S * y i - y i + exp (x i / g) / S)).
      - apply rsum_ext. intros i Hi. destruct (Hy i Hi) as [Hp | <-]; [|unfold Rdiv; ring].
        assert (P2 : 0 < exp (x i / g) / S) by (apply Rdiv_lt_0_compat; [apply exp_pos|auto]). assert (P3 : 0 < / S) by (apply Rinv_0_lt_compat; auto).
        assert (L : ln (y i / (exp (x i / g) / S)) = ln (y i) - (x i / g - ln S)).
        { unfold Rdiv at 1. rewrite ln_mult, ln_Rinv by (auto; apply Rinv_0_lt_compat; auto). unfold Rdiv at 1. rewrite ln_mult, ln_Rinv, ln_exp by (auto; apply exp_pos). unfold Rdiv. ring. }
        rewrite L. field. lra.
      - rewrite rsum_plus, rsum_minus, rsum_plus, rsum_minus, rsum_scal, !rsum_div. unfold mass in My. rewrite My. fold S. field. lra. }
    rewrite E in K.
    assert (E2 : g * rsum n (fun i => b * y i * ln (b * y i)) / b = g * (rsum n (fun i => y i * ln (y i)) + ln b)).
    { unfold Rdiv. rewrite Rmult_assoc, <- rsum_scal_r. f_equal. transitivity (rsum n (fun i => y i * ln (y i) + ln b * y i)).
      - apply rsum_ext. intros i Hi. destruct (Hy i Hi) as [Hp | <-]; [|ring]. rewrite ln_mult by auto. field. lra.
      - rewrite rsum_plus, rsum_scal. unfold mass in My. rewrite My. ring. }
    rewrite E2. assert (K2 : 0 <= g * (rsum n (fun i => y i * ln (y i)) - rsum n (fun i => x i * y i) / g + ln S)) by (apply Rmult_le_pos; lra).
    replace (g * (rsum n (fun i => y i * ln (y i)) - rsum n (fun i => x i * y i) / g + ln S)) with (g * rsum n (fun i => y i * ln (y i)) - rsum n (fun i => x i * y i) + g * ln S) in K2 by (field; lra). lra.
  - rewrite max_l2, l2_max_fst by auto. set (v := fun i => x i / (b * g)). assert (BG : 0 < b * g) by nra.
    destruct (proj_support r n v Hn Hok Hr) as (_ & _ & B). specialize (B y Hy My). change (match r with Sparse k => _ | _ => _ end) with (proj_of r n v) in B. rewrite !sqdist_expand in B.
    rewrite Om_scale_l2 by auto. replace (b * (g / 2 * b * rsum n (fun i => y i * y i)) / b) with (g / 2 * b * rsum n (fun i => y i * y i)) by (field; lra).
    assert (X : forall z, rsum n (fun i => x i * z i) = b * g * rsum n (fun i => v i * z i)) by (intros z; rewrite <- rsum_scal; apply rsum_ext; intros; unfold v; field; lra).
    rewrite !X. nra.
Qed.
Lemma max_attained : forall r n (g : R) (x : vec) (b : R), (0 < n)%nat -> 0 < g -> 0 < b -> max_ok r n = true -> let (v, G) := maxo r n g x b in
  admissible r n G /\ mass n G = 1 /\ rsum n (fun i => x i * G i) - Om r g n (fun i => b * G i) / b = v.
Proof.
  intros r n g x b Hn Hg Hb Hok. assert (D : r = NegEntropy \/ r <> NegEntropy) by (destruct r; [left|right|right]; congruence). destruct D as [-> | Hr].
  - destruct (max_ent n g x b Hn Hg) as [E1 E2]. destruct (maxo NegEntropy n g x b) as [v G]. cbn [fst snd] in E1, E2. set (S := rsum n (fun i => exp (x i / g))) in *. assert (HS : 0 < S) by (apply lse_pos; auto).
    assert (GP : forall i, 0 < G i) by (intros i; rewrite E2; apply Rdiv_lt_0_compat; [apply exp_pos|auto]).
    assert (GM : rsum n G = 1) by (rewrite (rsum_ext n G (fun i => exp (x i / g) / S)) by auto; rewrite rsum_div; fold S; field; lra).
    split; [split; auto; intros i _; left; auto|]. split; [exact GM|]. rewrite E1. cbn [Om].
    transitivity (rsum n (fun i => (g * ln S - g * ln b) * G i)); [|rewrite rsum_scal, GM; ring].
    unfold Rdiv. rewrite Rmult_assoc, <- rsum_scal_r, <- rsum_scal, <- rsum_minus. apply rsum_ext. intros i _. rewrite ln_mult by auto.
    assert (LG : ln (G i) = x i / g - ln S). { rewrite E2. unfold Rdiv. rewrite ln_mult, ln_Rinv, ln_exp by (auto; first [apply exp_pos | apply Rinv_0_lt_compat; auto]). reflexivity. }
    rewrite LG. field. lra.
  - rewrite max_l2 by auto. pose proof (l2_max_fst n g x b (proj_of r n (fun i => x i / (b * g)))) as F. change (snd (l2_max (N:=RNum) n g x b (proj_of r n (fun i => x i / (b * g))))) with (proj_of r n (fun i => x i / (b * g))).
    unfold l2_max in *. cbn [fst] in F. rewrite F. destruct (proj_support r n (fun i => x i / (b * g)) Hn Hok Hr) as (A & M & _). split; [exact A|]. split; [exact M|]. rewrite Om_scale_l2 by auto. unfold proj_of. field. lra.
Qed.

(** ** the Lagrangian bounds *)
Lemma inner_cols : forall n m (f : mat) (P : mat), rsum m (fun j => rsum n (fun i => f i j * P i j)) = rsum n (fun i => rsum m (fun j => f i j * P i j)).
Proof. intros. apply rsum_swap. Qed.
Lemma lin_dual : forall n m (al be : vec) (C P : mat),
  rsum m (fun j => rsum n (fun i => Xdual (N:=RNum) al be C j i * P i j)) = dot n al (row_sum m P) + dot m be (col_sum n P) - cost n m C P.
Proof.
  intros. unfold Xdual, dot, row_sum, col_sum, cost. cbn [nsub nadd RNum].
  rewrite (rsum_ext n (fun i => al i * rsum m (fun j => P i j)) (fun i => rsum m (fun j => al i * P i j))) by (intros; rewrite rsum_scal; auto).
  rewrite (rsum_ext m (fun j => be j * rsum n (fun i => P i j)) (fun j => rsum n (fun i => be j * P i j))) by (intros; rewrite rsum_scal; auto).
  rewrite (rsum_swap n m (fun i j => al i * P i j)), (rsum_swap n m (fun i j => C i j * P i j)), <- rsum_plus, <- rsum_minus. apply rsum_ext. intros j _. rewrite <- rsum_plus, <- rsum_minus. apply rsum_ext. intros. ring.
Qed.
Lemma lin_semi : forall n m (al : vec) (C P : mat),
  rsum m (fun j => rsum n (fun i => Xsemi (N:=RNum) al C j i * P i j)) = dot n al (row_sum m P) - cost n m C P.
Proof.
  intros. pose proof (lin_dual n m al (fun _ => 0) C P) as H. assert (Z : dot m (fun _ => 0) (col_sum n P) = 0) by (unfold dot; apply rsum_0; intros; ring). rewrite Z in H.
  rewrite Rplus_0_r in H. rewrite <- H. apply rsum_ext. intros j _. apply rsum_ext. intros i _. unfold Xdual, Xsemi. cbn [nsub nadd RNum]. rewrite Rplus_0_r. reflexivity.
Qed.
Lemma dot_minus : forall n x y z, dot n x (fun i => y i - z i) = dot n x y - dot n x z.
Proof. intros. unfold dot. rewrite <- rsum_minus. apply rsum_ext. intros. ring. Qed.
Lemma dot_minus_l : forall n x y z, dot n (fun i => y i - z i) x = dot n y x - dot n z x.
Proof. intros. unfold dot. rewrite <- rsum_minus. apply rsum_ext. intros. ring. Qed.
Lemma dot_zero : forall n x y, (forall i, (i < n)%nat -> y i = 0) -> dot n x y = 0.
Proof. intros n x y H. unfold dot. apply rsum_0. intros i Hi. rewrite H by auto. ring. Qed.
Definition cols_admissible (r : regul) (n m : nat) (P : mat) : Prop := forall j, (j < m)%nat -> admissible r n (fun i => P i j).

Lemma dual_val : forall r n m (g : R) (al be a b : vec) (C : mat) D ga gb, dual_obj_grad (N:=RNum) exp r n m g al be a b C = Some (D, ga, gb) ->
  delta_ok r n = true /\ D = dot n al a + dot m be b - rsum m (fun j => fst (delta r n g (Xdual (N:=RNum) al be C j))) /\
  exists T, get_plan_from_dual (N:=RNum) exp r n g al be C = Some T /\ (forall i, ga i = a i - row_sum m T i) /\ (forall j, gb j = b j - col_sum n T j) /\ forall i j, T i j = snd (delta r n g (Xdual (N:=RNum) al be C j)) i.
Proof.
  intros r n m g al be a b C D ga gb H. unfold dual_obj_grad in H. destruct (delta_ok r n) eqn:E; [|discriminate]. injection H as H1 H2 H3. split; auto. split.
  - rewrite <- H1, !nsum_R. reflexivity.
  - unfold get_plan_from_dual. rewrite E. eexists. split; [reflexivity|]. split; [|split; auto].
    + intros i. rewrite <- H2, nsum_R. reflexivity.
    + intros j. rewrite <- H3, nsum_R. reflexivity.
Qed.
Lemma dual_lagrange : forall r n m (g : R) (al be a b : vec) (C : mat) D ga gb P, 0 < g -> dual_obj_grad (N:=RNum) exp r n m g al be a b C = Some (D, ga, gb) ->
  cols_admissible r n m P -> D <= primal r g n m C P + dot n al (fun i => a i - row_sum m P i) + dot m be (fun j => b j - col_sum n P j).
Proof.
  intros r n m g al be a b C D ga gb P Hg H HP. destruct (dual_val _ _ _ _ _ _ _ _ _ _ _ _ H) as (Hok & -> & _).
  assert (B : rsum m (fun j => rsum n (fun i => Xdual (N:=RNum) al be C j i * P i j) - Om r g n (fun i => P i j)) <= rsum m (fun j => fst (delta r n g (Xdual (N:=RNum) al be C j)))).
  { apply rsum_le. intros j Hj. apply delta_fenchel; auto. }
  rewrite rsum_minus, lin_dual in B. unfold primal. rewrite !dot_minus. lra.
Qed.
Lemma dual_attain : forall r n m (g : R) (al be a b : vec) (C : mat) D ga gb T, 0 < g -> dual_obj_grad (N:=RNum) exp r n m g al be a b C = Some (D, ga, gb) ->
  get_plan_from_dual (N:=RNum) exp r n g al be C = Some T -> cols_admissible r n m T /\ D = primal r g n m C T + dot n al ga + dot m be gb.
Proof.
  intros r n m g al be a b C D ga gb T Hg H HT. destruct (dual_val _ _ _ _ _ _ _ _ _ _ _ _ H) as (Hok & -> & T' & HT' & Ga & Gb & ET). rewrite HT in HT'. injection HT' as <-.
  assert (AT : forall j, admissible r n (fun i => T i j) /\ rsum n (fun i => Xdual (N:=RNum) al be C j i * T i j) - Om r g n (fun i => T i j) = fst (delta r n g (Xdual (N:=RNum) al be C j))).
  { intros j. pose proof (delta_attained r n g (Xdual (N:=RNum) al be C j) Hg Hok) as A. assert (E : (fun i => T i j) = snd (delta r n g (Xdual (N:=RNum) al be C j))) by (extensionality i; apply ET).
    destruct (delta r n g (Xdual (N:=RNum) al be C j)) as [v G]. cbn [snd fst] in *. rewrite E. split; [apply A|]. destruct A as [_ A]. rewrite <- A. f_equal. apply rsum_ext. intros i _. f_equal. exact (f_equal (fun f => f i) E). }
  split; [intros j _; apply AT|].
  assert (B : rsum m (fun j => rsum n (fun i => Xdual (N:=RNum) al be C j i * T i j) - Om r g n (fun i => T i j)) = rsum m (fun j => fst (delta r n g (Xdual (N:=RNum) al be C j)))) by (apply rsum_ext; intros; apply AT).
  rewrite rsum_minus, lin_dual in B. unfold primal.
  assert (E1 : dot n al ga = dot n al (fun i => a i - row_sum m T i)) by (apply rsum_ext; intros; rewrite Ga; auto). assert (E2 : dot m be gb = dot m be (fun i => b i - col_sum n T i)) by (apply rsum_ext; intros; rewrite Gb; auto).
  rewrite E1, E2, !dot_minus. lra.
Qed.

(** semi-dual *)
Definition col_mass (n m : nat) (b : vec) (P : mat) : Prop := forall j, (j < m)%nat -> col_sum n P j = b j.
Lemma semi_val : forall r n m (g : R) (al a b : vec) (C : mat) D ga, semi_dual_obj_grad (N:=RNum) exp ln r n m g al a b C = Some (D, ga) ->
  max_ok r n = true /\ D = dot n al a - rsum m (fun j => b j * fst (maxo r n g (Xsemi (N:=RNum) al C j) (b j))) /\
  exists T, get_plan_from_semi_dual (N:=RNum) exp ln r n g al b C = Some T /\ (forall i, ga i = a i - row_sum m T i) /\ forall i j, T i j = b j * snd (maxo r n g (Xsemi (N:=RNum) al C j) (b j)) i.
Proof.
  intros r n m g al a b C D ga H. unfold semi_dual_obj_grad in H. destruct (max_ok r n) eqn:E; [|discriminate]. injection H as H1 H2. split; auto. split.
  - rewrite <- H1, !nsum_R. reflexivity.
  - unfold get_plan_from_semi_dual. rewrite E. eexists. split; [reflexivity|]. split.
    + intros i. rewrite <- H2, nsum_R. reflexivity.
    + intros i j. apply Rmult_comm.
Qed.
Lemma nnz_scale : forall n b y, b <> 0 -> nnz n (fun i => b * y i) = nnz n y.
Proof. intros n b y Hb. induction n as [|i IH]; cbn [nnz]; [auto|]. rewrite IH. f_equal. destruct (Req_EM_T (y i) 0) as [E | E], (Req_EM_T (b * y i) 0) as [F | F]; auto; exfalso; [apply F; rewrite E; ring|destruct (Rmult_integral _ _ F); auto]. Qed.
Lemma adm_scale : forall r n b y, 0 < b -> admissible r n y -> admissible r n (fun i => b * y i).
Proof. intros r n b y Hb [H1 H2]. split; [intros i Hi; apply Rmult_le_pos; [lra|apply H1; auto]|]. destruct r; auto. rewrite nnz_scale; auto; lra. Qed.
Lemma semi_lagrange : forall r n m (g : R) (al a b : vec) (C : mat) D ga P, (0 < n)%nat -> 0 < g -> pos_vec m b -> semi_dual_obj_grad (N:=RNum) exp ln r n m g al a b C = Some (D, ga) ->
  cols_admissible r n m P -> col_mass n m b P -> D <= primal r g n m C P + dot n al (fun i => a i - row_sum m P i).
Proof.
  intros r n m g al a b C D ga P Hn Hg Hb H HP HM. destruct (semi_val _ _ _ _ _ _ _ _ _ _ H) as (Hok & -> & _).
  assert (B : rsum m (fun j => rsum n (fun i => Xsemi (N:=RNum) al C j i * P i j) - Om r g n (fun i => P i j)) <= rsum m (fun j => b j * fst (maxo r n g (Xsemi (N:=RNum) al C j) (b j)))).
  { apply rsum_le. intros j Hj. pose proof (Hb j Hj) as Hbj. set (y := fun i => / b j * P i j).
    assert (Hy : admissible r n y) by (apply adm_scale; [apply Rinv_0_lt_compat; auto|apply HP; auto]).
    assert (My : mass n y = 1) by (unfold mass, y; rewrite rsum_scal; fold (col_sum n P j); rewrite (HM j Hj); field; lra).
    pose proof (max_fenchel r n g (Xsemi (N:=RNum) al C j) (b j) y Hn Hg Hbj Hok Hy My) as F.
    assert (EO : Om r g n (fun i => b j * y i) = Om r g n (fun i => P i j)) by (f_equal; extensionality i; unfold y; field; lra). rewrite EO in F.
    assert (EX : rsum n (fun i => Xsemi (N:=RNum) al C j i * y i) = rsum n (fun i => Xsemi (N:=RNum) al C j i * P i j) / b j) by (rewrite <- rsum_div; apply rsum_ext; intros; unfold y; field; lra). rewrite EX in F.
    apply (Rmult_le_compat_l (b j)) in F; [|lra]. replace (b j * (rsum n (fun i => Xsemi (N:=RNum) al C j i * P i j) / b j - Om r g n (fun i => P i j) / b j)) with (rsum n (fun i => Xsemi (N:=RNum) al C j i * P i j) - Om r g n (fun i => P i j)) in F by (field; lra). exact F. }
  rewrite rsum_minus, lin_semi in B. unfold primal. rewrite !dot_minus. lra.
Qed.
Lemma semi_attain : forall r n m (g : R) (al a b : vec) (C : mat) D ga T, (0 < n)%nat -> 0 < g -> pos_vec m b -> semi_dual_obj_grad (N:=RNum) exp ln r n m g al a b C = Some (D, ga) ->
  get_plan_from_semi_dual (N:=RNum) exp ln r n g al b C = Some T -> cols_admissible r n m T /\ col_mass n m b T /\ D = primal r g n m C T + dot n al ga.
Proof.
  intros r n m g al a b C D ga T Hn Hg Hb H HT. destruct (semi_val _ _ _ _ _ _ _ _ _ _ H) as (Hok & -> & T' & HT' & Ga & ET). rewrite HT in HT'. injection HT' as <-.
  assert (AT : forall j, (j < m)%nat -> (admissible r n (fun i => T i j) /\ col_sum n T j = b j) /\ rsum n (fun i => Xsemi (N:=RNum) al C j i * T i j) - Om r g n (fun i => T i j) = b j * fst (maxo r n g (Xsemi (N:=RNum) al C j) (b j))).
  { intros j Hj. pose proof (Hb j Hj) as Hbj. pose proof (max_attained r n g (Xsemi (N:=RNum) al C j) (b j) Hn Hg Hbj Hok) as A.
    assert (E : (fun i => T i j) = (fun i => b j * snd (maxo r n g (Xsemi (N:=RNum) al C j) (b j)) i)) by (extensionality i; apply ET).
    destruct (maxo r n g (Xsemi (N:=RNum) al C j) (b j)) as [v G]. cbn [snd fst] in *. destruct A as (A1 & A2 & A3). assert (ET2 : forall i, T i j = b j * G i) by (intros i; exact (f_equal (fun f => f i) E)). rewrite E. split; [split; [apply adm_scale; auto|]|].
    - unfold col_sum. rewrite (rsum_ext n _ (fun i => b j * G i)) by (intros; apply ET2). rewrite rsum_scal. unfold mass in A2. rewrite A2. ring.
    - rewrite <- A3, (rsum_ext n _ (fun i => b j * (Xsemi (N:=RNum) al C j i * G i))) by (intros; rewrite ET2; ring). rewrite rsum_scal. field. lra. }
  split; [intros j Hj; apply AT; auto|]. split; [intros j Hj; apply AT; auto|].
  assert (B : rsum m (fun j => rsum n (fun i => Xsemi (N:=RNum) al C j i * T i j) - Om r g n (fun i => T i j)) = rsum m (fun j => b j * fst (maxo r n g (Xsemi (N:=RNum) al C j) (b j)))) by (apply rsum_ext; intros; apply AT; auto).
  rewrite rsum_minus, lin_semi in B. unfold primal.
  assert (E1 : dot n al ga = dot n al (fun i => a i - row_sum m T i)) by (apply rsum_ext; intros; rewrite Ga; auto). rewrite E1, !dot_minus. lra.
Qed.
