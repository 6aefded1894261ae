(** circle solvers, continued: wrappers, semidiscrete closed form, linear circular OT, binary search *)
From Coq Require Import List Arith Bool Reals Lra Lia Permutation FunctionalExtensionality.
From Verif Require Import Num Sums Spec Monge Perm Duals_proofs Emd1d_model Emd1d_proofs Emd1d_perm_proofs W1d_model W1d_proofs Circle_model Circle_proofs.
Import ListNotations.
Local Open Scope R_scope.

Definition rfloor (x : R) : R := IZR (Int_part x).
Lemma mod1_range : forall x, 0 <= mod1 (N:=RNum) rfloor x < 1.
Proof. intros x. unfold mod1. cbn [nsub RNum]. unfold rfloor. pose proof (base_fp x). unfold frac_part in H. lra. Qed.
Lemma mod1_frac : forall x, mod1 (N:=RNum) rfloor x = frac_part x.
Proof. reflexivity. Qed.

(** ** distance on the circle R/Z *)
Definition circle_dist (x y : R) : R := gap (frac_part x) (frac_part y).
Lemma circle_dist_spec : forall x y, (forall k : Z, circle_dist x y <= Rabs (x - y - IZR k)) /\ exists k : Z, circle_dist x y = Rabs (x - y - IZR k).
Proof.
  intros x y. unfold circle_dist, gap. pose proof (base_fp x) as Fx. pose proof (base_fp y) as Fy.
  assert (E : x - y = (frac_part x - frac_part y) + IZR (Int_part x - Int_part y)) by (rewrite minus_IZR; unfold frac_part; ring).
  set (d := frac_part x - frac_part y) in *. assert (Hd : -1 < d < 1) by (unfold d; lra). split.
  - intros k. rewrite E. replace (d + IZR (Int_part x - Int_part y) - IZR k) with (d - IZR (k - (Int_part x - Int_part y))) by (rewrite !minus_IZR; ring).
    set (j := (k - (Int_part x - Int_part y))%Z). destruct (Z.eq_dec j 0) as [-> | Hj]; [rewrite Rminus_0_r; apply Rmin_l|].
    eapply Rle_trans; [apply Rmin_r|]. destruct (Z_lt_le_dec j 0).
    + assert (H : IZR j <= -1) by (apply (IZR_le j (-1)); lia). unfold Rabs. destruct (Rcase_abs d), (Rcase_abs (d - IZR j)); lra.
    + assert (H : 1 <= IZR j) by (apply (IZR_le 1 j); lia). unfold Rabs. destruct (Rcase_abs d), (Rcase_abs (d - IZR j)); lra.
  - unfold Rmin. destruct (Rle_dec _ _).
    + exists (Int_part x - Int_part y)%Z. rewrite E. f_equal. ring.
    + destruct (Rle_dec 0 d).
      * exists (Int_part x - Int_part y + 1)%Z. rewrite E, plus_IZR. rewrite Rabs_right by lra. replace (d + IZR (Int_part x - Int_part y) - (IZR (Int_part x - Int_part y) + 1)) with (d - 1) by ring. rewrite Rabs_left1; lra.
      * exists (Int_part x - Int_part y - 1)%Z. rewrite E. rewrite (minus_IZR (Int_part x - Int_part y) 1). rewrite Rabs_left by lra. replace (d + IZR (Int_part x - Int_part y) - (IZR (Int_part x - Int_part y) - 1)) with (d + 1) by ring. rewrite Rabs_right; lra.
Qed.
Lemma circle_dist_diff : forall x y x' y' (k : Z), x' - y' = x - y + IZR k -> circle_dist x' y' = circle_dist x y.
Proof.
  intros x y x' y' k E. destruct (circle_dist_spec x y) as [L [k1 E1]]. destruct (circle_dist_spec x' y') as [L' [k2 E2]]. apply Rle_antisym.
  - rewrite E1. replace (x - y - IZR k1) with (x' - y' - IZR (k1 + k)) by (rewrite plus_IZR; lra). apply L'.
  - rewrite E2. replace (x' - y' - IZR k2) with (x - y - IZR (k2 - k)) by (rewrite minus_IZR; lra). apply L.
Qed.
Lemma circle_dist_range : forall x y, 0 <= circle_dist x y <= 1 / 2.
Proof.
  intros x y. unfold circle_dist, gap. pose proof (base_fp x). pose proof (base_fp y). split.
  - apply Rmin_glb; [apply Rabs_pos|]. unfold Rabs. destruct (Rcase_abs _); lra.
  - unfold Rmin. destruct (Rle_dec _ _); lra.
Qed.

(** ** wasserstein1_circle *)
Lemma unif_R : forall n (w : option vec) i, unif (N:=RNum) n w i = match w with Some w => w i | None => 1 / INR n end.
Proof. intros n [w|] i; unfold unif; [reflexivity|]. rewrite nofnat_INR. reflexivity. Qed.
Lemma w1c_optimal : forall n m (u v a b : vec) rs, (0 < n)%nat -> (0 < m)%nat -> nonneg_vec n a -> nonneg_vec m b -> mass n a = mass m b ->
  (exists i, (i < n)%nat /\ frac_part (u i) = 0) \/ (exists j, (j < m)%nat /\ frac_part (v j) = 0) ->
  let V := wasserstein1_circle (N:=RNum) rfloor n m u v (Some a) (Some b) rs in let C := fun i j => circle_dist (u i) (v j) in
  (forall G, coupling n m a b G -> V <= cost n m C G) /\ exists G, coupling n m a b G /\ cost n m C G = V.
Proof.
  intros n m u v a b rs Hn Hm Ha Hb Hab H0. cbv zeta. unfold wasserstein1_circle. cbv zeta. cbn [unif].
  set (su := if rs then order (N:=RNum) n (fun i => mod1 (N:=RNum) rfloor (u i)) else fun i => i). set (sv := if rs then order (N:=RNum) m (fun i => mod1 (N:=RNum) rfloor (v i)) else fun i => i).
  assert (Pu : perm_on n su) by (unfold su; destruct rs; [apply order_perm|split; auto]). assert (Pv : perm_on m sv) by (unfold sv; destruct rs; [apply order_perm|split; auto]).
  set (z := cat (N:=RNum) n (fun i => mod1 (N:=RNum) rfloor (u (su i))) (fun i => mod1 (N:=RNum) rfloor (v (sv i)))).
  assert (Zu : forall i, (i < n)%nat -> z i = frac_part (u (su i))) by (intros i Hi; unfold z, cat; destruct (Nat.ltb_spec i n); [reflexivity|lia]).
  assert (Zv : forall j, (j < m)%nat -> z (n + j)%nat = frac_part (v (sv j))) by (intros i Hi; unfold z, cat; destruct (Nat.ltb_spec (n + i) n); [lia|]; replace (n + i - n)%nat with i by lia; reflexivity).
  destruct (w1c_level_optimal n m z (fun i => a (su i)) (fun j => b (sv j)) Hn Hm) as [L [G [HG U]]].
  - intros i Hi. apply Ha, Pu, Hi.
  - intros j Hj. apply Hb, Pv, Hj.
  - unfold mass. rewrite (rsum_perm n su a Pu), (rsum_perm m sv b Pv). exact Hab.
  - intros i Hi. unfold z, cat. destruct (Nat.ltb i n); apply mod1_range.
  - destruct H0 as [(i & Hi & E) | (j & Hj & E)].
    + destruct (perm_on_surj n su i Pu Hi) as (i' & Hi' & E'). exists i'. split; [lia|]. rewrite Zu, E' by auto. auto.
    + destruct (perm_on_surj m sv j Pv Hj) as (j' & Hj' & E'). exists (n + j')%nat. split; [lia|]. rewrite Zv, E' by auto. auto.
  - set (V := w1c_level (N:=RNum) (n + m) z (cat (N:=RNum) n (fun i => a (su i)) (fun j => nopp (N:=RNum) (b (sv j))))) in *.
    assert (CC : forall G, cost n m (fun i j => gap (z i) (z (n + j)%nat)) (fun i j => G (su i) (sv j)) = cost n m (fun i j => circle_dist (u i) (v j)) G).
    { intros G'. rewrite <- (cost_relabel n m su sv (fun i j => circle_dist (u i) (v j)) G' Pu Pv). apply cost_ext; auto. intros i j Hi Hj. rewrite Zu, Zv by auto. reflexivity. }
    split.
    + intros G' HG'. rewrite <- CC. apply L. apply (coupling_relabel n m su sv a b G' Pu Pv). auto.
    + set (G0 := fun i j => G (pinv n su i) (pinv m sv j)). assert (E : forall i j, (i < n)%nat -> (j < m)%nat -> G i j = G0 (su i) (sv j)) by (intros; unfold G0; rewrite !pinv_left; auto).
      exists G0. split.
      * apply (coupling_relabel n m su sv a b G0 Pu Pv). eapply coupling_ext; [| |exact E|exact HG]; auto.
      * rewrite <- CC, <- U. apply cost_ext; auto. intros; symmetry; auto.
Qed.

(** ** sorting is unique up to ties *)
Lemma order_stat : forall n (f : vec) s s' k, perm_on n s -> perm_on n s' -> (forall k, (S k < n)%nat -> f (s k) <= f (s (S k))) -> (forall k, (S k < n)%nat -> f (s' k) <= f (s' (S k))) -> (k < n)%nat -> f (s k) = f (s' k).
Proof.
  assert (H : forall n (f : vec) s s' k, perm_on n s -> perm_on n s' -> (forall k, (S k < n)%nat -> f (s k) <= f (s (S k))) -> (forall k, (S k < n)%nat -> f (s' k) <= f (s' (S k))) -> (k < n)%nat -> f (s' k) <= f (s k)).
  { intros n f s s' k Ps Ps' S S' Hk. apply Rnot_lt_le. intros L. set (c := f (s k)) in *.
    pose proof (rsum_perm n s (fun i => ind (Rleb (f i) c)) Ps) as E. pose proof (rsum_perm n s' (fun i => ind (Rleb (f i) c)) Ps') as E'. cbv beta in *.
    assert (A : INR (Datatypes.S k) <= rsum n (fun i => ind (Rleb (f (s i)) c))).
    { rewrite <- (Rmult_1_r (INR (Datatypes.S k))), <- rsum_const. rewrite <- (rsum_ind_lt n (Datatypes.S k) (fun _ => 1)) by lia. apply rsum_le. intros i Hi. unfold ind. destruct (Nat.ltb_spec i (Datatypes.S k)).
      - assert (f (s i) <= c) by (apply (sorted_le n (fun k => f (s k)) S); lia). replace (Rleb (f (s i)) c) with true by (symmetry; apply Rleb_true; auto). lra.
      - destruct (Rleb _ _); lra. }
    assert (B : rsum n (fun i => ind (Rleb (f (s' i)) c)) <= INR k).
    { rewrite <- (Rmult_1_r (INR k)), <- rsum_const. rewrite <- (rsum_ind_lt n k (fun _ => 1)) by lia. apply rsum_le. intros i Hi. unfold ind. destruct (Nat.ltb_spec i k).
      - destruct (Rleb _ _); lra.
      - assert (f (s' k) <= f (s' i)) by (apply (sorted_le n (fun k => f (s' k)) S'); lia). replace (Rleb (f (s' i)) c) with false by (symmetry; apply Rleb_false; lra). lra. }
    rewrite S_INR in A. lra. }
  intros. apply Rle_antisym; eapply H; eauto.
Qed.

(** ** semidiscrete closed form *)
Lemma half_abs : forall n (w x : vec), (forall k, (S k < n)%nat -> x k <= x (S k)) ->
  rsum n (fun i => rsum n (fun j => w i * w j * Rabs (x i - x j))) = 2 * rsum n (fun i => x i * w i * (2 * rsum i w + w i - rsum n w)).
Proof.
  induction n; intros w x So; [cbn; lra|]. specialize (IHn w x ltac:(intros; apply So; lia)). cbn [rsum].
  rewrite (rsum_ext n (fun i => rsum n (fun j => w i * w j * Rabs (x i - x j)) + w i * w n * Rabs (x i - x n)) (fun i => rsum n (fun j => w i * w j * Rabs (x i - x j)) + (w n * x n * w i - w n * (x i * w i)))).
  2:{ intros i Hi. assert (x i <= x n) by (apply (sorted_le (S n) x So); lia). rewrite (Rabs_left1 (x i - x n)) by lra. ring. }
  rewrite (rsum_ext n (fun j => w n * w j * Rabs (x n - x j)) (fun i => w n * x n * w i - w n * (x i * w i))).
  2:{ intros i Hi. assert (x i <= x n) by (apply (sorted_le (S n) x So); lia). rewrite (Rabs_right (x n - x i)) by lra. ring. }
  rewrite rsum_plus, !rsum_minus, !rsum_scal, IHn. rewrite Rminus_eq_0, Rabs_R0.
  rewrite (rsum_ext n (fun i => x i * w i * (2 * rsum i w + w i - (rsum n w + w n))) (fun i => x i * w i * (2 * rsum i w + w i - rsum n w) - w n * (x i * w i))) by (intros; ring).
  rewrite rsum_minus, rsum_scal. ring.
Qed.
Lemma half_sq : forall n (w x : vec), rsum n (fun i => rsum n (fun j => w i * w j * (x i - x j) ^ 2)) = 2 * (rsum n w * rsum n (fun i => w i * (x i * x i)) - rsum n (fun i => w i * x i) ^ 2).
Proof.
  intros n w x. rewrite (rsum_ext n _ (fun i => w i * (x i * x i) * rsum n w - 2 * (w i * x i) * rsum n (fun j => w j * x j) + w i * rsum n (fun j => w j * (x j * x j)))).
  - rewrite rsum_plus, rsum_minus, !rsum_scal_r, rsum_scal. ring.
  - intros i Hi. rewrite <- !rsum_scal, <- rsum_minus, <- rsum_plus. apply rsum_ext; intros; ring.
Qed.
Lemma gap_prod : forall x y, gap x y * (1 - gap x y) = Rabs (x - y) - (x - y) ^ 2.
Proof. intros x y. unfold gap, Rmin. assert (E : (x - y) ^ 2 = Rabs (x - y) * Rabs (x - y)) by (unfold Rabs; destruct (Rcase_abs _); ring). rewrite E. destruct (Rle_dec _ _); ring. Qed.
Lemma semidiscrete_closed : forall n (u w a : vec) s, perm_on n s -> (forall k, (S k < n)%nat -> frac_part (u (s k)) <= frac_part (u (s (S k)))) -> (forall i, (i < n)%nat -> w i = a (s i)) -> rsum n a = 1 ->
  semidiscrete (N:=RNum) rfloor n u (Some w) = 1 / 12 - 1 / 2 * rsum n (fun i => rsum n (fun j => a i * a j * (circle_dist (u i) (u j) * (1 - circle_dist (u i) (u j))))).
Proof.
  intros n u w a s Ps So Hw Ha. unfold semidiscrete. cbv zeta. cbn [unif]. rewrite !nsum_R. rewrite nofnat_INR. cbn [nadd nsub nmul ndiv n0 n1 RNum].
  set (o := order (N:=RNum) n (fun i => mod1 (N:=RNum) rfloor (u i))). set (x := fun i => frac_part (u (s i))).
  assert (X : forall i, (i < n)%nat -> mod1 (N:=RNum) rfloor (u (o i)) = x i).
  { intros i Hi. rewrite mod1_frac. unfold x. apply (order_stat n (fun i => frac_part (u i)) o s); auto; [apply order_perm|intros k Hk; apply (order_sorted n (fun i => mod1 (N:=RNum) rfloor (u i)) k Hk)]. }
  assert (Sw : rsum n w = 1) by (rewrite <- Ha, <- (rsum_perm n s a Ps); apply rsum_ext; auto).
  rewrite (rsum_ext n (fun i => w i * (mod1 (N:=RNum) rfloor (u (o i)) * mod1 (N:=RNum) rfloor (u (o i)))) (fun i => w i * (x i * x i))) by (intros; rewrite X; auto).
  rewrite (rsum_ext n (fun i => w i * mod1 (N:=RNum) rfloor (u (o i))) (fun i => w i * x i)) by (intros; rewrite X; auto).
  rewrite (rsum_ext n (fun i => mod1 (N:=RNum) rfloor (u (o i)) * w i * (1 - w i - (1 + 1) * nsum (N:=RNum) i w)) (fun i => - (x i * w i * (2 * rsum i w + w i - rsum n w)))) by (intros; rewrite X, nsum_R, Sw by auto; ring).
  rewrite rsum_opp. pose proof (half_abs n w x So) as HA. pose proof (half_sq n w x) as HS. rewrite Sw in HS at 1.
  assert (E : rsum n (fun i => rsum n (fun j => a i * a j * (circle_dist (u i) (u j) * (1 - circle_dist (u i) (u j))))) = rsum n (fun i => rsum n (fun j => w i * w j * Rabs (x i - x j))) - rsum n (fun i => rsum n (fun j => w i * w j * (x i - x j) ^ 2))).
  { rewrite <- (rsum_perm n s (fun i => rsum n (fun j => a i * a j * (circle_dist (u i) (u j) * (1 - circle_dist (u i) (u j))))) Ps). rewrite <- rsum_minus. apply rsum_ext. intros i Hi.
    rewrite <- (rsum_perm n s (fun j => a (s i) * a j * (circle_dist (u (s i)) (u j) * (1 - circle_dist (u (s i)) (u j)))) Ps). rewrite <- rsum_minus. apply rsum_ext. intros j Hj. unfold circle_dist. rewrite gap_prod. rewrite !Hw by auto. unfold x. ring. }
  rewrite E, HA, HS. replace (INR 12) with 12 by (cbn; lra). lra.
Qed.

(** ** linear circular OT *)
Lemma gap_tri : forall x y z, 0 <= x < 1 -> 0 <= y < 1 -> 0 <= z < 1 -> gap x z <= gap x y + gap y z.
Proof. intros x y z Hx Hy Hz. unfold gap, Rmin, Rabs. repeat destruct (Rcase_abs _); repeat destruct (Rle_dec _ _); lra. Qed.
Lemma circ_gap_R : forall x y : R, circ_gap (N:=RNum) x y = gap x y.
Proof. intros. unfold circ_gap. cbv zeta. rewrite nmin_R, nabs_R. reflexivity. Qed.
Lemma gap_sym : forall x y, gap x y = gap y x.
Proof. intros. unfold gap. rewrite Rabs_minus_sym. reflexivity. Qed.
Lemma gap_self : forall x, gap x x = 0.
Proof. intros. unfold gap. rewrite Rminus_eq_0, Rabs_R0. apply Rmin_left. lra. Qed.
Lemma gap_range : forall x y, 0 <= x < 1 -> 0 <= y < 1 -> 0 <= gap x y <= 1 / 2.
Proof. intros x y Hx Hy. unfold gap, Rmin, Rabs. repeat destruct (Rcase_abs _); repeat destruct (Rle_dec _ _); lra. Qed.
Lemma minkowski : forall g (d1 d2 d3 : vec), (forall k, (k < g)%nat -> 0 <= d3 k <= d1 k + d2 k) -> sqrt (rsum g (fun k => d3 k * d3 k)) <= sqrt (rsum g (fun k => d1 k * d1 k)) + sqrt (rsum g (fun k => d2 k * d2 k)).
Proof.
  intros g d1 d2 d3 H. set (A := rsum g (fun k => d1 k * d1 k)). set (B := rsum g (fun k => d2 k * d2 k)).
  assert (A0 : 0 <= A) by (apply rsum_nonneg; intros; nra). assert (B0 : 0 <= B) by (apply rsum_nonneg; intros; nra).
  pose proof (sqrt_pos A) as SA. pose proof (sqrt_pos B) as SB.
  rewrite <- (sqrt_square (sqrt A + sqrt B)) by lra. apply sqrt_le_1_alt.
  replace ((sqrt A + sqrt B) * (sqrt A + sqrt B)) with (sqrt A * sqrt A + sqrt B * sqrt B + 2 * (sqrt A * sqrt B)) by ring. rewrite !sqrt_sqrt, <- sqrt_mult by auto.
  assert (CS : rsum g (fun k => d1 k * d2 k) <= sqrt (A * B)).
  { apply Rsqr_incr_0_var; [|apply sqrt_pos]. unfold Rsqr. rewrite sqrt_sqrt by (apply Rmult_le_pos; auto). pose proof (rsum_CS g d1 d2) as C. unfold A, B. 
    rewrite (rsum_ext g (fun k => d1 k * d1 k) (fun k => d1 k ^ 2)) by (intros; ring). rewrite (rsum_ext g (fun k => d2 k * d2 k) (fun k => d2 k ^ 2)) by (intros; ring). lra. }
  apply Rle_trans with (A + B + 2 * rsum g (fun k => d1 k * d2 k)); [|lra]. unfold A, B. rewrite <- rsum_plus, <- rsum_scal, <- rsum_plus. apply rsum_le. intros k Hk. specialize (H k Hk).
  replace (d1 k * d1 k + d2 k * d2 k + 2 * (d1 k * d2 k)) with ((d1 k + d2 k) * (d1 k + d2 k)) by ring. apply Rmult_le_compat; lra.
Qed.
Lemma frac_shift : forall x (k : Z), 0 <= x - IZR k < 1 -> frac_part x = x - IZR k.
Proof. intros x k H. unfold frac_part, Int_part. rewrite <- (tech_up x (k + 1)); [|rewrite plus_IZR; lra|rewrite plus_IZR; lra]. replace (k + 1 - 1)%Z with k by ring. reflexivity. Qed.
Lemma frac_id : forall x, 0 <= x < 1 -> frac_part x = x.
Proof. intros x H. rewrite (frac_shift x 0); lra. Qed.
Lemma frac_idem : forall x, frac_part (frac_part x) = frac_part x.
Proof. intros x. apply frac_id. pose proof (base_fp x). lra. Qed.

(** the grid points of linear_circular_ot and the embedding of a sample *)
Definition emb (n : nat) (u a : vec) (t : R) : R := embedding (N:=RNum) rfloor n t u (Some a) true.
Lemma emb_range : forall n u a t, 0 <= emb n u a t < 1.
Proof. intros. unfold emb, embedding, embedding_mod. cbv zeta. apply mod1_range. Qed.
Lemma emb_frac : forall n u a t, embedding (N:=RNum) rfloor n t (fun i => mod1 (N:=RNum) rfloor (u i)) (Some a) true = emb n u a t.
Proof.
  intros. unfold emb, embedding.
  assert (E : (fun i => mod1 (N:=RNum) rfloor (mod1 (N:=RNum) rfloor (u i))) = (fun i => mod1 (N:=RNum) rfloor (u i))) by (apply functional_extensionality; intro i; rewrite !mod1_frac; apply frac_idem).
  rewrite E. reflexivity.
Qed.
Lemma lcot_R : forall grid n m u v a b, linear_circular_ot (N:=RNum) rfloor grid n m u (Some v) (Some a) (Some b) =
  rsum grid (fun k => gap (emb n u a (INR k / INR grid)) (emb m v b (INR k / INR grid)) * gap (emb n u a (INR k / INR grid)) (emb m v b (INR k / INR grid))) / INR grid.
Proof.
  intros. unfold linear_circular_ot. cbv zeta. rewrite nsum_R, nofnat_INR. cbn [ndiv nmul RNum]. f_equal. apply rsum_ext. intros k Hk. cbn [unif]. rewrite emb_frac, circ_gap_R. fold (emb m v b (nofnat (N:=RNum) k / INR grid)). rewrite !nofnat_INR. reflexivity.
Qed.
Lemma lcot_unif_R : forall grid n m u a b, linear_circular_ot (N:=RNum) rfloor grid n m u None (Some a) b =
  rsum grid (fun k => gap (emb n u a (INR k / INR grid)) 0 * gap (emb n u a (INR k / INR grid)) 0) / INR grid.
Proof.
  intros. unfold linear_circular_ot. cbv zeta. rewrite nsum_R, nofnat_INR. cbn [ndiv nmul RNum]. f_equal. apply rsum_ext. intros k Hk. cbn [unif]. rewrite emb_frac, circ_gap_R, !nofnat_INR. reflexivity.
Qed.
(** quantile index: the padded cumulative weights shift the index by one *)
Lemma padded_index : forall n (ws : vec) q i, (i < n)%nat -> nonneg_vec n ws -> rsum i ws < q <= rsum (S i) ws ->
  quantile_idx (N:=RNum) n (0 :: map (fun i => nsum (N:=RNum) (S i) ws) (seq 0 n)) q = Nat.min (S i) (n - 1).
Proof.
  intros n ws q i Hi Hw [Q1 Q2]. unfold quantile_idx. f_equal. cbn [searchsorted nltb RNum].
  assert (Q0 : 0 < q) by (pose proof (rsum_nonneg i ws ltac:(intros; apply Hw; lia)); lra). replace (Rltb 0 q) with true by (symmetry; apply Rltb_true; auto). f_equal.
  assert (S0 : forall k j, (j <= i)%nat -> (i < j + k)%nat -> (j + k <= n)%nat -> (j + searchsorted (N:=RNum) (map (fun i => nsum (N:=RNum) (S i) ws) (seq j k)) q = i)%nat).
  { induction k; intros j Hj Hk Hn; [lia|]. cbn [seq map searchsorted nltb RNum]. rewrite nsum_R. destruct (Rltb (rsum (S j) ws) q) eqn:B.
    - apply Rltb_true in B. destruct (Nat.eq_dec j i) as [-> | Hne]; [lra|]. specialize (IHk (S j) ltac:(lia) ltac:(lia) ltac:(lia)). lia.
    - apply Rltb_false in B. destruct (Nat.eq_dec j i) as [-> | Hne]; [lia|]. pose proof (rsum_mono_n (S j) i ws ltac:(lia) ltac:(intros; apply Hw; lia)). lra. }
  specialize (S0 n 0%nat ltac:(lia) ltac:(lia) ltac:(lia)). exact S0.
Qed.
