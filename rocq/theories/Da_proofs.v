(** Lemmas on the domain adaptation model: cost correction, barycentric maps, labels. *)
From Coq Require Import Reals List Lra Lia ZArith Bool Sorted.
From Verif Require Import Num Sums Spec Perm Duals_proofs Emd1d_model Optim_model Circle_model Utils_model Utils_batch Sinkhorn_model Sliced_plans Weak_model Weak_proofs Da_model.
Import ListNotations.
Local Open Scope R_scope.
Ltac toR := match goal with |- @eq _ ?x ?y => change (@eq R x y) end.

(** ** the correction is always zero *)
Lemma correction_R : forall big ys yt (l : ext RNum) i j, l <> NaN -> cost_correction (N:=RNum) big ys yt l i j = 0.
Proof.
  intros big ys yt l i j Hl. unfold cost_correction, missing_labels, label_match, missing.
  assert (Z : nmul (n:=RNum) (if Z.eqb (ys i - yt j) 0 then n0 else n1) (nmul (if Z.eqb (ys i) (-1) then n1 else n0) (if Z.eqb (yt j) (-1) then n1 else n0)) = 0).
  { cbn [nmul n0 n1 RNum]. toR. destruct (Z.eqb_spec (ys i - yt j) 0); [apply Rmult_0_l|]. destruct (Z.eqb_spec (ys i) (-1)), (Z.eqb_spec (yt j) (-1)); rewrite ?Rmult_0_l, ?Rmult_0_r; auto. exfalso. lia. }
  rewrite Z. destruct l as [x| |]; cbn [ext_scale nan_to_num_pos].
  - cbn [nmul RNum]. apply Rmult_0_l.
  - cbn [neqb n0 RNum]. destruct (Reqb 0 0) eqn:E; [reflexivity|]. apply Reqb_false in E. lra.
  - congruence.
Qed.

(** ** barycentric maps *)
Lemma row_norm_R : forall m (G : mat) i j, row_norm (N:=RNum) m G i j = if Req_EM_T (rsum m (G i)) 0 then 0 else G i j / rsum m (G i).
Proof.
  intros m G i j. unfold row_norm. rewrite nsum_R. change (rsum m (fun k => G i k)) with (rsum m (G i)). cbn [neqb ndiv n0 RNum].
  destruct (Reqb (rsum m (G i)) 0) eqn:E; [apply Reqb_true in E|apply Reqb_false in E]; destruct (Req_EM_T (rsum m (G i)) 0); auto; contradiction.
Qed.
Lemma row_norm_nonneg : forall m (G : mat) i j, (forall k, (k < m)%nat -> 0 <= G i k) -> (j < m)%nat -> 0 <= row_norm (N:=RNum) m G i j.
Proof.
  intros m G i j H Hj. rewrite row_norm_R. destruct (Req_EM_T _ _); [lra|]. assert (P := rsum_nonneg m (G i) H). apply Rle_mult_inv_pos; auto. lra.
Qed.
Lemma row_norm_sum : forall m (G : mat) i, rsum m (G i) <> 0 -> rsum m (row_norm (N:=RNum) m G i) = 1.
Proof.
  intros m G i H. rewrite (rsum_ext m _ (fun j => / rsum m (G i) * G i j)).
  - rewrite rsum_scal. apply Rinv_l; auto.
  - intros j Hj. rewrite row_norm_R. destruct (Req_EM_T _ _); [contradiction|]. field. auto.
Qed.
Lemma row_norm_scale : forall m (G : mat) i j, (forall k, (k < m)%nat -> 0 <= G i k) -> (j < m)%nat -> rsum m (G i) * row_norm (N:=RNum) m G i j = G i j.
Proof.
  intros m G i j H Hj. rewrite row_norm_R. destruct (Req_EM_T _ _) as [E|E].
  - rewrite (rsum_nonneg_zero m (G i) H E j Hj). ring.
  - field. auto.
Qed.
Lemma bary_R : forall m (G Xt : mat) i t, bary_map (N:=RNum) m G Xt i t = rsum m (fun j => row_norm (N:=RNum) m G i j * Xt j t).
Proof. intros. unfold bary_map. rewrite nsum_R. reflexivity. Qed.
Lemma bary_mean : forall n m a b (G Xt : mat) t, coupling n m a b G ->
  rsum n (fun i => a i * bary_map (N:=RNum) m G Xt i t) = rsum m (fun j => b j * Xt j t).
Proof.
  intros n m a b G Xt t (P & Rr & Cc).
  rewrite (rsum_ext n _ (fun i => rsum m (fun j => G i j * Xt j t))).
  - rewrite rsum_swap. apply rsum_ext. intros j Hj. rewrite rsum_scal_r. f_equal. apply Cc; auto.
  - intros i Hi. rewrite bary_R, <- rsum_scal. apply rsum_ext. intros j Hj. rewrite <- (Rr i Hi). unfold row_sum.
    rewrite <- Rmult_assoc. f_equal. apply row_norm_scale; auto.
Qed.
(** Jensen: the images spread less than the targets *)
Lemma bary_spread : forall n m d a b (G Xt : mat) (z : nat -> R), coupling n m a b G ->
  rsum n (fun i => a i * rsum d (fun t => (bary_map (N:=RNum) m G Xt i t - z t) ^ 2)) <= rsum m (fun j => b j * rsum d (fun t => (Xt j t - z t) ^ 2)).
Proof.
  intros n m d a b G Xt z (P & Rr & Cc).
  assert (E : rsum m (fun j => b j * rsum d (fun t => (Xt j t - z t) ^ 2)) = rsum n (fun i => rsum m (fun j => G i j * rsum d (fun t => (Xt j t - z t) ^ 2)))).
  { rewrite rsum_swap. apply rsum_ext. intros j Hj. rewrite rsum_scal_r. f_equal. symmetry. apply Cc; auto. }
  rewrite E. apply rsum_le. intros i Hi.
  rewrite (rsum_ext m _ (fun j => rsum d (fun t => G i j * (Xt j t - z t) ^ 2))) by (intros; rewrite rsum_scal; reflexivity).
  rewrite rsum_swap, <- rsum_scal. apply rsum_le. intros t Ht. specialize (Rr i Hi). change (rsum m (G i) = a i) in Rr.
  assert (PG : forall k, (k < m)%nat -> 0 <= G i k) by (intros; apply P; auto).
  destruct (Req_EM_T (a i) 0) as [A0|A0].
  - rewrite A0, Rmult_0_l. apply rsum_nonneg. intros j Hj. apply Rmult_le_pos; auto. apply pow2_ge_0.
  - assert (A1 : 0 < a i) by (assert (0 <= a i) by (rewrite <- Rr; apply rsum_nonneg; auto); lra).
    assert (EB : a i * (bary_map (N:=RNum) m G Xt i t - z t) = rsum m (fun j => G i j * (Xt j t - z t))).
    { rewrite bary_R, Rmult_minus_distr_l, <- rsum_scal. rewrite (rsum_ext m _ (fun j => G i j * Xt j t)).
      - rewrite (rsum_ext m (fun j => G i j * (Xt j t - z t)) (fun j => G i j * Xt j t - z t * G i j)) by (intros; ring).
        rewrite rsum_minus, rsum_scal. change (rsum m (fun j => G i j)) with (rsum m (G i)). rewrite Rr. ring.
      - intros j Hj. rewrite <- Rr, <- Rmult_assoc. f_equal. apply row_norm_scale; auto. }
    assert (CS := rsum_CS m (fun j => sqrt (G i j)) (fun j => sqrt (G i j) * (Xt j t - z t))). cbv beta in CS.
    rewrite (rsum_ext m (fun j => sqrt (G i j) * (sqrt (G i j) * (Xt j t - z t))) (fun j => G i j * (Xt j t - z t))) in CS
      by (intros j Hj; rewrite <- Rmult_assoc, sqrt_sqrt; auto).
    rewrite (rsum_ext m (fun j => sqrt (G i j) ^ 2) (G i)) in CS by (intros j Hj; rewrite pow2_sqrt; auto).
    rewrite (rsum_ext m (fun j => (sqrt (G i j) * (Xt j t - z t)) ^ 2) (fun j => G i j * (Xt j t - z t) ^ 2)) in CS
      by (intros j Hj; rewrite Rpow_mult_distr, pow2_sqrt; auto).
    rewrite <- EB, Rr in CS. rewrite Rpow_mult_distr in CS. apply (Rmult_le_reg_l (a i)); auto. eapply Rle_trans; [|exact CS]. apply Req_le. ring.
Qed.
Lemma coupling_transp : forall n m a b G, coupling n m a b G -> coupling m n b a (transp (N:=RNum) G).
Proof. intros n m a b G (P & Rr & Cc). split; [intros j i Hj Hi; apply P; auto|]. split; [exact Cc|exact Rr]. Qed.

(** array_equal *)
Lemma array_equal_true : forall d n (X : mat) n' (X' : mat), array_equal (N:=RNum) d n X n' X' = true <-> n = n' /\ forall i t, (i < n)%nat -> (t < d)%nat -> X i t = X' i t.
Proof.
  intros. unfold array_equal. rewrite andb_true_iff, Nat.eqb_eq, forallb_forall. split.
  - intros [E H]. split; auto. intros i t Hi Ht. specialize (H i). rewrite in_seq in H. specialize (H ltac:(lia)). rewrite forallb_forall in H. specialize (H t). rewrite in_seq in H. specialize (H ltac:(lia)).
    cbn [neqb RNum] in H. apply Reqb_true in H. exact H.
  - intros [E H]. split; auto. intros i Hi. apply in_seq in Hi. apply forallb_forall. intros t Ht. apply in_seq in Ht. cbn [neqb RNum]. destruct (Reqb (X i t) (X' i t)) eqn:EE; auto. apply Reqb_false in EE. exfalso. apply EE. apply H; lia.
Qed.
Lemma sqd_R : forall d (X Y : mat) i j, sqd (N:=RNum) d X Y i j = rsum d (fun t => (X i t - Y j t) ^ 2).
Proof. intros. unfold sqd. rewrite nsum_R. apply rsum_ext; intros. cbn. ring. Qed.
Lemma nearest_spec : forall d n (Xs X : mat) i, (0 < n)%nat -> (nearest (N:=RNum) d n Xs X i < n)%nat /\
  forall k, (k < n)%nat -> sqdist2 d X Xs i (nearest (N:=RNum) d n Xs X i) <= sqdist2 d X Xs i k.
Proof.
  intros d n Xs X i Hn. unfold nearest. destruct (argmin_spec (fun k => sqd (N:=RNum) d X Xs i k) n Hn) as [A B]. split; [exact A|].
  intros k Hk. specialize (B k Hk). rewrite !sqd_R in B. exact B.
Qed.
(** at a training sample distinct from the others, the nearest one is itself *)
Lemma nearest_self : forall d n (Xs X : mat) i k, (k < n)%nat -> (forall t, (t < d)%nat -> X i t = Xs k t) ->
  (forall k', (k' < n)%nat -> k' <> k -> exists t, (t < d)%nat /\ Xs k' t <> Xs k t) -> nearest (N:=RNum) d n Xs X i = k.
Proof.
  intros d n Xs X i k Hk E D. destruct (nearest_spec d n Xs X i) as [A B]; [lia|]. specialize (B k Hk). unfold sqdist2 in B.
  rewrite (rsum_0 d (fun t => (X i t - Xs k t) ^ 2)) in B by (intros t Ht; rewrite E by auto; ring).
  destruct (Nat.eq_dec (nearest (N:=RNum) d n Xs X i) k) as [|NE]; auto. exfalso. destruct (D _ A NE) as [t [Ht HD]].
  set (k' := nearest (N:=RNum) d n Xs X i) in *.
  assert (Q := rsum_le_one d (fun t => (X i t - Xs k' t) ^ 2) t (fun _ _ => pow2_ge_0 _) Ht). cbv beta in Q. rewrite E in Q by auto.
  assert (0 < (Xs k t - Xs k' t) ^ 2); [|lra]. assert (Xs k t - Xs k' t <> 0) by (intros Z; apply HD; lra). assert (X2 := Rsqr_pos_lt _ H). unfold Rsqr in X2. nra.
Qed.
Lemma batched : forall {B} (g : nat -> B) n bs, (0 < bs)%nat -> (0 < n)%nat -> reduce_axis_concat (map g) (seq 0 n) bs = Some (map g (seq 0 n)).
Proof. intros B g n bs Hb Hn. apply reduce_axis_concat_ok; auto using map_length, map_app. destruct n; [lia|discriminate]. Qed.

(** ** labels *)
Lemma insert_In : forall x l y, In y (insert_z x l) <-> y = x \/ In y l.
Proof.
  induction l as [|z l IH]; intros y; cbn [insert_z]; [cbn; intuition|]. destruct (Z.ltb_spec x z); [cbn; intuition|]. destruct (Z.eqb_spec x z); [subst; cbn; intuition|]. cbn [In]. rewrite IH. intuition.
Qed.
Lemma insert_sorted : forall x l, StronglySorted Z.lt l -> StronglySorted Z.lt (insert_z x l).
Proof.
  induction l as [|z l IH]; intros H; cbn [insert_z]; [constructor; constructor|]. inversion H as [|? ? Hs Hf]; subst.
  destruct (Z.ltb_spec x z).
  - constructor; auto. constructor; auto. eapply Forall_impl; [|exact Hf]. intros; lia.
  - destruct (Z.eqb_spec x z); auto. constructor; auto. apply Forall_forall. intros w Hw. apply insert_In in Hw. destruct Hw as [->|Hw]; [lia|]. rewrite Forall_forall in Hf. auto.
Qed.
Lemma unique_sorted : forall n y, StronglySorted Z.lt (unique n y).
Proof. intros. unfold unique. generalize (map y (seq 0 n)). induction l; cbn; [constructor|]. apply insert_sorted; auto. Qed.
Lemma unique_In : forall n y z, In z (unique n y) <-> exists i, (i < n)%nat /\ y i = z.
Proof.
  intros n y z. unfold unique. assert (H : forall l, In z (fold_right insert_z [] l) <-> In z l) by (induction l; cbn; [tauto|]; rewrite insert_In; intuition).
  rewrite H, in_map_iff. split; [intros [i [E Hi]]; apply in_seq in Hi; exists i; split; [lia|auto]|intros [i [Hi E]]; exists i; split; auto; apply in_seq; lia].
Qed.
Lemma index_of_nth : forall x l, In x l -> (index_of x l < length l)%nat /\ nth (index_of x l) l 0%Z = x.
Proof. induction l as [|y l IH]; intros H; [destruct H|]. cbn [index_of]. destruct (Z.eqb_spec x y); [subst; cbn; split; [lia|auto]|]. destruct H as [->|H]; [contradiction|]. destruct (IH H). cbn. split; [lia|auto]. Qed.
Lemma nodup_sorted : forall l, StronglySorted Z.lt l -> NoDup l.
Proof. induction l; intros H; [constructor|]. inversion H as [|? ? Hs Hf]; subst. constructor; auto. intros I. rewrite Forall_forall in Hf. specialize (Hf _ I). lia. Qed.
(** mask (i, k) is 1 exactly when y_i is the k-th label in increasing order *)
Lemma masks_spec : forall n y i k, (i < n)%nat -> (k < length (unique n y))%nat ->
  masks (N:=RNum) n y i k = if Z.eqb (y i) (nth k (unique n y) 0%Z) then 1 else 0.
Proof.
  intros n y i k Hi Hk. unfold masks. assert (I : In (y i) (unique n y)) by (apply unique_In; eauto). destruct (index_of_nth _ _ I) as [A B].
  destruct (Nat.eqb_spec (index_of (y i) (unique n y)) k) as [E|E].
  - rewrite <- E, B, Z.eqb_refl. reflexivity.
  - destruct (Z.eqb_spec (y i) (nth k (unique n y) 0%Z)) as [E2|]; [|reflexivity]. exfalso. apply E.
    apply (proj1 (NoDup_nth (unique n y) 0%Z) (nodup_sorted _ (unique_sorted n y))); auto. rewrite B. exact E2.
Qed.
Lemma masks_row : forall n y i, (i < n)%nat -> rsum (length (unique n y)) (fun k => masks (N:=RNum) n y i k) = 1.
Proof.
  intros n y i Hi. assert (I : In (y i) (unique n y)) by (apply unique_In; eauto). destruct (index_of_nth _ _ I) as [A B].
  unfold masks. rewrite (rsum_ext _ _ (fun k => if Nat.eqb k (index_of (y i) (unique n y)) then 1 else 0)) by (intros k Hk; rewrite Nat.eqb_sym; reflexivity).
  apply rsum_delta; auto.
Qed.
(** shifting the labels shifts the sorted list of labels *)
Lemma unique_shift : forall n y c, unique n (fun i => (y i - c)%Z) = map (fun z => (z - c)%Z) (unique n y).
Proof.
  intros n y c. unfold unique. rewrite <- (map_map y (fun z => (z - c)%Z)). generalize (map y (seq 0 n)). induction l as [|x l IH]; cbn [map fold_right]; auto. rewrite IH.
  generalize (fold_right insert_z [] l). induction l0 as [|z l0 IH2]; cbn [insert_z map]; auto.
  destruct (Z.ltb_spec x z), (Z.ltb_spec (x - c) (z - c)); try lia; auto. destruct (Z.eqb_spec x z), (Z.eqb_spec (x - c) (z - c)); try lia; auto. cbn [map]. f_equal. exact IH2.
Qed.
Lemma masks_norm : forall n y i k, masks (N:=RNum) n (label_normalization n y) i k = masks (N:=RNum) n y i k.
Proof.
  intros n y i k. unfold label_normalization. destruct (Z.eqb _ 0); auto. set (c := fold_right Z.min _ _). unfold masks. rewrite unique_shift.
  replace (index_of (y i - c) (map (fun z => (z - c)%Z) (unique n y))) with (index_of (y i) (unique n y)); auto.
  generalize (unique n y). induction l as [|z l IH]; cbn [index_of map]; auto. destruct (Z.eqb_spec (y i) z), (Z.eqb_spec (y i - c) (z - c)); try lia; auto.
Qed.
Lemma transform_labels_R : forall n m (G : mat) ys j k, (j < m)%nat -> (k < length (unique n ys))%nat ->
  transform_labels (N:=RNum) n m G ys j k = rsum n (fun i => (if Z.eqb (ys i) (nth k (unique n ys) 0%Z) then 1 else 0) * row_norm (N:=RNum) n (transp (N:=RNum) G) j i).
Proof. intros. unfold transform_labels. rewrite nsum_R. apply rsum_ext. intros i Hi. cbn [nmul RNum]. rewrite masks_norm, masks_spec by auto. reflexivity. Qed.
