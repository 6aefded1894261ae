(** Proofs about Utils_model: simplex projections, distances, batching, scaling. *)
From Coq Require Import List Arith Bool Reals Lra Lia Permutation.
From Verif Require Import Num Sums Spec Perm Duals_proofs Optim_proofs Emd1d_model Emd1d_proofs Emd1d_perm_proofs Utils_model.
Import ListNotations.
Local Open Scope R_scope.

(** ** Descending order *)
Lemma desc_perm : forall n (v : vec), perm_on n (desc (N:=RNum) n v).
Proof.
  intros n v.
  assert (P := proj1 (argsort_sorts (map v (seq 0 n)))). rewrite map_length, seq_length in P.
  apply perm_list_on in P. destruct P as [P1 P2]. unfold desc, pfun in *. split.
  - intros i Hi. apply P1. lia.
  - intros i j Hi Hj E. apply P2 in E; lia.
Qed.
Lemma lnth_mapseq : forall n (v : vec) i, (i < n)%nat -> lnth (map v (seq 0 n)) i = v i.
Proof.
  intros n v i Hi. unfold lnth.
  transitivity (nth i (map v (seq 0 n)) (v 0%nat)); [apply nth_indep; rewrite map_length, seq_length; auto|].
  rewrite map_nth, seq_nth; auto.
Qed.
Lemma desc_step : forall n (v : vec) k, (S k < n)%nat ->
  v (desc (N:=RNum) n v (S k)) <= v (desc (N:=RNum) n v k).
Proof.
  intros n v k Hk. destruct (argsort_sorts (map v (seq 0 n))) as [P H].
  rewrite map_length, seq_length in *. specialize (H (n - 1 - S k)%nat ltac:(lia)).
  destruct (perm_list_on _ _ P) as [P1 _].
  rewrite !lnth_mapseq in H by (apply P1; lia). unfold desc, pfun in *.
  replace (n - 1 - k)%nat with (S (n - 1 - S k)) by lia. exact H.
Qed.
Lemma desc_le : forall (u : vec) n, (forall k, (S k < n)%nat -> u (S k) <= u k) ->
  forall k l, (k <= l)%nat -> (l < n)%nat -> u l <= u k.
Proof.
  intros u n H k l Hkl Hl. induction Hkl; [lra|]. specialize (H m ltac:(lia)). specialize (IHHkl ltac:(lia)). lra.
Qed.

(** ** Threshold *)
Lemma count_prefix : forall n p, (forall k l, (k <= l)%nat -> (l < n)%nat -> p l = true -> p k = true) ->
  (count n p <= n)%nat /\ (forall k, (k < count n p)%nat -> p k = true) /\ (forall k, (count n p <= k)%nat -> (k < n)%nat -> p k = false).
Proof.
  induction n; intros p H; [cbn; repeat split; intros; lia|].
  destruct (IHn p) as (A & B & C); [intros; eapply H; eauto|]. cbn.
  destruct (p n) eqn:E.
  - assert (F : count n p = n).
    { destruct (Nat.eq_dec (count n p) n); auto. assert (p (count n p) = false) by (apply C; lia).
      rewrite (H (count n p) n) in H0; [discriminate|lia|lia|auto]. }
    rewrite F in *. split; [lia|]. split.
    + intros k Hk. apply (H k n); [lia|lia|auto].
    + intros k H1 H2. lia.
  - rewrite Nat.add_0_r. split; [lia|]. split; auto.
    intros k H1 H2. destruct (Nat.eq_dec k n); [subst; auto|]. apply C; lia.
Qed.

Section Threshold.
Variables (n : nat) (u : vec) (z : R).
Hypothesis Hn : (0 < n)%nat.
Hypothesis Hz : 0 < z.
Hypothesis Hd : forall k, (S k < n)%nat -> u (S k) <= u k.
Let g (k : nat) : R := rsum (S k) u - INR (S k) * u k.
Let p (k : nat) := Rltb 0 (u k - (rsum (S k) u - z) / INR (S k)).
Let rho := simplex_rho (N:=RNum) n u z.
Let th := simplex_theta (N:=RNum) n u z.

Lemma p_g : forall k, p k = true <-> g k < z.
Proof.
  intros k. unfold p, g. rewrite Rltb_true.
  assert (P : 0 < INR (S k)) by (apply lt_0_INR; lia).
  assert (E : INR (S k) * (u k - (rsum (S k) u - z) / INR (S k)) = INR (S k) * u k - rsum (S k) u + z) by (field; lra).
  split; intros H.
  - apply (Rmult_lt_compat_l (INR (S k))) in H; [|lra]. rewrite E in H. lra.
  - apply (Rmult_lt_reg_l (INR (S k))); [lra|]. rewrite E. lra.
Qed.
Lemma g_mono : forall k l, (k <= l)%nat -> (l < n)%nat -> g k <= g l.
Proof.
  intros k l H Hl. induction H; [lra|]. specialize (IHle ltac:(lia)).
  apply (Rle_trans _ _ _ IHle). unfold g. cbn [rsum]. rewrite (S_INR (S m)).
  specialize (Hd m ltac:(lia)). assert (0 <= INR (S m)) by apply pos_INR. nra.
Qed.
Lemma rho_eq : rho = count n p.
Proof.
  unfold rho, simplex_rho. assert (E : forall k q q', (forall i, q i = q' i) -> count k q = count k q').
  { induction k; intros q q' H; cbn; auto. rewrite (IHk q q'), H; auto. }
  apply E. intros i. unfold p, cssv. change (@nltb RNum) with Rltb. f_equal. cbn [nsub ndiv RNum].
  rewrite nofnat_INR. rewrite nsum_R. reflexivity.
Qed.
Lemma rho_spec : (1 <= rho <= n)%nat /\ (forall k, (k < rho)%nat -> g k < z) /\ (forall k, (rho <= k)%nat -> (k < n)%nat -> z <= g k).
Proof.
  assert (M : forall k l, (k <= l)%nat -> (l < n)%nat -> p l = true -> p k = true).
  { intros k l H Hl. rewrite !p_g. intros. assert (g k <= g l) by (apply g_mono; auto). lra. }
  destruct (count_prefix n p M) as (A & B & C). rewrite <- rho_eq in *. split; [|split].
  - split; auto. destruct (Nat.eq_dec rho 0); [|lia]. exfalso. assert (p 0%nat = false) by (apply C; lia).
    assert (p 0%nat = true); [|congruence]. apply p_g. unfold g. cbn. lra.
  - intros. apply p_g; auto.
  - intros k H1 H2. destruct (Rle_lt_dec z (g k)); auto. apply p_g in r. rewrite C in r; auto; discriminate.
Qed.
Lemma th_eq : th = (rsum rho u - z) / INR rho.
Proof.
  destruct rho_spec as ((A & _) & _). unfold th, simplex_theta. fold rho.
  destruct (Nat.eqb rho 0) eqn:E; [apply Nat.eqb_eq in E; lia|]. unfold cssv. rewrite nsum_R, nofnat_INR.
  replace (S (rho - 1)) with rho by lia. reflexivity.
Qed.
Lemma above : forall k, (k < rho)%nat -> th < u k.
Proof.
  intros k Hk. destruct rho_spec as ((A & A') & B & _). rewrite th_eq.
  specialize (B (rho - 1)%nat ltac:(lia)). unfold g in B. replace (S (rho - 1)) with rho in B by lia.
  assert (u (rho - 1)%nat <= u k) by (apply (desc_le u n Hd); lia).
  assert (P : 0 < INR rho) by (apply lt_0_INR; lia).
  apply (Rmult_lt_reg_l (INR rho)); auto. unfold Rdiv. rewrite (Rmult_comm (rsum rho u - z)), <- Rmult_assoc, Rinv_r by lra. nra.
Qed.
Lemma below : forall k, (rho <= k)%nat -> (k < n)%nat -> u k <= th.
Proof.
  intros k Hk Hkn. destruct rho_spec as ((A & A') & _ & C). rewrite th_eq.
  specialize (C rho ltac:(lia) ltac:(lia)). unfold g in C. cbn [rsum] in C. rewrite S_INR in C.
  assert (u k <= u rho) by (apply (desc_le u n Hd); lia).
  assert (P : 0 < INR rho) by (apply lt_0_INR; lia).
  apply (Rmult_le_reg_l (INR rho)); auto. unfold Rdiv. rewrite (Rmult_comm (rsum rho u - z)), <- Rmult_assoc, Rinv_r by lra. nra.
Qed.
Lemma threshold_mass : rsum n (fun k => Rmax (u k - th) 0) = z.
Proof.
  destruct rho_spec as ((A & A') & _). replace n with (rho + (n - rho))%nat by lia.
  rewrite rsum_split. rewrite (rsum_ext rho _ (fun k => u k - th)).
  2:{ intros k Hk. rewrite Rmax_left; [auto|]. assert (th < u k) by (apply above; auto). lra. }
  rewrite (rsum_0 (n - rho)).
  2:{ intros k Hk. rewrite Rmax_right; [auto|]. assert (u (rho + k)%nat <= th) by (apply below; lia). lra. }
  rewrite rsum_minus, rsum_const, th_eq. assert (P : 0 < INR rho) by (apply lt_0_INR; lia). field. lra.
Qed.
End Threshold.

(** ** Projection *)
Definition sqdist (n : nat) (x y : vec) : R := rsum n (fun i => (x i - y i) ^ 2).

(** v thresholded at any level whose positive part has mass z is the closest point *)
Lemma thresholded_closest : forall n (v w x : vec) th z,
  (forall i, (i < n)%nat -> w i = Rmax (v i - th) 0) -> mass n w = z ->
  nonneg_vec n x -> mass n x = z -> sqdist n v x = sqdist n v w + sqdist n w x + 2 * rsum n (fun i => (th - (v i - w i)) * x i)
  /\ 0 <= rsum n (fun i => (th - (v i - w i)) * x i).
Proof.
  intros n v w x th z Hw Mw Hx Mx. unfold mass in *. split.
  - assert (E : rsum n (fun i => (th - (v i - w i)) * x i) = rsum n (fun i => (v i - w i) * (w i - x i))).
    { assert (rsum n (fun i => (th - (v i - w i)) * x i) - rsum n (fun i => (v i - w i) * (w i - x i)) = th * rsum n x - th * rsum n w).
      { rewrite <- !rsum_minus, <- !rsum_scal, <- rsum_minus. apply rsum_ext; intros i Hi.
        assert ((v i - w i - th) * w i = 0). { rewrite Hw; auto. unfold Rmax. destruct (Rle_dec (v i - th) 0); ring. }
        lra. }
      rewrite Mw, Mx in H. lra. }
    rewrite E. unfold sqdist. rewrite <- rsum_scal, <- !rsum_plus. apply rsum_ext; intros; ring.
  - apply rsum_nonneg; intros i Hi. apply Rmult_le_pos; [|apply Hx; auto]. rewrite Hw; auto.
    unfold Rmax. destruct (Rle_dec (v i - th) 0); lra.
Qed.
Lemma sqdist_nonneg : forall n x y, 0 <= sqdist n x y.
Proof. intros; apply rsum_nonneg; intros; apply pow2_ge_0. Qed.
Lemma sqdist_zero : forall n x y, sqdist n x y = 0 -> forall i, (i < n)%nat -> x i = y i.
Proof.
  intros n x y H i Hi. assert ((x i - y i) ^ 2 = 0).
  { apply (rsum_nonneg_zero n (fun i => (x i - y i) ^ 2)); auto. intros; apply pow2_ge_0. }
  assert (x i - y i = 0) by nra. lra.
Qed.

Section Proj.
Variables (n : nat) (v : vec) (z : R).
Hypothesis Hn : (0 < n)%nat.
Hypothesis Hz : 0 < z.
Let u := fun k => v (desc (N:=RNum) n v k).
Let th := simplex_theta (N:=RNum) n u z.
Lemma proj_eq : forall i, proj_simplex (N:=RNum) n v z i = Rmax (v i - th) 0.
Proof. intros i. unfold proj_simplex. rewrite nmax_R. reflexivity. Qed.
Lemma proj_mass : mass n (proj_simplex (N:=RNum) n v z) = z.
Proof.
  unfold mass. rewrite (rsum_ext n _ (fun i => Rmax (v i - th) 0)) by (intros; apply proj_eq).
  rewrite <- (rsum_perm n (desc (N:=RNum) n v) (fun i => Rmax (v i - th) 0)) by apply desc_perm.
  apply (threshold_mass n u z Hn Hz). intros k Hk. apply desc_step; auto.
Qed.
Lemma proj_nonneg : nonneg_vec n (proj_simplex (N:=RNum) n v z).
Proof. intros i Hi. rewrite proj_eq. apply Rmax_r. Qed.
Lemma proj_best : forall x, nonneg_vec n x -> mass n x = z ->
  sqdist n v (proj_simplex (N:=RNum) n v z) + sqdist n (proj_simplex (N:=RNum) n v z) x <= sqdist n v x.
Proof.
  intros x Hx Mx. destruct (thresholded_closest n v (proj_simplex (N:=RNum) n v z) x th z) as [A B]; auto using proj_mass.
  { intros; apply proj_eq. }
  rewrite A. lra.
Qed.
End Proj.

(** ** Sparse projection *)
Fixpoint ldot (v x : list R) : R := match v, x with a :: v', b :: x' => a * b + ldot v' x' | _, _ => 0 end.
Fixpoint compress (x : list R) : list R :=
  match x with [] => [] | a :: x' => if Req_EM_T a 0 then compress x' else a :: compress x' end.
Fixpoint ldesc (v : list R) : Prop := match v with [] => True | a :: v' => match v' with [] => True | b :: _ => b <= a end /\ ldesc v' end.

Lemma ldot_shift : forall v a x, ldesc (a :: v) -> (forall y, In y x -> 0 <= y) -> (length x <= length v)%nat -> ldot v x <= ldot (a :: v) x.
Proof.
  induction v as [|b v IH]; intros a x Hv Hx Hl; destruct x as [|c x]; cbn in Hl; try (cbn; lra); try lia.
  cbn [ldot]. assert (0 <= c) by (apply Hx; simpl; auto). destruct Hv as [H1 H2].
  assert (ldot v x <= ldot (b :: v) x). { apply IH; auto. intros; apply Hx; simpl; auto. lia. }
  cbn [ldot] in H0. nra.
Qed.
Lemma compress_len : forall x, (length (compress x) <= length x)%nat.
Proof. induction x; cbn; auto. destruct (Req_EM_T a 0); cbn; lia. Qed.
Lemma compress_in : forall x y, In y (compress x) -> In y x.
Proof. induction x; cbn; auto. intros y. destruct (Req_EM_T a 0); cbn; intuition. Qed.
Lemma compress_sum : forall (f : R -> R) x, f 0 = 0 -> lfold (map f (compress x)) = lfold (map f x).
Proof. intros f x H. unfold lfold in *. induction x; cbn; auto. destruct (Req_EM_T a 0); cbn; rewrite IHx; [subst; lra|auto]. Qed.
Lemma compress_dot : forall v x, ldesc v -> length x = length v -> (forall y, In y x -> 0 <= y) -> ldot v x <= ldot v (compress x).
Proof.
  induction v as [|a v IH]; intros x Hv Hl Hx; destruct x as [|b x]; try discriminate; [cbn; lra|].
  cbn [compress]. assert (I : ldot v x <= ldot v (compress x)).
  { apply IH; [apply Hv|cbn in Hl; lia|intros; apply Hx; simpl; auto]. }
  destruct (Req_EM_T b 0) as [-> |Hb].
  - apply Rle_trans with (ldot v x); [cbn [ldot]; lra|]. eapply Rle_trans; [apply I|].
    apply ldot_shift; auto. intros y Hy; apply Hx. right. apply compress_in; auto.
    assert (L := compress_len x). cbn in Hl. lia.
  - cbn [ldot]. lra.
Qed.

Lemma ldot_rsum : forall v x, (length x <= length v)%nat -> ldot v x = rsum (length v) (fun i => nth i v 0 * nth i x 0).
Proof.
  induction v as [|a v IH]; intros x H; destruct x as [|b x]; cbn [length] in *; try reflexivity; try lia.
  - cbn [ldot]. symmetry. apply rsum_0. intros i Hi. destruct i; cbn; ring.
  - rewrite rsum_first. cbn [ldot nth]. rewrite IH by lia. reflexivity.
Qed.
Lemma lfold_rsum : forall l, lfold l = rsum (length l) (fun i => nth i l 0).
Proof. induction l; [reflexivity|]. cbn [length]. rewrite rsum_first. cbn. unfold lfold in *. rewrite IHl. reflexivity. Qed.
Lemma lfold_map_rsum : forall (f : R -> R) l, lfold (map f l) = rsum (length l) (fun i => f (nth i l 0)).
Proof. induction l; [reflexivity|]. cbn [length map]. rewrite rsum_first. cbn. unfold lfold in *. rewrite IHl. reflexivity. Qed.

(** number of non-zero entries *)
Fixpoint nnz (n : nat) (x : vec) : nat := match n with O => 0 | S k => nnz k x + (if Req_EM_T (x k) 0 then 0 else 1) end.

Lemma nnz_filter : forall n x, nnz n x = length (filter (fun i => negb (Reqb (x i) 0)) (seq 0 n)).
Proof.
  induction n; intros x; [reflexivity|]. rewrite seq_S, filter_app, app_length, <- IHn. cbn.
  unfold Reqb. destruct (Req_EM_T (x n) 0); cbn; lia.
Qed.
Lemma nnz_perm : forall n s x, perm_on n s -> nnz n (fun i => x (s i)) = nnz n x.
Proof.
  intros n s x H. rewrite !nnz_filter. apply perm_on_list in H.
  assert (P : forall (l l' : list nat) p, Permutation l l' -> length (filter p l) = length (filter p l')).
  { intros l l' p0 HP. induction HP; cbn; auto; try lia.
    - destruct (p0 x0); cbn; lia.
    - destruct (p0 x0), (p0 y); cbn; lia. }
  rewrite <- (P _ _ (fun i => negb (Reqb (x i) 0)) H).
  generalize (seq 0 n). induction l as [|i l IH]; [reflexivity|].
  cbn [filter map]. destruct (negb (Reqb (x (s i)) 0)); cbn [length]; lia.
Qed.
Lemma compress_nnz : forall n x, length (compress (map x (seq 0 n))) = nnz n x.
Proof.
  assert (A : forall l l', compress (l ++ l') = compress l ++ compress l').
  { induction l; intros; cbn; auto. destruct (Req_EM_T a 0); cbn; rewrite IHl; auto. }
  induction n; intros x; [reflexivity|]. rewrite seq_S, map_app, A, app_length, IHn. cbn.
  destruct (Req_EM_T (x n) 0); reflexivity.
Qed.
Lemma nth_mapseq : forall (f : vec) n i, (i < n)%nat -> nth i (map f (seq 0 n)) 0 = f i.
Proof.
  intros. rewrite (nth_indep _ 0 (f 0%nat)) by (rewrite map_length, seq_length; auto). rewrite map_nth, seq_nth; auto.
Qed.
Lemma ldesc_fun : forall n (u : vec) a, (forall k, (S k < n)%nat -> u (a + S k)%nat <= u (a + k)%nat) -> ldesc (map u (seq a n)).
Proof.
  induction n; intros u a H; [exact I|]. cbn [seq map ldesc]. split.
  - destruct n; cbn; auto. specialize (H 0%nat ltac:(lia)). rewrite Nat.add_0_r, Nat.add_1_r in H. auto.
  - apply IHn. intros k Hk. specialize (H (S k) ltac:(lia)). replace (S a + S k)%nat with (a + S (S k))%nat by lia.
    replace (S a + k)%nat with (a + S k)%nat by lia. auto.
Qed.

(** moving the non-zeros of x to the largest entries does not increase the distance *)
Lemma compress_closer : forall n (u x : vec) k, (forall k, (S k < n)%nat -> u (S k) <= u k) -> nonneg_vec n x -> (nnz n x <= k)%nat -> (k <= n)%nat ->
  exists y : vec, nonneg_vec n y /\ mass n y = mass n x /\ (forall i, (k <= i)%nat -> y i = 0) /\ sqdist n u y <= sqdist n u x.
Proof.
  intros n u x k Hu Hx Hk Hkn. set (lx := map x (seq 0 n)). set (lu := map u (seq 0 n)).
  assert (Lx : length lx = n) by (unfold lx; rewrite map_length, seq_length; auto).
  assert (Lu : length lu = n) by (unfold lu; rewrite map_length, seq_length; auto).
  assert (Lc : (length (compress lx) <= k)%nat) by (unfold lx; rewrite compress_nnz; auto).
  assert (Px : forall y, In y lx -> 0 <= y).
  { intros y Hy. apply in_map_iff in Hy. destruct Hy as (i & <- & Hi). apply in_seq in Hi. apply Hx; lia. }
  exists (fun i => nth i (compress lx) 0).
  assert (F : forall f : R -> R, f 0 = 0 -> rsum n (fun i => f (nth i (compress lx) 0)) = rsum n (fun i => f (x i))).
  { intros f Hf. transitivity (lfold (map f (compress lx))).
    - rewrite lfold_map_rsum. replace n with (length (compress lx) + (n - length (compress lx)))%nat at 1 by lia.
      rewrite rsum_split, (rsum_0 (n - length (compress lx))); [lra|]. intros i Hi. rewrite nth_overflow by lia; auto.
    - rewrite compress_sum by auto. rewrite lfold_map_rsum, Lx. apply rsum_ext; intros i Hi. unfold lx. rewrite nth_mapseq; auto. }
  split; [|split; [|split]].
  - intros i Hi. destruct (Nat.lt_ge_cases i (length (compress lx))) as [H|H].
    + apply Px, compress_in, nth_In; auto.
    + rewrite nth_overflow by lia; lra.
  - exact (F (fun r => r) eq_refl).
  - intros i Hi. apply nth_overflow; lia.
  - assert (D : ldot lu lx <= ldot lu (compress lx)).
    { apply compress_dot; auto; [|congruence]. apply (ldesc_fun n u 0). intros j Hj. apply Hu; auto. }
    rewrite !ldot_rsum in D by lia. rewrite Lu in D.
    assert (E : forall y : vec, sqdist n u y = rsum n (fun i => u i ^ 2) - 2 * rsum n (fun i => u i * y i) + rsum n (fun i => y i ^ 2)).
    { intros y. unfold sqdist. rewrite <- rsum_scal, <- rsum_minus, <- rsum_plus. apply rsum_ext; intros; ring. }
    rewrite !E. rewrite (F (fun r => r ^ 2)) by ring.
    rewrite (rsum_ext n (fun i => nth i lu 0 * nth i lx 0) (fun i => u i * x i)) in D by (intros i Hi; unfold lu, lx; rewrite !nth_mapseq; auto).
    rewrite (rsum_ext n (fun i => nth i lu 0 * nth i (compress lx) 0) (fun i => u i * nth i (compress lx) 0)) in D by (intros i Hi; unfold lu; rewrite nth_mapseq; auto).
    lra.
Qed.

Section Sparse.
Variables (n : nat) (v : vec) (k : nat) (z : R) (w : vec).
Hypothesis Hz : 0 < z.
Hypothesis E : projection_sparse_simplex (N:=RNum) n v k z = Some w.
Let s := desc (N:=RNum) n v.
Let u := fun i => v (s i).
Let th := simplex_theta (N:=RNum) k u z.
Lemma sparse_k : (1 <= k <= n)%nat.
Proof.
  unfold projection_sparse_simplex in E. destruct (Nat.leb 1 k && Nat.leb k n)%bool eqn:B; [|discriminate].
  apply andb_prop in B. destruct B as [B1 B2]. apply Nat.leb_le in B1. apply Nat.leb_le in B2. lia.
Qed.
Lemma sparse_at : forall i, (i < n)%nat -> w (s i) = if Nat.ltb i k then Rmax (u i - th) 0 else 0.
Proof.
  assert (K := sparse_k). unfold projection_sparse_simplex in E.
  destruct (Nat.leb 1 k && Nat.leb k n)%bool; [|discriminate]. injection E as E'.
  intros i Hi. rewrite <- E'. fold s.
  match goal with |- fold_left ?w0 _ _ _ = _ => set (wr := w0) end.
  assert (F : forall q, (q <= k)%nat -> fold_left wr (seq 0 q) (fun _ => @n0 RNum) (s i) = if Nat.ltb i q then Rmax (u i - th) 0 else 0).
  { induction q; intros Hq; [reflexivity|]. rewrite seq_S, fold_left_app. cbn [fold_left Nat.add]. unfold wr at 1.
    destruct (Nat.eqb (s i) (s q)) eqn:B.
    - apply Nat.eqb_eq in B. destruct (desc_perm n v) as [_ I]. apply I in B; [|lia|lia]. subst i.
      replace (Nat.ltb q (S q)) with true by (symmetry; apply Nat.ltb_lt; lia). rewrite nmax_R. reflexivity.
    - rewrite IHq by lia. apply Nat.eqb_neq in B. assert (i <> q) by (intros ->; apply B; reflexivity).
      destruct (Nat.ltb_spec i q); destruct (Nat.ltb_spec i (S q)); auto; lia. }
  apply F. lia.
Qed.
Lemma sp_perm : perm_on n s. Proof. apply desc_perm. Qed.
Lemma sp_desc : forall i, (S i < n)%nat -> u (S i) <= u i. Proof. intros; apply desc_step; auto. Qed.
Let y (i : nat) : R := if Nat.ltb i k then Rmax (u i - th) 0 else 0.
Lemma sparse_nonneg : nonneg_vec n w.
Proof.
  intros i Hi. destruct (perm_on_surj n s i sp_perm Hi) as (q & Hq & <-). rewrite sparse_at by auto.
  destruct (Nat.ltb q k); [apply Rmax_r|lra].
Qed.
Lemma y_mass_k : rsum k y = z.
Proof.
  assert (K := sparse_k). rewrite (rsum_ext k y (fun i => Rmax (u i - th) 0)).
  2:{ intros i Hi. unfold y. destruct (Nat.ltb_spec i k); auto; lia. }
  apply (threshold_mass k u z); auto; [lia|]. intros; apply sp_desc; lia.
Qed.
Lemma sparse_mass : mass n w = z.
Proof.
  unfold mass. assert (K := sparse_k). rewrite <- (rsum_perm n s w sp_perm).
  rewrite (rsum_ext n _ y) by (intros; apply sparse_at; auto).
  replace n with (k + (n - k))%nat by lia. rewrite rsum_split, y_mass_k, (rsum_0 (n - k)); [lra|].
  intros i Hi. unfold y. destruct (Nat.ltb_spec (k + i) k); auto; lia.
Qed.
Lemma sparse_nnz : (nnz n w <= k)%nat.
Proof.
  assert (K := sparse_k). rewrite <- (nnz_perm n s w sp_perm).
  assert (F : forall q, (q <= n)%nat -> (nnz q (fun i => w (s i)) <= Nat.min q k)%nat).
  { induction q; intros Hq; [cbn; lia|]. specialize (IHq ltac:(lia)). cbn [nnz]. rewrite sparse_at by lia.
    destruct (Nat.ltb_spec q k); [destruct Req_EM_T; lia|]. destruct (Req_EM_T 0 0); [lia|congruence]. }
  specialize (F n ltac:(lia)). lia.
Qed.
Lemma sparse_best : forall x, nonneg_vec n x -> mass n x = z -> (nnz n x <= k)%nat -> sqdist n v w <= sqdist n v x.
Proof.
  intros x Hx Mx Nx. assert (K := sparse_k).
  assert (R : forall t : vec, sqdist n v t = sqdist n u (fun i => t (s i))).
  { intros t. unfold sqdist. symmetry. apply (rsum_perm n s (fun i => (v i - t i) ^ 2) sp_perm). }
  rewrite !R.
  destruct (compress_closer n u (fun i => x (s i)) k) as (c & C1 & C2 & C3 & C4); auto.
  { apply sp_desc. } { intros i Hi. apply Hx. apply sp_perm; auto. } { rewrite (nnz_perm n s x sp_perm); auto. } { lia. }
  eapply Rle_trans; [|apply C4].
  assert (Mc : mass n c = z). { rewrite C2. unfold mass in *. rewrite (rsum_perm n s x sp_perm). auto. }
  assert (S : forall t : vec, (forall i, (k <= i)%nat -> (i < n)%nat -> t i = 0) -> sqdist n u t = sqdist k u t + rsum (n - k) (fun i => u (k + i)%nat ^ 2)).
  { intros t Ht. unfold sqdist. replace n with (k + (n - k))%nat at 1 by lia. rewrite rsum_split. f_equal.
    apply rsum_ext; intros i Hi. rewrite Ht by lia. ring. }
  rewrite (S c) by auto. rewrite (S (fun i => w (s i))).
  2:{ intros i H1 H2. rewrite sparse_at by auto. destruct (Nat.ltb_spec i k); auto; lia. }
  apply Rplus_le_compat_r.
  destruct (thresholded_closest k u (fun i => w (s i)) c th z) as [A B].
  - intros i Hi. rewrite sparse_at by lia. destruct (Nat.ltb_spec i k); auto; lia.
  - unfold mass. rewrite (rsum_ext k _ y); [apply y_mass_k|]. intros i Hi. apply sparse_at. lia.
  - intros i Hi. apply C1; lia.
  - unfold mass in *. rewrite <- Mc. replace n with (k + (n - k))%nat by lia. rewrite rsum_split, (rsum_0 (n - k)); [lra|].
    intros; apply C3; lia.
  - assert (0 <= sqdist k (fun i => w (s i)) c) by apply sqdist_nonneg. lra.
Qed.
End Sparse.
