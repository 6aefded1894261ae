(** Multi-marginal greedy: invariants of the loop. *)
From Coq Require Import Reals Lra Lia Arith Bool List.
Import ListNotations.
From Verif Require Import Num Sums Spec Duals_proofs Emd1d_model Optim_model Gw_model Glue_model Glue_proofs Dmmot_model.
Local Open Scope R_scope.

(** * The cost max - min is submodular along one coordinate *)
Lemma maxi_ge : forall k f c, (c <= k)%nat -> (f c <= maxi k f)%nat.
Proof. induction k; intros f c H; cbn [maxi]; [replace c with 0%nat by lia; auto|]. destruct (Nat.eq_dec c (S k)) as [->|]; [lia|]. specialize (IHk f c ltac:(lia)). lia. Qed.
Lemma maxi_in : forall k f, exists c, (c <= k)%nat /\ f c = maxi k f.
Proof. induction k; intros f; cbn [maxi]; [exists 0%nat; auto|]. destruct (IHk f) as (c & H & E). destruct (Nat.max_spec (maxi k f) (f (S k))) as [[_ ->]|[_ ->]]; [exists (S k)|exists c]; auto. Qed.
Lemma mini_le : forall k f c, (c <= k)%nat -> (mini k f <= f c)%nat.
Proof. induction k; intros f c H; cbn [mini]; [replace c with 0%nat by lia; auto|]. destruct (Nat.eq_dec c (S k)) as [->|]; [lia|]. specialize (IHk f c ltac:(lia)). lia. Qed.
Lemma mini_in : forall k f, exists c, (c <= k)%nat /\ f c = mini k f.
Proof. induction k; intros f; cbn [mini]; [exists 0%nat; auto|]. destruct (IHk f) as (c & H & E). destruct (Nat.min_spec (mini k f) (f (S k))) as [[_ ->]|[_ ->]]; [exists c|exists (S k)]; auto. Qed.
Lemma maxi_ext : forall k f g, (forall c, (c <= k)%nat -> f c = g c) -> maxi k f = maxi k g.
Proof. induction k; intros; cbn [maxi]; [apply H; auto|]. rewrite (IHk f g) by (intros; apply H; lia). rewrite H by lia. auto. Qed.
Lemma mini_ext : forall k f g, (forall c, (c <= k)%nat -> f c = g c) -> mini k f = mini k g.
Proof. induction k; intros; cbn [mini]; [apply H; auto|]. rewrite (IHk f g) by (intros; apply H; lia). rewrite H by lia. auto. Qed.
Lemma mini_le_maxi : forall k f, (mini k f <= maxi k f)%nat.
Proof. intros. pose proof (mini_le k f 0 ltac:(lia)). pose proof (maxi_ge k f 0 ltac:(lia)). lia. Qed.
Lemma cost_ext : forall k f g, (forall c, (c <= k)%nat -> f c = g c) -> dist_monge_max_min k f = dist_monge_max_min k g.
Proof. intros. unfold dist_monge_max_min. rewrite (maxi_ext k f g), (mini_ext k f g); auto. Qed.

Lemma upd1_same : forall A (f : nat -> A) i x, upd1 f i x i = x.
Proof. intros. unfold upd1. rewrite Nat.eqb_refl. auto. Qed.
Lemma upd1_other : forall A (f : nat -> A) i x c, c <> i -> upd1 f i x c = f c.
Proof. intros. unfold upd1. destruct (Nat.eqb_spec c i); [congruence|auto]. Qed.
Lemma maxi_up : forall k q i, (i <= k)%nat -> maxi k (upd1 q i (S (q i))) = Nat.max (maxi k q) (S (q i)).
Proof.
  intros k q i Hi. destruct (maxi_in k q) as (c & Hc & E). destruct (maxi_in k (upd1 q i (S (q i)))) as (d & Hd & F).
  pose proof (maxi_ge k (upd1 q i (S (q i))) i Hi) as G1. rewrite upd1_same in G1.
  pose proof (maxi_ge k (upd1 q i (S (q i))) c Hc) as G2. pose proof (maxi_ge k q d Hd) as G3. pose proof (maxi_ge k q i Hi) as G4.
  destruct (Nat.eq_dec c i) as [->|Nc]; destruct (Nat.eq_dec d i) as [->|Nd]; rewrite ?upd1_same in *; rewrite ?upd1_other in * by auto; lia.
Qed.
Lemma mini_up : forall k q i, (i <= k)%nat -> let q' := upd1 q i (S (q i)) in
  (mini k q <= mini k q' <= S (mini k q))%nat /\ (mini k q' = S (mini k q) <-> forall c, (c <= k)%nat -> c <> i -> (q i < q c)%nat).
Proof.
  intros k q i Hi q'. destruct (mini_in k q) as (c & Hc & E). destruct (mini_in k q') as (d & Hd & F).
  assert (G : forall c, (q c <= q' c <= S (q c))%nat) by (intro x; unfold q'; destruct (Nat.eq_dec x i) as [->|Nx]; [rewrite upd1_same|rewrite upd1_other by auto]; lia).
  assert (Gi : q' i = S (q i)) by (apply upd1_same). assert (Go : forall c, c <> i -> q' c = q c) by (intros; apply upd1_other; auto).
  pose proof (mini_le k q d Hd). pose proof (mini_le k q' c Hc). pose proof (G c). pose proof (G d). pose proof (mini_le k q i Hi). pose proof (mini_le k q' i Hi).
  split; [lia|]. split.
  - intros M x Hx Nx. pose proof (mini_le k q' x Hx). rewrite (Go x Nx) in *. destruct (Nat.eq_dec c i) as [->|Nc]; [lia|]. rewrite (Go c Nc) in *. lia.
  - intros A. destruct (Nat.eq_dec c i) as [->|Nc]; [|specialize (A c Hc Nc); lia]. destruct (Nat.eq_dec d i) as [->|Nd]; [lia|]. specialize (A d Hd Nd). rewrite (Go d Nd) in *. lia.
Qed.
Lemma cost_submodular : forall k p q i, (i <= k)%nat -> (forall c, (c <= k)%nat -> (p c <= q c)%nat) -> p i = q i ->
  (dist_monge_max_min k (upd1 q i (S (q i))) + dist_monge_max_min k p <= dist_monge_max_min k (upd1 p i (S (p i))) + dist_monge_max_min k q)%nat.
Proof.
  intros k p q i Hi Hpq E. unfold dist_monge_max_min. rewrite !maxi_up by auto. destruct (mini_up k q i Hi) as [Bq Cq]. destruct (mini_up k p i Hi) as [Bp Cp].
  pose proof (mini_le_maxi k p). pose proof (mini_le_maxi k q). pose proof (maxi_ge k q i Hi). pose proof (maxi_ge k p i Hi).
  assert (M : (maxi k p <= maxi k q)%nat) by (destruct (maxi_in k p) as (c & Hc & <-); specialize (Hpq c Hc); pose proof (maxi_ge k q c Hc); lia).
  assert (X : mini k (upd1 p i (S (p i))) = S (mini k p) -> mini k (upd1 q i (S (q i))) = S (mini k q)).
  { intro F. apply Cq. intros c Hc Nc. pose proof (proj1 Cp F c Hc Nc). specialize (Hpq c Hc). lia. }
  assert (Y : mini k (upd1 p i (S (p i))) = mini k p \/ mini k (upd1 p i (S (p i))) = S (mini k p)) by lia.
  pose proof (mini_le k p i Hi). pose proof (mini_le k q i Hi). destruct Y as [Y|Y]; [|specialize (X Y)]; lia.
Qed.

(** * Dual feasibility below the current position *)
Definition dcost (k : nat) (J : nat -> nat) : R := INR (dist_monge_max_min k J).
Definition dval (k : nat) (D : nat -> nat -> R) (J : nat -> nat) : R := rsum (S k) (fun c => D c (J c)).
Definition dfeas (k : nat) (p : nat -> nat) (D : nat -> nat -> R) : Prop :=
  (forall J, (forall c, (c <= k)%nat -> (J c <= p c)%nat) -> dval k D J <= dcost k J) /\ dval k D p = dcost k p.
Lemma dval_ext : forall k D D' J J', (forall c, (c <= k)%nat -> D c (J c) = D' c (J' c)) -> dval k D J = dval k D' J'.
Proof. intros. apply rsum_ext. intros; apply H; lia. Qed.
Lemma dval_up : forall k D D' J P i, (i <= k)%nat -> (forall c, (c <= k)%nat -> c <> i -> D' c (J c) = D c (P c)) -> dval k D' J = dval k D P + (D' i (J i) - D i (P i)).
Proof.
  intros k D D' J P i Hi H. unfold dval. rewrite <- (rsum_delta (S k) i (D' i (J i) - D i (P i))) by lia. rewrite <- rsum_plus. apply rsum_ext. intros c Hc.
  destruct (Nat.eq_dec c i) as [->|Nc]; [rewrite Nat.eqb_refl; lra|]. rewrite H by (auto; lia). destruct (Nat.eqb_spec i c); destruct (Nat.eqb_spec c i); try congruence; lra.
Qed.
Lemma dfeas_step : forall k p D D' i, dfeas k p D -> (i <= k)%nat -> (forall c j, (c <= k)%nat -> (j <= p c)%nat -> D' c j = D c j) ->
  D' i (S (p i)) = dcost k (upd1 p i (S (p i))) - dcost k p + D i (p i) -> dfeas k (upd1 p i (S (p i))) D'.
Proof.
  intros k p D D' i [F E] Hi A N.
  assert (Q : dval k D' (upd1 p i (S (p i))) = dcost k (upd1 p i (S (p i)))).
  { rewrite (dval_up k D D' _ p i Hi); [|intros c Hc Nc; rewrite upd1_other by auto; apply A; auto]. rewrite upd1_same, N, E. lra. }
  split; [|exact Q]. intros J HJ. destruct (le_gt_dec (J i) (p i)) as [Li|Gi].
  - assert (L : forall c, (c <= k)%nat -> (J c <= p c)%nat) by (intros c Hc; destruct (Nat.eq_dec c i) as [->|Nc]; auto; specialize (HJ c Hc); rewrite upd1_other in HJ; auto).
    rewrite (dval_ext k D' D J J); [apply F; auto|]. intros; apply A; auto.
  - pose proof (HJ i Hi) as Hii. rewrite upd1_same in Hii. assert (Ji : J i = S (p i)) by lia.
    set (P := upd1 J i (p i)). assert (Pi : P i = p i) by (apply upd1_same).
    assert (HP : forall c, (c <= k)%nat -> (P c <= p c)%nat).
    { intros c Hc. unfold P. destruct (Nat.eq_dec c i) as [->|Nc]; [rewrite upd1_same; auto|]. specialize (HJ c Hc). rewrite upd1_other in * by auto. auto. }
    rewrite (dval_up k D D' J P i Hi). 2:{ intros c Hc Nc. unfold P. rewrite upd1_other by auto. apply A; auto. specialize (HJ c Hc). rewrite upd1_other in HJ; auto. }
    rewrite Ji, N, Pi. specialize (F P HP). pose proof (cost_submodular k P p i Hi HP Pi) as S1.
    rewrite (cost_ext k (upd1 P i (S (P i))) J) in S1.
    2:{ intros c Hc. destruct (Nat.eq_dec c i) as [->|Nc]; [rewrite upd1_same; congruence|]. rewrite upd1_other by auto. unfold P. rewrite upd1_other by auto. auto. }
    apply le_INR in S1. rewrite !plus_INR in S1. unfold dcost in *. lra.
Qed.
Fixpoint natsum (k : nat) (f : nat -> nat) : nat := match k with O => 0%nat | S k' => (natsum k' f + f k')%nat end.
Lemma natsum_ext : forall k f g, (forall c, (c < k)%nat -> f c = g c) -> natsum k f = natsum k g.
Proof. induction k; intros; cbn [natsum]; auto. rewrite (IHk f g) by (intros; apply H; lia). rewrite H by lia. auto. Qed.
Lemma natsum_upd : forall k f i, (i < k)%nat -> natsum k (upd1 f i (S (f i))) = S (natsum k f).
Proof.
  induction k; intros f i Hi; [lia|]. cbn [natsum]. destruct (Nat.eq_dec i k) as [->|Ni].
  - rewrite upd1_same. rewrite (natsum_ext k _ f); [lia|]. intros; apply upd1_other; lia.
  - rewrite IHk by lia. rewrite upd1_other by auto. lia.
Qed.
Lemma natsum_le : forall k f b, (forall c, (c < k)%nat -> (f c <= b)%nat) -> (natsum k f <= k * b)%nat.
Proof. induction k; intros; cbn [natsum]; [lia|]. specialize (IHk f b (fun c Hc => H c ltac:(lia))). specialize (H k ltac:(lia)). lia. Qed.
Lemma natsum_mono : forall k f g, (forall c, (c < k)%nat -> (f c <= g c)%nat) -> (natsum k f <= natsum k g)%nat.
Proof. induction k; intros; cbn [natsum]; [lia|]. specialize (IHk f g (fun c Hc => H c ltac:(lia))). specialize (H k ltac:(lia)). lia. Qed.
Lemma natsum_0 : forall k f, natsum k f = 0%nat -> forall c, (c < k)%nat -> f c = 0%nat.
Proof. induction k; intros f H c Hc; [lia|]. cbn [natsum] in H. destruct (Nat.eq_dec c k) as [->|]; [lia|]. apply IHk; lia. Qed.
(** feasible duals below p extend to the whole grid *)
Lemma dfeas_extend : forall k b r p D, dfeas k p D -> (forall c, (c <= k)%nat -> (p c <= b)%nat) -> natsum (S k) (fun c => (b - p c)%nat) = r ->
  exists D', dfeas k (fun _ => b) D' /\ forall c j, (c <= k)%nat -> (j <= p c)%nat -> D' c j = D c j.
Proof.
  induction r; intros p D F Hp E.
  - exists D. split; [|auto]. assert (Q : forall c, (c <= k)%nat -> p c = b) by (intros c Hc; pose proof (natsum_0 _ _ E c ltac:(lia)); specialize (Hp c Hc); cbn in *; lia).
    destruct F as [F1 F2]. split; [intros J HJ; apply F1; intros c Hc; rewrite Q by auto; auto|].
    rewrite (dval_ext k D D (fun _ => b) p) by (intros; rewrite Q; auto). rewrite F2. unfold dcost. f_equal. apply cost_ext. auto.
  - assert (X : exists i, (i <= k)%nat /\ (p i < b)%nat).
    { clear - E. generalize dependent k. intros k E. destruct (Nat.eq_dec (natsum (S k) (fun c => (b - p c)%nat)) 0) as [Z|Z]; [congruence|]. clear E r.
      assert (G : forall m, natsum m (fun c => (b - p c)%nat) <> 0%nat -> exists i, (i < m)%nat /\ (p i < b)%nat).
      { induction m; cbn [natsum]; intros H; [lia|]. destruct (Nat.eq_dec (b - p m) 0) as [Zm|Zm]; [destruct IHm as (i & ? & ?); [lia|exists i; split; lia]|exists m; split; lia]. }
      destruct (G _ Z) as (i & ? & ?). exists i; split; lia. }
    destruct X as (i & Hi & Li).
    set (D1 := upd2 D i (S (p i)) (dcost k (upd1 p i (S (p i))) - dcost k p + D i (p i))).
    assert (A1 : forall c j, (c <= k)%nat -> (j <= p c)%nat -> D1 c j = D c j).
    { intros c j Hc Hj. unfold D1, upd2. destruct (Nat.eqb_spec c i) as [->|]; cbn; auto. destruct (Nat.eqb_spec j (S (p i))); auto. lia. }
    destruct (IHr (upd1 p i (S (p i))) D1) as (D' & F' & A').
    + apply (dfeas_step k p D D1 i F Hi A1). unfold D1, upd2. rewrite !Nat.eqb_refl. reflexivity.
    + intros c Hc. destruct (Nat.eq_dec c i) as [->|Nc]; [rewrite upd1_same; lia|rewrite upd1_other by auto; auto].
    + assert (U : natsum (S k) (fun c => (b - p c)%nat) = S (natsum (S k) (fun c => (b - upd1 p i (S (p i)) c)%nat))).
      { rewrite <- (natsum_upd (S k) (fun c => (b - upd1 p i (S (p i)) c)%nat) i) by lia. apply natsum_ext. intros c Hc.
        destruct (Nat.eq_dec c i) as [->|Nc]; [rewrite !upd1_same; lia|rewrite !upd1_other by auto; auto]. }
      lia.
    + exists D'. split; [auto|]. intros c j Hc Hj. rewrite A'; auto. destruct (Nat.eq_dec c i) as [->|Nc]; [rewrite upd1_same; lia|rewrite upd1_other by auto; auto].
Qed.

(** * Multi-index lists *)
Definition kfun (key : list nat) : nat -> nat := fun c => nth c key 0%nat.
Lemma nth_error_nth0 : forall (key : list nat) c, (c < length key)%nat -> nth_error key c = Some (nth c key 0%nat).
Proof. intros. apply nth_error_nth'. auto. Qed.
Lemma kfun_map : forall f m c, (c < m)%nat -> kfun (map f (seq 0 m)) c = f c.
Proof. intros. unfold kfun. rewrite (nth_indep _ 0%nat (f 0%nat)) by (rewrite map_length, seq_length; auto). rewrite map_nth, seq_nth; auto. Qed.
Lemma at_kfun : forall (e : list nat * R) c j, (c < length (fst e))%nat -> at_ c j e = if Nat.eqb (kfun (fst e) c) j then snd e else 0.
Proof. intros. unfold at_, kfun. rewrite nth_error_nth0 by auto. reflexivity. Qed.
Definition grid_keys (n k : nat) (y : list (list nat * R)) : Prop := forall e, In e y -> length (fst e) = S k /\ forall c, (c <= k)%nat -> (kfun (fst e) c < n)%nat.
Lemma dual_pairing : forall n k y (D : nat -> nat -> R), grid_keys n k y ->
  lsum (fun e => dval k D (kfun (fst e)) * snd e) y = rsum (S k) (fun c => rsum n (fun j => D c j * lsum (at_ c j) y)).
Proof.
  intros n k y D H. transitivity (rsum (S k) (fun c => lsum (fun e => rsum n (fun j => D c j * at_ c j e)) y)).
  - rewrite <- lsum_rsum. apply lsum_ext. intros e He. destruct (H e He) as [L B]. unfold dval. rewrite <- rsum_scal_r. apply rsum_ext. intros c Hc.
    rewrite (rsum_single n (kfun (fst e) c)); [|apply B; lia|].
    + rewrite at_kfun by lia. rewrite Nat.eqb_refl. reflexivity.
    + intros j Hj Nj. rewrite at_kfun by lia. destruct (Nat.eqb_spec (kfun (fst e) c) j); [congruence|lra].
  - apply rsum_ext. intros c Hc. rewrite lsum_rsum. apply rsum_ext. intros j Hj. apply lsum_scal.
Qed.
Lemma mass_pairing : forall n k y c, grid_keys n k y -> (c <= k)%nat -> rsum n (fun j => lsum (at_ c j) y) = lsum snd y.
Proof.
  intros n k y c H Hc. rewrite <- lsum_rsum. apply lsum_ext. intros e He. destruct (H e He) as [L B]. rewrite (rsum_single n (kfun (fst e) c)); [|apply B; lia|].
  - rewrite at_kfun by lia. rewrite Nat.eqb_refl. reflexivity.
  - intros j Hj Nj. rewrite at_kfun by lia. destruct (Nat.eqb_spec (kfun (fst e) c) j); [congruence|auto].
Qed.

(** * The loop *)
Section Loop.
Variables (n k : nat) (A : nat -> nat -> R).
Hypothesis Hn : (1 <= n)%nat.
Definition place (idx : nat -> nat) (c : nat) : nat := Nat.min (idx c) (n - 1).
Record dinv (st : dmstate (N:=RNum)) : Prop := mkInv {
  v_idx : forall c, (c <= k)%nat -> (d_idx st c <= n)%nat;
  v_A0 : forall c j, (c <= k)%nat -> (j < n)%nat -> 0 <= d_A st c j;
  v_Az : forall c j, (c <= k)%nat -> (j < d_idx st c)%nat -> d_A st c j = 0;
  v_Ax : forall c j, (c <= k)%nat -> (j < n)%nat -> d_A st c j + lsum (at_ c j) (d_x st) = A c j;
  v_keys : grid_keys n k (d_x st);
  v_sum : forall e, In e (d_x st) -> 0 <= snd e /\ (natsum (S k) (kfun (fst e)) < natsum (S k) (d_idx st))%nat /\
            (forall c, (c <= k)%nat -> (kfun (fst e) c <= place (d_idx st) c)%nat) /\ dval k (d_dual st) (kfun (fst e)) = dcost k (kfun (fst e));
  v_nodup : NoDup (map fst (d_x st));
  v_len : length (d_x st) = natsum (S k) (d_idx st);
  v_obj : d_obj st = lsum (fun e => dcost k (kfun (fst e)) * snd e) (d_x st);
  v_dual : dfeas k (place (d_idx st)) (d_dual st);
  v_fresh : forall c j, (c <= k)%nat -> (d_idx st c < j)%nat -> d_dual st c j = 0 }.

Lemma dinv_start : (forall c j, (c <= k)%nat -> (j < n)%nat -> 0 <= A c j) -> dinv (mkD (N:=RNum) A (fun _ => 0%nat) [] 0 (fun _ _ => 0)).
Proof.
  intros HA. constructor; cbn [d_idx d_A d_x d_obj d_dual lsum length]; auto; try (intros; lia); try (intros; lra).
  - intros e [].
  - intros e [].
  - constructor.
  - induction (S k); cbn; auto; lia.
  - assert (Z : forall J : nat -> nat, dval k (fun _ _ => 0) J = 0) by (intros; apply rsum_0; auto).
    assert (P : forall J, 0 <= dcost k J) by (intros; apply pos_INR). split; [intros J _; rewrite Z; auto|]. rewrite Z. unfold dcost, dist_monge_max_min.
    rewrite (maxi_ext k (place (fun _ => 0%nat)) (fun _ => 0%nat)), (mini_ext k (place (fun _ => 0%nat)) (fun _ => 0%nat)) by (intros; unfold place; lia).
    replace (maxi k (fun _ => 0%nat) - mini k (fun _ => 0%nat))%nat with 0%nat; [reflexivity|].
    destruct (maxi_in k (fun _ => 0%nat)) as (c & _ & <-). destruct (mini_in k (fun _ => 0%nat)) as (d & _ & <-). auto.
Qed.
Lemma nofnat_R : forall m, nofnat (N:=RNum) m = INR m.
Proof. induction m; [reflexivity|]. rewrite S_INR, <- IHm. reflexivity. Qed.
Lemma nmink_R : forall m (f : nat -> R), (forall c, (c <= m)%nat -> nmink (N:=RNum) m f <= f c) /\ exists c, (c <= m)%nat /\ f c = nmink (N:=RNum) m f.
Proof.
  induction m; intros f; cbn [nmink].
  - split; [intros c Hc; replace c with 0%nat by lia; apply Rle_refl|exists 0%nat; auto].
  - destruct (IHm f) as [L (c & Hc & E)]. unfold nmin at 1 2. cbn [nltb RNum]. destruct (Rltb (f (S m)) (nmink (N:=RNum) m f)) eqn:B; [apply Rltb_true in B|apply Rltb_false in B].
    + split; [|exists (S m); auto]. intros d Hd. destruct (Nat.eq_dec d (S m)) as [->|]; [apply Rle_refl|]. apply Rle_trans with (nmink (N:=RNum) m f); [left; auto|apply L; lia].
    + split; [|exists c; auto]. intros d Hd. destruct (Nat.eq_dec d (S m)) as [->|]; [auto|apply L; lia].
Qed.
Lemma index_from_some : forall c s (f : nat -> R) m, (exists i, (s <= i < s + c)%nat /\ f i = m) -> exists i, index_from (N:=RNum) s c f m = Some i /\ (s <= i < s + c)%nat /\ f i = m.
Proof.
  induction c; intros s f m (i & Hi & E); [lia|]. cbn [index_from]. cbn [neqb RNum]. destruct (Reqb (f s) m) eqn:B.
  - apply Reqb_true in B. exists s. repeat split; auto; lia.
  - destruct (IHc (S s) f m) as (x & Hx & Bx & Fx).
    + exists i. split; auto. destruct (Nat.eq_dec i s) as [->|]; [|lia]. apply Reqb_false in B. congruence.
    + exists x. repeat split; auto; lia.
Qed.
Lemma all_inside_true : forall idx, all_inside n k idx = true <-> forall c, (c <= k)%nat -> (idx c < n)%nat.
Proof.
  intros. unfold all_inside. rewrite forallb_forall. split; intros H c Hc.
  - apply Nat.ltb_lt. apply H. apply in_seq. lia.
  - apply Nat.ltb_lt. apply H. apply in_seq in Hc. lia.
Qed.
Lemma all_inside_false : forall idx, all_inside n k idx = false -> exists i, (i <= k)%nat /\ (n <= idx i)%nat.
Proof.
  intros idx H. unfold all_inside in H. assert (G : forall l, forallb (fun c => Nat.ltb (idx c) n) l = false -> exists i, In i l /\ (n <= idx i)%nat).
  { induction l as [|x l IH]; cbn [forallb]; [discriminate|]. destruct (Nat.ltb_spec (idx x) n); cbn [andb]; intros E; [destruct (IH E) as (i & ? & ?); exists i; split; [right|]; auto|exists x; split; [left|]; auto]. }
  destruct (G _ H) as (i & Hi & Gi). apply in_seq in Hi. exists i. split; [lia|auto].
Qed.
Lemma dinv_step : forall st, dinv st -> (forall c, (c <= k)%nat -> (d_idx st c < n)%nat) ->
  exists st', dm_step (N:=RNum) n k st = Some st' /\ dinv st' /\ natsum (S k) (d_idx st') = S (natsum (S k) (d_idx st)).
Proof.
  intros st I Hin. destruct I. unfold dm_step. set (idx := d_idx st) in *. set (vals := fun c => d_A st c (idx c)).
  destruct (nmink_R k vals) as [Lm (cm & Hcm & Em)]. set (w := nmink (N:=RNum) k vals) in *.
  destruct (index_from_some (S k) 0 vals w) as (i & -> & Hi & Ei); [exists cm; split; auto; lia|]. assert (Hik : (i <= k)%nat) by lia.
  assert (w0 : 0 <= w) by (rewrite <- Em; apply v_A1; auto).
  eexists. split; [reflexivity|]. set (idx' := upd1 idx i (S (idx i))).
  assert (NS : natsum (S k) idx' = S (natsum (S k) idx)) by (apply natsum_upd; lia).
  assert (Pl : forall c, (c <= k)%nat -> place idx c = idx c) by (intros c Hc; unfold place; specialize (Hin c Hc); lia).
  set (key := map idx (seq 0 (S k))). assert (Kk : forall c, (c <= k)%nat -> kfun key c = idx c) by (intros; apply kfun_map; lia).
  assert (Kl : length key = S k) by (unfold key; rewrite map_length, seq_length; auto).
  assert (Pm : forall c, (c <= k)%nat -> (place idx c <= place idx' c)%nat).
  { intros c Hc. unfold place, idx'. destruct (Nat.eq_dec c i) as [->|Nc]; [rewrite upd1_same|rewrite upd1_other by auto]; lia. }
  set (D' := d_dual (mkD (N:=RNum) (fun c j => if Nat.eqb j (idx c) then d_A st c j - w else d_A st c j) idx' (d_x st ++ [(key, w)]) (d_obj st + nofnat (N:=RNum) (dist_monge_max_min k idx) * w)
     (if Nat.ltb (idx' i) n then upd2 (d_dual st) i (idx' i) (d_dual st i (idx' i) + (nofnat (N:=RNum) (dist_monge_max_min k idx') - nofnat (N:=RNum) (dist_monge_max_min k idx) + d_dual st i (idx i))) else d_dual st))). cbn [d_dual] in D'.
  assert (Dag : forall c j, (c <= k)%nat -> (j <= idx c)%nat -> D' c j = d_dual st c j).
  { intros c j Hc Hj. unfold D'. destruct (Nat.ltb (idx' i) n); auto. unfold upd2. destruct (Nat.eqb_spec c i) as [->|]; cbn; auto. destruct (Nat.eqb_spec j (idx' i)) as [->|]; auto. unfold idx' in Hj. rewrite upd1_same in Hj. lia. }
  assert (DF : dfeas k idx (d_dual st)).
  { destruct v_dual0 as [F1 F2]. split; [intros J HJ; apply F1; intros; rewrite Pl by auto; auto|]. rewrite (dval_ext k _ (d_dual st) idx (place idx)) by (intros; rewrite Pl; auto). rewrite F2. unfold dcost. f_equal. apply cost_ext. auto. }
  split; [|exact NS]. constructor; cbn [d_idx d_A d_x d_obj d_dual nsub nadd nmul RNum]; fold idx'; fold key; fold w; fold D'.
  - intros c Hc. unfold idx'. destruct (Nat.eq_dec c i) as [->|Nc]; [rewrite upd1_same; specialize (Hin i Hik); lia|rewrite upd1_other by auto; auto].
  - intros c j Hc Hj. destruct (Nat.eqb_spec j (idx c)) as [->|]; [|apply v_A1; auto]. specialize (Lm c Hc). unfold vals in Lm. lra.
  - intros c j Hc Hj. unfold idx' in Hj. destruct (Nat.eq_dec c i) as [->|Nc].
    + rewrite upd1_same in Hj. destruct (Nat.eqb_spec j (idx i)) as [->|]; [unfold vals in Ei; lra|apply v_Az0; auto; lia].
    + rewrite upd1_other in Hj by auto. destruct (Nat.eqb_spec j (idx c)) as [->|]; [lia|apply v_Az0; auto].
  - intros c j Hc Hj. rewrite lsum_app. cbn [lsum]. rewrite at_kfun by (cbn [fst]; lia). cbn [fst snd]. rewrite Kk by auto. rewrite <- (v_Ax0 c j Hc Hj).
    rewrite (Nat.eqb_sym (idx c) j). destruct (Nat.eqb j (idx c)); change (prod (list nat) (carrier RNum)) with (prod (list nat) R); lra.
  - intros e He. apply in_app_or in He. destruct He as [He|[<-|[]]]; [apply v_keys0; auto|]. cbn [fst]. split; auto. intros c Hc. rewrite Kk by auto. auto.
  - intros e He. apply in_app_or in He. destruct He as [He|[<-|[]]].
    + destruct (v_sum0 e He) as (P1 & P2 & P3 & P4). split; [auto|]. split; [lia|]. split; [intros c Hc; specialize (P3 c Hc); specialize (Pm c Hc); lia|].
      rewrite <- P4. apply dval_ext. intros c Hc. apply Dag; auto. specialize (P3 c Hc). rewrite Pl in P3 by auto. auto.
    + cbn [fst snd]. split; [auto|]. rewrite (natsum_ext (S k) (kfun key) idx) by (intros; apply Kk; lia). split; [rewrite NS; lia|]. split; [intros c Hc; rewrite Kk by auto; rewrite <- Pl by auto; auto|].
      rewrite (dval_ext k D' (d_dual st) (kfun key) idx) by (intros; rewrite Kk by auto; apply Dag; auto). destruct DF as [_ ->]. unfold dcost. f_equal. apply cost_ext. intros; rewrite Kk; auto.
  - rewrite map_app. cbn [map fst].
    assert (Nin : ~ In key (map fst (d_x st))).
    { intro Hk. apply in_map_iff in Hk. destruct Hk as (e & Ek & He). destruct (v_sum0 e He) as (_ & P2 & _). rewrite Ek in P2. rewrite (natsum_ext (S k) (kfun key) idx) in P2 by (intros; apply Kk; lia). fold idx in P2. lia. }
    apply NoDup_rev in v_nodup0. rewrite <- (rev_involutive (map fst (d_x st) ++ [key])). apply NoDup_rev. rewrite rev_app_distr. cbn. constructor; auto. rewrite <- in_rev. auto.
  - rewrite app_length. cbn [length]. rewrite NS, v_len0. fold idx. lia.
  - rewrite lsum_app. cbn [lsum fst snd]. rewrite v_obj0, nofnat_R. unfold dcost. rewrite (cost_ext k (kfun key) idx) by auto. change (carrier RNum) with R. fold w. lra.
  - destruct (Nat.ltb (idx' i) n) eqn:B.
    + apply Nat.ltb_lt in B. assert (Pl' : forall c, (c <= k)%nat -> place idx' c = idx' c).
      { intros c Hc. unfold place. destruct (Nat.eq_dec c i) as [->|Nc]; [lia|]. unfold idx'. rewrite upd1_other by auto. specialize (Hin c Hc). lia. }
      assert (F' : dfeas k idx' D').
      { apply (dfeas_step k idx (d_dual st) D' i DF Hik Dag). assert (E1 : idx' i = S (idx i)) by (apply upd1_same).
        assert (V : D' i (idx' i) = dcost k idx' - dcost k idx + d_dual st i (idx i)).
        { unfold D', upd2. rewrite !Nat.eqb_refl. cbn [andb]. rewrite v_fresh0 by (auto; rewrite E1; fold idx; lia). rewrite !nofnat_R. unfold dcost. lra. }
        rewrite E1 in V. exact V. }
      destruct F' as [F1 F2]. split; [intros J HJ; apply F1; intros; rewrite <- Pl' by auto; auto|].
      rewrite (dval_ext k D' D' (place idx') idx') by (intros; rewrite Pl' by auto; auto). rewrite F2. unfold dcost. f_equal. apply cost_ext. intros; rewrite Pl'; auto.
    + apply Nat.ltb_ge in B. assert (Pe : forall c, (c <= k)%nat -> place idx' c = idx c).
      { intros c Hc. unfold place, idx' in *. specialize (Hin c Hc). destruct (Nat.eq_dec c i) as [->|Nc]; [rewrite upd1_same in *; lia|rewrite upd1_other by auto; lia]. }
      unfold D'. destruct DF as [F1 F2]. split; [intros J HJ; apply F1; intros; rewrite <- Pe by auto; auto|].
      rewrite (dval_ext k (d_dual st) (d_dual st) (place idx') idx) by (intros; rewrite Pe by auto; auto). rewrite F2. unfold dcost. f_equal. apply cost_ext. intros; rewrite Pe; auto.
  - intros c j Hc Hj. assert (Lj : (idx c < j)%nat) by (unfold idx' in Hj; destruct (Nat.eq_dec c i) as [->|Nc]; [rewrite upd1_same in Hj; lia|rewrite upd1_other in Hj by auto; auto]).
    unfold D'. destruct (Nat.ltb (idx' i) n); [|apply v_fresh0; auto]. unfold upd2. destruct (Nat.eqb_spec c i) as [->|]; cbn [andb]; [|apply v_fresh0; auto].
    destruct (Nat.eqb_spec j (idx' i)); [lia|apply v_fresh0; auto].
Qed.
Lemma dm_loop_ok : forall fuel st, dinv st -> (S k * (n - 1) + 1 <= natsum (S k) (d_idx st) + fuel)%nat -> (natsum (S k) (d_idx st) <= S k * (n - 1) + 1)%nat ->
  exists st', dm_loop (N:=RNum) fuel n k st = Some st' /\ dinv st' /\ (exists i, (i <= k)%nat /\ (n <= d_idx st' i)%nat) /\ (natsum (S k) (d_idx st') <= S k * (n - 1) + 1)%nat.
Proof.
  induction fuel; intros st I F L; cbn [dm_loop]; destruct (all_inside n k (d_idx st)) eqn:B.
  - pose proof (proj1 (all_inside_true _) B) as B'. pose proof (natsum_le (S k) (d_idx st) (n - 1) (fun c Hc => ltac:(specialize (B' c ltac:(lia)); lia))). lia.
  - exists st. split; [auto|split; [auto|split; [apply all_inside_false; auto|auto]]].
  - pose proof (proj1 (all_inside_true _) B) as B'. destruct (dinv_step st I B') as (st1 & -> & I1 & S1). 
    pose proof (natsum_le (S k) (d_idx st) (n - 1) (fun c Hc => ltac:(specialize (B' c ltac:(lia)); lia))). apply IHfuel; auto; lia.
  - exists st. split; [auto|split; [auto|split; [apply all_inside_false; auto|auto]]].
Qed.
End Loop.
