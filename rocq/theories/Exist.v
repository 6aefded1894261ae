(** Existence of optimal transport plans: the couplings form a compact set, so a linear cost (and any
    sequentially continuous cost) attains its minimum. *)
From Coq Require Import Reals List Lra Lia ConstructiveEpsilon ClassicalChoice.
From Verif Require Import Num Sums Spec Perm.
Local Open Scope R_scope.

Definition increasing_idx (f : nat -> nat) : Prop := forall k, (f k < f (S k))%nat.
Lemma incr_ge : forall f, increasing_idx f -> forall k, (k <= f k)%nat.
Proof. intros f H. induction k; [lia|]. specialize (H k). lia. Qed.
Lemma incr_lt : forall f, increasing_idx f -> forall p q, (p < q)%nat -> (f p < f q)%nat.
Proof. intros f H p q Hp. induction Hp; [apply H|]. specialize (H m). lia. Qed.
Lemma incr_comp : forall f g, increasing_idx f -> increasing_idx g -> increasing_idx (fun k => f (g k)).
Proof. intros f g Hf Hg k. apply incr_lt; auto. Qed.
Lemma cv_sub : forall u l f, Un_cv u l -> increasing_idx f -> Un_cv (fun k => u (f k)) l.
Proof. intros u l f H Hf e He. destruct (H e He) as [N0 HN]. exists N0. intros k Hk. apply HN. assert (Q := incr_ge f Hf k). lia. Qed.

(** from an adherence value to a converging subsequence *)
Lemma adh_sub : forall u l, ValAdh u l -> exists f, increasing_idx f /\ Un_cv (fun k => u (f k)) l.
Proof.
  intros u l H. assert (H' := proj1 (ValAdh_un_prop u l) H). clear H'.
  assert (P : forall (N0 : nat) (k : nat), exists p, (N0 < p)%nat /\ Rabs (u p - l) < / INR (S k)).
  { intros N0 k. assert (PK : 0 < / INR (S k)) by (apply Rinv_0_lt_compat, lt_0_INR; lia).
    destruct (H (disc l (mkposreal _ PK)) (S N0)) as [p [Hp Hd]].
    - exists (mkposreal _ PK). intros x Hx. exact Hx.
    - exists p. split; [lia|exact Hd]. }
  assert (D : forall N0 k p, {(N0 < p)%nat /\ Rabs (u p - l) < / INR (S k)} + {~ ((N0 < p)%nat /\ Rabs (u p - l) < / INR (S k))}).
  { intros N0 k p. destruct (Compare_dec.lt_dec N0 p); [|right; tauto]. destruct (Rlt_dec (Rabs (u p - l)) (/ INR (S k))); [left; tauto|right; tauto]. }
  pose (nx := fun N0 k => proj1_sig (constructive_indefinite_ground_description_nat _ (D N0 k) (P N0 k))).
  assert (NX : forall N0 k, (N0 < nx N0 k)%nat /\ Rabs (u (nx N0 k) - l) < / INR (S k)) by (intros; unfold nx; destruct (constructive_indefinite_ground_description_nat _ _ _); auto).
  pose (f := fix f k := match k with O => nx 0%nat 0%nat | S k' => nx (f k') (S k') end).
  exists f. split.
  - intros k. cbn [f]. apply NX.
  - intros e He. destruct (archimed_cor1 e He) as [N1 [HN1 HP]]. exists N1. intros k Hk. unfold R_dist.
    assert (B : Rabs (u (f k) - l) < / INR (S k)) by (destruct k; cbn [f]; apply NX).
    eapply Rlt_trans; [exact B|]. eapply Rle_lt_trans; [|exact HN1]. apply Rinv_le_contravar; [apply lt_0_INR; lia|apply le_INR; lia].
Qed.
Lemma bounded_sub : forall u B, (forall k, 0 <= u k <= B) -> exists f l, increasing_idx f /\ Un_cv (fun k => u (f k)) l.
Proof.
  intros u B H. destruct (Bolzano_Weierstrass u (fun x => 0 <= x <= B) (compact_P3 0 B) H) as [l Hl].
  destruct (adh_sub u l Hl) as [f Hf]. exists f, l. exact Hf.
Qed.
Lemma bounded_sub_fam : forall (u : nat -> nat -> R) B, (forall j k, 0 <= u j k <= B) -> forall K, exists f (l : nat -> R), increasing_idx f /\ forall j, (j < K)%nat -> Un_cv (fun k => u j (f k)) (l j).
Proof.
  intros u B H. induction K as [|K [f [l [Hf Hl]]]].
  - exists (fun k => k), (fun _ => 0). split; [intros k; lia|]. intros; lia.
  - destruct (bounded_sub (fun k => u K (f k)) B) as [g [lK [Hg HK]]]; [intros; apply H|].
    exists (fun k => f (g k)), (fun j => if Nat.eqb j K then lK else l j). split; [apply incr_comp; auto|].
    intros j Hj. destruct (Nat.eqb_spec j K) as [->|Hn]; [exact HK|]. apply (cv_sub (fun k => u j (f k))); auto. apply Hl. lia.
Qed.

Lemma INR_above : forall x, exists k, x < INR k.
Proof.
  intros x. assert (P : 0 < Rabs x + 1) by (assert (Q := Rabs_pos x); lra). destruct (archimed_cor1 (/ (Rabs x + 1)) (Rinv_0_lt_compat _ P)) as [k [Hk Pk]].
  exists k. assert (PK : 0 < INR k) by (apply lt_0_INR; auto). assert (Q := Rle_abs x). apply Rinv_lt_contravar in Hk; [|apply Rmult_lt_0_compat; apply Rinv_0_lt_compat; auto].
  rewrite !Rinv_inv in Hk. lra.
Qed.
(** limits of sums and signs *)
Lemma cv_rsum : forall n (u : nat -> nat -> R) l, (forall i, (i < n)%nat -> Un_cv (fun k => u k i) (l i)) -> Un_cv (fun k => rsum n (u k)) (rsum n l).
Proof.
  induction n; intros u l H.
  - intros e He. exists 0%nat. intros. cbn. unfold R_dist. rewrite Rminus_diag_eq, Rabs_R0; auto.
  - cbn [rsum]. apply (CV_plus (fun k => rsum n (u k)) (fun k => u k n)); [apply IHn; intros; apply H; lia|apply H; lia].
Qed.
Lemma cv_const : forall c, Un_cv (fun _ => c) c.
Proof. intros c e He. exists 0%nat. intros. unfold R_dist. rewrite Rminus_diag_eq, Rabs_R0; auto. Qed.
Lemma cv_ext : forall u v l, (forall k, u k = v k) -> Un_cv u l -> Un_cv v l.
Proof. intros u v l E H e He. destruct (H e He) as [N0 HN]. exists N0. intros k Hk. rewrite <- E. auto. Qed.
Lemma cv_ge0 : forall u l, (forall k, 0 <= u k) -> Un_cv u l -> 0 <= l.
Proof. intros u l H C. destruct (Rle_dec 0 l); auto. destruct (C (- l)) as [N0 HN]; [lra|]. specialize (HN N0 ltac:(lia)). specialize (H N0). unfold R_dist in HN. apply Rabs_def2 in HN. lra. Qed.
Lemma cv_le : forall u l c, (forall k, u k <= c) -> Un_cv u l -> l <= c.
Proof.
  intros u l c H C. assert (0 <= c - l); [|lra]. apply (cv_ge0 (fun k => c - u k)); [intros k; specialize (H k); lra|].
  apply (CV_minus (fun _ => c) u); auto. apply cv_const.
Qed.

Definition mat_cv (n m : nat) (T : nat -> mat) (L : mat) : Prop := forall i j, (i < n)%nat -> (j < m)%nat -> Un_cv (fun k => T k i j) (L i j).
Lemma entry_le : forall n m a b T i j, coupling n m a b T -> (i < n)%nat -> (j < m)%nat -> T i j <= a i.
Proof.
  intros n m a b T i j (P & Rr & _) Hi Hj. rewrite <- (Rr i Hi). unfold row_sum.
  apply (rsum_le_one m (T i) j); auto.
Qed.
(** every sequence of couplings has a subsequence converging to a coupling *)
Theorem coupling_compact : forall n m a b (T : nat -> mat), (forall k, coupling n m a b (T k)) ->
  exists f L, increasing_idx f /\ coupling n m a b L /\ mat_cv n m (fun k => T (f k)) L.
Proof.
  intros n m a b T H. set (B := rsum n (fun i => Rabs (a i))).
  assert (HB : forall k i j, (i < n)%nat -> (j < m)%nat -> 0 <= T k i j <= B).
  { intros k i j Hi Hj. split; [apply (H k); auto|]. eapply Rle_trans; [apply (entry_le n m a b); eauto|].
    eapply Rle_trans; [apply Rle_abs|]. unfold B. apply (rsum_le_one n (fun i => Rabs (a i)) i); auto. intros; apply Rabs_pos. }
  assert (B0 : 0 <= B) by (apply rsum_nonneg; intros; apply Rabs_pos).
  destruct (bounded_sub_fam (fun c k => if andb (Nat.ltb (c / m) n) (Nat.ltb (c mod m) m) then T k (c / m)%nat (c mod m)%nat else 0) B) with (K := (n * m)%nat) as [f [l [Hf Hl]]].
  { intros c k. destruct (andb _ _) eqn:E; [|lra]. apply andb_prop in E. destruct E as [E1 E2]. apply Nat.ltb_lt in E1. apply Nat.ltb_lt in E2. auto. }
  exists f, (fun i j => l (i * m + j)%nat). split; auto.
  assert (CV : mat_cv n m (fun k => T (f k)) (fun i j => l (i * m + j)%nat)).
  { intros i j Hi Hj. assert (DM : ((i * m + j) / m = i /\ (i * m + j) mod m = j)%nat).
    { split; [symmetry; apply (Nat.div_unique _ m i j); lia|symmetry; apply (Nat.mod_unique _ m i j); lia]. }
    assert (Q := Hl (i * m + j)%nat ltac:(nia)). destruct DM as [D1 D2]. eapply cv_ext; [|exact Q]. intros k. cbn beta.
    rewrite D1, D2. rewrite (proj2 (Nat.ltb_lt i n) Hi), (proj2 (Nat.ltb_lt j m) Hj). reflexivity. }
  split; [|exact CV]. split; [|split].
  - intros i j Hi Hj. apply (cv_ge0 (fun k => T (f k) i j)); [intros k; apply (H (f k)); auto|apply CV; auto].
  - intros i Hi. unfold row_sum. eapply UL_sequence; [apply (cv_rsum m (fun k => T (f k) i)); intros j Hj; apply (CV i j Hi Hj)|].
    eapply cv_ext; [|apply (cv_const (a i))]. intros k. cbn beta. symmetry. apply (H (f k)); auto.
  - intros j Hj. unfold col_sum. eapply UL_sequence; [apply (cv_rsum n (fun k i => T (f k) i j)); intros i Hi; apply (CV i j Hi Hj)|].
    eapply cv_ext; [|apply (cv_const (b j))]. intros k. cbn beta. symmetry. apply (H (f k)); auto.
Qed.

(** a sequentially continuous function bounded below on the couplings attains its minimum *)
Definition seq_cont (n m : nat) (F : mat -> R) : Prop := forall T L, mat_cv n m T L -> Un_cv (fun k => F (T k)) (F L).
Theorem minimiser_exists : forall n m a b F, seq_cont n m F -> (exists T, coupling n m a b T) ->
  exists T, coupling n m a b T /\ forall T', coupling n m a b T' -> F T <= F T'.
Proof.
  intros n m a b F HF [T0 C0].
  assert (BD : exists c, forall T, coupling n m a b T -> c <= F T).
  { destruct (Classical_Prop.classic (exists c, forall T, coupling n m a b T -> c <= F T)) as [?|NB]; auto. exfalso.
    assert (X : forall k : nat, exists T, coupling n m a b T /\ F T < - INR k).
    { intros k. apply Classical_Prop.NNPP. intros NE. apply NB. exists (- INR k). intros T CT. destruct (Rle_dec (- INR k) (F T)); auto. exfalso. apply NE. exists T. split; auto. lra. }
    destruct (choice _ X) as [T HT]. destruct (coupling_compact n m a b T (fun k => proj1 (HT k))) as [f [L [Hf [CL CV]]]].
    assert (Q := HF _ _ CV). destruct (Q 1 Rlt_0_1) as [N0 HN]. destruct (INR_above (Rabs (F L) + 1)) as [N1 HN1].
    set (p := Nat.max N0 N1). assert (A := HN p ltac:(unfold p; lia)). destruct (HT (f p)) as [_ HL]. unfold R_dist in A. apply Rabs_def2 in A.
    assert (INR N1 <= INR (f p)) by (apply le_INR; assert (Z := incr_ge f Hf p); unfold p in *; lia).
    assert (Z := Rle_abs (- F L)). rewrite Rabs_Ropp in Z. lra. }
  destruct BD as [c Hc].
  destruct (completeness (fun x => exists T, coupling n m a b T /\ x = - F T)) as [s [Us Ls]].
  { exists (- c). intros x [T [CT ->]]. specialize (Hc T CT). lra. }
  { exists (- F T0), T0. auto. }
  assert (X : forall k : nat, exists T, coupling n m a b T /\ F T < - s + / INR (S k)).
  { intros k. assert (PK : 0 < / INR (S k)) by (apply Rinv_0_lt_compat, lt_0_INR; lia). apply Classical_Prop.NNPP. intros NE.
    assert (s <= s - / INR (S k)); [|lra]. apply Ls. intros x [T [CT ->]]. destruct (Rlt_dec (F T) (- s + / INR (S k))); [exfalso; apply NE; eauto|lra]. }
  destruct (choice _ X) as [T HT]. destruct (coupling_compact n m a b T (fun k => proj1 (HT k))) as [f [L [Hf [CL CV]]]].
  exists L. split; auto. intros T' CT'. assert (E1 : - s <= F T') by (specialize (Us (- F T') (ex_intro _ T' (conj CT' eq_refl))); lra).
  eapply Rle_trans; [|exact E1]. assert (Q := HF _ _ CV). apply Rnot_lt_le. intros HL. destruct (Q ((F L + s) / 2) ltac:(lra)) as [N0 HN].
  destruct (archimed_cor1 ((F L + s) / 2) ltac:(lra)) as [N1 [HN1 HP]]. set (p := Nat.max N0 N1).
  assert (A := HN p ltac:(unfold p; lia)). unfold R_dist in A. apply Rabs_def2 in A. destruct (HT (f p)) as [_ B].
  assert (/ INR (S (f p)) <= / INR N1) by (apply Rinv_le_contravar; [apply lt_0_INR; lia|apply le_INR; assert (Z := incr_ge f Hf p); unfold p in *; lia]). lra.
Qed.
Lemma cost_cont : forall n m M, seq_cont n m (cost n m M).
Proof.
  intros n m M T L H. unfold cost. apply (cv_rsum n (fun k i => rsum m (fun j => M i j * T k i j))). intros i Hi.
  apply (cv_rsum m (fun k j => M i j * T k i j)). intros j Hj. apply (CV_mult (fun _ => M i j) (fun k => T k i j)); [apply cv_const|apply H; auto].
Qed.
(** an optimal plan exists whenever a coupling does *)
Theorem optimal_exists : forall n m a b M, (exists T, coupling n m a b T) -> exists T, optimal_coupling n m a b M T.
Proof. intros n m a b M H. destruct (minimiser_exists n m a b (cost n m M) (cost_cont n m M) H) as [T [C O]]. exists T. split; auto. Qed.
(** hence an exact solver exists *)
Theorem exact_oracle_exists : forall n m a b, (exists T, coupling n m a b T) -> exists lp : mat -> mat, forall M, optimal_coupling n m a b M (lp M).
Proof. intros n m a b H. apply (choice (fun M T => optimal_coupling n m a b M T)). intros M. apply optimal_exists; auto. Qed.
(** couplings exist for nonnegative weights of equal positive mass *)
Lemma product_coupling : forall n m a b, (forall i, (i < n)%nat -> 0 <= a i) -> (forall j, (j < m)%nat -> 0 <= b j) -> rsum n a = rsum m b -> 0 < rsum n a ->
  coupling n m a b (fun i j => a i * b j / rsum n a).
Proof.
  intros n m a b Ha Hb E P. split; [|split].
  - intros i j Hi Hj. apply Rle_mult_inv_pos; auto. apply Rmult_le_pos; auto.
  - intros i Hi. unfold row_sum. rewrite (rsum_ext m _ (fun j => a i / rsum n a * b j)) by (intros; field; lra). rewrite rsum_scal, <- E. field. lra.
  - intros j Hj. unfold col_sum. rewrite (rsum_ext n _ (fun i => b j / rsum n a * a i)) by (intros; field; lra). rewrite rsum_scal. field. lra.
Qed.
