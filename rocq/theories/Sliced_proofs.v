(** Facts about the sliced distances and plans, at R. *)
From Coq Require Import Reals List Lra Lia Bool Permutation.
From Verif Require Import Num Sums Spec Monge Perm Emd1d_model Emd1d_proofs Emd1d_perm_proofs W1d_model W1d_proofs Emd1d_final Duals_proofs Wp Sliced_model.
Import ListNotations.
Local Open Scope R_scope.

(** ** vocabulary *)
Definition prj (d : nat) (X th : mat) (k i : nat) : R := rsum d (fun t => X i t * th t k).
Definition edist (d : nat) (X Y : mat) (i j : nat) : R := sqrt (rsum d (fun t => (X i t - Y j t) ^ 2)).
(** cost of the projected problem in direction k *)
Definition slice_cost (p : R) (d : nat) (X Y th : mat) (k : nat) : mat := fun i j => rpow (Rabs (prj d X th k i - prj d Y th k j)) p.
(** the optimal transport value of a problem *)
Definition ot_value (n m : nat) (a b : vec) (M : mat) (w : R) : Prop := exists G, optimal_coupling n m a b M G /\ w = cost n m M G.
Lemma ot_value_le : forall n m a b M w G, ot_value n m a b M w -> coupling n m a b G -> w <= cost n m M G.
Proof. intros n m a b M w G (O & [_ H] & ->) C. apply H; auto. Qed.
Lemma ot_value_unique : forall n m a b M w w', ot_value n m a b M w -> ot_value n m a b M w' -> w = w'.
Proof. intros n m a b M w w' (O & [C H] & ->) (O' & [C' H'] & ->). apply Rle_antisym; auto. Qed.

Lemma wmetric_rpow : forall p x y, wmetric p x y = rpow (Rabs (x - y)) p.
Proof. intros p x y. unfold wmetric. destruct (Req_EM_T p 1) as [-> |]; auto. rewrite rpow_1; auto. apply Rabs_pos. Qed.

Lemma project_len : forall n d (X th : mat) k, length (project (N:=RNum) n d X th k) = n.
Proof. intros. unfold project. rewrite map_length, seq_length. auto. Qed.
Lemma nth_map_seq : forall (B : Type) (f : nat -> B) n i d, (i < n)%nat -> nth i (map f (seq 0 n)) d = f i.
Proof. intros B f n i d H. rewrite (nth_indep _ d (f 0%nat)) by (rewrite map_length, seq_length; auto). rewrite map_nth, seq_nth; auto. Qed.
Lemma project_nth : forall n d (X th : mat) k i, (i < n)%nat -> lnth (project (N:=RNum) n d X th k) i = prj d X th k i.
Proof. intros. unfold lnth, project. rewrite nth_map_seq by auto. rewrite nsum_R. reflexivity. Qed.

(** lists of outcomes *)
Lemma all_ok_map : forall (A B : Type) (f : A -> res B) (P : A -> B -> Prop) l,
  (forall x, In x l -> exists y, f x = Ok y /\ P x y) -> exists ys, all_ok (map f l) = Ok ys /\ Forall2 P l ys.
Proof.
  induction l as [|x l IH]; intros H; [exists []; auto|]. destruct (H x (or_introl eq_refl)) as (y & E & Hy).
  destruct IH as (ys & E' & F); [intros; apply H; right; auto|]. exists (y :: ys). cbn [map all_ok]. rewrite E, E'. auto.
Qed.
Lemma Forall2_seq : forall (B : Type) (P : nat -> B -> Prop) L s ys d, Forall2 P (seq s L) ys -> length ys = L /\ forall k, (k < L)%nat -> P (s + k)%nat (nth k ys d).
Proof.
  induction L; intros s ys d H; inversion H; subst; [split; auto; lia|]. destruct (IHL _ _ d H4) as [E F]. split; [cbn; lia|].
  intros [|k] Hk; [rewrite Nat.add_0_r; auto|]. cbn [nth]. replace (s + S k)%nat with (S s + k)%nat by lia. apply F. lia.
Qed.

(** ** projections *)
Lemma prj_contract : forall d X Y th k i j, rsum d (fun t => th t k ^ 2) <= 1 -> Rabs (prj d X th k i - prj d Y th k j) <= edist d X Y i j.
Proof.
  intros d X Y th k i j U. unfold prj, edist. rewrite <- rsum_minus.
  rewrite (rsum_ext d _ (fun t => (X i t - Y j t) * th t k)) by (intros; ring).
  assert (C := rsum_CS d (fun t => X i t - Y j t) (fun t => th t k)). cbv beta in C.
  set (S := rsum d (fun t => (X i t - Y j t) * th t k)) in *. set (A := rsum d (fun t => (X i t - Y j t) ^ 2)) in *.
  assert (HA : 0 <= A) by (apply rsum_nonneg; intros; apply pow2_ge_0).
  rewrite <- (sqrt_pow2 (Rabs S)) by apply Rabs_pos. apply sqrt_le_1; [apply pow2_ge_0|auto|]. rewrite <- Rsqr_pow2, <- Rsqr_abs, Rsqr_pow2.
  eapply Rle_trans; [exact C|]. rewrite <- (Rmult_1_r A) at 2. apply Rmult_le_compat_l; auto.
Qed.

(** ** the slices *)
Section Slices.
Variables (n m d L : nat) (X Y th : mat) (a b : list R) (p : R).
Hypotheses (La : length a = n) (Lb : length b = m) (Hn : (0 < n)%nat) (Hm : (0 < m)%nat)
  (Ha : nonneg_vec n (lnth a)) (Hb : nonneg_vec m (lnth b)) (Hab : mass n (lnth a) = mass m (lnth b)) (Hp : 1 <= p).
Definition is_slice (k : nat) (r : R * list (@entry RNum)) : Prop :=
  optimal_coupling n m (lnth a) (lnth b) (slice_cost p d X Y th k) (dmat (snd r)) /\ fst r = cost n m (slice_cost p d X Y th k) (dmat (snd r)).
Lemma slice_run : forall k, exists r, wasserstein_1d (N:=RNum) rpow (project (N:=RNum) n d X th k) (project (N:=RNum) m d Y th k) (Some a) (Some b) p true = Ok r /\ is_slice k r.
Proof.
  intros k. destruct (c18 (project (N:=RNum) n d X th k) (project (N:=RNum) m d Y th k) a b p true) as (w & es & E & Ew & O);
    rewrite ?project_len; auto; [discriminate|]. rewrite !project_len in Ew, O. exists (w, es). split; [exact E|]. unfold is_slice. cbn [fst snd].
  assert (Ex : forall i j, (i < n)%nat -> (j < m)%nat -> wmetric p (lnth (project (N:=RNum) n d X th k) i) (lnth (project (N:=RNum) m d Y th k) j) = slice_cost p d X Y th k i j).
  { intros i j Hi Hj. rewrite wmetric_rpow, !project_nth by auto. reflexivity. }
  split; [eapply optimal_ext; [| | | |exact O]; auto; intros; symmetry; auto|]. rewrite Ew. apply cost_ext; auto.
Qed.
Lemma slices_run : exists l, slices (N:=RNum) rpow n m d L X Y th a b p = Ok l /\ length l = L /\ forall k dflt, (k < L)%nat -> is_slice k (nth k l dflt).
Proof.
  destruct (all_ok_map _ _ (fun k => wasserstein_1d (N:=RNum) rpow (project (N:=RNum) n d X th k) (project (N:=RNum) m d Y th k) (Some a) (Some b) p true) is_slice (seq 0 L)) as (ys & E & F).
  { intros k _. apply slice_run. }
  exists ys. split; [exact E|]. destruct (Forall2_seq _ is_slice L 0 ys (0, []) F) as [Ly _]. split; auto. intros k dflt Hk. apply (Forall2_seq _ is_slice L 0 ys dflt F); auto.
Qed.
(** the value of every slice *)
Lemma slices_values : exists l (w : vec), slices (N:=RNum) rpow n m d L X Y th a b p = Ok l /\ length l = L /\
  (forall k, (k < L)%nat -> nth k (map fst l) 0 = w k) /\ lsum (N:=RNum) (map fst l) = rsum L w /\ forall k, (k < L)%nat -> ot_value n m (lnth a) (lnth b) (slice_cost p d X Y th k) (w k).
Proof.
  destruct slices_run as (l & E & Ll & H). exists l, (fun k => fst (nth k l (0, []))). split; auto. split; auto.
  assert (N : forall k, nth k (map fst l) 0 = fst (nth k l (0, []))).
  { intros k. change 0 with (fst (0, @nil (@entry RNum))) at 1. apply (map_nth (@fst R (list (@entry RNum)))). }
  split; [auto|]. split.
  - rewrite lsum_rsum. rewrite map_length, Ll. apply rsum_ext; intros k Hk. exact (N k).
  - intros k Hk. destruct (H k (0, []) Hk) as [O V]. exists (dmat (snd (nth k l (0, [])))). split; auto.
Qed.
End Slices.

Definition sw_mean (L : nat) (w : vec) : R := rsum L w / INR L.
Lemma sliced_value : forall n m d L X Y th (a b : list R) p, length a = n -> length b = m -> (0 < n)%nat -> (0 < m)%nat ->
  nonneg_vec n (lnth a) -> nonneg_vec m (lnth b) -> mass n (lnth a) = mass m (lnth b) -> 1 <= p ->
  exists w : vec, (forall k, (k < L)%nat -> ot_value n m (lnth a) (lnth b) (slice_cost p d X Y th k) (w k)) /\
    sliced_wasserstein_distance (N:=RNum) rpow n m d L X Y th (Some a) (Some b) p = Ok (rpow (rsum L w / INR L) (1 / p)) /\
    ((0 < L)%nat -> exists k, (k < L)%nat /\ (forall k', (k' < L)%nat -> w k' <= w k) /\
       max_sliced_wasserstein_distance (N:=RNum) rpow n m d L X Y th (Some a) (Some b) p = Ok (rpow (w k) (1 / p))).
Proof.
  intros n m d L X Y th a b p La Lb Hn Hm Ha Hb Hab Hp.
  destruct (slices_values n m d L X Y th a b p La Lb Hn Hm Ha Hb Hab Hp) as (l & w & E & Ll & N & S & V).
  exists w. split; auto. unfold sliced_wasserstein_distance, max_sliced_wasserstein_distance, full_weights.
  split; [|intros HL; destruct L as [|L']; [lia|]].
  - rewrite E. cbn [bind]. rewrite S, nofnat_INR. reflexivity.
  - destruct (nmaxk_In L' (fun k => nth k (map fst l) 0)) as (k & Hk & Ek). exists k. split; [lia|]. split.
    + intros k' Hk'. rewrite <- (N k'), <- (N k) by lia. rewrite <- Ek. apply (nmaxk_ge L' (fun k => nth k (map fst l) 0)). lia.
    + rewrite E. cbn [bind]. f_equal. change (@n0 RNum) with 0. rewrite Ek, N by lia. reflexivity.
Qed.

(** ** bounds and distance axioms *)
Lemma cost_nonneg : forall n m M G, nonneg_mat n m G -> (forall i j, (i < n)%nat -> (j < m)%nat -> 0 <= M i j) -> 0 <= cost n m M G.
Proof. intros n m M G HG HM. apply rsum_nonneg; intros. apply rsum_nonneg; intros. apply Rmult_le_pos; auto. Qed.
Lemma ot_value_nonneg : forall n m a b M w, (forall i j, 0 <= M i j) -> ot_value n m a b M w -> 0 <= w.
Proof. intros n m a b M w HM (G & [[HG _] _] & ->). apply cost_nonneg; auto. Qed.
Lemma slice_cost_nonneg : forall p d X Y th k i j, 0 <= slice_cost p d X Y th k i j.
Proof. intros. apply rpow_nonneg. Qed.
Lemma mean_nonneg : forall L (w : vec), (forall k, (k < L)%nat -> 0 <= w k) -> 0 <= rsum L w / INR L.
Proof.
  intros L w H. destruct L as [|L']; [cbn; unfold Rdiv; lra|]. apply Rle_mult_inv_pos; [apply rsum_nonneg; auto|apply lt_0_INR; lia].
Qed.
Lemma mean_le : forall L (w : vec) c, (0 < L)%nat -> (forall k, (k < L)%nat -> w k <= c) -> rsum L w / INR L <= c.
Proof.
  intros L w c HL H. assert (P : 0 < INR L) by (apply lt_0_INR; auto). apply Rmult_le_reg_r with (INR L); auto. unfold Rdiv. rewrite Rmult_assoc, Rinv_l by lra.
  rewrite Rmult_1_r. eapply Rle_trans; [apply (rsum_le L w (fun _ => c)); auto|]. rewrite rsum_const. lra.
Qed.

(** transposing a problem *)
Lemma coupling_T : forall n m a b G, coupling n m a b G -> coupling m n b a (fun j i => G i j).
Proof. intros n m a b G (P & R & C). split; [|split]; unfold nonneg_mat, row_sum, col_sum in *; auto. Qed.
Lemma cost_T : forall n m M G, cost m n (fun j i => M i j) (fun j i => G i j) = cost n m M G.
Proof. intros. unfold cost. apply rsum_swap. Qed.
Lemma ot_value_T : forall n m a b M w, ot_value n m a b M w -> ot_value m n b a (fun j i => M i j) w.
Proof.
  intros n m a b M w (G & [C O] & ->). exists (fun j i => G i j). split; [|symmetry; apply cost_T]. split; [apply coupling_T; auto|].
  intros G' C'. rewrite cost_T. rewrite <- (cost_T m n (fun j i => M i j) G'). apply O. apply coupling_T; auto.
Qed.
Lemma ot_value_ext : forall n m a b M M' w, (forall i j, (i < n)%nat -> (j < m)%nat -> M i j = M' i j) -> ot_value n m a b M w -> ot_value n m a b M' w.
Proof. intros n m a b M M' w E (G & O & ->). exists G. split; [eapply optimal_ext; [| | | |exact O]; auto; intros; symmetry; auto|]. apply cost_ext; auto. Qed.

(** the triangle inequality of the transport value in one direction *)
Lemma slice_triangle : forall n m l d X Y Z th a b c p k w1 w2 w3, 1 <= p ->
  ot_value n m a b (slice_cost p d X Y th k) w1 -> ot_value m l b c (slice_cost p d Y Z th k) w2 -> ot_value n l a c (slice_cost p d X Z th k) w3 ->
  rpow w3 (1 / p) <= rpow w1 (1 / p) + rpow w2 (1 / p).
Proof.
  intros n m l d X Y Z th a b c p k w1 w2 w3 Hp (G & [CG _] & ->) (H & [CH _] & ->) V3.
  assert (T := triangle n m l a b c G H CG CH p (fun i j => Rabs (prj d X th k i - prj d Y th k j)) (fun i j => Rabs (prj d Y th k i - prj d Z th k j)) (fun i j => Rabs (prj d X th k i - prj d Z th k j)) Hp
    ltac:(intros; apply Rabs_pos) ltac:(intros; apply Rabs_pos) ltac:(intros; apply Rabs_pos)).
  eapply Rle_trans; [|apply T].
  - apply rpow_le; [|apply Rdiv_lt_0_compat; lra]. split; [eapply ot_value_nonneg; [|exact V3]; intros; apply slice_cost_nonneg|].
    apply (ot_value_le _ _ _ _ _ _ _ V3). apply composed_coupling with (2 := CH); auto.
  - intros i j k'. replace (prj d X th k i - prj d Z th k k') with ((prj d X th k i - prj d Y th k j) + (prj d Y th k j - prj d Z th k k')) by ring. apply Rabs_triang.
Qed.
Lemma mean_triangle : forall L p (w1 w2 w3 : vec), 1 <= p -> (0 < L)%nat ->
  (forall k, (k < L)%nat -> 0 <= w1 k) -> (forall k, (k < L)%nat -> 0 <= w2 k) -> (forall k, (k < L)%nat -> 0 <= w3 k) ->
  (forall k, (k < L)%nat -> rpow (w3 k) (1 / p) <= rpow (w1 k) (1 / p) + rpow (w2 k) (1 / p)) ->
  rpow (rsum L w3 / INR L) (1 / p) <= rpow (rsum L w1 / INR L) (1 / p) + rpow (rsum L w2 / INR L) (1 / p).
Proof.
  intros L p w1 w2 w3 Hp HL P1 P2 P3 T. assert (P : 0 < INR L) by (apply lt_0_INR; auto).
  set (s := fun f : nat -> R => rsum L f / INR L).
  assert (M : forall f g, (forall i, f i <= g i) -> s f <= s g). { intros f g H. unfold s. apply Rmult_le_compat_r; [left; apply Rinv_0_lt_compat; auto|]. apply rsum_le; auto. }
  assert (Li : forall c f e g, s (fun i => c * f i + e * g i) = c * s f + e * s g). { intros. unfold s. rewrite rsum_plus, !rsum_scal. field. lra. }
  assert (K := minkowski nat s M Li p (fun k => rpow (w1 k) (1 / p)) (fun k => rpow (w2 k) (1 / p)) Hp ltac:(intros; apply rpow_nonneg) ltac:(intros; apply rpow_nonneg)). cbv beta in K. unfold s in K.
  rewrite (rsum_ext L (fun i => rpow (rpow (w1 i) (1 / p)) p) w1) in K by (intros; apply rpow_root'; auto; lra).
  rewrite (rsum_ext L (fun i => rpow (rpow (w2 i) (1 / p)) p) w2) in K by (intros; apply rpow_root'; auto; lra).
  eapply Rle_trans; [|exact K]. apply rpow_le; [|apply Rdiv_lt_0_compat; lra]. split; [apply mean_nonneg; auto|].
  apply Rmult_le_compat_r; [left; apply Rinv_0_lt_compat; auto|]. apply rsum_le; intros k Hk. rewrite <- (rpow_root' (w3 k) p) by (auto; lra).
  apply rpow_mono; auto. split; [apply rpow_nonneg|]. auto.
Qed.

(** ** plans *)
Definition in_range (n m : nat) (es : list (@entry RNum)) : Prop := Forall (fun e => (snd (fst e) < n)%nat /\ (snd e < m)%nat) es.
Lemma take_len : forall (A : Type) (xs : list A) perm l, take xs perm = Some l -> length l = length perm.
Proof.
  induction perm as [|k perm IH]; intros l E; cbn [take] in E; [injection E as <-; auto|]. destruct (nth_error xs k), (take xs perm) eqn:T; try discriminate. injection E as <-. cbn. rewrite (IH l0); auto.
Qed.
Lemma quantile_plan_len : forall n m (cu cv : list R) (prev : R) qs, length (quantile_plan (N:=RNum) n m cu cv prev qs) = length qs.
Proof. intros n m cu cv prev qs. revert prev. induction qs; intros; cbn; auto. Qed.
Lemma quantile_plan_rng : forall n m (cu cv : list R) (prev : R) qs, (0 < n)%nat -> (0 < m)%nat -> in_range n m (quantile_plan (N:=RNum) n m cu cv prev qs).
Proof. intros n m cu cv prev qs Hn Hm. revert prev. induction qs; intros; cbn; constructor; auto; [|apply IHqs]. cbn. unfold quantile_idx. lia. Qed.
Lemma w1d_shape : forall (u v uw vw : list R) p w es, (0 < length u)%nat -> (0 < length v)%nat ->
  wasserstein_1d (N:=RNum) rpow u v (Some uw) (Some vw) p true = Ok (w, es) -> length es = (length u + length v)%nat /\ in_range (length u) (length v) es.
Proof.
  intros u v uw vw p w es Hu Hv E. unfold wasserstein_1d in E. destruct (nleb n1 p); [|discriminate]. unfold wasserstein_1d_with_perm in E.
  repeat match type of E with match ?t with Some _ => _ | None => _ end = _ => destruct t eqn:?T; [|discriminate E] end.
  match goal with H : take uw _ = Some _ |- _ => rename H into Tw1 end. match goal with H : take vw _ = Some _ |- _ => rename H into Tw2 end.
  injection E as _ <-. assert (Pu := argsort_aux_perm (N:=RNum) (fun i => nth i u 0) (length u)). assert (Pv := argsort_aux_perm (N:=RNum) (fun i => nth i v 0) (length v)).
  change (argsort_aux (N:=RNum) (fun i => nth i u 0) (length u)) with (argsort (N:=RNum) u) in Pu. change (argsort_aux (N:=RNum) (fun i => nth i v 0) (length v)) with (argsort (N:=RNum) v) in Pv.
  split.
  - rewrite map_length, quantile_plan_len. rewrite (Permutation_length (vsort_perm (N:=RNum) _)), app_length. unfold cumsum. rewrite !cumsum_from_length.
    rewrite (take_len _ _ _ _ Tw1), (take_len _ _ _ _ Tw2). rewrite (Permutation_length Pu), (Permutation_length Pv), !seq_length. auto.
  - unfold in_range. apply Forall_map. eapply Forall_impl; [|apply (quantile_plan_rng (length u) (length v)); auto]. intros [[x i] j] [H1 H2]. cbn [fst snd] in *.
    destruct (perm_list_on _ _ Pu) as [Q1 _]. destruct (perm_list_on _ _ Pv) as [Q2 _]. split; [apply (Q1 i)|apply (Q2 j)]; auto.
Qed.

(** the matching of two sorted samples of the same size with equal weights *)
Definition match_plan (n : nat) (c : R) (s t : nat -> nat) : list (@entry RNum) := map (fun k => (c, s k, t k)) (seq 0 n).
Lemma esum_seq : forall f n c (s t : nat -> nat), esum f (match_plan n c s t) = rsum n (fun k => f (s k) (t k) * c).
Proof.
  intros f n c s t. assert (G : forall l, esum f (map (fun k => (c, s k, t k)) l) = fold_right (fun k x => f (s k) (t k) * c + x) 0 l) by (induction l; cbn; auto; rewrite IHl; auto).
  unfold match_plan. rewrite G. clear G. assert (H : forall L st, fold_right (fun k x => f (s k) (t k) * c + x) 0 (seq st L) = rsum L (fun k => f (s (st + k)%nat) (t (st + k)%nat) * c)).
  { induction L; intros st; [reflexivity|]. cbn [seq fold_right]. rewrite IHL, rsum_first, Nat.add_0_r. f_equal. apply rsum_ext; intros k Hk. replace (S st + k)%nat with (st + S k)%nat by lia. auto. }
  apply (H n 0%nat).
Qed.
Lemma rsum_min : forall n k l c, (k <= n)%nat -> (l <= n)%nat -> 0 <= c -> rsum n (fun t => box k l t t * c) = Rmin (rsum k (fun _ => c)) (rsum l (fun _ => c)).
Proof.
  intros n k l c Hk Hl Hc. rewrite !rsum_const.
  assert (E : rsum n (fun t => box k l t t * c) = rsum (Nat.min k l) (fun _ => c)).
  { replace n with (Nat.min k l + (n - Nat.min k l))%nat at 1 by lia. rewrite rsum_split. rewrite (rsum_ext (Nat.min k l) _ (fun _ => c)).
    2:{ intros i Hi. unfold box, ind. destruct (Nat.ltb_spec i k), (Nat.ltb_spec i l); cbn; try lia; ring. }
    rewrite (rsum_0 (n - Nat.min k l)); [ring|]. intros i Hi. unfold box, ind. destruct (Nat.ltb_spec (Nat.min k l + i) k), (Nat.ltb_spec (Nat.min k l + i) l); cbn; try lia; ring. }
  rewrite E, rsum_const. destruct (Nat.le_gt_cases k l).
  - rewrite Nat.min_l by auto. rewrite Rmin_left; auto. apply Rmult_le_compat_r; auto. apply le_INR; auto.
  - rewrite Nat.min_r by lia. rewrite Rmin_right; auto. apply Rmult_le_compat_r; auto. apply le_INR; lia.
Qed.
Lemma match_range : forall n c s t, perm_on n s -> perm_on n t -> in_range n n (match_plan n c s t).
Proof. intros n c s t Hs Ht. unfold in_range, match_plan. apply Forall_map, Forall_forall. intros k Hk. apply in_seq in Hk. cbn. split; [apply Hs|apply Ht]; lia. Qed.
Lemma match_optimal : forall n (x y : vec) s t c q, perm_on n s -> perm_on n t -> 0 <= c -> 1 <= q ->
  (forall k, (S k < n)%nat -> x (s k) <= x (s (S k))) -> (forall k, (S k < n)%nat -> y (t k) <= y (t (S k))) ->
  optimal_coupling n n (fun _ => c) (fun _ => c) (fun i j => rpow (Rabs (x i - y j)) q) (dmat (match_plan n c s t)).
Proof.
  intros n x y s t c q Hs Ht Hc Hq Sx Sy.
  set (es := match_plan n c (fun k => k) (fun k => k)).
  assert (R : in_range n n es). { apply match_range; split; auto. }
  assert (F : forall k l, (k <= n)%nat -> (l <= n)%nat -> cumF (dmat es) k l = Rmin (rsum k (fun _ => c)) (rsum l (fun _ => c))).
  { intros k l Hk Hl. rewrite cumF_dmat. unfold es. rewrite esum_seq. apply rsum_min; auto. }
  assert (C : coupling n n (fun _ => c) (fun _ => c) (dmat es)).
  { apply min_cum_coupling; auto; try (intros ? ?; auto; fail). intros i j Hi Hj. apply dmat_nonneg. unfold es, match_plan. apply Forall_map, Forall_forall. cbn. auto. }
  assert (O : optimal_coupling n n (fun _ => c) (fun _ => c) (fun i j => rpow (Rabs (x (s i) - y (t j))) q) (dmat es)).
  { apply monge_min_optimal; auto. apply (convex_monge n n (fun i => x (s i)) (fun j => y (t j)) (fun z => rpow (Rabs z) q)); [apply convex_rpow_abs; auto|exact Sx|exact Sy]. }
  apply (optimal_relabel n n s t); auto. eapply optimal_ext; [| | | |exact O]; auto. intros i j Hi Hj.
  assert (E : match_plan n c s t = map (fun e : @entry RNum => match e with (w, i, j) => (w, s i, t j) end) es) by (unfold es, match_plan; rewrite map_map; auto).
  rewrite E. symmetry. apply (dmat_relabel n n); auto.
Qed.
