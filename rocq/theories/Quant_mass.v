(** Mass moved between two partitions; representants; the solver of Gw_model. *)
From Coq Require Import List Arith Bool Reals Lra Lia Permutation Sorted String.
From Verif Require Import Num Sums Spec Perm Monge Emd1d_model Emd1d_proofs Emd1d_perm_proofs W1d_model Emd1d_final
  Duals_proofs Optim_model Optim_proofs Gw_model Gw_proofs Quant_model Quant_proofs Quant_order Quant_main P_Gw.
Import ListNotations.
Local Open Scope R_scope.
Local Notation length := List.length.
Local Notation concat := List.concat.

Lemma ids_sorted : forall n part, StronglySorted lt (part_ids n part).
Proof. intros. apply ssorted_filter, ssorted_seq. Qed.
Lemma ids_inj : forall n part i j, (i < length (part_ids n part))%nat -> (j < length (part_ids n part))%nat -> nth i (part_ids n part) 0%nat = nth j (part_ids n part) 0%nat -> i = j.
Proof.
  intros n part i j Hi Hj E. destruct (Nat.lt_trichotomy i j) as [L|[L|L]]; auto; exfalso.
  - pose proof (ssorted_nth _ lt _ 0%nat i j (ids_sorted n part) L Hj). cbv beta in H. lia.
  - pose proof (ssorted_nth _ lt _ 0%nat j i (ids_sorted n part) L Hi). cbv beta in H. lia.
Qed.
Lemma part_sigma : forall A n part (ps : list (list A)) r, same_shape (map (where_ n part) (part_ids n part)) ps -> (r < n)%nat ->
  part (sigma n part r) = nth (fst (locate ps r)) (part_ids n part) 0%nat.
Proof.
  intros A n part ps r S Hr. destruct (shape_len _ _ _ _ S) as (_ & _ & _ & LOC). rewrite <- LOC. unfold sigma, order.
  set (bs := map (where_ n part) (part_ids n part)). assert (Hr' : (r < length (concat bs))%nat) by (pose proof (order_len n part) as X; unfold order in X; fold bs in X; lia).
  rewrite nth_concat by auto. destruct (locate_lt _ bs r Hr') as (A1 & A2 & _). set (i := fst (locate bs r)) in *.
  unfold bs in A1. rewrite map_length in A1.
  assert (E : nth i bs [] = where_ n part (nth i (part_ids n part) 0%nat)).
  { unfold bs. rewrite (nth_indep _ [] (where_ n part 0%nat)) by (rewrite map_length; auto). apply map_nth. }
  unfold blen in A2. rewrite E in *. apply (in_where n part). apply nth_In. exact A2.
Qed.
Lemma shape_where : forall n part (p : vec), same_shape (map (where_ n part) (part_ids n part)) (map (fun k => map p (where_ n part k)) (part_ids n part)).
Proof. intros. unfold same_shape. rewrite !map_map. apply map_ext. intros. rewrite map_length. reflexivity. Qed.
Lemma shape_sym : forall A B (x : list (list A)) (y : list (list B)), same_shape x y -> same_shape y x.
Proof. unfold same_shape; intros; auto. Qed.
Lemma shape_trans : forall A B C (x : list (list A)) (y : list (list B)) (z : list (list C)), same_shape x y -> same_shape y z -> same_shape x z.
Proof. unfold same_shape; intros; congruence. Qed.
Lemma rsum_if : forall n (b : bool) f, rsum n (fun i => if b then f i else 0) = if b then rsum n f else 0.
Proof. intros. destruct b; auto. apply rsum_0; auto. Qed.

Lemma partition_mass : forall n m part1 part2 (p q : vec) (R1 R2 p1 p2 : list (list RNum)) Tg T,
  same_shape R1 p1 -> same_shape R2 p2 -> good_weights p1 -> quantized_plan R1 R2 p1 p2 Tg T ->
  p1 = map (fun k => map p (where_ n part1 k)) (part_ids n part1) -> p2 = map (fun k => map q (where_ m part2 k)) (part_ids m part2) ->
  forall i j, (i < length (part_ids n part1))%nat -> (j < length (part_ids m part2))%nat ->
  rsum n (fun r => rsum m (fun c => if (part1 (sigma n part1 r) =? nth i (part_ids n part1) 0)%nat then if (part2 (sigma m part2 c) =? nth j (part_ids m part2) 0)%nat then T r c else 0 else 0)) = Tg i j.
Proof.
  intros n m part1 part2 p q R1 R2 p1 p2 Tg T S1 S2 G1 QP E1 E2 i j Hi Hj.
  assert (SH1 : same_shape (map (where_ n part1) (part_ids n part1)) R1) by (eapply shape_trans; [apply (shape_where n part1 p)|]; apply shape_sym; rewrite <- E1; auto).
  assert (SH2 : same_shape (map (where_ m part2) (part_ids m part2)) R2) by (eapply shape_trans; [apply (shape_where m part2 q)|]; apply shape_sym; rewrite <- E2; auto).
  assert (N1 : length (concat R1) = n) by (destruct (shape_len _ _ _ _ SH1) as (_ & X & _); rewrite <- X; apply (order_len n part1)).
  assert (N2 : length (concat R2) = m) by (destruct (shape_len _ _ _ _ SH2) as (_ & X & _); rewrite <- X; apply (order_len m part2)).
  assert (L1 : length R1 = length (part_ids n part1)) by (destruct (shape_len _ _ _ _ SH1) as (X & _); rewrite <- X, map_length; auto).
  assert (L2 : length R2 = length (part_ids m part2)) by (destruct (shape_len _ _ _ _ SH2) as (X & _); rewrite <- X, map_length; auto).
  rewrite <- (block_mass R1 R2 p1 p2 Tg T i j S1 G1 QP) by lia.
  set (f := fun i' r' => if (i' =? i)%nat then rsum (length R2) (fun j' => if (j' =? j)%nat then rsum (blen R2 j') (fun c' => T (off R1 i' + r')%nat (off R2 j' + c')%nat) else 0) else 0).
  transitivity (rsum (length (concat R1)) (fun r => f (fst (locate R1 r)) (snd (locate R1 r)))).
  - rewrite N1. apply rsum_ext. intros r Hr. rewrite rsum_if. unfold f.
    destruct (locate_lt _ R1 r ltac:(lia)) as (A1 & A2 & A3).
    rewrite (part_sigma _ n part1 R1 r SH1 Hr).
    assert (B : (nth (fst (locate R1 r)) (part_ids n part1) 0 =? nth i (part_ids n part1) 0)%nat = (fst (locate R1 r) =? i)%nat).
    { apply eq_true_iff_eq. rewrite !Nat.eqb_eq. split; [intros H; apply (ids_inj n part1); auto; lia|intros ->; auto]. }
    rewrite B. destruct (fst (locate R1 r) =? i)%nat; [|reflexivity]. rewrite <- A3.
    transitivity (rsum (length (concat R2)) (fun c => (fun j' c' => if (j' =? j)%nat then T r (off R2 j' + c')%nat else 0) (fst (locate R2 c)) (snd (locate R2 c)))).
    + rewrite N2. apply rsum_ext. intros c Hc. cbv beta. destruct (locate_lt _ R2 c ltac:(lia)) as (B1 & B2 & B3).
      rewrite (part_sigma _ m part2 R2 c SH2 Hc).
      assert (D : (nth (fst (locate R2 c)) (part_ids m part2) 0 =? nth j (part_ids m part2) 0)%nat = (fst (locate R2 c) =? j)%nat).
      { apply eq_true_iff_eq. rewrite !Nat.eqb_eq. split; [intros H; apply (ids_inj m part2); auto; lia|intros ->; auto]. }
      rewrite D. rewrite <- B3. reflexivity.
    + rewrite (rsum_blocks _ R2 (fun j' c' => if (j' =? j)%nat then T r (off R2 j' + c')%nat else 0)). apply rsum_ext. intros j' Hj'. rewrite rsum_if. reflexivity.
  - rewrite rsum_blocks. unfold f. rewrite (rsum_single (length R1) i).
    + apply rsum_ext. intros r Hr. rewrite Nat.eqb_refl. rewrite (rsum_single (length R2) j).
      * rewrite Nat.eqb_refl. reflexivity.
      * lia.
      * intros k Hk Hne. destruct (Nat.eqb_spec k j); [contradiction|reflexivity].
    + lia.
    + intros k Hk Hne. destruct (Nat.eqb_spec k i); [contradiction|]. apply rsum_0. auto.
Qed.

(** the conditional gradient answers couplings *)
Lemma cg_couples : forall fuel sym lp M reg K t1 t2,
  (forall k l C1 C2, symmetric_if (sym k l C1 C2) k l C1 C2) -> (forall k l a b Mi, nonneg_vec k a -> nonneg_vec l b -> mass k a = mass l b -> coupling k l a b (lp k l a b Mi)) ->
  couples (cg_solver fuel sym lp M reg K t1 t2).
Proof.
  intros fuel sym lp M reg K t1 t2 HS HL k l C1 C2 a b T d Ha Hb Ma Mb E. unfold cg_solver in E.
  destruct (fused_gw _ _ _ _ _ _ _ _ _ _ _ _ _ _ _ _ _ _) as [s|] eqn:Es; [|discriminate]. inversion E; subst. 
  refine (proj1 (C78_fused_gw fuel k l (fun x => x) 0 SquareLoss (sym k l C1 C2) (M k l) reg C1 C2 a b (lp k l a b) (outer (N:=RNum) a b) K t1 t2 s _ _ _ _)).
  - apply HS.
  - split; [|split].
    + intros i j Hi Hj. apply Rmult_le_pos; [apply Ha|apply Hb]; auto.
    + intros i Hi. unfold row_sum, outer. etransitivity; [apply (rsum_scal l (a i) b)|]. unfold mass in Mb. rewrite Mb. ring.
    + intros j Hj. unfold col_sum, outer. etransitivity; [apply (rsum_scal_r k (b j) a)|]. unfold mass in Ma. rewrite Ma. ring.
  - intros Mi. apply HL; auto. congruence.
  - exact Es.
Qed.

(** representants *)
Section Reps.
Context {N : NumOps}.
Variables (cluster : string -> nat -> (nat -> nat -> N) -> nat -> (nat -> nat)) (pick : string -> (nat -> nat -> N) -> nat -> list nat -> nat).
Lemma ids_arange : forall n, part_ids n (fun i => i) = seq 0 n.
Proof.
  intros. assert (P : Permutation (part_ids n (fun i => i)) (seq 0 n)).
  { apply NoDup_Permutation; [apply NoDup_filter, seq_NoDup|apply seq_NoDup|]. intros k. rewrite in_ids, in_seq. split; [intros (i & H & <-); lia|intros H; exists k; lia]. }
  apply nth_ext with (d := 0%nat) (d' := 0%nat); [apply Permutation_length; auto|]. intros i Hi. rewrite (Permutation_length P), seq_length in Hi.
  rewrite seq_nth by auto. cbn [Nat.add]. apply (incr_id n (fun i => nth i (part_ids n (fun i => i)) 0%nat)); auto.
  - intros j Hj. assert (In (nth j (part_ids n (fun i => i)) 0%nat) (seq 0 n)) as X.
    { eapply Permutation_in; [exact P|]. apply nth_In. rewrite (Permutation_length P), seq_length. auto. } apply in_seq in X. lia.
  - intros a b Hab Hb. apply (ssorted_nth _ lt); auto; [apply ids_sorted|]. rewrite (Permutation_length P), seq_length. auto.
Qed.
Lemma ids_bound : forall n part k, (forall i, (i < n)%nat -> (part i < k)%nat) -> (length (part_ids n part) <= k)%nat.
Proof.
  intros n part k H. rewrite <- (seq_length k 0). apply NoDup_incl_length; [apply NoDup_filter, seq_NoDup|].
  intros x Hx. apply in_ids in Hx. destruct Hx as (i & Hi & <-). apply in_seq. specialize (H i Hi). lia.
Qed.
Lemma reps_ok : forall n C C' npart pm has_F alpha part rm rep,
  (forall rm C id l, l <> [] -> In (pick rm C id l) l) ->
  (forall i, (i < n)%nat -> (cluster pm n C npart i < npart)%nat) ->
  get_graph_partition (N:=N) cluster n C npart pm has_F alpha = QOk part -> get_graph_representants (N:=N) pick n C' part rm = QOk rep ->
  length rep = length (part_ids n part) /\ forall i, (i < length (part_ids n part))%nat -> (nth i rep 0 < n)%nat /\ part (nth i rep 0%nat) = nth i (part_ids n part) 0%nat.
Proof.
  intros n C C' npart pm has_F alpha part rm rep HP HC E1 E2.
  assert (CASE : part = (fun i => i) \/ (length (part_ids n part) < n)%nat).
  { unfold get_graph_partition in E1. destruct (_ && _)%bool; [discriminate|]. destruct (Nat.leb_spec n npart); [inversion E1; auto|].
    right. destruct (Nat.eqb_spec npart 1).
    - inversion E1; subst part. assert (length (part_ids n (fun _ => 0%nat)) <= 1)%nat by (apply ids_bound; lia). lia.
    - destruct (_ || _ || _ || _)%bool; [|discriminate]. inversion E1; subst part. assert (length (part_ids n (cluster pm n C npart)) <= npart)%nat by (apply ids_bound; auto). lia. }
  unfold get_graph_representants in E2. destruct CASE as [->|L].
  - rewrite ids_arange, seq_length, Nat.eqb_refl in *. inversion E2; subst rep. split; [apply seq_length|]. intros i Hi. rewrite seq_nth by auto. split; [lia|reflexivity].
  - destruct (Nat.eqb_spec (length (part_ids n part)) n); [lia|]. destruct (_ || _)%bool; [|discriminate]. inversion E2; subst rep. clear E2.
    set (ids := part_ids n part) in *. assert (LC : length (combine (seq 0 (length ids)) ids) = length ids) by (rewrite combine_length, seq_length; lia).
    split; [rewrite map_length; auto|]. intros i Hi.
    set (g := fun x : nat * nat => pick rm C' (fst x) (where_ n part (snd x))).
    assert (E : nth i (map g (combine (seq 0 (length ids)) ids)) 0%nat = g (i, nth i ids 0%nat)).
    { rewrite (nth_indep _ _ (g (0%nat, 0%nat))) by (rewrite map_length; lia). rewrite map_nth. f_equal. rewrite combine_nth by apply seq_length. rewrite seq_nth by auto. reflexivity. }
    rewrite E. unfold g; cbn [fst snd].
    assert (K : In (nth i ids 0%nat) ids) by (apply nth_In; auto). apply in_ids in K. destruct K as (x & Hx & Ex).
    apply in_where. apply HP. intros Z. assert (X : In x (where_ n part (nth i ids 0%nat))) by (apply in_where; auto). rewrite Z in X. destruct X.
Qed.
End Reps.
