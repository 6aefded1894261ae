From Coq Require Import List Arith Bool Reals Lra Lia.
From Verif Require Import Num Sums Spec Duals_model Duals_proofs Duals_final NS_model NS_emd_model NS_bip NS_dense Emd_model Emd_proofs.
Import ListNotations.
Local Open Scope R_scope.

(** the problem actually handed to the solver: points with mass *)
Section Lift.
Variables (n m : nat) (a b : vec) (M : mat).
Hypothesis Ha : nonneg_vec n a.
Hypothesis Hb : nonneg_vec m b.
Hypothesis Hmass : mass n a = mass m b.
Hypothesis Hpos : 0 < mass n a.
Let ra := fun i => negb (Reqb (a i) 0).
Let rb := fun j => negb (Reqb (b j) 0).
Let r := flatnonzero n ra.
Let c := flatnonzero m rb.

Lemma r_in : forall k, (k < length r)%nat -> (nth k r 0 < n)%nat /\ a (nth k r 0%nat) <> 0.
Proof.
  intros k Hk. assert (H : In (nth k r 0%nat) r) by (apply nth_In; auto). apply flatnonzero_In in H as [H1 H2].
  split; auto. unfold ra in H2. apply negb_true_iff, Reqb_false in H2. auto.
Qed.
Lemma c_in : forall k, (k < length c)%nat -> (nth k c 0 < m)%nat /\ b (nth k c 0%nat) <> 0.
Proof.
  intros k Hk. assert (H : In (nth k c 0%nat) c) by (apply nth_In; auto). apply flatnonzero_In in H as [H1 H2].
  split; auto. unfold rb in H2. apply negb_true_iff, Reqb_false in H2. auto.
Qed.
Lemma r_pos : (0 < length r)%nat.
Proof.
  assert (Mr := active_mass_r n a). fold ra r in Mr. destruct r as [|x l] eqn:E; [|cbn; lia].
  unfold mass in *. cbn in Mr. lra.
Qed.
Lemma c_pos : (0 < length c)%nat.
Proof.
  assert (Mr := active_mass_c m b). fold rb c in Mr. destruct c as [|x l] eqn:E; [|cbn; lia].
  unfold mass in *. cbn in Mr. lra.
Qed.
Lemma filter_len : forall (p : nat -> bool) l, (length (filter p l) <= length l)%nat.
Proof. induction l as [|x l IH]; cbn; auto. destruct (p x); cbn; lia. Qed.
Lemma r_len : (length r <= n)%nat.
Proof. unfold r, flatnonzero. eapply Nat.le_trans; [apply filter_len|]. rewrite seq_length. auto. Qed.
Lemma c_len : (length c <= m)%nat.
Proof. unfold c, flatnonzero. eapply Nat.le_trans; [apply filter_len|]. rewrite seq_length. auto. Qed.
Lemma nth_flat : forall k p x, (forall i, (i < k)%nat -> p i = true) -> (x < k)%nat -> nth x (flatnonzero k p) 0%nat = x.
Proof.
  intros k p x Hp Hx. unfold flatnonzero. rewrite filter_all. { rewrite seq_nth by auto. lia. }
  apply forallb_forall. intros y Hy. apply in_seq in Hy. apply Hp. lia.
Qed.
Lemma len_flat : forall k p, (forall i, (i < k)%nat -> p i = true) -> length (flatnonzero k p) = k.
Proof.
  intros k p Hp. unfold flatnonzero. rewrite filter_all. { apply seq_length. }
  apply forallb_forall. intros y Hy. apply in_seq in Hy. apply Hp. lia.
Qed.

Record lifted (o o' : @emd_out RNum) (a' b' : vec) (M' : mat) : Prop := {
  l_ty : eo_type o' = eo_type o;
  l_cost : eo_cost o' = eo_cost o;
  l_a : forall k, (k < length r)%nat -> a' k = a (nth k r 0%nat);
  l_b : forall k, (k < length c)%nat -> b' k = b (nth k c 0%nat);
  l_M : forall k l, (k < length r)%nat -> (l < length c)%nat -> M' k l = M (nth k r 0%nat) (nth l c 0%nat);
  l_G : forall i j, (i < n)%nat -> (j < m)%nat -> eo_G o' i j = infl n m a b (eo_G o) i j;
  l_feas : forall d, 0 <= d ->
    (forall k l, (k < length r)%nat -> (l < length c)%nat -> eo_alpha o k + eo_beta o l <= M' k l + d) ->
    forall i j, (i < n)%nat -> (j < m)%nat -> eo_alpha o' i + eo_beta o' j <= M i j + d;
  l_dual : forall k l, (k < length r)%nat -> (l < length c)%nat ->
    eo_alpha o' (nth k r 0%nat) + eo_beta o' (nth l c 0%nat) = eo_alpha o k + eo_beta o l
}.

Lemma maybe_center_sum : forall cd u v u1 v1, maybe_center (N:=RNum) cd n m u v a b = (u1, v1) ->
  (forall i j, u1 i + v1 j = u i + v j) /\ (cd = true -> dot n u1 a = dot m v1 b).
Proof.
  intros cd u v u1 v1 E. unfold maybe_center in E. destruct cd.
  - apply center_spec in E; [|rewrite <- Hmass; lra]. tauto.
  - injection E as <- <-. split; auto. discriminate.
Qed.
End Lift.

(** emd = reduction, wrapper on the reduced problem, lift *)
Lemma emd_unfold : forall fuel it cd n m a b0 M o',
  nonneg_vec n a -> nonneg_vec m b0 -> 0 < mass n a -> 0 < mass m b0 ->
  emd (N:=RNum) fuel it cd n m a b0 M = Ret o' ->
  let b := rescale n m a b0 in
  let r := flatnonzero n (fun i => negb (Reqb (a i) 0)) in
  let c := flatnonzero m (fun j => negb (Reqb (b j) 0)) in
  nonneg_vec m b /\ mass n a = mass m b /\
  exists o a' b' M', emd_wrap (N:=RNum) fuel (length r) (length c) a' b' M' it = Ret o /\
    lifted n m a b M o o' a' b' M' /\ (cd = true -> dot n (eo_alpha o') a = dot m (eo_beta o') b).
Proof.
  intros fuel it cd n m a b0 M o' Ha Hb0 Hma Hmb E b r c.
  assert (Hb : nonneg_vec m b).
  { intros j Hj. unfold b, rescale. apply Rle_mult_inv_pos; auto. apply Rmult_le_pos; auto; lra. }
  assert (Hm : mass n a = mass m b).
  { unfold b, rescale. unfold mass in *. rewrite rsum_div, rsum_scal_r. field. lra. }
  split; auto. split; auto.
  assert (Eb : rescale_b (N:=RNum) n m a b0 = b). { unfold rescale_b. rewrite !nsum_R. reflexivity. }
  unfold emd in E. cbn zeta in E. rewrite Eb in E. clear Eb.
  change (@neqb RNum) with Reqb in E. change (@n0 RNum) with 0 in E.
  unfold compute_active_subset in E. cbn zeta in E. rewrite negb_involutive in E.
  set (ra := fun i => negb (Reqb (a i) 0)) in *. set (rb := fun j => negb (Reqb (b j) 0)) in *.
  assert (Nn : (0 < n)%nat) by (destruct n; [unfold mass in Hma; simpl in Hma; lra|lia]).
  assert (Nm : (0 < m)%nat) by (destruct m; [unfold mass in Hmb; simpl in Hmb; lra|lia]).
  destruct (masks_full n ra && masks_full m rb)%bool eqn:Em; cbn [negb] in E.
  - apply andb_true_iff in Em as [E1 E2]. unfold masks_full in E1, E2. rewrite forallb_forall in E1, E2.
    assert (F1 : forall i, (i < n)%nat -> ra i = true) by (intros; apply E1, in_seq; lia).
    assert (F2 : forall i, (i < m)%nat -> rb i = true) by (intros; apply E2, in_seq; lia).
    rewrite !seq_length in E. destruct (@emd_wrap RNum fuel n m a b M it) as [o| |] eqn:EW; try discriminate.
    cbn [bind] in E. unfold inflate in E. cbn [negb] in E.
    destruct (maybe_center (N:=RNum) cd n m (eo_alpha o) (eo_beta o) a b) as [u1 v1] eqn:EC.
    unfold maybe_estimate in E. injection E as <-. apply maybe_center_sum in EC as [C1 C2]; auto.
    exists o, a, b, M. unfold r, c. rewrite !len_flat by auto. split; [auto|]. split; [|exact C2].
    constructor; cbn [eo_type eo_cost eo_G eo_alpha eo_beta]; fold ra rb; rewrite ?len_flat by auto; auto.
    + intros k Hk. rewrite nth_flat; auto.
    + intros k Hk. rewrite nth_flat; auto.
    + intros k l Hk Hl. rewrite !nth_flat; auto.
    + intros i j Hi Hj. rewrite <- (nth_flat n ra i), <- (nth_flat m rb j) at 2; auto.
      symmetry. apply (infl_nth n m a b); fold ra rb; rewrite len_flat; auto.
    + intros d Hd H i j Hi Hj. rewrite C1. auto.
    + intros k l Hk Hl. rewrite C1, !nth_flat; auto.
  - destruct (@emd_wrap RNum fuel (length (flatnonzero n ra)) (length (flatnonzero m rb)) (fun k => a (nth k (flatnonzero n ra) 0%nat)) (fun l => b (nth l (flatnonzero m rb) 0%nat))
       (fun k l => M (nth k (flatnonzero n ra) 0%nat) (nth l (flatnonzero m rb) 0%nat)) it) as [o| |] eqn:EW; try discriminate.
    cbn [bind] in E. fold r c in E.
    assert (EI : inflate (N:=RNum) true r c (eo_G o) (eo_alpha o) (eo_beta o) = (infl n m a b (eo_G o), inflv r (eo_alpha o), inflv c (eo_beta o))) by reflexivity.
    rewrite EI in E.
    destruct (maybe_center (N:=RNum) cd n m (inflv r (eo_alpha o)) (inflv c (eo_beta o)) a b) as [u1 v1] eqn:EC.
    unfold maybe_estimate in E.
    destruct (estimate_dual_null_weights (N:=RNum) n m u1 v1 a b M) as [u2 v2] eqn:EE.
    injection E as <-. apply maybe_center_sum in EC as [C1 C2]; auto.
    exists o. do 3 eexists. split; [exact EW|].
    assert (Big : exists d0, 0 <= d0 /\ forall i j, (i < n)%nat -> (j < m)%nat -> a i <> 0 -> b j <> 0 -> u1 i + v1 j <= M i j + d0).
    { set (d0 := Rmax 0 (@nmaxk RNum (n - 1) (fun i => @nmaxk RNum (m - 1) (fun j => u1 i + v1 j - M i j)))).
      exists d0. split; [apply Rmax_l|]. intros i j Hi Hj _ _.
      assert (u1 i + v1 j - M i j <= d0); [|lra].
      eapply Rle_trans; [|apply Rmax_r].
      eapply Rle_trans; [|apply (nmaxk_ge (n - 1) (fun i => @nmaxk RNum (m - 1) (fun j => u1 i + v1 j - M i j)) i); lia].
      apply (nmaxk_ge (m - 1) (fun j => u1 i + v1 j - M i j) j); lia. }
    destruct Big as (d0 & Hd0 & Big).
    assert (EE0 := EE). apply (estimate_spec_eps n m u1 v1 a b M u2 v2 d0) in EE0; auto; try lra.
    destruct EE0 as (_ & _ & D3 & D4).
    assert (Iv : forall (p : nat -> bool) k q (x : vec), (q < length (flatnonzero k p))%nat -> inflv (flatnonzero k p) x (nth q (flatnonzero k p) 0%nat) = x q).
    { intros p k q x Hq. unfold inflv. rewrite index_of_nth; auto. apply flatnonzero_NoDup. }
    split; [|auto].
    constructor; cbn [eo_type eo_cost eo_G eo_alpha eo_beta]; auto.
    + intros d Hd H i j Hi Hj.
      apply (estimate_spec_eps n m u1 v1 a b M u2 v2 d) in EE; auto; try lra.
      { apply EE; auto. }
      intros x y Hx Hy Zx Zy. rewrite C1.
      destruct (index_flat n ra x Hx) as [[K _]|[_ (k & Ek & Hk & Enk)]].
      { unfold ra in K. apply negb_false_iff, Reqb_true in K. contradiction. }
      destruct (index_flat m rb y Hy) as [[K _]|[_ (l & El & Hl & Enl)]].
      { unfold rb in K. apply negb_false_iff, Reqb_true in K. contradiction. }
      rewrite <- Enk, <- Enl. unfold r, c. rewrite !Iv by auto. apply (H k l); auto.
    + intros k l Hk Hl. rewrite D4.
      * rewrite C1. unfold r, c. fold ra rb. rewrite !Iv by auto. auto.
      * apply r_in; auto.
      * apply c_in; auto.
Qed.

Lemma coupling_ext : forall n m a a' b b' G G', (forall i, (i < n)%nat -> a i = a' i) -> (forall j, (j < m)%nat -> b j = b' j) ->
  (forall i j, (i < n)%nat -> (j < m)%nat -> G i j = G' i j) -> coupling n m a b G -> coupling n m a' b' G'.
Proof.
  intros n m a a' b b' G G' Ea Eb EG (H1 & H2 & H3). split; [|split].
  - intros i j Hi Hj. rewrite <- EG; auto.
  - intros i Hi. rewrite <- Ea, <- H2 by auto. apply rsum_ext. intros; symmetry; auto.
  - intros i Hi. rewrite <- Eb, <- H3 by auto. apply rsum_ext. intros; symmetry; auto.
Qed.
Lemma subcoupling_ext : forall n m a a' b b' G G', (forall i, (i < n)%nat -> a i = a' i) -> (forall j, (j < m)%nat -> b j = b' j) ->
  (forall i j, (i < n)%nat -> (j < m)%nat -> G i j = G' i j) -> subcoupling n m a b G -> subcoupling n m a' b' G'.
Proof.
  intros n m a a' b b' G G' Ea Eb EG (H1 & H2 & H3). split; [|split].
  - intros i j Hi Hj. rewrite <- EG; auto.
  - intros i Hi. rewrite <- Ea by auto. eapply Rle_trans; [|apply H2; auto]. right. apply rsum_ext. intros; symmetry; auto.
  - intros i Hi. rewrite <- Eb by auto. eapply Rle_trans; [|apply H3; auto]. right. apply rsum_ext. intros; symmetry; auto.
Qed.
Lemma cost_ext : forall n m M M' G G', (forall i j, (i < n)%nat -> (j < m)%nat -> M i j = M' i j) ->
  (forall i j, (i < n)%nat -> (j < m)%nat -> G i j = G' i j) -> cost n m M G = cost n m M' G'.
Proof. intros. apply rsum_ext; intros; apply rsum_ext; intros. rewrite H, H0; auto. Qed.

Lemma lift_ok : forall n m a b M it o o' a' b' M', nonneg_vec n a -> nonneg_vec m b -> mass n a = mass m b -> 0 < mass n a ->
  let r := flatnonzero n (fun i => negb (Reqb (a i) 0)) in
  let c := flatnonzero m (fun j => negb (Reqb (b j) 0)) in
  wrap_ok (length r) (length c) a' b' M' it o -> lifted n m a b M o o' a' b' M' -> wrap_ok n m a b M it o'.
Proof.
  intros n m a b M it o o' a' b' M' Ha Hb Hm Hpos r c W L.
  pose proof (r_in n a) as RI. fold r in RI. pose proof (c_in m b) as CI. fold c in CI.
  pose proof (r_len n a) as RL. fold r in RL. pose proof (c_len m b) as CL. fold c in CL.
  assert (Idx : forall i j, (i < n)%nat -> (j < m)%nat -> eo_G o' i j <> 0 ->
     exists k l, (k < length r)%nat /\ (l < length c)%nat /\ nth k r 0%nat = i /\ nth l c 0%nat = j /\ eo_G o' i j = eo_G o k l).
  { intros i j Hi Hj Hp. rewrite (l_G _ _ _ _ _ _ _ _ _ _ L) in Hp |- * by auto. unfold infl in *.
    fold r c in Hp |- *. destruct (index_of i r) as [k|] eqn:Ek; [|congruence]. destruct (index_of j c) as [l|] eqn:El; [|congruence].
    apply index_of_some in Ek as [Ek1 Ek2]. apply index_of_some in El as [El1 El2]. exists k, l. auto. }
  assert (Ben : benign n m a b M -> benign (length r) (length c) a' b' M').
  { intros [H|(C & HC & HT & i & j & Hi & Hj & Za & Zb & HM)].
    - left. intros k l Hk Hl. rewrite (l_M _ _ _ _ _ _ _ _ _ _ L) by auto. apply H; [apply RI|apply CI]; auto.
    - right. assert (C0 : 0 <= C) by (eapply Rle_trans; [apply Rabs_pos|apply (HC i j Hi Hj)]).
      exists C. split; [|split].
      + intros k l Hk Hl. rewrite (l_M _ _ _ _ _ _ _ _ _ _ L) by auto. apply HC; [apply RI|apply CI]; auto.
      + eapply Rle_lt_trans; [apply (ns_tol_mono n m)|exact HT]; auto.
      + destruct (index_flat n (fun i => negb (Reqb (a i) 0)) i Hi) as [[K _]|[_ (k & Ek & Hk & Enk)]].
        { apply negb_false_iff, Reqb_true in K. contradiction. }
        destruct (index_flat m (fun j => negb (Reqb (b j) 0)) j Hj) as [[K _]|[_ (l & El & Hl & Enl)]].
        { apply negb_false_iff, Reqb_true in K. contradiction. }
        fold r in Enk, Hk. fold c in Enl, Hl. exists k, l.
        rewrite (l_M _ _ _ _ _ _ _ _ _ _ L), (l_a _ _ _ _ _ _ _ _ _ _ L), (l_b _ _ _ _ _ _ _ _ _ _ L) by auto.
        fold r c. rewrite Enk, Enl. auto. }
  pose proof (l_ty _ _ _ _ _ _ _ _ _ _ L) as LT.
  assert (EA : forall k, (k < length r)%nat -> a' k = a (nth k r 0%nat)) by apply (l_a _ _ _ _ _ _ _ _ _ _ L).
  assert (EB : forall k, (k < length c)%nat -> b' k = b (nth k c 0%nat)) by apply (l_b _ _ _ _ _ _ _ _ _ _ L).
  assert (EG : forall i j, (i < n)%nat -> (j < m)%nat -> infl n m a b (eo_G o) i j = eo_G o' i j) by (intros; symmetry; apply (l_G _ _ _ _ _ _ _ _ _ _ L); auto).
  constructor; rewrite ?LT.
  - apply (w_ty _ _ _ _ _ _ _ W).
  - intros Ht. apply (subcoupling_ext n m a a b b (infl n m a b (eo_G o))); auto.
    apply infl_subcoupling. eapply subcoupling_ext; [exact EA|exact EB|reflexivity|]. apply (w_sub _ _ _ _ _ _ _ W); auto.
  - intros Ht. rewrite (l_cost _ _ _ _ _ _ _ _ _ _ L), (w_cost _ _ _ _ _ _ _ W Ht).
    rewrite <- (cost_ext n m M M _ _ (fun _ _ _ _ => eq_refl) EG), infl_cost. apply cost_ext; auto.
    apply (l_M _ _ _ _ _ _ _ _ _ _ L).
  - intros Ht i j Hi Hj Hp. destruct (Idx i j Hi Hj) as (k & l & Hk & Hl & <- & <- & E); [lra|].
    unfold r, c. rewrite (l_dual _ _ _ _ _ _ _ _ _ _ L) by auto. rewrite (w_tight _ _ _ _ _ _ _ W Ht k l Hk Hl) by lra.
    apply (l_M _ _ _ _ _ _ _ _ _ _ L); auto.
  - intros Ht. destruct (w_near _ _ _ _ _ _ _ W Ht) as [N1 N2]. split.
    + intros i Hi. assert (E : row_sum m (eo_G o') i = row_sum m (infl n m a b (eo_G o)) i) by (apply rsum_ext; intros; symmetry; auto).
      rewrite E. destruct (index_flat n (fun i => negb (Reqb (a i) 0)) i Hi) as [[K F]|[_ (k & Ek & Hk & <-)]].
      * assert (K' := K). apply negb_false_iff, Reqb_true in K'. rewrite K'. unfold row_sum. rewrite rsum_0; [lra|].
        intros; apply infl_zero_row; auto.
      * rewrite infl_row by auto. fold r in Hk |- *. rewrite <- EA by auto. apply N1; auto.
    + intros i Hi. assert (E : col_sum n (eo_G o') i = col_sum n (infl n m a b (eo_G o)) i) by (apply rsum_ext; intros; symmetry; auto).
      rewrite E. destruct (index_flat m (fun i => negb (Reqb (b i) 0)) i Hi) as [[K F]|[_ (k & Ek & Hk & <-)]].
      * assert (K' := K). apply negb_false_iff, Reqb_true in K'. rewrite K'. unfold col_sum. rewrite rsum_0; [lra|].
        intros; apply infl_zero_col; auto.
      * rewrite infl_col by auto. fold c in Hk |- *. rewrite <- EB by auto. apply N2; auto.
  - intros Ht C HC.
    assert (Nn : (0 < n)%nat) by (pose proof (r_pos n a Hpos); fold r in H; lia).
    assert (Nm : (0 < m)%nat) by (destruct m; [unfold mass in Hm, Hpos; cbn in Hm; lra|lia]).
    assert (C0 : 0 <= C) by (eapply Rle_trans; [apply Rabs_pos|apply (HC 0%nat 0%nat Nn Nm)]).
    apply (l_feas _ _ _ _ _ _ _ _ _ _ L (ns_tol n m C)); [apply ns_tol_pos; auto|].
    intros k l Hk Hl. eapply Rle_trans; [apply (w_cert _ _ _ _ _ _ _ W Ht C)|]; auto.
    + intros x y Hx Hy. rewrite (l_M _ _ _ _ _ _ _ _ _ _ L) by auto. apply HC; [apply RI|apply CI]; auto.
    + apply Rplus_le_compat_l. apply ns_tol_mono; auto.
  - intros Ht HB. apply (coupling_ext n m a a b b (infl n m a b (eo_G o))); auto.
    apply infl_coupling. eapply coupling_ext; [exact EA|exact EB|reflexivity|]. apply (w_exact _ _ _ _ _ _ _ W); auto.
  - intros HB. apply (w_feas _ _ _ _ _ _ _ W); auto.
  - intros K ND HK.
    set (h := fun p : nat * nat => (match index_of (fst p) r with Some k => k | None => 0%nat end, match index_of (snd p) c with Some l => l | None => 0%nat end)).
    assert (Hh : forall p, In p K -> nth (fst (h p)) r 0%nat = fst p /\ nth (snd (h p)) c 0%nat = snd p /\
       (fst (h p) < length r)%nat /\ (snd (h p) < length c)%nat /\ 0 < eo_G o (fst (h p)) (snd (h p))).
    { intros p Hp. destruct (HK p Hp) as (P1 & P2 & P3). destruct (Idx (fst p) (snd p) P1 P2) as (k & l & Hk & Hl & E1 & E2 & E3); [lra|].
      unfold h. rewrite <- E1, <- E2. rewrite !index_of_nth by (auto; apply flatnonzero_NoDup). cbn [fst snd]. rewrite E3 in P3. auto. }
    rewrite <- (map_length h K). eapply Nat.le_trans; [apply (w_few _ _ _ _ _ _ _ W)|lia].
    + clear HK. induction ND as [|p K Hnin ND IH]; cbn [map]; constructor.
      * intros Hin. apply in_map_iff in Hin as (q & E & Hq). apply Hnin.
        destruct (Hh p) as (A1 & A2 & _); [cbn; auto|]. destruct (Hh q) as (B1 & B2 & _); [cbn; auto|].
        rewrite E in B1, B2. destruct p as [p1 p2], q as [q1 q2]. cbn [fst snd] in *. congruence.
      * apply IH. intros; apply Hh; cbn; auto.
    + intros q Hq. apply in_map_iff in Hq as (p & <- & Hp). destruct (Hh p Hp) as (_ & _ & A & B & C). auto.
Qed.

Theorem emd_ok : forall fuel it cd n m a b0 M o,
  nonneg_vec n a -> nonneg_vec m b0 -> 0 < mass n a -> 0 < mass m b0 ->
  emd (N:=RNum) fuel it cd n m a b0 M = Ret o ->
  let b := rescale n m a b0 in
  wrap_ok n m a b M it o /\ (cd = true -> dot n (eo_alpha o) a = dot m (eo_beta o) b).
Proof.
  intros fuel it cd n m a b0 M o' Ha Hb0 Hma Hmb E b.
  destruct (emd_unfold fuel it cd n m a b0 M o' Ha Hb0 Hma Hmb E) as (Hb & Hm & o & a' & b' & M' & EW & L & HC). fold b in Hb, Hm, L, HC.
  split; auto. eapply lift_ok; eauto. eapply emd_wrap_ok; [| | | | |exact EW].
  - apply (r_pos n a); auto.
  - apply (c_pos n m a b); auto.
  - intros k Hk. rewrite (l_a _ _ _ _ _ _ _ _ _ _ L) by auto. destruct (r_in n a k Hk) as [A B]. specialize (Ha _ A). lra.
  - intros k Hk. rewrite (l_b _ _ _ _ _ _ _ _ _ _ L) by auto. destruct (c_in m b k Hk) as [A B]. specialize (Hb _ A). lra.
  - pose proof (active_mass_r n a) as A. pose proof (active_mass_c m b) as B. unfold mass in *.
    rewrite (rsum_ext _ a' (fun k => a (nth k (flatnonzero n (fun i => negb (Reqb (a i) 0))) 0%nat))) by apply (l_a _ _ _ _ _ _ _ _ _ _ L).
    rewrite (rsum_ext _ b' (fun k => b (nth k (flatnonzero m (fun i => negb (Reqb (b i) 0))) 0%nat))) by apply (l_b _ _ _ _ _ _ _ _ _ _ L).
    rewrite A, B. auto.
Qed.

Lemma emd_exists : forall (P : ptype -> Prop) fuel it cd n m a b0 M,
  nonneg_vec n a -> nonneg_vec m b0 -> 0 < mass n a -> 0 < mass m b0 ->
  (forall n' m' a' b' M', (0 < n')%nat -> (0 < m')%nat -> (n' <= n)%nat -> (m' <= m)%nat -> pos_vec n' a' -> pos_vec m' b' ->
     mass n' a' = mass m' b' -> exists o, @emd_wrap RNum fuel n' m' a' b' M' it = Ret o /\ P (eo_type o)) ->
  exists o, emd (N:=RNum) fuel it cd n m a b0 M = Ret o /\ P (eo_type o).
Proof.
  intros P fuel it cd n m a b0 M Ha Hb0 Hma Hmb HW. set (b := rescale n m a b0).
  assert (Hb : nonneg_vec m b).
  { intros j Hj. unfold b, rescale. apply Rle_mult_inv_pos; auto. apply Rmult_le_pos; auto; lra. }
  assert (Hm : mass n a = mass m b).
  { unfold b, rescale. unfold mass in *. rewrite rsum_div, rsum_scal_r. field. lra. }
  assert (Eb : rescale_b (N:=RNum) n m a b0 = b). { unfold rescale_b. rewrite !nsum_R. reflexivity. }
  unfold emd. cbn zeta. rewrite Eb. clear Eb.
  unfold compute_active_subset. cbn zeta. rewrite negb_involutive.
  change (@neqb RNum) with Reqb. change (@n0 RNum) with 0.
  set (ra := fun i => negb (Reqb (a i) 0)) in *. set (rb := fun j => negb (Reqb (b j) 0)) in *.
  assert (Nn : (0 < n)%nat) by (destruct n; [unfold mass in Hma; simpl in Hma; lra|lia]).
  assert (Nm : (0 < m)%nat) by (destruct m; [unfold mass in Hmb; simpl in Hmb; lra|lia]).
  destruct (masks_full n ra && masks_full m rb)%bool eqn:Em; cbn [negb].
  - apply andb_true_iff in Em as [E1 E2]. unfold masks_full in E1, E2. rewrite forallb_forall in E1, E2.
    rewrite !seq_length. destruct (HW n m a b M Nn Nm) as (o & EW & HP); auto.
    { intros i Hi. assert (K : ra i = true) by (apply E1, in_seq; lia). unfold ra in K.
      apply negb_true_iff, Reqb_false in K. specialize (Ha i Hi). lra. }
    { intros i Hi. assert (K : rb i = true) by (apply E2, in_seq; lia). unfold rb in K.
      apply negb_true_iff, Reqb_false in K. specialize (Hb i Hi). lra. }
    rewrite EW. cbn [bind]. destruct (inflate _ _ _ _ _ _) as [[? ?] ?]. destruct (maybe_center _ _ _ _ _ _ _). destruct (maybe_estimate _ _ _ _ _ _ _ _). eexists; split; [reflexivity|exact HP].
  - destruct (HW (length (flatnonzero n ra)) (length (flatnonzero m rb)) (fun k => a (nth k (flatnonzero n ra) 0%nat)) (fun l => b (nth l (flatnonzero m rb) 0%nat))
       (fun k l => M (nth k (flatnonzero n ra) 0%nat) (nth l (flatnonzero m rb) 0%nat))) as (o & EW & HP); auto.
    { apply (r_pos n a); auto. }
    { apply (c_pos n m a b); auto. }
    { apply (r_len n a). }
    { apply (c_len m b). }
    { intros k Hk. destruct (r_in n a k Hk) as [A B]. specialize (Ha _ A). unfold ra. lra. }
    { intros k Hk. destruct (c_in m b k Hk) as [A B]. specialize (Hb _ A). unfold rb. lra. }
    { pose proof (active_mass_r n a) as A. pose proof (active_mass_c m b) as B. unfold ra, rb. rewrite A, B. auto. }
    rewrite EW. cbn [bind]. destruct (inflate _ _ _ _ _ _) as [[? ?] ?]. destruct (maybe_center _ _ _ _ _ _ _). destruct (maybe_estimate _ _ _ _ _ _ _ _). eexists; split; [reflexivity|exact HP].
Qed.

Theorem emd_answers : forall fuel it cd n m a b0 M,
  nonneg_vec n a -> nonneg_vec m b0 -> 0 < mass n a -> 0 < mass m b0 -> (0 < it)%nat -> (it <= fuel)%nat ->
  exists o, emd (N:=RNum) fuel it cd n m a b0 M = Ret o.
Proof.
  intros fuel it cd n m a b0 M Ha Hb0 Hma Hmb H1 H2.
  destruct (emd_exists (fun _ => True) fuel it cd n m a b0 M) as (o & E & _); eauto.
  intros n' m' a' b' M' Hn Hm _ _ Pa Pb Hab. destruct (dense_answers n' m' a' b' M' Hn Hm Pa Pb) with (fuel := fuel) (it := it) as (o & E); eauto.
Qed.

Theorem emd_finishes : forall fuel it cd n m a b0 M,
  nonneg_vec n a -> nonneg_vec m b0 -> 0 < mass n a -> 0 < mass m b0 ->
  (2 ^ (n * m + (n + m)) < fuel)%nat -> (it = 0 \/ 2 ^ (n * m + (n + m)) < it)%nat ->
  exists o, emd (N:=RNum) fuel it cd n m a b0 M = Ret o /\ eo_type o <> NS_model.MAX_ITER_REACHED.
Proof.
  intros fuel it cd n m a b0 M Ha Hb0 Hma Hmb H1 H2.
  apply (emd_exists (fun ty => ty <> NS_model.MAX_ITER_REACHED)); auto.
  intros n' m' a' b' M' Hn Hm Ln Lm Pa Pb Hab.
  assert (L : (2 ^ (n' * m' + (n' + m')) <= 2 ^ (n * m + (n + m)))%nat).
  { apply Nat.pow_le_mono_r; [lia|]. assert (n' * m' <= n * m)%nat by (apply Nat.mul_le_mono; auto). lia. }
  apply dense_finishes; auto; lia.
Qed.

(** consequences *)
Lemma certificate_eps : forall n m a b M G u v d, coupling n m a b G -> 0 <= d ->
  (forall i j, (i < n)%nat -> (j < m)%nat -> u i + v j <= M i j + d) ->
  (forall i j, (i < n)%nat -> (j < m)%nat -> 0 < G i j -> u i + v j = M i j) ->
  cost n m M G = dual_obj n m a b u v /\
  forall G', coupling n m a b G' -> cost n m M G <= cost n m M G' + d * mass n a.
Proof.
  intros n m a b M G u v d HG Hd Hf Ht.
  assert (E : cost n m M G = dual_obj n m a b u v).
  { rewrite <- (potentials_cost n m a b G) by auto. apply rsum_ext; intros i Hi. apply rsum_ext; intros j Hj.
    destruct HG as (H1 & _ & _). destruct (Rle_lt_or_eq_dec 0 (G i j) (H1 i j Hi Hj)) as [Hp|Hz].
    - rewrite Ht by auto. auto.
    - rewrite <- Hz. ring. }
  split; auto. intros G' HG'. rewrite E. rewrite <- (potentials_cost n m a b G') by auto.
  replace (d * mass n a) with (cost n m (fun _ _ => d) G').
  - unfold cost. rewrite <- rsum_plus. apply rsum_le; intros i Hi. rewrite <- rsum_plus. apply rsum_le; intros j Hj.
    rewrite <- Rmult_plus_distr_r. apply Rmult_le_compat_r; auto. apply HG'; auto.
  - destruct HG' as (_ & H2 & _). unfold cost, mass. rewrite <- rsum_scal. apply rsum_ext. intros i Hi. rewrite rsum_scal. f_equal. apply H2; auto.
Qed.
