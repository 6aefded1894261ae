(** Existence of the exact Sinkhorn scaling and convergence of almost-converged scalings to it. *)
From Coq Require Import List Arith Bool Reals Lra Lia ClassicalChoice.
From Verif Require Import Num Sums Spec Duals_proofs Entropy Exist Sinkhorn_model Sinkhorn_proofs Sinkhorn_more P_Sinkhorn.
Import ListNotations.
Local Open Scope R_scope.

(** every entrywise bounded sequence of nonnegative matrices has a convergent subsequence *)
Lemma mat_compact : forall n m (T : nat -> mat) B, (forall k i j, (i < n)%nat -> (j < m)%nat -> 0 <= T k i j <= B) ->
  exists f L, increasing_idx f /\ mat_cv n m (fun k => T (f k)) L.
Proof.
  intros n m T B HB. destruct (Nat.eq_dec n 0) as [->|Hn0]; [exists (fun k => k), (fun _ _ => 0); split; [intros k; lia|intros i j Hi; lia]|].
  destruct (Nat.eq_dec m 0) as [->|Hm0]; [exists (fun k => k), (fun _ _ => 0); split; [intros k; lia|intros i j Hi Hj; lia]|].
  assert (B0 : 0 <= B) by (destruct (HB 0%nat 0%nat 0%nat); [lia|lia|lra]).
  destruct (bounded_sub_fam (fun c k => if andb (Nat.ltb (c / m) n) (Nat.ltb (c mod m) m) then T k (c / m)%nat (c mod m)%nat else 0) B) with (K := (n * m)%nat) as [f [l [Hf Hl]]].
  { intros c k. destruct (andb _ _) eqn:E; [|lra]. apply andb_prop in E. destruct E as [E1 E2]. apply Nat.ltb_lt in E1. apply Nat.ltb_lt in E2. auto. }
  exists f, (fun i j => l (i * m + j)%nat). split; auto.
  intros i j Hi Hj. assert (DM : ((i * m + j) / m = i /\ (i * m + j) mod m = j)%nat).
  { split; [symmetry; apply (Nat.div_unique _ m i j); lia|symmetry; apply (Nat.mod_unique _ m i j); lia]. }
  assert (Q := Hl (i * m + j)%nat ltac:(nia)). destruct DM as [D1 D2]. eapply cv_ext; [|exact Q]. intros k. cbn beta.
  rewrite D1, D2. rewrite (proj2 (Nat.ltb_lt i n) Hi), (proj2 (Nat.ltb_lt j m) Hj). reflexivity.
Qed.

Section Scaling.
Variables (n m : nat) (a b : vec) (K : mat).
Hypothesis (Hn : (0 < n)%nat) (Hm : (0 < m)%nat) (Ha : pos_vec n a) (Hb : pos_vec m b).
Hypothesis HK : forall i j, (i < n)%nat -> (j < m)%nat -> 0 < K i j.

(** a scaling of K: diag(u) K diag(v) for positive u and v *)
Definition scaling (P : mat) : Prop := exists u v, pos_vec n u /\ pos_vec m v /\ forall i j, (i < n)%nat -> (j < m)%nat -> P i j = diag_plan K u v i j.

(** the cross ratios of a scaling are those of K *)
Definition crossed (P : mat) : Prop := forall i j k l, (i < n)%nat -> (j < m)%nat -> (k < n)%nat -> (l < m)%nat ->
  P i j * P k l * (K i l * K k j) = P i l * P k j * (K i j * K k l).
Lemma scaling_crossed : forall P, scaling P -> crossed P.
Proof.
  intros P (u & v & _ & _ & E) i j k l Hi Hj Hk Hl. rewrite !E by auto. unfold diag_plan. ring.
Qed.
Lemma crossed_limit : forall (P : nat -> mat) L, (forall k, crossed (P k)) -> mat_cv n m P L -> crossed L.
Proof.
  intros P L HP HL i j k l Hi Hj Hk Hl. eapply UL_sequence.
  - apply (CV_mult (fun q => P q i j * P q k l) (fun _ => K i l * K k j)); [|apply cv_const].
    apply (CV_mult (fun q => P q i j) (fun q => P q k l)); apply HL; auto.
  - eapply cv_ext; [|apply (CV_mult (fun q => P q i l * P q k j) (fun _ => K i j * K k l)); [|apply cv_const]].
    + intros q. cbn beta. symmetry. apply HP; auto.
    + apply (CV_mult (fun q => P q i l) (fun q => P q k j)); apply HL; auto.
Qed.
Lemma pos_entry : forall d (f : vec), (forall i, (i < d)%nat -> 0 <= f i) -> 0 < rsum d f -> exists i, (i < d)%nat /\ 0 < f i.
Proof.
  induction d; intros f H0 HS; cbn [rsum] in HS; [lra|].
  destruct (Rlt_dec 0 (f d)) as [Y|Nn]; [exists d; split; auto|].
  destruct (IHd f) as (i & Hi & P); [intros; apply H0; lia| |exists i; split; auto; lia].
  assert (0 <= f d) by (apply H0; lia). lra.
Qed.
(** a coupling with the cross ratios of K is a scaling of K: it has no zero entry *)
Lemma crossed_scaling : forall L, coupling n m a b L -> crossed L -> scaling L.
Proof.
  intros L (P & RW & CL) X.
  assert (PP : forall i j, (i < n)%nat -> (j < m)%nat -> 0 < L i j).
  { intros i j Hi Hj. destruct (Rlt_dec 0 (L i j)) as [Y|N0]; auto. exfalso.
    assert (Z : L i j = 0) by (assert (0 <= L i j) by auto; lra).
    destruct (pos_entry m (fun l => L i l)) as (l & Hl & Pl); [intros; apply P; auto|change (0 < row_sum m L i); rewrite RW by auto; apply Ha; auto|].
    destruct (pos_entry n (fun k => L k j)) as (k & Hk & Pk); [intros; apply P; auto|change (0 < col_sum n L j); rewrite CL by auto; apply Hb; auto|].
    assert (Q := X i j k l Hi Hj Hk Hl). rewrite Z in Q.
    assert (0 < L i l * L k j * (K i j * K k l)) by (repeat apply Rmult_lt_0_compat; auto). lra. }
  exists (fun i => L i 0%nat / K i 0%nat), (fun j => L 0%nat j * K 0%nat 0%nat / (K 0%nat j * L 0%nat 0%nat)). split; [|split].
  - intros i Hi. apply Rdiv_lt_0_compat; auto.
  - intros j Hj. apply Rdiv_lt_0_compat; apply Rmult_lt_0_compat; auto.
  - intros i j Hi Hj. assert (Q := X i j 0%nat 0%nat Hi Hj Hn Hm). unfold diag_plan.
    assert (0 < K i 0%nat) by auto. assert (0 < K 0%nat j) by auto. assert (0 < L 0%nat 0%nat) by auto. assert (0 < K 0%nat 0%nat) by auto. assert (0 < K i j) by auto.
    apply (Rmult_eq_reg_r (L 0%nat 0%nat * (K i 0%nat * K 0%nat j))); [|apply Rgt_not_eq; repeat apply Rmult_lt_0_compat; auto].
    transitivity (L i 0%nat * L 0%nat j * (K i j * K 0%nat 0%nat)); [rewrite <- Q; ring|field; repeat split; lra].
Qed.

(** scalings whose marginals tend to a and b accumulate at a scaling with marginals a and b *)
Lemma scaling_limit : forall (P : nat -> mat), (forall k, scaling (P k)) ->
  (forall i, (i < n)%nat -> Un_cv (fun k => row_sum m (P k) i) (a i)) -> (forall j, (j < m)%nat -> Un_cv (fun k => col_sum n (P k) j) (b j)) ->
  (exists B, forall k i j, (i < n)%nat -> (j < m)%nat -> P k i j <= B) ->
  exists f L, increasing_idx f /\ mat_cv n m (fun k => P (f k)) L /\ coupling n m a b L /\ scaling L.
Proof.
  intros P HS HR HC (B & HB).
  assert (P0 : forall k i j, (i < n)%nat -> (j < m)%nat -> 0 <= P k i j).
  { intros k i j Hi Hj. destruct (HS k) as (u & v & Hu & Hv & E). rewrite E by auto. left. unfold diag_plan. repeat apply Rmult_lt_0_compat; auto. }
  destruct (mat_compact n m P B) as (f & L & Hf & HL); [intros; split; auto|]. exists f, L. split; auto. split; auto.
  assert (CL : coupling n m a b L).
  { split; [|split].
    - intros i j Hi Hj. apply (cv_ge0 (fun k => P (f k) i j)); [intros; auto|apply HL; auto].
    - intros i Hi. unfold row_sum. eapply UL_sequence; [apply (cv_rsum m (fun k => P (f k) i)); intros j Hj; apply (HL i j Hi Hj)|].
      apply (cv_sub (fun k => row_sum m (P k) i)); auto.
    - intros j Hj. unfold col_sum. eapply UL_sequence; [apply (cv_rsum n (fun k i => P (f k) i j)); intros i Hi; apply (HL i j Hi Hj)|].
      apply (cv_sub (fun k => col_sum n (P k) j)); auto. }
  split; auto. apply crossed_scaling; auto. apply (crossed_limit (fun k => P (f k))); auto. intros k. apply scaling_crossed. auto.
Qed.
End Scaling.

(** Sinkhorn runs with thresholds tending to 0 *)
Lemma norm2_entry : forall k f i, (i < k)%nat -> Rabs (f i) <= norm2 k f.
Proof.
  intros k f i Hi. unfold norm2. rewrite <- sqrt_Rsqr_abs. apply sqrt_le_1_alt.
  eapply Rle_trans; [|apply (rsum_le_one k (fun i => f i * f i) i); auto; intros; apply Rle_0_sqr]. unfold Rsqr; lra.
Qed.
Lemma inv_cv0 : Un_cv (fun k => / INR (S k)) 0.
Proof.
  intros e He. destruct (archimed_cor1 e He) as (N0 & H & P). exists N0. intros k Hk. unfold R_dist. rewrite Rminus_0_r.
  assert (0 < / INR (S k)) by (apply Rinv_0_lt_compat, lt_0_INR; lia). rewrite Rabs_pos_eq by lra.
  eapply Rle_lt_trans; [|exact H]. apply Rinv_le_contravar; [apply lt_0_INR; lia|apply le_INR; lia].
Qed.
Lemma scaling_unique : forall n m a b M reg P Q, 0 < reg -> scaling n m (gibbs M reg) P -> scaling n m (gibbs M reg) Q ->
  coupling n m a b P -> coupling n m a b Q -> forall i j, (i < n)%nat -> (j < m)%nat -> P i j = Q i j.
Proof.
  intros n m a b M reg P Q Hr (u & v & Hu & Hv & E) (u' & v' & Hu' & Hv' & E') CP CQ i j Hi Hj.
  assert (CE : forall X Y, (forall i j, (i < n)%nat -> (j < m)%nat -> X i j = Y i j) -> coupling n m a b X -> coupling n m a b Y).
  { intros X Y H (H1 & H2 & H3). split; [|split].
    - intros i' j' Hi' Hj'. rewrite <- H by auto. auto.
    - intros i' Hi'. rewrite <- (H2 i' Hi'). apply rsum_ext; intros; symmetry; auto.
    - intros j' Hj'. rewrite <- (H3 j' Hj'). apply rsum_ext; intros; symmetry; auto. }
  assert (OE : forall X Y, (forall i j, (i < n)%nat -> (j < m)%nat -> X i j = Y i j) -> ent_obj n m M reg X = ent_obj n m M reg Y).
  { intros X Y H. unfold ent_obj, cost, ent. f_equal; [|f_equal]; apply rsum_ext; intros i' Hi'; apply rsum_ext; intros j' Hj'; rewrite H; auto. }
  destruct (C24_fixed_point_optimal n m a b M reg u v Hr Hu Hv (CE _ _ E CP) Q CQ) as (_ & U). rewrite (E i j Hi Hj). symmetry. apply U; auto.
  rewrite (OE Q _ E'). apply (C24_fixed_point_optimal n m a b M reg u' v' Hr Hu' Hv' (CE _ _ E' CQ)). apply (CE _ _ E CP).
Qed.
Section Runs.
Variables (n m : nat) (a b : vec) (M : mat) (reg : R).
Hypothesis (Hn : (0 < n)%nat) (Hm : (0 < m)%nat) (Ha : pos_vec n a) (Hb : pos_vec m b) (Hr : 0 < reg).
Notation K := (gibbs M reg).
Variables (thr : nat -> R) (it : nat -> nat) (warm : nat -> option (vec * vec)).
Hypothesis W : forall k, pos_warm n m (warm k).
Hypothesis Ht : Un_cv thr 0.
Notation run k := (sinkhorn_knopp (N:=RNum) n m a b norm2 no_nan (thr k) K (it k) (warm k)).
Hypothesis HC : forall k, exists i, sk_exit (run k) = Converged i.
Definition plan_of (k : nat) : mat := diag_plan K (sk_u (run k)) (sk_v (run k)).
Lemma run_it : forall k, (0 < it k)%nat.
Proof.
  intros k. destruct (HC k) as (i & E). assert (Q := C22_stopping RNum n m a b norm2 no_nan (thr k) K (it k) (warm k)). cbn zeta in Q.
  rewrite E in Q. lia.
Qed.
Lemma run_scaling : forall k, scaling n m K (plan_of k).
Proof.
  intros k. destruct (sk_warm n m a b norm2 no_nan (thr k) K (it k) (warm k) Hn Hm (W k)) as (u & v & Hu & Hv & E).
  destruct (kp_loop_post n m a b K Hn Hm Ha Hb (fun i j _ _ => gibbs_pos M reg i j) norm2 (thr k) (it k) 0 u v [] Hu Hv) as (P1 & P2 & _ & _).
  exists (sk_u (run k)), (sk_v (run k)). rewrite E. split; [exact P1|split; [exact P2|]]. intros i j _ _. unfold plan_of. rewrite E. reflexivity.
Qed.
Lemma run_rows : forall k i, (i < n)%nat -> row_sum m (plan_of k) i = a i.
Proof. intros k i Hi. apply (C21_knopp_rows n m a b K norm2 (thr k) (it k) (warm k)); auto. intros; apply gibbs_pos. apply run_it. Qed.
Lemma run_cols : forall k j, (j < m)%nat -> Rabs (col_sum n (plan_of k) j - b j) <= thr k.
Proof.
  intros k j Hj. destruct (HC k) as (i & E). assert (Q := C22_stopping RNum n m a b norm2 no_nan (thr k) K (it k) (warm k)). cbn zeta in Q.
  rewrite E in Q. destruct Q as (_ & _ & Q & _). apply Rltb_true in Q. left. eapply Rle_lt_trans; [|exact Q].
  eapply Rle_trans; [|apply (norm2_entry m _ j Hj)]. right. f_equal. cbn beta. rewrite nsum_R.
  match goal with |- ?x = ?y => change (@eq R x y) end. reflexivity.
Qed.
Lemma run_bound : forall k i j, (i < n)%nat -> (j < m)%nat -> plan_of k i j <= rsum n (fun i => Rabs (a i)).
Proof.
  intros k i j Hi Hj. assert (P0 : forall j, (j < m)%nat -> 0 <= plan_of k i j).
  { intros l Hl. destruct (run_scaling k) as (u & v & Hu & Hv & E). rewrite E by auto. left. unfold diag_plan. repeat apply Rmult_lt_0_compat; auto. apply gibbs_pos. }
  eapply Rle_trans; [apply (rsum_le_one m (fun j => plan_of k i j) j); auto|]. change (row_sum m (plan_of k) i <= rsum n (fun i => Rabs (a i))).
  rewrite run_rows by auto. eapply Rle_trans; [apply Rle_abs|]. apply (rsum_le_one n (fun i => Rabs (a i)) i); auto. intros; apply Rabs_pos.
Qed.
Lemma cv_cols : forall j, (j < m)%nat -> Un_cv (fun k => col_sum n (plan_of k) j) (b j).
Proof.
  intros j Hj e He. destruct (Ht e He) as (N0 & HN). exists N0. intros k Hk. specialize (HN k Hk). unfold R_dist in *. rewrite Rminus_0_r in HN.
  eapply Rle_lt_trans; [apply run_cols; auto|]. eapply Rle_lt_trans; [apply Rle_abs|exact HN].
Qed.
Lemma sub_limit : forall h, increasing_idx h -> exists f L, increasing_idx f /\ mat_cv n m (fun k => plan_of (h (f k))) L /\ coupling n m a b L /\ scaling n m K L.
Proof.
  intros h Hh. apply (scaling_limit n m a b K Hn Hm Ha Hb (fun i j _ _ => gibbs_pos M reg i j) (fun k => plan_of (h k))).
  - intros; apply run_scaling.
  - intros i Hi. eapply cv_ext; [|apply (cv_const (a i))]. intros k. cbn beta. symmetry. apply run_rows; auto.
  - intros j Hj. apply (cv_sub (fun k => col_sum n (plan_of k) j)); auto. apply cv_cols; auto.
  - exists (rsum n (fun i => Rabs (a i))). intros. apply run_bound; auto.
Qed.
Lemma runs_limit : exists L, coupling n m a b L /\ scaling n m K L /\ mat_cv n m plan_of L.
Proof.
  destruct (sub_limit (fun k => k)) as (f0 & L & _ & _ & CL & SL); [intros k; lia|]. exists L. split; auto. split; auto.
  intros i j Hi Hj e He. apply Classical_Prop.NNPP. intros NC.
  assert (X : forall q, exists k, (q <= k)%nat /\ e <= R_dist (plan_of k i j) (L i j)).
  { intros q. apply Classical_Prop.NNPP. intros NE. apply NC. exists q. intros k Hk. apply Rnot_le_lt. intros HL. apply NE. exists k. split; auto. }
  destruct (choice _ X) as (g & Hg). set (h := fix h (k : nat) : nat := match k with O => g O | S k => g (S (h k)) end).
  assert (Hh : increasing_idx h) by (intros k; destruct (Hg (S (h k))) as (A & _); cbn [h]; fold h; lia).
  assert (Hd : forall k, e <= R_dist (plan_of (h k) i j) (L i j)) by (intros [|k]; cbn [h]; apply Hg).
  destruct (sub_limit h Hh) as (f & L' & Hf & CV & CL' & SL'). destruct (CV i j Hi Hj e He) as (N0 & HN). specialize (HN N0 (le_n _)). cbn beta in HN.
  rewrite <- (scaling_unique n m a b M reg L L' Hr SL SL' CL CL' i j Hi Hj) in HN. specialize (Hd (f N0)). lra.
Qed.
End Runs.
Lemma entries_bounded : forall n m (M : mat), exists B, forall i j, (i < n)%nat -> (j < m)%nat -> - B <= M i j <= B.
Proof.
  intros n m M. exists (rsum n (fun i => rsum m (fun j => Rabs (M i j)))). intros i j Hi Hj.
  assert (Q : Rabs (M i j) <= rsum n (fun i => rsum m (fun j => Rabs (M i j)))).
  { eapply Rle_trans; [apply (rsum_le_one m (fun j => Rabs (M i j)) j); auto; intros; apply Rabs_pos|].
    apply (rsum_le_one n (fun i => rsum m (fun j => Rabs (M i j))) i); auto. intros; apply rsum_nonneg; intros; apply Rabs_pos. }
  assert (Q1 := Rle_abs (M i j)). assert (Q2 := Rle_abs (- M i j)). rewrite Rabs_Ropp in Q2. lra.
Qed.
