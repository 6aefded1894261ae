(** EMD_wrap on a dense problem with positive weights: the solver lemmas read
    back as statements about the returned matrix, potentials and status. *)
From Coq Require Import List Arith Bool Lia Permutation Reals Lra.
Import ListNotations.
From Verif Require Duals_proofs.
From Verif Require Import Num Spec Sums NS_model NS_emd_model NS_list NS_tree NS_update NS_walk NS_pivot NS_inv NS_enter NS_main NS_init NS_cert NS_run NS_bip.
Local Open Scope R_scope.

Lemma rsum_rev : forall n f, rsum n f = rsum n (fun i => f (n - 1 - i)%nat).
Proof.
  induction n as [|n IH]; intros f; auto.
  change (S n) with (1 + n)%nat at 2. rewrite rsum_split. cbn [rsum]. rewrite IH.
  replace (S n - 1 - 0)%nat with n by lia.
  rewrite (rsum_ext n (fun k => f (S n - 1 - (1 + k))%nat) (fun i => f (n - 1 - i)%nat)); [lra|].
  intros i Hi. f_equal. lia.
Qed.
Lemma rsum_grid : forall n m f, rsum (n * m) f = rsum n (fun i => rsum m (fun j => f (i * m + j)%nat)).
Proof.
  induction n as [|n IH]; intros m f; auto. replace (S n * m)%nat with (n * m + m)%nat by lia.
  rewrite rsum_split. cbn [rsum]. rewrite IH. auto.
Qed.
Lemma fold_rsum : forall n (h : nat -> R) x, fold_left (fun c e => c + h e) (seq 0 n) x = x + rsum n h.
Proof.
  induction n as [|n IH]; intros h x; [cbn; lra|]. rewrite seq_S, fold_left_app, IH. cbn. lra.
Qed.

Definition eid (n m i j : nat) : nat := (n * m - (i * m + j) - 1)%nat.
Lemma cell_lt : forall n m i j, (i < n)%nat -> (j < m)%nat -> (i * m + j < n * m)%nat.
Proof. intros n m i j Hi Hj. assert (i * m + m <= n * m)%nat by (replace (i * m + m)%nat with (S i * m)%nat by lia; apply Nat.mul_le_mono_r; lia). lia. Qed.
Lemma eid_lt : forall n m i j, (i < n)%nat -> (j < m)%nat -> (eid n m i j < n * m)%nat.
Proof. intros n m i j Hi Hj. pose proof (cell_lt n m i j Hi Hj). unfold eid. lia. Qed.
Lemma eid_back : forall n m i j, (i < n)%nat -> (j < m)%nat -> (n * m - eid n m i j - 1 = i * m + j)%nat.
Proof. intros n m i j Hi Hj. pose proof (cell_lt n m i j Hi Hj). unfold eid. lia. Qed.
Lemma cell_div : forall m i j, (j < m)%nat -> ((i * m + j) / m = i)%nat.
Proof. intros m i j Hj. rewrite Nat.div_add_l by lia. rewrite Nat.div_small by lia. lia. Qed.
Lemma cell_mod : forall m i j, (j < m)%nat -> ((i * m + j) mod m = j)%nat.
Proof. intros m i j Hj. rewrite Nat.add_comm, Nat.mod_add by lia. apply Nat.mod_small; auto. Qed.
Lemma eid_cover : forall n m e, (e < n * m)%nat -> exists i j, (i < n)%nat /\ (j < m)%nat /\ e = eid n m i j.
Proof.
  intros n m e He. set (k := (n * m - e - 1)%nat). assert (Hm : (0 < m)%nat) by (destruct m; lia).
  assert (Hk : (k < n * m)%nat) by (unfold k; lia).
  exists (k / m)%nat, (k mod m)%nat. repeat split.
  - apply Nat.div_lt_upper_bound; lia.
  - apply Nat.mod_upper_bound; lia.
  - pose proof (Nat.div_mod k m ltac:(lia)) as D. unfold eid. replace (k / m * m + k mod m)%nat with k by lia. unfold k. lia.
Qed.
Lemma eid_inj : forall n m i j i' j', (i < n)%nat -> (j < m)%nat -> (i' < n)%nat -> (j' < m)%nat ->
  eid n m i j = eid n m i' j' -> i = i' /\ j = j'.
Proof.
  intros n m i j i' j' Hi Hj Hi' Hj' E. pose proof (eid_back n m i j Hi Hj) as B1. pose proof (eid_back n m i' j' Hi' Hj') as B2.
  rewrite E in B1. assert (E2 : (i * m + j = i' * m + j')%nat) by lia.
  rewrite <- (cell_div m i j), <- (cell_div m i' j'), E2 by auto. rewrite <- (cell_mod m i j Hj), E2, cell_mod by auto. auto.
Qed.
Lemma rsum_cells : forall n m f, rsum (n * m) f = rsum n (fun i => rsum m (fun j => f (eid n m i j))).
Proof.
  intros n m f. rewrite rsum_rev, rsum_grid. apply rsum_ext. intros i Hi. apply rsum_ext. intros j Hj.
  f_equal. unfold eid. lia.
Qed.

Lemma dn_src_eid : forall n m i j, (i < n)%nat -> (j < m)%nat -> dn_src n m (eid n m i j) = (n + m - 1 - i)%nat.
Proof. intros. unfold dn_src, node_id, gsource. rewrite eid_back, cell_div by auto. lia. Qed.
Lemma dn_tgt_eid : forall n m i j, (i < n)%nat -> (j < m)%nat -> dn_tgt n m (eid n m i j) = (m - 1 - j)%nat.
Proof. intros. unfold dn_tgt, node_id, gtarget. rewrite eid_back, cell_mod by auto. lia. Qed.

Section Dense.
Variables (n m : nat) (a b : nat -> R) (M : nat -> nat -> R).
Hypothesis Hn : (0 < n)%nat.
Hypothesis Hm : (0 < m)%nat.
Hypothesis Ha : pos_vec n a.
Hypothesis Hb : pos_vec m b.
Hypothesis Hmass : mass n a = mass m b.

Let N := (n + m)%nat.
Let D := fun k => M (k / m)%nat (k mod m)%nat.
Let sup := @dn_supply RNum n m a b.
Let cc := @dn_cost RNum n m D.
Let mx := @dn_max RNum n m D.
Let isrc (u : nat) := (n + m - u - 1 <? n)%nat.
Notation g := (@init_net RNum N (n * m) (dn_src n m) (dn_tgt n m) cc sup mx).
Notation ART := (@art_cost RNum N (n * m) cc mx).
Definition rn (i : nat) : nat := (n + m - 1 - i)%nat.
Definition cn (j : nat) : nat := (m - 1 - j)%nat.

Lemma isrc_rn : forall i, (i < n)%nat -> isrc (rn i) = true.
Proof. intros i Hi. unfold isrc, rn. apply Nat.ltb_lt. lia. Qed.
Lemma isrc_cn : forall j, (j < m)%nat -> isrc (cn j) = false.
Proof. intros i Hi. unfold isrc, cn. apply Nat.ltb_ge. lia. Qed.
Lemma sup_rn : forall i, (i < n)%nat -> sup (rn i) = a i.
Proof.
  intros i Hi. unfold sup, dn_supply. replace (n + m - rn i - 1)%nat with i by (unfold rn; lia).
  destruct (Nat.ltb_spec i n) as [?Q|?Q]; auto; lia.
Qed.
Lemma sup_cn : forall j, (j < m)%nat -> sup (cn j) = - b j.
Proof.
  intros j Hj. unfold sup, dn_supply. replace (n + m - cn j - 1)%nat with (n + j)%nat by (unfold cn; lia).
  destruct (Nat.ltb_spec (n + j) n) as [?Q|?Q]; [lia|]. replace (n + j - n)%nat with j by lia. unfold nopp. cbn. lra.
Qed.
Lemma node_cases : forall u, (u < N)%nat -> (exists i, (i < n)%nat /\ u = rn i) \/ (exists j, (j < m)%nat /\ u = cn j).
Proof.
  intros u Hu. unfold N in Hu. destruct (Nat.lt_ge_cases u m).
  - right. exists (m - 1 - u)%nat. unfold cn. lia.
  - left. exists (n + m - 1 - u)%nat. unfold rn. lia.
Qed.
Lemma dense_arc : forall e, (e < n * m)%nat ->
  (dn_src n m e < N)%nat /\ (dn_tgt n m e < N)%nat /\ isrc (dn_src n m e) = true /\ isrc (dn_tgt n m e) = false.
Proof.
  intros e He. destruct (eid_cover n m e He) as (i & j & Hi & Hj & ->). rewrite dn_src_eid, dn_tgt_eid by auto.
  repeat split; try (unfold N; lia); [apply isrc_rn|apply isrc_cn]; auto.
Qed.
Lemma dense_src : forall u, (u < N)%nat -> isrc u = true -> 0 <= sup u.
Proof.
  intros u Hu Hs. destruct (node_cases u Hu) as [(i & Hi & ->)|(j & Hj & ->)].
  - rewrite sup_rn by auto. left. apply Ha; auto.
  - rewrite isrc_cn in Hs by auto. discriminate.
Qed.
Lemma dense_in : forall v e, (v < N)%nat -> In e (dn_in n m v) -> (e < n * m)%nat.
Proof.
  intros v e Hv. unfold dn_in. destruct (Nat.ltb_spec (n + m - v - 1) n) as [?Q|?Q]; [contradiction|].
  intros He. apply in_map_iff in He as (i & <- & Hi). apply in_seq in Hi. unfold N in Hv.
  apply (eid_lt n m (n - 1 - i) (n + m - v - 1 - n)); lia.
Qed.
Lemma dense_sup : exists u, (u < N)%nat /\ 0 < sup u.
Proof. exists (rn 0). split; [unfold rn, N; lia|]. rewrite sup_rn by auto. apply Ha; auto. Qed.
Lemma dense_dem : exists v, (v < N)%nat /\ sup v < 0 /\ dn_in n m v <> [].
Proof.
  exists (cn 0). split; [unfold cn, N; lia|]. split.
  - rewrite sup_cn by auto. pose proof (Hb 0%nat Hm). lra.
  - unfold dn_in. destruct (Nat.ltb_spec (n + m - cn 0 - 1) n) as [?Q|?Q]; [unfold cn in Q; lia|].
    destruct n; [lia|]. cbn [seq map]. discriminate.
Qed.
Lemma sup_total : rsum N sup = 0.
Proof.
  unfold N. rewrite Nat.add_comm, rsum_split.
  rewrite (rsum_rev m), (rsum_rev n).
  rewrite (rsum_ext m _ (fun j => - b j)); [|intros j Hj; apply sup_cn; auto].
  rewrite (rsum_ext n _ a).
  - rewrite rsum_opp. unfold mass in Hmass. lra.
  - intros i Hi. rewrite <- sup_rn by auto. f_equal. unfold rn. lia.
Qed.
Lemma rdiv_rn : forall x i, (i < n)%nat ->
  rdiv (n * m) (dn_src n m) (dn_tgt n m) x (rn i) = rsum m (fun j => x (eid n m i j)).
Proof.
  intros x i Hi. unfold rdiv. rewrite rsum_cells. rewrite (rsum_single n i); auto.
  - apply rsum_ext. intros j Hj. rewrite dn_src_eid, dn_tgt_eid by auto. unfold rn.
    rewrite Nat.eqb_refl. destruct (Nat.eqb_spec (m - 1 - j) (n + m - 1 - i)) as [?Q|?Q]; [lia|]. unfold ind. lra.
  - intros k Hk Hne. apply rsum_0. intros j Hj. rewrite dn_src_eid, dn_tgt_eid by auto. unfold rn.
    destruct (Nat.eqb_spec (n + m - 1 - k) (n + m - 1 - i)) as [?Q|?Q]; [lia|].
    destruct (Nat.eqb_spec (m - 1 - j) (n + m - 1 - i)) as [?Q|?Q]; [lia|]. unfold ind. lra.
Qed.
Lemma rdiv_cn : forall x j, (j < m)%nat ->
  rdiv (n * m) (dn_src n m) (dn_tgt n m) x (cn j) = - rsum n (fun i => x (eid n m i j)).
Proof.
  intros x j Hj. unfold rdiv. rewrite rsum_cells. rewrite <- rsum_opp. apply rsum_ext. intros i Hi.
  rewrite (rsum_single m j); auto.
  - rewrite dn_src_eid, dn_tgt_eid by auto. unfold cn. rewrite Nat.eqb_refl.
    destruct (Nat.eqb_spec (n + m - 1 - i) (m - 1 - j)) as [?Q|?Q]; [lia|]. unfold ind. lra.
  - intros k Hk Hne. rewrite dn_src_eid, dn_tgt_eid by auto. unfold cn.
    destruct (Nat.eqb_spec (n + m - 1 - i) (m - 1 - j)) as [?Q|?Q]; [lia|].
    destruct (Nat.eqb_spec (m - 1 - k) (m - 1 - j)) as [?Q|?Q]; [lia|]. unfold ind. lra.
Qed.
Lemma cost_eid : forall i j, (i < n)%nat -> (j < m)%nat -> cc (eid n m i j) = M i j.
Proof. intros i j Hi Hj. unfold cc, dn_cost, D. rewrite eid_back, cell_div, cell_mod by auto. auto. Qed.
Lemma mx_ge : forall i j, (i < n)%nat -> (j < m)%nat -> M i j <= mx.
Proof.
  intros i j Hi Hj. unfold mx, dn_max. replace (M i j) with (D (i * m + j)%nat) by (unfold D; rewrite cell_div, cell_mod; auto).
  apply nmaxk_ge. pose proof (cell_lt n m i j Hi Hj). lia.
Qed.
Lemma mx_in : exists i j, (i < n)%nat /\ (j < m)%nat /\ M i j = mx.
Proof.
  destruct (nmaxk_in (n * m - 1) D) as (k & Hk & E). assert (K : (k < n * m)%nat).
  { assert (0 < n * m)%nat by (apply Nat.mul_pos_pos; auto). lia. }
  exists (k / m)%nat, (k mod m)%nat. repeat split; auto.
  - apply Nat.div_lt_upper_bound; lia.
  - apply Nat.mod_upper_bound; lia.
Qed.

Lemma ex_G_R : forall f i j, @ex_G RNum n m f i j = f (eid n m i j).
Proof. intros f i j. unfold ex_G. fold (eid n m i j). destruct (@neqb RNum (f (eid n m i j)) n0) eqn:E; auto. apply Reqb_true in E. auto. Qed.
Lemma ex_cost_R : forall f, @ex_cost RNum n m D f = cost n m M (fun i j => f (eid n m i j)).
Proof.
  intros f. unfold ex_cost.
  assert (K : forall l (x : R), fold_left (fun c e => if @neqb RNum (f e) n0 then c else @nadd RNum c (@nmul RNum (f e) (D (n * m - e - 1)%nat))) l x
    = fold_left (fun c e => c + f e * D (n * m - e - 1)%nat) l x).
  { induction l as [|e l IH]; intros x; cbn [fold_left]; auto. rewrite <- IH.
    destruct (@neqb RNum (f e) n0) eqn:E; [|reflexivity]. apply Reqb_true in E. rewrite E. f_equal. cbn. lra. }
  etransitivity; [apply K|].
  - rewrite fold_rsum, rsum_cells. rewrite Rplus_0_l. apply rsum_ext. intros i Hi. apply rsum_ext. intros j Hj.
    unfold D. rewrite eid_back, cell_div, cell_mod by auto. lra.
Qed.

Section Out.
Variables (fuel it : nat) (o : @emd_out RNum).
Hypothesis HO : @emd_wrap RNum fuel n m a b M it = Ret o.
Let G := eo_G o.

(** everything known about the answer, in terms of the final solver state *)
Record known (s : ns) : Prop := {
  kn_good : good g s;
  kn_G : eo_type o <> INFEASIBLE -> forall i j, (i < n)%nat -> (j < m)%nat -> G i j = flow s (eid n m i j);
  kn_cost : eo_type o <> INFEASIBLE -> eo_cost o = cost n m M G;
  kn_pi : eo_type o <> INFEASIBLE -> forall i j, (i < n)%nat -> (j < m)%nat -> eo_alpha o i + eo_beta o j = pi s (cn j) - pi s (rn i);
  kn_cert : eo_type o <> MAX_ITER_REACHED -> certified g s;
  kn_art : eo_type o = OPTIMAL -> forall u, (u < N)%nat -> flow s (n * m + u) <= 1 / 100000000;
  kn_bad : eo_type o = INFEASIBLE -> exists u, (u < N)%nat /\ 0 < flow s (n * m + u);
  kn_ty : eo_type o = OPTIMAL \/ eo_type o = INFEASIBLE \/ (eo_type o = MAX_ITER_REACHED /\ (0 < it)%nat)
}.

Lemma dense_known : exists s, known s.
Proof.
  unfold emd_wrap in HO. cbn zeta in HO. fold D in HO.
  destruct (@run RNum fuel (n + m) (n * m) (dn_src n m) (dn_tgt n m) (@dn_cost RNum n m D) (@dn_supply RNum n m a b) (@dn_max RNum n m D) (dn_in n m) it) as [r| |] eqn:ER;
    try discriminate. cbn [bind] in HO.
  destruct (bip_run N (n * m) (dn_src n m) (dn_tgt n m) cc sup mx isrc (dn_in n m)) with (fuel := fuel) (max_iter := it) (r := r)
    as (s & HG & HE & HP & HM).
  { unfold N; lia. }
  { apply dense_arc. }
  { apply dense_src. }
  { apply dense_in. }
  { apply dense_sup. }
  { apply dense_dem. }
  { rewrite sup_total, Rabs_R0. left. apply EPSfeas_pos. }
  { exact ER. }
  assert (Hpi : rs_type r <> INFEASIBLE -> forall i j, (i < n)%nat -> (j < m)%nat ->
     @nopp RNum (rs_pi r (n + m - 1 - i)%nat) + rs_pi r (n + m - 1 - (n + j))%nat = pi s (cn j) - pi s (rn i)).
  { intros Ht i j Hi Hj. destruct (HP Ht) as (k & Hk). fold (rn i). replace (n + m - 1 - (n + j))%nat with (cn j) by (unfold cn; lia).
    rewrite !Hk by (unfold rn, cn, N; lia). unfold nopp. cbn. lra. }
  exists s. destruct HE as [HT HC HF HS|HT HF|HT HC HB]; rewrite HT in HO; injection HO as HO'; 
    constructor; unfold G; try rewrite <- HO'; cbn [eo_type eo_G eo_cost eo_alpha eo_beta]; try congruence; auto.
  - intros _ i j Hi Hj. rewrite ex_G_R. apply HF. apply eid_lt; auto.
  - intros _. rewrite ex_cost_R. apply rsum_ext. intros i Hi. apply rsum_ext. intros j Hj. rewrite ex_G_R. auto.
  - rewrite HT in Hpi. intros _. apply Hpi. congruence.
  - intros _ u Hu. rewrite <- EPSfeas_R. apply HS. change (arc_num g) with (n * m)%nat. change (all_arc_num g) with (n * m + N)%nat. lia.
  - intros _ i j Hi Hj. rewrite ex_G_R. apply HF. apply eid_lt; auto.
  - intros _. rewrite ex_cost_R. apply rsum_ext. intros i Hi. apply rsum_ext. intros j Hj. rewrite ex_G_R. auto.
  - rewrite HT in Hpi. intros _. apply Hpi. congruence.
  - intros _. destruct HB as (e & He & Hf). change (arc_num g) with (n * m)%nat in He. change (all_arc_num g) with (n * m + N)%nat in He.
    exists (e - n * m)%nat. split; [lia|]. replace (n * m + (e - n * m))%nat with e by lia. pose proof EPSfeas_pos.
    eapply Rlt_trans; eauto.
Qed.

Definition tol (C : R) : R := EPS * (INR N * (2 * C + 1)).

Lemma cert_cell : forall s C, known s -> certified g s -> (forall i j, (i < n)%nat -> (j < m)%nat -> Rabs (M i j) <= C) ->
  forall i j, (i < n)%nat -> (j < m)%nat -> - tol C <= M i j + pi s (rn i) - pi s (cn j).
Proof.
  intros s C K HC HM i j Hi Hj.
  assert (C0 : 0 <= C) by (eapply Rle_trans; [apply Rabs_pos|apply (HM 0%nat 0%nat Hn Hm)]).
  assert (HN : 0 <= INR N) by apply pos_INR.
  assert (HA : Rabs ART <= INR N * (C + 1)).
  { rewrite ART_R. destruct mx_in as (i0 & j0 & Hi0 & Hj0 & E). rewrite <- E.
    rewrite Rabs_mult, (Rabs_right (INR N)) by lra. rewrite Rmult_comm. apply Rmult_le_compat_l; auto.
    eapply Rle_trans; [apply Rabs_triang|]. rewrite Rabs_R1. specialize (HM i0 j0 Hi0 Hj0). lra. }
  assert (HN0 : (0 < N)%nat) by (unfold N; lia).
  pose proof (cert_red N (n * m) (dn_src n m) (dn_tgt n m) cc sup mx isrc HN0 dense_arc s (kn_good _ K) HC C C0) as CR.
  assert (Hc : forall e, (e < n * m)%nat -> Rabs (cc e) <= C).
  { intros e He. destruct (eid_cover n m e He) as (i1 & j1 & Hi1 & Hj1 & ->). rewrite cost_eid by auto. auto. }
  specialize (CR Hc (eid n m i j) (eid_lt n m i j Hi Hj)).
  rewrite cost_eid, dn_src_eid, dn_tgt_eid in CR by auto. fold (rn i) (cn j) in CR.
  assert (T : EPS * (INR N * C + Rabs ART) <= tol C).
  { unfold tol. apply Rmult_le_compat_l; [left; apply EPSILON_pos|]. lra. }
  eapply Rle_trans; [|exact CR]. lra.
Qed.
Lemma tight_cell : forall s i j, known s -> (i < n)%nat -> (j < m)%nat -> 0 < flow s (eid n m i j) -> M i j + pi s (rn i) - pi s (cn j) = 0.
Proof.
  intros s i j K Hi Hj Hf. assert (HN0 : (0 < N)%nat) by (unfold N; lia).
  pose proof (real_tight N (n * m) (dn_src n m) (dn_tgt n m) cc sup mx HN0 s (kn_good _ K) (eid n m i j) (eid_lt n m i j Hi Hj) Hf) as H.
  rewrite cost_eid, dn_src_eid, dn_tgt_eid in H by auto. exact H.
Qed.
Lemma flow_nonneg : forall s e, known s -> (e < n * m + N)%nat -> 0 <= flow s e.
Proof. intros s e K He. apply (flow_pos N (n * m) (dn_src n m) (dn_tgt n m) cc sup mx s (kn_good _ K)); auto. Qed.
Lemma row_art : forall s i, known s -> (i < n)%nat -> row_sum m (fun i j => flow s (eid n m i j)) i = a i - flow s (n * m + rn i)%nat.
Proof.
  intros s i K Hi. assert (HN0 : (0 < N)%nat) by (unfold N; lia). assert (Hr : (rn i < N)%nat) by (unfold rn, N; lia).
  pose proof (node_bal N (n * m) (dn_src n m) (dn_tgt n m) cc sup mx HN0 s (kn_good _ K) (rn i) Hr) as B.
  rewrite rdiv_rn, sup_rn in B by auto. destruct (@nleb RNum n0 (a i)) eqn:E; [exact B|].
  apply Rleb_false in E. specialize (Ha i Hi). cbn in E. lra.
Qed.
Lemma col_art : forall s j, known s -> (j < m)%nat -> col_sum n (fun i j => flow s (eid n m i j)) j = b j - flow s (n * m + cn j)%nat.
Proof.
  intros s j K Hj. assert (HN0 : (0 < N)%nat) by (unfold N; lia). assert (Hr : (cn j < N)%nat) by (unfold cn, N; lia).
  pose proof (node_bal N (n * m) (dn_src n m) (dn_tgt n m) cc sup mx HN0 s (kn_good _ K) (cn j) Hr) as B.
  rewrite rdiv_cn, sup_cn in B by auto. specialize (Hb j Hj). destruct (@nleb RNum n0 (- b j)) eqn:E.
  - apply Rleb_true in E. cbn in E. lra.
  - unfold col_sum. lra.
Qed.

Lemma art_zero : forall s C, known s -> certified g s -> (forall i j, (i < n)%nat -> (j < m)%nat -> Rabs (M i j) <= C) ->
  tol C < INR N * (mx + 1) - mx -> forall u, (u < N)%nat -> flow s (n * m + u) = 0.
Proof.
  intros s C K HC HM HT u Hu. destruct (Rle_lt_or_eq_dec 0 (flow s (n * m + u))) as [Hp|E]; auto.
  { apply flow_nonneg; auto. lia. }
  exfalso. assert (HN0 : (0 < N)%nat) by (unfold N; lia).
  destruct (art_pair N (n * m) (dn_src n m) (dn_tgt n m) cc sup mx isrc HN0 dense_arc dense_src s (kn_good _ K) sup_total u Hu Hp)
    as (x & y & Hx & Hy & Sx & Sy & Fx & Fy).
  pose proof (art_tight N (n * m) (dn_src n m) (dn_tgt n m) cc sup mx HN0 s (kn_good _ K) x Hx Fx) as Px.
  pose proof (art_tight N (n * m) (dn_src n m) (dn_tgt n m) cc sup mx HN0 s (kn_good _ K) y Hy Fy) as Py.
  rewrite (proj2 (Rleb_true _ _)) in Px by exact Sx. rewrite (proj2 (Rleb_false _ _)) in Py by exact Sy.
  destruct (node_cases x Hx) as [(i & Hi & Ex)|(j & Hj & Ex)].
  2:{ rewrite Ex, sup_cn in Sx by auto. specialize (Hb j Hj). lra. }
  destruct (node_cases y Hy) as [(k & Hk & Ey)|(j & Hj & Ey)].
  { rewrite Ey, sup_rn in Sy by auto. specialize (Ha k Hk). lra. }
  pose proof (cert_cell s C K HC HM i j Hi Hj) as Q. rewrite <- Ex, <- Ey, Px, Py, ART_R in Q.
  pose proof (mx_ge i j Hi Hj) as Q2. lra.
Qed.

Lemma few_cells : forall s (L : list (nat * nat)), known s -> NoDup L ->
  (forall p, In p L -> (fst p < n)%nat /\ (snd p < m)%nat /\ 0 < flow s (eid n m (fst p) (snd p))) -> (length L <= n + m - 1)%nat.
Proof.
  intros s L K ND HL. assert (HN0 : (0 < N)%nat) by (unfold N; lia).
  rewrite <- (map_length (fun p => eid n m (fst p) (snd p)) L).
  apply (bip_few N (n * m) (dn_src n m) (dn_tgt n m) cc sup mx isrc HN0 dense_arc s (kn_good _ K)).
  - clear K. induction ND as [|p L Hnin ND IH]; cbn [map]; constructor.
    + intros Hin. apply in_map_iff in Hin as (q & E & Hq). destruct (HL p) as (P1 & P2 & _); [cbn; auto|].
      destruct (HL q) as (Q1 & Q2 & _); [cbn; auto|]. apply eid_inj in E as [E1 E2]; auto.
      apply Hnin. destruct p, q. cbn in *. congruence.
    + apply IH. intros; apply HL; cbn; auto.
  - intros e He. apply in_map_iff in He as (p & <- & Hp). destruct (HL p Hp) as (P1 & P2 & P3). split; auto. apply eid_lt; auto.
Qed.
End Out.

Lemma dense_answers : forall fuel it, (0 < it)%nat -> (it <= fuel)%nat -> exists o, @emd_wrap RNum fuel n m a b M it = Ret o.
Proof.
  intros fuel it H1 H2. unfold emd_wrap. cbn zeta. fold D. assert (HN0 : (0 < N)%nat) by (unfold N; lia).
  destruct (bip_answers N (n * m) (dn_src n m) (dn_tgt n m) cc sup mx isrc (dn_in n m) HN0 dense_arc dense_src dense_in dense_sup dense_dem fuel it H1 H2) as (r & E).
  change (n + m)%nat with N. fold cc sup mx. rewrite E. cbn [bind]. destruct (rs_type r); eauto.
Qed.
Lemma dense_finishes : forall fuel it, (2 ^ (n * m + (n + m)) < fuel)%nat -> (it = 0 \/ 2 ^ (n * m + (n + m)) < it)%nat ->
  exists o, @emd_wrap RNum fuel n m a b M it = Ret o /\ eo_type o <> MAX_ITER_REACHED.
Proof.
  intros fuel it H1 H2. unfold emd_wrap. cbn zeta. fold D. assert (HN0 : (0 < N)%nat) by (unfold N; lia).
  destruct (bip_finishes N (n * m) (dn_src n m) (dn_tgt n m) cc sup mx isrc (dn_in n m) HN0 dense_arc dense_src dense_in dense_sup dense_dem fuel it H1 H2) as (r & E & Ht).
  change (n + m)%nat with N. fold cc sup mx. rewrite E. cbn [bind]. destruct (rs_type r) eqn:Et; eexists; split; try reflexivity; cbn; congruence.
Qed.
End Dense.
