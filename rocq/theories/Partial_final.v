(** End-to-end facts about partial_wasserstein and partial_wasserstein_lagrange. *)
From Coq Require Import List Arith Bool Reals Lra Lia.
From Verif Require Import Num Sums Spec Duals_model Duals_proofs Duals_final Optim_proofs NS_model NS_emd_model NS_enter Emd_model Emd_proofs Emd_final Partial_model Partial_proofs.
Import ListNotations.
Local Open Scope R_scope.

(** the plan carried by a successful return value *)
Definition gives (r : @pret RNum) (G : mat) : Prop := r = Plan (N:=RNum) G \/ exists c u v, r = PlanLog (N:=RNum) G c u v.

Lemma nofnat_INR_ : forall k, @nofnat_ RNum k = INR k.
Proof. induction k; [reflexivity|]. cbn [nofnat_]. rewrite IHk, S_INR. reflexivity. Qed.

Lemma pack_gives : forall log G c u v G', gives (pack (N:=RNum) log G c u v) G' -> G' = G.
Proof. intros [] G c u v G' [H|(c' & u' & v' & H)]; cbn in H; try discriminate; injection H; intros; subst; reflexivity. Qed.
Lemma gives_pack : forall log G c u v, gives (pack (N:=RNum) log G c u v) G.
Proof. intros [] G c u v; [right; exists c, u, v; reflexivity|left; reflexivity]. Qed.
Ltac bad H := exfalso; destruct H as [H|(? & ? & ? & H)]; discriminate H.

Lemma mat_max_ge : forall n m (M : mat) i j, (i < n)%nat -> (j < m)%nat -> M i j <= mat_max (N:=RNum) n m M.
Proof.
  intros n m M i j Hi Hj. unfold mat_max. eapply Rle_trans; [|apply (nmaxk_ge (n - 1) _ i); lia].
  cbn beta. apply (nmaxk_ge (m - 1) (fun j => M i j) j). lia.
Qed.
Lemma mat_max_in : forall n m (M : mat), (0 < n)%nat -> (0 < m)%nat -> exists i j, (i < n)%nat /\ (j < m)%nat /\ mat_max (N:=RNum) n m M = M i j.
Proof.
  intros n m M Hn Hm. unfold mat_max. destruct (nmaxk_In (n - 1) (fun i => @nmaxk RNum (m - 1) (fun j => M i j))) as (i & Hi & E).
  destruct (nmaxk_In (m - 1) (fun j => M i j)) as (j & Hj & E'). exists i, j. split; [lia|]. split; [lia|]. rewrite E. exact E'.
Qed.
Lemma ext_bounded : forall n m nb (M : mat) K C, bounded n m M C -> Rabs K <= C -> bounded (n + nb) (m + nb) (ext_mat (N:=RNum) n m M K) C.
Proof.
  intros n m nb M K C H HK i j Hi Hj. unfold ext_mat.
  assert (0 <= C) by (eapply Rle_trans; [apply Rabs_pos|apply HK]).
  destruct (Nat.ltb_spec i n), (Nat.ltb_spec j m); auto; cbn; rewrite Rabs_R0; auto.
Qed.
(** costs under which the solver's artificial cost dominates, for the extended problem *)
Definition fair_costs (n m nb : nat) (a b : vec) (M : mat) (C : R) : Prop :=
  nonneg_mat n m M \/
  (ns_tol (n + nb) (m + nb) C < 1 /\ exists i j, (i < n)%nat /\ (j < m)%nat /\ a i <> 0 /\ b j <> 0 /\ -1 <= M i j).
Lemma fair_benign : forall n m nb a b da db (M : mat) K C, fair_costs n m nb a b M C -> (nonneg_mat n m M -> 0 <= K) ->
  bounded n m M C -> Rabs K <= C ->
  benign (n + nb) (m + nb) (ext_vec (N:=RNum) n a da) (ext_vec (N:=RNum) m b db) (ext_mat (N:=RNum) n m M K).
Proof.
  intros n m nb a b da db M K C [H|(H & i & j & Hi & Hj & A & B & H')] HK HC HKC.
  - left. intros i j Hi Hj. unfold ext_mat. destruct (Nat.ltb_spec i n), (Nat.ltb_spec j m); auto; cbn; lra.
  - right. exists C. split; [apply ext_bounded; auto|]. split; auto. exists i, j.
    unfold ext_vec, ext_mat. rewrite (ltb_lt i n), (ltb_lt j m) by auto. repeat split; auto; lia.
Qed.

(** ** partial_wasserstein *)
Section PW.
Variables (fuel it : nat) (cd : bool) (n m nb : nat) (a b : vec) (M : mat) (w : R) (log : bool) (C : R).
Let K := 2 * mat_max (N:=RNum) n m M.
Let tol := ns_tol (n + nb) (m + nb) C.
Hypothesis Hnb : (0 < nb)%nat.
Hypothesis Ha : nonneg_vec n a.
Hypothesis Hb : nonneg_vec m b.
Hypothesis Hpos : 0 < mass n a + mass m b - w.
Hypothesis HC : bounded n m M C.
Hypothesis HKC : Rabs K <= C.
Hypothesis HF : fair_costs n m nb a b M C.
Hypothesis Hn : (0 < n)%nat.
Hypothesis Hm : (0 < m)%nat.
Let da := (mass m b - w) / INR nb.
Let db := (mass n a - w) / INR nb.

Lemma pw_unfold : forall G, gives (partial_wasserstein (N:=RNum) fuel it cd n m (Some a) (Some b) M (Some w) nb log) G ->
  0 <= w /\ w <= mass n a /\ w <= mass m b /\ exists o,
    emd (N:=RNum) fuel it cd (n + nb) (m + nb) (ext_vec (N:=RNum) n a da) (ext_vec (N:=RNum) m b db) (ext_mat (N:=RNum) n m M K) = Ret o /\
    eo_type o = NS_model.OPTIMAL /\ G = eo_G o.
Proof.
  intros G H. unfold partial_wasserstein in H. rewrite !nsum_R, nofnat_INR_ in H.
  change (@nltb RNum w n0) with (Rltb w 0) in H. destruct (Rltb w 0) eqn:E1; [bad H|].
  apply Rltb_false in E1. rewrite nmin_R in H.
  change (@nltb RNum) with Rltb in H. destruct (Rltb (Rmin (rsum n a) (rsum m b)) w) eqn:E2; [bad H|].
  apply Rltb_false in E2. assert (L1 := Rmin_l (rsum n a) (rsum m b)). assert (L2 := Rmin_r (rsum n a) (rsum m b)). unfold mass.
  split; [auto|]. split; [lra|]. split; [lra|].
  replace (nmul (n:=RNum) (mat_max (N:=RNum) n m M) (nadd n1 n1)) with K in H by (unfold K; cbn; ring).
  match type of H with gives (match ?e with _ => _ end) _ => change e with
    (emd (N:=RNum) fuel it cd (n + nb) (m + nb) (ext_vec (N:=RNum) n a da) (ext_vec (N:=RNum) m b db) (ext_mat (N:=RNum) n m M K)) in H;
    destruct (emd (N:=RNum) fuel it cd (n + nb) (m + nb) (ext_vec (N:=RNum) n a da) (ext_vec (N:=RNum) m b db) (ext_mat (N:=RNum) n m M K)) as [o| |] eqn:Eo end; try (bad H).
  exists o. split; auto. destruct (eo_type o); cbn [no_warning] in H; try (bad H).
  split; auto. eapply pack_gives; eauto.
Qed.
Lemma K_nonneg : nonneg_mat n m M -> 0 <= K.
Proof. intros H. unfold K. destruct (mat_max_in n m M Hn Hm) as (i & j & Hi & Hj & E). specialize (H i j Hi Hj). rewrite E. cbn in *. lra. Qed.

Lemma pw_facts : forall G, gives (partial_wasserstein (N:=RNum) fuel it cd n m (Some a) (Some b) M (Some w) nb log) G ->
  subcoupling n m a b G /\ w <= total n m G /\
  ((forall i j, (i < n)%nat -> (j < m)%nat -> 2 * tol < M i j + K) -> total n m G = w /\
    forall P, subcoupling n m a b P -> total n m P = w -> cost n m M G <= cost n m M P + tol * (mass n a + mass m b - w)).
Proof.
  intros G H. destruct (pw_unfold G H) as (W1 & W2 & W3 & o & E & Ho & ->).
  assert (Q := lt_0_INR nb Hnb).
  assert (D1 : INR nb * da = mass m b - w) by (unfold da; field; lra).
  assert (D2 : INR nb * db = mass n a - w) by (unfold db; field; lra).
  assert (Hmm : mass n a + INR nb * da = mass m b + INR nb * db) by lra.
  assert (Pa : 0 <= da) by (apply Rle_mult_inv_pos; lra).
  assert (Pb : 0 <= db) by (apply Rle_mult_inv_pos; lra).
  assert (Pp : 0 < mass n a + INR nb * da) by lra.
  assert (HB := fair_benign n m nb a b da db M K C HF K_nonneg HC HKC).
  assert (HCe := ext_bounded n m nb M K C HC HKC).
  assert (HG := solved_coupling n m nb a b da db M K Hmm fuel it cd o Ha Hb Pa Pb Pp E Ho HB).
  assert (T := ext_total n m nb a b da db Hnb _ HG).
  assert (Cn := corner_nonneg n m nb a b da db Hnb _ HG).
  split; [exact (ext_sub n m nb a b da db Hnb _ HG)|]. split; [lra|]. intros HK.
  assert (Z := solved_no_corner n m nb a b da db M K Hnb Hmm fuel it cd o C Ha Hb Pa Pb Pp E Ho HB HCe HK ltac:(lra)).
  split; [lra|]. intros P HP HPt.
  assert (Em := embed_ok n m nb a b da db Hnb Hmm P HP ltac:(lra)).
  assert (B := solved_best n m nb a b da db M K Hnb Hmm fuel it cd o C Ha Hb Pa Pb Pp E Ho HB HCe _ Em).
  rewrite !(ext_cost n m nb M K) in B. rewrite embed_cost in B. rewrite (embed_corner n m nb a b db) in B by (try apply Hnb; auto).
  rewrite Z in B. fold tol in B. replace (mass n a + mass m b - w) with (mass n a + INR nb * da) by lra.
  replace (K * (total n m P - (mass n a - INR nb * db))) with 0 in B by (rewrite HPt, D2; ring). lra.
Qed.
End PW.

(** ** partial_wasserstein_lagrange *)
Section Lag.
Variables (fuel it : nat) (cd : bool) (n m nb : nat) (a b : vec) (M : mat) (rm : R) (log : bool) (C : R).
Let Ms : mat := fun i j => M i j - rm.
Let tol := ns_tol (n + nb) (m + nb) C.
Hypothesis Hnb : (0 < nb)%nat.
Hypothesis Ha : nonneg_vec n a.
Hypothesis Hb : nonneg_vec m b.
Hypothesis Hposa : 0 < mass n a.
Hypothesis Hposb : 0 < mass m b.
Hypothesis HC : bounded n m Ms C.
Hypothesis HC0 : 0 <= C.
Hypothesis HT : tol < 1.
Hypothesis Hn : (0 < n)%nat.
Hypothesis Hm : (0 < m)%nat.
Let eps : R := 1 / 100000000000000000000.
Let px := fun i => Rltb (@nmink RNum (m - 1) (fun j => Ms i j)) eps.
Let py := fun j => Rltb (@nmink RNum (n - 1) (fun i => Ms i j)) eps.
Let ix := flatnonzero n px.
Let iy := flatnonzero m py.
Let n' := length ix.
Let m' := length iy.
Let a' : vec := fun k => a (nth k ix 0%nat).
Let b' : vec := fun l => b (nth l iy 0%nat).
Let Ms' : mat := fun k l => Ms (nth k ix 0%nat) (nth l iy 0%nat).
Let da := (mass n a - mass n' a' + mass m b) / INR nb.
Let db := (mass m b - mass m' b' + mass n a) / INR nb.
Definition lag_G (Ge : mat) : mat := fun i j => match index_of i ix, index_of j iy with Some k, Some l => Ge k l | _, _ => 0 end.

Lemma lag_unfold : forall G, gives (lagrange_solve (N:=RNum) fuel it cd n m a b M rm nb log) G -> exists o,
    emd (N:=RNum) fuel it cd (n' + nb) (m' + nb) (ext_vec (N:=RNum) n' a' da) (ext_vec (N:=RNum) m' b' db) (ext_mat (N:=RNum) n' m' Ms' 0) = Ret o /\
    eo_type o = NS_model.OPTIMAL /\ G = lag_G (eo_G o).
Proof.
  intros G H. unfold lagrange_solve in H. rewrite !nsum_R, nofnat_INR_, nofpos_R in H.
  match type of H with gives (match ?e with _ => _ end) _ => change e with
    (emd (N:=RNum) fuel it cd (n' + nb) (m' + nb) (ext_vec (N:=RNum) n' a' da) (ext_vec (N:=RNum) m' b' db) (ext_mat (N:=RNum) n' m' Ms' 0)) in H;
    destruct (emd (N:=RNum) fuel it cd (n' + nb) (m' + nb) (ext_vec (N:=RNum) n' a' da) (ext_vec (N:=RNum) m' b' db) (ext_mat (N:=RNum) n' m' Ms' 0)) as [o| |] eqn:Eo end; try (bad H).
  exists o. split; auto. destruct (eo_type o); cbn [no_warning] in H; try (bad H).
  split; auto. apply pack_gives in H. exact H.
Qed.
Lemma out_x : forall i j, (i < n)%nat -> (j < m)%nat -> px i = false -> 0 <= Ms i j.
Proof.
  intros i j Hi Hj H. apply Rltb_false in H. destruct (nmink_R (m - 1) (fun j => Ms i j)) as [A _].
  specialize (A j ltac:(lia)). cbn beta in A. unfold eps in H. cbn in *. lra.
Qed.
Lemma out_y : forall i j, (i < n)%nat -> (j < m)%nat -> py j = false -> 0 <= Ms i j.
Proof.
  intros i j Hi Hj H. apply Rltb_false in H. destruct (nmink_R (n - 1) (fun i => Ms i j)) as [A _].
  specialize (A i ltac:(lia)). cbn beta in A. unfold eps in H. cbn in *. lra.
Qed.
Lemma ix_in : forall k, (k < n')%nat -> (nth k ix 0 < n)%nat.
Proof. intros k Hk. assert (In (nth k ix 0%nat) ix) by (apply nth_In; auto). apply flatnonzero_In in H. tauto. Qed.
Lemma iy_in : forall k, (k < m')%nat -> (nth k iy 0 < m)%nat.
Proof. intros k Hk. assert (In (nth k iy 0%nat) iy) by (apply nth_In; auto). apply flatnonzero_In in H. tauto. Qed.
Lemma len_le : (n' <= n)%nat /\ (m' <= m)%nat.
Proof.
  split; unfold n', m', ix, iy, flatnonzero; (eapply Nat.le_trans; [apply filter_len|rewrite seq_length; lia]).
Qed.
Lemma ix_index : forall k, (k < n')%nat -> index_of (nth k ix 0%nat) ix = Some k.
Proof. intros. apply index_of_nth; auto. apply flatnonzero_NoDup. Qed.
Lemma iy_index : forall k, (k < m')%nat -> index_of (nth k iy 0%nat) iy = Some k.
Proof. intros. apply index_of_nth; auto. apply flatnonzero_NoDup. Qed.
Lemma ix_none : forall i, (i < n)%nat -> px i = false -> index_of i ix = None.
Proof. intros i Hi H. apply index_of_none. intros I. apply flatnonzero_In in I. destruct I; congruence. Qed.
Lemma iy_none : forall i, (i < m)%nat -> py i = false -> index_of i iy = None.
Proof. intros i Hi H. apply index_of_none. intros I. apply flatnonzero_In in I. destruct I; congruence. Qed.
Lemma lag_row : forall Ge i, (i < n)%nat -> row_sum m (lag_G Ge) i = match index_of i ix with Some k => row_sum m' Ge k | None => 0 end.
Proof.
  intros Ge i Hi. unfold row_sum. rewrite <- (rsum_active m py).
  2:{ intros j Hj H. unfold lag_G. rewrite (iy_none j Hj H). destruct (index_of i ix); auto. }
  fold iy. fold m'. destruct (index_of i ix) as [k|] eqn:E.
  - apply rsum_ext; intros l Hl. unfold lag_G. rewrite E, iy_index by auto. reflexivity.
  - apply rsum_0; intros l Hl. unfold lag_G. rewrite E. reflexivity.
Qed.
Lemma lag_col : forall Ge j, (j < m)%nat -> col_sum n (lag_G Ge) j = match index_of j iy with Some l => col_sum n' Ge l | None => 0 end.
Proof.
  intros Ge j Hj. unfold col_sum. rewrite <- (rsum_active n px).
  2:{ intros i Hi H. unfold lag_G. rewrite (ix_none i Hi H). auto. }
  fold ix. fold n'. destruct (index_of j iy) as [l|] eqn:E.
  - apply rsum_ext; intros k Hk. unfold lag_G. rewrite E, ix_index by auto. reflexivity.
  - apply rsum_0; intros k Hk. unfold lag_G. rewrite E. destruct (index_of _ ix); reflexivity.
Qed.
Lemma lag_sub : forall Ge, subcoupling n' m' a' b' Ge -> subcoupling n m a b (lag_G Ge).
Proof.
  intros Ge (H1 & H2 & H3). split; [|split].
  - intros i j Hi Hj. unfold lag_G. destruct (index_of i ix) as [k|] eqn:E1; [|lra]. destruct (index_of j iy) as [l|] eqn:E2; [|lra].
    apply index_of_some in E1. apply index_of_some in E2. apply H1; tauto.
  - intros i Hi. rewrite lag_row by auto. destruct (index_of i ix) as [k|] eqn:E; [|apply Ha; auto].
    apply index_of_some in E. destruct E as [E1 E2]. specialize (H2 k E1). unfold a' in H2. rewrite E2 in H2. auto.
  - intros j Hj. rewrite lag_col by auto. destruct (index_of j iy) as [k|] eqn:E; [|apply Hb; auto].
    apply index_of_some in E. destruct E as [E1 E2]. specialize (H3 k E1). unfold b' in H3. rewrite E2 in H3. auto.
Qed.
Lemma lag_double : forall f : nat -> nat -> R, (forall i j, (i < n)%nat -> (j < m)%nat -> px i = false \/ py j = false -> f i j = 0) ->
  rsum n (fun i => rsum m (fun j => f i j)) = rsum n' (fun k => rsum m' (fun l => f (nth k ix 0%nat) (nth l iy 0%nat))).
Proof.
  intros f H. rewrite <- (rsum_active n px).
  2:{ intros i Hi E. apply rsum_0; intros j Hj. apply H; auto. }
  fold ix. fold n'. apply rsum_ext; intros k Hk. rewrite <- (rsum_active m py).
  2:{ intros j Hj E. apply H; auto. apply ix_in; auto. }
  reflexivity.
Qed.
Lemma lag_cost : forall Ge, cost n m Ms (lag_G Ge) = cost n' m' Ms' Ge.
Proof.
  intros Ge. unfold cost. rewrite lag_double.
  - apply rsum_ext; intros k Hk. apply rsum_ext; intros l Hl. unfold lag_G. rewrite ix_index, iy_index by auto. reflexivity.
  - intros i j Hi Hj H. unfold lag_G. destruct H as [H|H].
    + rewrite (ix_none i Hi H). ring.
    + rewrite (iy_none j Hj H). destruct (index_of i ix); ring.
Qed.
Lemma lag_restrict : forall P, subcoupling n m a b P ->
  subcoupling n' m' a' b' (fun k l => P (nth k ix 0%nat) (nth l iy 0%nat)) /\
  cost n' m' Ms' (fun k l => P (nth k ix 0%nat) (nth l iy 0%nat)) <= cost n m Ms P.
Proof.
  intros P (H1 & H2 & H3). set (P0 := fun i j => if (px i && py j)%bool then P i j else 0).
  assert (Z : forall i j, px i = false \/ py j = false -> P0 i j = 0).
  { intros i j [E|E]; unfold P0; rewrite E; [|rewrite andb_false_r]; reflexivity. }
  assert (In' : forall k, (k < n')%nat -> px (nth k ix 0%nat) = true).
  { intros k Hk. assert (I : In (nth k ix 0%nat) ix) by (apply nth_In; auto). apply flatnonzero_In in I. tauto. }
  assert (Im' : forall k, (k < m')%nat -> py (nth k iy 0%nat) = true).
  { intros k Hk. assert (I : In (nth k iy 0%nat) iy) by (apply nth_In; auto). apply flatnonzero_In in I. tauto. }
  assert (Le : forall i j, (i < n)%nat -> (j < m)%nat -> 0 <= P0 i j <= P i j).
  { intros i j Hi Hj. unfold P0. specialize (H1 i j Hi Hj). destruct (px i && py j)%bool; lra. }
  assert (Eq : forall k l, (k < n')%nat -> (l < m')%nat -> P0 (nth k ix 0%nat) (nth l iy 0%nat) = P (nth k ix 0%nat) (nth l iy 0%nat)).
  { intros k l Hk Hl. unfold P0. rewrite In', Im'; auto. }
  split; [split; [|split]|].
  - intros k l Hk Hl. apply H1; [apply ix_in|apply iy_in]; auto.
  - intros k Hk. unfold row_sum. rewrite <- (rsum_ext m' _ _ (fun l Hl => Eq k l Hk Hl)).
    eapply Rle_trans; [right; apply (rsum_active m py (fun j => P0 (nth k ix 0%nat) j)); intros; apply Z; auto|].
    eapply Rle_trans; [|apply (H2 (nth k ix 0%nat)), ix_in; auto]. apply rsum_le; intros. apply Le; auto. apply ix_in; auto.
  - intros l Hl. unfold col_sum. rewrite <- (rsum_ext n' _ _ (fun k Hk => Eq k l Hk Hl)).
    eapply Rle_trans; [right; apply (rsum_active n px (fun i => P0 i (nth l iy 0%nat))); intros; apply Z; auto|].
    eapply Rle_trans; [|apply (H3 (nth l iy 0%nat)), iy_in; auto]. apply rsum_le; intros. apply Le; auto. apply iy_in; auto.
  - apply Rle_trans with (cost n m Ms P0).
    + right. unfold cost. rewrite (lag_double (fun i j => Ms i j * P0 i j)).
      * apply rsum_ext; intros k Hk. apply rsum_ext; intros l Hl. rewrite Eq by auto. reflexivity.
      * intros i j Hi Hj H. rewrite Z by auto. ring.
    + apply rsum_le; intros i Hi. apply rsum_le; intros j Hj. unfold P0.
      destruct (px i) eqn:E1; [destruct (py j) eqn:E2|]; cbn; try lra; rewrite Rmult_0_r; apply Rmult_le_pos; auto.
      * apply out_y; auto.
      * apply out_x; auto.
Qed.
Lemma rest_mass : mass n' a' <= mass n a /\ mass m' b' <= mass m b.
Proof.
  split; unfold mass.
  - apply Rle_trans with (rsum n (fun i => if px i then a i else 0)).
    + right. rewrite <- (rsum_active n px) by (intros i Hi H; rewrite H; auto). apply rsum_ext; intros k Hk.
      assert (I : In (nth k ix 0%nat) ix) by (apply nth_In; auto). apply flatnonzero_In in I. fold ix. rewrite (proj2 I). reflexivity.
    + apply rsum_le; intros i Hi. specialize (Ha i Hi). destruct (px i); lra.
  - apply Rle_trans with (rsum m (fun i => if py i then b i else 0)).
    + right. rewrite <- (rsum_active m py) by (intros i Hi H; rewrite H; auto). apply rsum_ext; intros k Hk.
      assert (I : In (nth k iy 0%nat) iy) by (apply nth_In; auto). apply flatnonzero_In in I. fold iy. rewrite (proj2 I). reflexivity.
    + apply rsum_le; intros i Hi. specialize (Hb i Hi). destruct (py i); lra.
Qed.
Lemma lag_facts : forall G, gives (lagrange_solve (N:=RNum) fuel it cd n m a b M rm nb log) G ->
  subcoupling n m a b G /\
  forall P, subcoupling n m a b P -> cost n m Ms G <= cost n m Ms P + tol * (mass n a + mass m b).
Proof.
  intros G H. destruct (lag_unfold G H) as (o & E & Ho & ->).
  assert (Q := lt_0_INR nb Hnb). destruct rest_mass as [Ra Rb].
  assert (D1 : INR nb * da = mass n a - mass n' a' + mass m b) by (unfold da; field; lra).
  assert (D2 : INR nb * db = mass m b - mass m' b' + mass n a) by (unfold db; field; lra).
  assert (Hmm : mass n' a' + INR nb * da = mass m' b' + INR nb * db) by lra.
  assert (Na' : nonneg_vec n' a') by (intros k Hk; apply Ha, ix_in; auto).
  assert (Nb' : nonneg_vec m' b') by (intros k Hk; apply Hb, iy_in; auto).
  assert (A0 : 0 <= mass n a) by (apply rsum_nonneg; auto). assert (B0 : 0 <= mass m b) by (apply rsum_nonneg; auto).
  assert (A0' : 0 <= mass n' a') by (apply rsum_nonneg; auto). assert (B0' : 0 <= mass m' b') by (apply rsum_nonneg; auto).
  assert (Pa : 0 <= da) by (apply Rle_mult_inv_pos; lra).
  assert (Pb : 0 <= db) by (apply Rle_mult_inv_pos; lra).
  assert (Pp : 0 < mass n' a' + INR nb * da) by lra.
  assert (HC' : bounded n' m' Ms' C) by (intros k l Hk Hl; apply HC; [apply ix_in|apply iy_in]; auto).
  assert (HCe := ext_bounded n' m' nb Ms' 0 C HC' ltac:(rewrite Rabs_R0; auto)).
  destruct len_le as [Ln Lm].
  assert (HT' : ns_tol (n' + nb) (m' + nb) C <= tol) by (apply ns_tol_mono; auto; lia).
  destruct (Rle_lt_or_eq_dec 0 da Pa) as [Pda|Zda]; [destruct (Rle_lt_or_eq_dec 0 db Pb) as [Pdb|Zdb]|].
  2,3: exfalso.
  2:{ rewrite <- Zdb in D2. lra. }
  2:{ rewrite <- Zda in D1. lra. }
  assert (HB : benign (n' + nb) (m' + nb) (ext_vec (N:=RNum) n' a' da) (ext_vec (N:=RNum) m' b' db) (ext_mat (N:=RNum) n' m' Ms' 0)).
  { right. exists C. split; auto. split; [lra|]. exists (n' + 0)%nat, (m' + 0)%nat.
    unfold ext_vec, ext_mat. rewrite !ltb_add. repeat split; try lia; cbn in *; lra. }
  assert (HG := solved_coupling n' m' nb a' b' da db Ms' 0 Hmm fuel it cd o Na' Nb' Pa Pb Pp E Ho HB).
  split; [apply lag_sub, (ext_sub n' m' nb a' b' da db Hnb _ HG)|]. intros P HP.
  destruct (lag_restrict P HP) as [S1 S2]. set (P' := fun k l => P (nth k ix 0%nat) (nth l iy 0%nat)) in *.
  assert (T0 : 0 <= total n' m' P') by (apply rsum_nonneg; intros; apply rsum_nonneg; intros; apply S1; auto).
  assert (Em := embed_ok n' m' nb a' b' da db Hnb Hmm P' S1 ltac:(lra)).
  assert (B := solved_best n' m' nb a' b' da db Ms' 0 Hnb Hmm fuel it cd o C Na' Nb' Pa Pb Pp E Ho HB HCe _ Em).
  rewrite !(ext_cost n' m' nb Ms' 0) in B. rewrite embed_cost in B. rewrite lag_cost.
  assert (ns_tol (n' + nb) (m' + nb) C * (mass n' a' + INR nb * da) <= tol * (mass n a + mass m b)).
  { replace (mass n' a' + INR nb * da) with (mass n a + mass m b) by lra. apply Rmult_le_compat_r; lra. }
  lra.
Qed.
End Lag.

(** ** answers *)
Lemma ext_emd_answers : forall it cd n m nb a b da db (M : mat) K,
  (0 < nb)%nat -> nonneg_vec n a -> nonneg_vec m b -> 0 <= da -> 0 <= db ->
  mass n a + INR nb * da = mass m b + INR nb * db -> 0 < mass n a + INR nb * da ->
  benign (n + nb) (m + nb) (ext_vec (N:=RNum) n a da) (ext_vec (N:=RNum) m b db) (ext_mat (N:=RNum) n m M K) ->
  (it = 0 \/ 2 ^ ((n + nb) * (m + nb) + (n + nb + (m + nb))) < it)%nat ->
  exists fuel o, emd (N:=RNum) fuel it cd (n + nb) (m + nb) (ext_vec (N:=RNum) n a da) (ext_vec (N:=RNum) m b db) (ext_mat (N:=RNum) n m M K) = Ret o
    /\ eo_type o = NS_model.OPTIMAL.
Proof.
  intros it cd n m nb a b da db M K Hnb Ha Hb Hda Hdb Hmm Hp HB Hit.
  set (ae := ext_vec (N:=RNum) n a da) in *. set (be := ext_vec (N:=RNum) m b db) in *.
  assert (Pa : 0 < mass (n + nb) ae) by (unfold ae; rewrite ae_mass; auto).
  assert (Pb : 0 < mass (m + nb) be) by (unfold be; rewrite be_mass, <- Hmm; auto).
  assert (Na : nonneg_vec (n + nb) ae) by (apply ae_nonneg; auto).
  assert (Nb : nonneg_vec (m + nb) be) by (apply be_nonneg; auto).
  set (f := S (2 ^ ((n + nb) * (m + nb) + (n + nb + (m + nb))))). exists f.
  destruct (emd_finishes f it cd (n + nb) (m + nb) ae be (ext_mat (N:=RNum) n m M K) Na Nb Pa Pb ltac:(unfold f; lia) Hit) as (o & E & Ht).
  exists o. split; auto. destruct (emd_ok f it cd (n + nb) (m + nb) ae be (ext_mat (N:=RNum) n m M K) o Na Nb Pa Pb E) as [W _].
  assert (HB' : benign (n + nb) (m + nb) ae (rescale (n + nb) (m + nb) ae be) (ext_mat (N:=RNum) n m M K)).
  { destruct HB as [?|(C' & A1 & A2 & i & j & A3 & A4 & A5 & A6 & A7)]; [left; auto|right]. exists C'. split; auto. split; auto.
    exists i, j. repeat split; auto. unfold ae, be. rewrite be_rescale; auto. }
  pose proof (w_feas _ _ _ _ _ _ _ W HB') as HF. destruct (w_ty _ _ _ _ _ _ _ W) as [?|[?|[? _]]]; auto; congruence.
Qed.

Lemma pw_answers : forall it cd n m nb a b (M : mat) w log C, (0 < n)%nat -> (0 < m)%nat ->
  (0 < nb)%nat -> nonneg_vec n a -> nonneg_vec m b -> 0 <= w -> w <= mass n a -> w <= mass m b -> 0 < mass n a -> 0 < mass m b ->
  bounded n m M C -> Rabs (2 * mat_max (N:=RNum) n m M) <= C -> fair_costs n m nb a b M C ->
  (it = 0 \/ 2 ^ ((n + nb) * (m + nb) + (n + nb + (m + nb))) < it)%nat ->
  exists fuel G, gives (partial_wasserstein (N:=RNum) fuel it cd n m (Some a) (Some b) M (Some w) nb log) G.
Proof.
  intros it cd n m nb a b M w log C Hn Hm Hnb Ha Hb W1 W2 W3 Pa Pb HC HKC HF Hit.
  assert (Q := lt_0_INR nb Hnb).
  set (da := (mass m b - w) / INR nb). set (db := (mass n a - w) / INR nb).
  assert (D1 : INR nb * da = mass m b - w) by (unfold da; field; lra).
  assert (D2 : INR nb * db = mass n a - w) by (unfold db; field; lra).
  destruct (ext_emd_answers it cd n m nb a b da db M (2 * mat_max (N:=RNum) n m M)) as (fuel & o & E & Ho); auto; try lra.
  { apply Rle_mult_inv_pos; lra. } { apply Rle_mult_inv_pos; lra. }
  { apply (fair_benign n m nb a b da db M _ C); auto. apply K_nonneg; auto. }
  exists fuel, (eo_G o). unfold partial_wasserstein. rewrite !nsum_R, nofnat_INR_, nmin_R.
  change (@nltb RNum) with Rltb.
  replace (Rltb w (@n0 RNum)) with false by (symmetry; apply Rltb_false; auto).
  replace (Rltb (Rmin (rsum n a) (rsum m b)) w) with false by (symmetry; apply Rltb_false; unfold mass in *; apply Rmin_glb; auto).
  replace (nmul (n:=RNum) (mat_max (N:=RNum) n m M) (nadd n1 n1)) with (2 * mat_max (N:=RNum) n m M) by (cbn; ring).
  change (ndiv (n:=RNum) (nsub (n:=RNum) (rsum m b) w) (INR nb)) with da. change (ndiv (n:=RNum) (nsub (n:=RNum) (rsum n a) w) (INR nb)) with db.
  rewrite E, Ho. cbn [no_warning]. apply gives_pack.
Qed.
