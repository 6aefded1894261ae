(** Proofs about Partial_model: transport problems with dummy points. *)
From Coq Require Import List Arith Bool Reals Lra Lia.
From Verif Require Import Num Sums Spec Duals_model Duals_proofs Duals_final Optim_proofs NS_model NS_emd_model Emd_model Emd_proofs Emd_final Partial_model.
Import ListNotations.
Local Open Scope R_scope.

Lemma ltb_lt : forall i n, (i < n)%nat -> Nat.ltb i n = true.
Proof. intros. apply Nat.ltb_lt; auto. Qed.
Lemma ltb_add : forall n k, Nat.ltb (n + k) n = false.
Proof. intros. apply Nat.ltb_ge; lia. Qed.

Lemma two_part : forall q x y : R, 0 < q -> q * (x / q + q * (y / (q * q))) = x + y.
Proof. intros. field. lra. Qed.

Section Dummy.
Variables (n m nb : nat) (a b : vec) (da db : R) (M : mat) (K : R).
Hypothesis Hnb : (0 < nb)%nat.
Let q := INR nb.
Hypothesis Hm : mass n a + q * da = mass m b + q * db.
Let ae := ext_vec (N:=RNum) n a da.
Let be := ext_vec (N:=RNum) m b db.
Let Me := ext_mat (N:=RNum) n m M K.
Let need : R := mass n a - q * db.      (* mass that has to go to real points *)

Lemma q_pos : 0 < q. Proof. unfold q. apply lt_0_INR; auto. Qed.
Lemma ae_real : forall i, (i < n)%nat -> ae i = a i.
Proof. intros. unfold ae, ext_vec. rewrite ltb_lt; auto. Qed.
Lemma ae_dummy : forall k, ae (n + k)%nat = da.
Proof. intros. unfold ae, ext_vec. rewrite ltb_add; auto. Qed.
Lemma be_real : forall i, (i < m)%nat -> be i = b i.
Proof. intros. unfold be, ext_vec. rewrite ltb_lt; auto. Qed.
Lemma be_dummy : forall k, be (m + k)%nat = db.
Proof. intros. unfold be, ext_vec. rewrite ltb_add; auto. Qed.
Lemma ae_mass : mass (n + nb) ae = mass n a + q * da.
Proof.
  unfold mass. rewrite rsum_split. f_equal; [apply rsum_ext, ae_real|].
  rewrite (rsum_ext nb _ (fun _ => da)) by (intros; apply ae_dummy). apply rsum_const.
Qed.
Lemma be_mass : mass (m + nb) be = mass m b + q * db.
Proof.
  unfold mass. rewrite rsum_split. f_equal; [apply rsum_ext, be_real|].
  rewrite (rsum_ext nb _ (fun _ => db)) by (intros; apply be_dummy). apply rsum_const.
Qed.
Lemma ae_nonneg : nonneg_vec n a -> 0 <= da -> nonneg_vec (n + nb) ae.
Proof. intros H1 H2 i Hi. unfold ae, ext_vec. destruct (Nat.ltb_spec i n); auto. Qed.
Lemma be_nonneg : nonneg_vec m b -> 0 <= db -> nonneg_vec (m + nb) be.
Proof. intros H1 H2 i Hi. unfold be, ext_vec. destruct (Nat.ltb_spec i m); auto. Qed.

Lemma be_rescale : 0 < mass (m + nb) be -> forall j, rescale (n + nb) (m + nb) ae be j = be j.
Proof.
  intros H j. unfold rescale. unfold mass in H. rewrite <- (be_mass) in Hm. rewrite <- ae_mass in Hm. unfold mass in *. rewrite Hm. field. lra.
Qed.

(** corner mass and cost of an extended plan *)
Definition corner (G : mat) : R := rsum nb (fun k => rsum nb (fun l => G (n + k)%nat (m + l)%nat)).

Section Plan.
Variable G : mat.
Hypothesis HG : coupling (n + nb) (m + nb) ae be G.
Lemma ext_sub : subcoupling n m a b G.
Proof.
  destruct HG as (H1 & H2 & H3). split; [|split].
  - intros i j Hi Hj. apply H1; lia.
  - intros i Hi. rewrite <- (ae_real i Hi), <- (H2 i ltac:(lia)). unfold row_sum. rewrite rsum_split.
    assert (0 <= rsum nb (fun k => G i (m + k)%nat)) by (apply rsum_nonneg; intros; apply H1; lia). lra.
  - intros j Hj. rewrite <- (be_real j Hj), <- (H3 j ltac:(lia)). unfold col_sum. rewrite rsum_split.
    assert (0 <= rsum nb (fun k => G (n + k)%nat j)) by (apply rsum_nonneg; intros; apply H1; lia). lra.
Qed.
Lemma corner_nonneg : 0 <= corner G.
Proof. apply rsum_nonneg; intros; apply rsum_nonneg; intros; apply HG; lia. Qed.
Lemma ext_total : total n m G = need + corner G.
Proof.
  destruct HG as (H1 & H2 & H3).
  assert (E1 : mass n a = total n m G + rsum n (fun i => rsum nb (fun l => G i (m + l)%nat))).
  { unfold mass, total. rewrite <- rsum_plus. apply rsum_ext; intros i Hi.
    rewrite <- (ae_real i Hi), <- (H2 i ltac:(lia)). unfold row_sum. apply rsum_split. }
  assert (E2 : q * db = rsum n (fun i => rsum nb (fun l => G i (m + l)%nat)) + corner G).
  { transitivity (rsum nb (fun _ : nat => db)); [rewrite rsum_const; reflexivity|].
    unfold corner. rewrite (rsum_swap n nb), (rsum_swap nb nb (fun k l => G (n + k)%nat (m + l)%nat)), <- rsum_plus. apply rsum_ext; intros l Hl.
    rewrite <- (be_dummy l), <- (H3 (m + l)%nat ltac:(lia)). unfold col_sum. apply rsum_split. }
  unfold need. lra.
Qed.
Lemma ext_cost : cost (n + nb) (m + nb) Me G = cost n m M G + K * corner G.
Proof.
  unfold cost. rewrite rsum_split. f_equal.
  - apply rsum_ext; intros i Hi. rewrite rsum_split.
    rewrite (rsum_0 nb), Rplus_0_r.
    + apply rsum_ext; intros j Hj. unfold Me, ext_mat. rewrite !ltb_lt; auto.
    + intros l Hl. unfold Me, ext_mat. rewrite ltb_lt, ltb_add by auto. cbn. ring.
  - unfold corner. rewrite <- rsum_scal. apply rsum_ext; intros k Hk. rewrite rsum_split, (rsum_0 m), Rplus_0_l.
    + rewrite <- rsum_scal. apply rsum_ext; intros l Hl. unfold Me, ext_mat. rewrite !ltb_add. reflexivity.
    + intros j Hj. unfold Me, ext_mat. rewrite ltb_add, ltb_lt by auto. cbn. ring.
Qed.
End Plan.

(** a partial plan shipping at least [need] extends to a plan of the extended problem *)
Section Embed.
Variable P : mat.
Hypothesis HP : subcoupling n m a b P.
Hypothesis Hneed : need <= total n m P.
Definition embed (i j : nat) : R :=
  if Nat.ltb i n then (if Nat.ltb j m then P i j else (a i - row_sum m P i) / q)
  else (if Nat.ltb j m then (b j - col_sum n P j) / q else (total n m P - need) / (q * q)).
Lemma embed_rr : forall i j, (i < n)%nat -> (j < m)%nat -> embed i j = P i j.
Proof. intros. unfold embed. rewrite !ltb_lt; auto. Qed.
Lemma embed_rd : forall i l, (i < n)%nat -> embed i (m + l) = (a i - row_sum m P i) / q.
Proof. intros. unfold embed. rewrite ltb_lt, ltb_add; auto. Qed.
Lemma embed_dr : forall k j, (j < m)%nat -> embed (n + k) j = (b j - col_sum n P j) / q.
Proof. intros. unfold embed. rewrite ltb_add, ltb_lt; auto. Qed.
Lemma embed_dd : forall k l, embed (n + k) (m + l) = (total n m P - need) / (q * q).
Proof. intros. unfold embed. rewrite !ltb_add; auto. Qed.
Lemma embed_ok : coupling (n + nb) (m + nb) ae be embed.
Proof.
  assert (Q := q_pos). destruct HP as (P1 & P2 & P3). split; [|split].
  - intros i j Hi Hj. unfold embed. destruct (Nat.ltb_spec i n), (Nat.ltb_spec j m).
    + apply P1; auto.
    + apply Rle_mult_inv_pos; auto. specialize (P2 i H). lra.
    + apply Rle_mult_inv_pos; auto. specialize (P3 j H0). lra.
    + apply Rle_mult_inv_pos; [lra|nra].
  - intros i Hi. unfold row_sum. rewrite rsum_split. destruct (Nat.lt_ge_cases i n) as [H|H].
    + rewrite (rsum_ext m _ (fun j => P i j)) by (intros; apply embed_rr; auto).
      rewrite (rsum_ext nb _ (fun _ => (a i - row_sum m P i) / q)) by (intros; apply embed_rd; auto).
      rewrite rsum_const. fold q. rewrite ae_real by auto. unfold row_sum. field. lra.
    + replace i with (n + (i - n))%nat by lia. rewrite ae_dummy.
      rewrite (rsum_ext m _ (fun j => (b j - col_sum n P j) / q)) by (intros; apply embed_dr; auto).
      rewrite (rsum_ext nb _ (fun _ => (total n m P - need) / (q * q))) by (intros; apply embed_dd).
      rewrite rsum_const, rsum_div, rsum_minus. fold q.
      replace (rsum m (col_sum n P)) with (total n m P) by (unfold total, col_sum; apply rsum_swap).
      change (rsum m b) with (mass m b). unfold need.
      apply (Rmult_eq_reg_l q); [|lra]. rewrite (two_part q) by auto. lra.
  - intros j Hj. unfold col_sum. rewrite rsum_split. destruct (Nat.lt_ge_cases j m) as [H|H].
    + rewrite (rsum_ext n _ (fun i => P i j)) by (intros; apply embed_rr; auto).
      rewrite (rsum_ext nb _ (fun _ => (b j - col_sum n P j) / q)) by (intros; apply embed_dr; auto).
      rewrite rsum_const. fold q. rewrite be_real by auto. unfold col_sum. field. lra.
    + replace j with (m + (j - m))%nat by lia. rewrite be_dummy.
      rewrite (rsum_ext n _ (fun i => (a i - row_sum m P i) / q)) by (intros; apply embed_rd; auto).
      rewrite (rsum_ext nb _ (fun _ => (total n m P - need) / (q * q))) by (intros; apply embed_dd).
      rewrite rsum_const, rsum_div, rsum_minus. fold q.
      change (rsum n (row_sum m P)) with (total n m P).
      change (rsum n a) with (mass n a). unfold need.
      apply (Rmult_eq_reg_l q); [|lra]. rewrite (two_part q) by auto. lra.
Qed.
Lemma embed_corner : corner embed = total n m P - need.
Proof.
  assert (Q := q_pos). unfold corner. rewrite (rsum_ext nb _ (fun _ => q * ((total n m P - need) / (q * q)))).
  2:{ intros k Hk. rewrite (rsum_ext nb _ (fun _ => (total n m P - need) / (q * q))) by (intros; apply embed_dd). apply rsum_const. }
  rewrite rsum_const. fold q. field. lra.
Qed.
Lemma embed_cost : cost n m M embed = cost n m M P.
Proof. apply rsum_ext; intros i Hi. apply rsum_ext; intros j Hj. rewrite embed_rr; auto. Qed.
End Embed.

(** what the network simplex returns on the extended problem *)
Section Solved.
Variables (fuel it : nat) (cd : bool) (o : @emd_out RNum) (C : R).
Hypothesis Ha : nonneg_vec n a.
Hypothesis Hb : nonneg_vec m b.
Hypothesis Hda : 0 <= da.
Hypothesis Hdb : 0 <= db.
Hypothesis Hpos : 0 < mass n a + q * da.
Hypothesis E : emd (N:=RNum) fuel it cd (n + nb) (m + nb) ae be Me = Ret o.
Hypothesis Ho : eo_type o = NS_model.OPTIMAL.
Hypothesis HB : benign (n + nb) (m + nb) ae be Me.
Hypothesis HC : bounded (n + nb) (m + nb) Me C.
Let tol := ns_tol (n + nb) (m + nb) C.

Lemma solved_facts : wrap_ok (n + nb) (m + nb) ae be Me it o.
Proof.
  assert (Pa : 0 < mass (n + nb) ae) by (rewrite ae_mass; auto).
  assert (Pb : 0 < mass (m + nb) be) by (rewrite be_mass, <- Hm; auto).
  destruct (emd_ok fuel it cd (n + nb) (m + nb) ae be Me o) as [W _]; auto.
  - apply ae_nonneg; auto.
  - apply be_nonneg; auto.
  - assert (R : forall j, (j < m + nb)%nat -> rescale (n + nb) (m + nb) ae be j = be j) by (intros; apply be_rescale; auto).
    destruct W. constructor; auto.
    + intros H. destruct (w_sub H) as (S1 & S2 & S3). split; [|split]; auto. intros j Hj. rewrite <- R; auto.
    + intros H. destruct (w_near H) as (S1 & S2). split; auto. intros j Hj. rewrite <- R; auto.
    + intros H _. assert (HB' : benign (n + nb) (m + nb) ae (rescale (n + nb) (m + nb) ae be) Me).
      { destruct HB as [?|(C' & A1 & A2 & i & j & A3 & A4 & A5 & A6 & A7)]; [left; auto|right]. exists C'. split; auto. split; auto.
        exists i, j. repeat split; auto. rewrite R; auto. }
      destruct (w_exact H HB') as (S1 & S2 & S3). split; [|split]; auto. intros j Hj. rewrite <- R; auto.
    + intros _. apply w_feas.
      destruct HB as [?|(C' & A1 & A2 & i & j & A3 & A4 & A5 & A6 & A7)]; [left; auto|right]. exists C'. split; auto. split; auto.
      exists i, j. repeat split; auto. rewrite R; auto.
Qed.
Lemma C_nonneg : 0 <= C.
Proof. eapply Rle_trans; [apply Rabs_pos|apply (HC n m); lia]. Qed.
Lemma solved_coupling : coupling (n + nb) (m + nb) ae be (eo_G o).
Proof. destruct solved_facts. auto. Qed.
Lemma solved_best : forall G', coupling (n + nb) (m + nb) ae be G' ->
  cost (n + nb) (m + nb) Me (eo_G o) <= cost (n + nb) (m + nb) Me G' + tol * (mass n a + q * da).
Proof.
  intros G' HG'. rewrite <- ae_mass.
  apply (certificate_eps (n + nb) (m + nb) ae be Me (eo_G o) (eo_alpha o) (eo_beta o) tol); auto.
  - apply solved_coupling.
  - apply ns_tol_pos, C_nonneg.
  - destruct solved_facts. intros; apply w_cert; auto.
  - destruct solved_facts. intros; apply w_tight; auto; congruence.
Qed.
(** exchange argument: mass in the corner and mass on a real cell contradict the potentials *)
Lemma solved_no_corner : (forall i j, (i < n)%nat -> (j < m)%nat -> 2 * tol < M i j + K) -> 0 <= need -> corner (eo_G o) = 0.
Proof.
  intros HK Hneed. assert (HG := solved_coupling). assert (D := corner_nonneg _ HG).
  destruct (Rle_lt_or_eq_dec _ _ D) as [Hp|]; auto. exfalso.
  assert (T := ext_total _ HG). assert (Tp : 0 < total n m (eo_G o)) by lra.
  assert (Ex : forall k f, 0 < rsum k f -> exists i, (i < k)%nat /\ 0 < f i).
  { clear. induction k; intros f H; cbn in H; [lra|]. destruct (Rlt_dec 0 (f k)); [exists k; split; auto; lia|].
    destruct (IHk f) as (i & Hi & Hf); [lra|]. exists i; split; auto; lia. }
  destruct (Ex _ _ Tp) as (i & Hi & Hr). destruct (Ex _ _ Hr) as (j & Hj & Hij). cbn beta in Hij.
  destruct (Ex _ _ Hp) as (k & Hk & Hc). destruct (Ex _ _ Hc) as (l & Hl & Hkl). cbn beta in Hkl.
  destruct solved_facts.
  assert (T1 := w_tight ltac:(congruence) i j ltac:(lia) ltac:(lia) Hij).
  assert (T2 := w_tight ltac:(congruence) (n + k)%nat (m + l)%nat ltac:(lia) ltac:(lia) Hkl).
  assert (F1 := w_cert Ho C HC i (m + l)%nat ltac:(lia) ltac:(lia)).
  assert (F2 := w_cert Ho C HC (n + k)%nat j ltac:(lia) ltac:(lia)).
  unfold Me, ext_mat in *. rewrite ?ltb_add, ?(ltb_lt i n Hi), ?(ltb_lt j m Hj) in *. cbn in *.
  specialize (HK i j Hi Hj). unfold tol in HK. lra.
Qed.
End Solved.
End Dummy.
