(** C125-C126: free_support_sinkhorn_barycenter and jcpot_barycenter (ot/bregman/_barycenter.py). *)
From Coq Require Import Reals Lra Lia Arith Bool List ZArith.
Import ListNotations.
From Verif Require Import Num Sums Spec Duals_proofs Entropy Emd1d_model Emd1d_perm_proofs Sinkhorn_model Sinkhorn_proofs Glue_proofs Fsb_model Fsb_proofs Bary_model Bary_jcpot.
Local Open Scope R_scope.

(** * C125.  Specification: an entropic optimal plan, and the entropic barycenter objective of a
    support X with weights b. *)
Definition ent_optimal (n m : nat) (a b : vec) (M : mat) (reg : R) (G : mat) : Prop :=
  coupling n m a b G /\ forall G', coupling n m a b G' -> ent_obj n m M reg G <= ent_obj n m M reg G'.
Definition ent_bary_value (k p : nat) (b : vec) (m : nat -> nat) (C : nat -> mat) (a : nat -> vec) (w : vec) (reg e : R) : Prop :=
  exists T, (forall i, (i < p)%nat -> ent_optimal k (m i) b (a i) (C i) reg (T i)) /\ e = rsum p (fun i => w i * ent_obj k (m i) (C i) reg (T i)).
Lemma ent_value_unique : forall k p b m C a w reg e e', ent_bary_value k p b m C a w reg e -> ent_bary_value k p b m C a w reg e' -> e = e'.
Proof.
  intros k p b m C a w reg e e' (T & HT & ->) (T' & HT' & ->). apply rsum_ext. intros i Hi. f_equal. destruct (HT i Hi) as [C1 O1]. destruct (HT' i Hi) as [C2 O2]. apply Rle_antisym; auto.
Qed.
Lemma ent_obj_ext_M : forall n m M M' reg G, (forall i j, (i < n)%nat -> (j < m)%nat -> M i j = M' i j) -> ent_obj n m M reg G = ent_obj n m M' reg G.
Proof. intros. unfold ent_obj. f_equal. apply cost_ext_M; auto. Qed.

Section Free.
Variables (skh : nat -> nat -> vec -> vec -> mat -> mat) (k d p : nat) (b : vec) (m : nat -> nat) (Y : nat -> mat) (a : nat -> vec) (w : vec) (reg : R).
Hypotheses (Hb : pos_vec k b) (Hw0 : nonneg_vec p w) (Hw : rsum p w = 1) (Hreg : 0 <= reg).
Hypothesis Hskh : forall i M, (i < p)%nat -> ent_optimal k (m i) b (a i) M reg (skh k (m i) b (a i) M).
Notation plan := (fsb_plan (N:=RNum) skh k d b m Y a).
Notation step := (fsb_step (N:=RNum) skh k d p b m Y a w).
Definition fs_energy (X : mat) : R := rsum p (fun i => w i * ent_obj k (m i) (sqeu d X (Y i)) reg (plan X i)).
Lemma fs_plan_opt : forall X i, (i < p)%nat -> ent_optimal k (m i) b (a i) (sqeu d X (Y i)) reg (plan X i).
Proof.
  intros X i Hi. destruct (Hskh i (sq_cost (N:=RNum) d X (Y i)) Hi) as [C O]. split; [exact C|]. intros G' HG. specialize (O G' HG).
  rewrite !(ent_obj_ext_M k (m i) (sq_cost (N:=RNum) d X (Y i)) (sqeu d X (Y i))) in O by (intros; apply sq_cost_R). exact O.
Qed.
Lemma fs_step_decr : forall X, fs_energy (step X) + rsum k (fun r => b r * rsum d (fun t => (step X r t - X r t) ^ 2)) <= fs_energy X.
Proof.
  intros X. assert (HC : forall i, (i < p)%nat -> coupling k (m i) b (a i) (plan X i)) by (intros i Hi; apply (fs_plan_opt X i Hi)).
  assert (E : forall r t, step X r t = mean_map p b m Y w (plan X) r t) by (intros; apply fsb_step_mean).
  assert (Q : fs_energy (step X) <= rsum p (fun i => w i * ent_obj k (m i) (sqeu d (mean_map p b m Y w (plan X)) (Y i)) reg (plan X i))).
  { apply rsum_le. intros i Hi. apply Rmult_le_compat_l; [apply Hw0; auto|]. eapply Rle_trans; [apply (fs_plan_opt (step X) i Hi); apply (HC i Hi)|].
    right. apply ent_obj_ext_M. intros. apply rsum_ext; intros. rewrite E. auto. }
  rewrite (rsum_ext k (fun r => b r * rsum d (fun t => (step X r t - X r t) ^ 2)) (fun r => b r * rsum d (fun t => (mean_map p b m Y w (plan X) r t - X r t) ^ 2))) by (intros r Hr; f_equal; apply rsum_ext; intros; rewrite E; auto).
  unfold fs_energy at 2. unfold ent_obj in Q |- *.
  assert (F : forall Z : mat, rsum p (fun i => w i * (cost k (m i) (sqeu d Z (Y i)) (plan X i) + reg * ent k (m i) (plan X i))) = rsum p (fun i => w i * cost k (m i) (sqeu d Z (Y i)) (plan X i)) + rsum p (fun i => w i * (reg * ent k (m i) (plan X i)))).
  { intros Z. rewrite <- rsum_plus. apply rsum_ext; intros. ring. }
  rewrite F in Q |- *. rewrite (bary_identity k d p b m Y a w (plan X) Hb Hw HC X). unfold ent_obj in Q. lra.
Qed.
Lemma xlnx_m1 : forall x, 0 <= x -> -1 <= x * ln x.
Proof. intros x Hx. pose proof (xlnx_tangent x 1 Hx ltac:(lra)) as T. unfold xlnx in T. rewrite ln_1 in T. lra. Qed.
Lemma fs_energy_low : forall X, - (reg * INR k * rsum p (fun i => w i * INR (m i))) <= fs_energy X.
Proof.
  intros X. replace (- (reg * INR k * rsum p (fun i => w i * INR (m i)))) with (rsum p (fun i => w i * (reg * (INR k * (INR (m i) * -1))))).
  - apply rsum_le. intros i Hi. apply Rmult_le_compat_l; [apply Hw0; auto|]. destruct (fs_plan_opt X i Hi) as [(P & _ & _) _]. unfold ent_obj.
    assert (C0 : 0 <= cost k (m i) (sqeu d X (Y i)) (plan X i)) by (apply rsum_nonneg; intros r Hr; apply rsum_nonneg; intros s Hs; apply Rmult_le_pos; [apply sqeu_nonneg|apply P; auto]).
    assert (E0 : INR k * (INR (m i) * -1) <= ent k (m i) (plan X i)).
    { rewrite <- !rsum_const. apply rsum_le. intros r Hr. apply rsum_le. intros s Hs. apply xlnx_m1. apply P; auto. }
    apply (Rmult_le_compat_l reg) in E0; auto. lra.
  - rewrite <- rsum_scal, <- rsum_opp. apply rsum_ext; intros; ring.
Qed.
(** the columns of the new support are convex combinations of the measures' locations *)
Lemma fs_hull : forall X r t lo hi, (r < k)%nat -> (forall i s, (i < p)%nat -> (s < m i)%nat -> lo <= Y i s t <= hi) -> lo <= step X r t <= hi.
Proof.
  intros X r t lo hi Hr HY. rewrite fsb_step_mean. unfold mean_map. pose proof (Hb r Hr) as Br.
  assert (E : forall c, rsum p (fun i => w i * 1 / b r * rsum (m i) (fun s => plan X i r s * c)) = c).
  { intros c. rewrite (rsum_ext p _ (fun i => w i * c)); [rewrite rsum_scal_r, Hw; ring|]. intros i Hi. rewrite rsum_scal_r. destruct (fs_plan_opt X i Hi) as [(_ & R1 & _) _].
    specialize (R1 r Hr). match goal with |- context [rsum ?x ?y] => replace (rsum x y) with (b r) by (symmetry; exact R1) end. field. lra. }
  assert (NN : forall i, (i < p)%nat -> 0 <= w i * 1 / b r) by (intros i Hi; unfold Rdiv; rewrite Rmult_1_r; apply Rmult_le_pos; [apply Hw0; auto|left; apply Rinv_0_lt_compat; auto]).
  split; [rewrite <- (E lo) at 1|rewrite <- (E hi) at 1]; (apply rsum_le; intros i Hi; apply Rmult_le_compat_l; [apply NN; auto|]; apply rsum_le; intros s Hs;
    apply Rmult_le_compat_l; [destruct (fs_plan_opt X i Hi) as [(P & _ & _) _]; apply P; auto|apply HY; auto]).
Qed.
Variable (bmin : R).
Hypothesis Hbm : forall r, (r < k)%nat -> bmin <= b r.
Lemma fs_disp_decr : forall X, fs_energy (step X) + bmin * displacement (N:=RNum) k d X (step X) <= fs_energy X.
Proof.
  intros X. eapply Rle_trans; [|apply fs_step_decr]. apply Rplus_le_compat_l. rewrite displacement_R, <- rsum_scal. apply rsum_le; intros r Hr.
  apply Rmult_le_compat_r; [apply rsum_nonneg; intros; apply pow2_ge_0|auto].
Qed.
Lemma fs_loop_decr : forall it thr disp X, let r := fsb_loop (N:=RNum) skh k d p b m Y a w it thr disp X in
  fs_energy (fst r) + bmin * lsum (fun x => x) (snd r) <= fs_energy X /\ (length (snd r) <= it)%nat /\
  (forall j, (S j < length (snd r))%nat -> thr < nth j (snd r) 0) /\ (thr < disp -> (length (snd r) < it)%nat -> snd r <> [] /\ last (snd r) 0 <= thr) /\ (disp <= thr -> snd r = []).
Proof.
  induction it; intros thr disp X; cbn [fsb_loop].
  - cbn [fst snd lsum length]. repeat split; try lia; auto. lra.
  - cbn [nltb RNum]. destruct (Rltb thr disp) eqn:B.
    + cbv zeta. cbn [fst snd]. apply Rltb_true in B. specialize (IHit thr (displacement (N:=RNum) k d X (step X)) (step X)). cbv zeta in IHit.
      destruct (fsb_loop (N:=RNum) skh k d p b m Y a w it thr (displacement (N:=RNum) k d X (step X)) (step X)) as [Xf l]. cbn [fst snd] in *. destruct IHit as (I1 & I2 & I3 & I4 & I5).
      pose proof (fs_disp_decr X) as D. set (dd := displacement (N:=RNum) k d X (step X)) in *. split; [|split; [|split; [|split]]].
      * cbn [lsum]. change (carrier RNum) with R in *. lra.
      * cbn [length]. change (carrier RNum) with R in *. lia.
      * intros [|j] Hj; cbn [length nth] in *.
        -- destruct (Rle_dec dd thr) as [L|L]; [rewrite (I5 L) in Hj; cbn in Hj; lia|lra].
        -- apply I3. change (carrier RNum) with R in *. lia.
      * intros _ Hl. split; [discriminate|]. cbn [length] in Hl. destruct (Rle_dec dd thr) as [L|L].
        -- rewrite (I5 L). cbn. exact L.
        -- destruct I4 as [Ne La]; [lra|change (carrier RNum) with R in *; lia|]. destruct l; [congruence|]. exact La.
      * intros L. lra.
    + apply Rltb_false in B. cbn [fst snd lsum length]. repeat split; try lia; auto; lra.
Qed.
Lemma fs_loop_hull : forall it thr disp X lo hi t, (forall i s, (i < p)%nat -> (s < m i)%nat -> lo <= Y i s t <= hi) -> (forall r, (r < k)%nat -> lo <= X r t <= hi) ->
  forall r, (r < k)%nat -> lo <= fst (fsb_loop (N:=RNum) skh k d p b m Y a w it thr disp X) r t <= hi.
Proof.
  induction it; intros thr disp X lo hi t HY HX r Hr; cbn [fsb_loop]; [apply HX; auto|]. destruct (nltb (n:=RNum) thr disp); [|apply HX; auto]. cbv zeta. cbn [fst].
  apply IHit; auto. intros r' Hr'. apply fs_hull; auto.
Qed.
End Free.

(** C125.  With weights summing to one and an exact entropic inner solver, the loop lowers the
    entropic barycenter objective at every iteration by at least sum_r b_r |X'_r - X_r|^2; the sum of
    the displacements is bounded and so is the number of iterations before the threshold; a loop
    ended before numItermax ended on the threshold; and the support stays in every box holding the
    measures and the initial support. *)
Theorem C125_free_support_sinkhorn_descent : forall skh k d p m Y a X0 b w reg it thr bmin e0,
  pos_vec k b -> nonneg_vec p w -> rsum p w = 1 -> 0 <= reg -> 0 < bmin -> (forall r, (r < k)%nat -> bmin <= b r) ->
  (forall i M, (i < p)%nat -> ent_optimal k (m i) b (a i) M reg (skh k (m i) b (a i) M)) ->
  ent_bary_value k p b m (fun i => sqeu d X0 (Y i)) a w reg e0 ->
  let r := free_support_sinkhorn_barycenter (N:=RNum) skh k d p m Y a X0 (Some b) (Some w) it thr in
  (exists e, ent_bary_value k p b m (fun i => sqeu d (fst r) (Y i)) a w reg e /\ e + bmin * lsum (fun x => x) (snd r) <= e0) /\
  (length (snd r) <= it)%nat /\ ((length (snd r) < it)%nat -> snd r <> [] /\ last (snd r) 0 <= thr) /\
  (0 < thr -> INR (length (snd r) - 1) * (bmin * thr) <= e0 + reg * INR k * rsum p (fun i => w i * INR (m i))) /\
  (forall lo hi t, (forall i s, (i < p)%nat -> (s < m i)%nat -> lo <= Y i s t <= hi) -> (forall l, (l < k)%nat -> lo <= X0 l t <= hi) ->
    forall l, (l < k)%nat -> lo <= fst r l t <= hi).
Proof.
  intros skh k d p m Y a X0 b w reg it thr bmin e0 Hb Hw0 Hw Hreg Hbm Hbr Hskh He0. cbv zeta. unfold free_support_sinkhorn_barycenter, free_support_barycenter. cbn [odflt nadd n1 RNum].
  destruct (fs_loop_decr skh k d p b m Y a w reg Hb Hw0 Hw Hskh bmin Hbr it thr (thr + 1) X0) as (D & L & G & S1 & _). change (carrier RNum) with R in *.
  set (r := fsb_loop (N:=RNum) skh k d p b m Y a w it thr (thr + 1) X0) in *.
  assert (E : forall X, ent_bary_value k p b m (fun i => sqeu d X (Y i)) a w reg (fs_energy skh k d p b m Y a w reg X)).
  { intros X. exists (fsb_plan (N:=RNum) skh k d b m Y a X). split; [intros i Hi; apply (fs_plan_opt skh k d p b m Y a reg Hskh X i Hi)|reflexivity]. }
  rewrite (ent_value_unique _ _ _ _ _ _ _ _ _ _ (E X0) He0) in D.
  split; [exists (fs_energy skh k d p b m Y a w reg (fst r)); split; auto|]. split; [exact L|]. split; [intros Hl; apply S1; auto; lra|]. split.
  - intros Ht. pose proof (fs_energy_low skh k d p b m Y a w reg Hw0 Hreg Hskh (fst r)) as E0.
    assert (Q : forall l : list R, (forall j, (S j < length l)%nat -> thr < nth j l 0) -> (forall x, In x l -> 0 <= x) -> INR (length l - 1) * thr <= lsum (fun x => x) l).
    { induction l as [|x l IH]; intros H1 H2; [cbn; lra|]. destruct l as [|y l]; [cbn; specialize (H2 x (or_introl eq_refl)); lra|].
      specialize (IH (fun j Hj => H1 (S j) ltac:(cbn [length] in *; lia)) (fun z Hz => H2 z (or_intror Hz))). pose proof (H1 0%nat ltac:(cbn; lia)) as H0. cbn [nth] in H0.
      replace (length (x :: y :: l) - 1)%nat with (S (length (y :: l) - 1)) by (cbn [length]; lia). rewrite S_INR. cbn [lsum] in *. lra. }
    assert (P : forall it' thr' dd X x, In x (snd (fsb_loop (N:=RNum) skh k d p b m Y a w it' thr' dd X)) -> 0 <= x).
    { induction it'; intros thr' dd X x Hx; cbn [fsb_loop] in Hx; [destruct Hx|]. destruct (nltb (n:=RNum) thr' dd); [|destruct Hx]. cbv zeta in Hx. cbn [snd] in Hx. destruct Hx as [<- | Hx]; [|apply IHit' in Hx; auto].
      rewrite displacement_R. apply rsum_nonneg; intros. apply rsum_nonneg; intros. apply pow2_ge_0. }
    specialize (Q (snd r) G (fun x Hx => P _ _ _ _ x Hx)). apply (Rmult_le_compat_l bmin) in Q; [|lra].
    assert (F : forall x y z q v : R, - q <= x -> x + y <= z -> v <= y -> v <= z + q) by (intros; lra). refine (F _ _ _ _ _ E0 D _). refine (Rle_trans _ _ _ _ Q). right. change (carrier RNum) with R. ring.
  - intros lo hi t HY HX l Hl. apply (fs_loop_hull skh k d p b m Y a w reg); auto.
Qed.
Print Assumptions C125_free_support_sinkhorn_descent.

(** C125 refuted as a fixed point: the barycenter of one measure started at that measure moves away
    from it.  Points -1 and 1 with weights 1/2, reg = 4 / ln 3: the entropic plan is
    (3/8, 1/8; 1/8, 3/8), one iteration halves the support. *)
Definition Ypm : mat := fun s _ => match s with O => -1 | S _ => 1 end.
Definition hf : vec := fun _ => 1 / 2.
Definition reg3 : R := 4 / ln 3.
Definition Tpm : mat := fun i j => if Nat.eqb i j then 3 / 8 else 1 / 8.
Lemma ln3_pos : 0 < ln 3. Proof. rewrite <- ln_1. apply ln_increasing; lra. Qed.
Lemma Tpm_opt : ent_optimal 2 2 hf hf (sqeu 1 Ypm Ypm) reg3 Tpm.
Proof.
  assert (L := ln3_pos). split.
  - split; [intros i j _ _; unfold Tpm; destruct (Nat.eqb i j); lra|]. split; intros i Hi; unfold row_sum, col_sum, Tpm, hf; cbn [rsum]; destruct i as [|[|i]]; try lia; cbn [Nat.eqb]; lra.
  - intros G' (G1 & G2 & G3). pose proof (ent_gap 2 2 (sqeu 1 Ypm Ypm) reg3 G' Tpm (fun _ => 0) (fun _ => 0) (reg3 * ln (3 / 8))) as Q.
    assert (P : 0 < reg3) by (apply Rdiv_lt_0_compat; lra). rewrite !(rsum_0 2) in Q by (intros; ring).
    assert (T : total 2 2 G' = total 2 2 Tpm).
    { unfold total. pose proof (G2 0%nat ltac:(lia)) as A0. pose proof (G2 1%nat ltac:(lia)) as A1. unfold row_sum, hf in A0, A1. cbn [rsum] in *. unfold Tpm. cbn [Nat.eqb]. lra. }
    rewrite T in Q. enough (0 <= ent_obj 2 2 (sqeu 1 Ypm Ypm) reg3 G' - ent_obj 2 2 (sqeu 1 Ypm Ypm) reg3 Tpm) by lra. eapply Rle_trans; [|apply Q]; [right; ring|lra|auto| |].
    + intros i j _ _. unfold Tpm. destruct (Nat.eqb i j); lra.
    + intros i j Hi Hj. unfold sqeu, Tpm. cbn [rsum].
      assert (X : ln (1 / 8) = ln (3 / 8) - ln 3) by (rewrite <- ln_div by lra; f_equal; lra).
      destruct i as [|[|i]]; try lia; destruct j as [|[|j]]; try lia; cbn [Nat.eqb Ypm]; rewrite ?X; unfold reg3; try (field; lra); ring.
Qed.
Theorem C125_one_measure_refuted : 
  ent_optimal 2 2 hf hf (sqeu 1 Ypm Ypm) reg3 Tpm /\
  forall skh, (forall M, (forall i j, (i < 2)%nat -> (j < 2)%nat -> M i j = sqeu 1 Ypm Ypm i j) -> forall i j, skh 2%nat 2%nat hf hf M i j = Tpm i j) ->
  let r := free_support_sinkhorn_barycenter (N:=RNum) skh 2 1 1 (fun _ => 2%nat) (fun _ => Ypm) (fun _ => hf) Ypm (Some hf) (Some (fun _ => 1)) 1 0 in
  (forall s, (s < 2)%nat -> fst r s 0%nat = Ypm s 0%nat / 2) /\ snd r = [1 / 2].
Proof.
  split; [apply Tpm_opt|]. intros skh Hs. cbv zeta. unfold free_support_sinkhorn_barycenter, free_support_barycenter. cbn [odflt fsb_loop]. cbn [nltb nadd n1 RNum].
  assert (B : Rltb 0 (0 + 1) = true) by (apply Rltb_true; lra). rewrite B. cbv zeta. cbn [fst snd fsb_loop].
  assert (E : forall s, (s < 2)%nat -> fsb_step (N:=RNum) skh 2 1 1 hf (fun _ => 2%nat) (fun _ => Ypm) (fun _ => hf) (fun _ => 1) Ypm s 0%nat = Ypm s 0%nat / 2).
  { intros s Hs'. rewrite fsb_step_mean. unfold mean_map, fsb_plan. cbn [rsum]. rewrite !Hs by (intros; apply sq_cost_R). unfold Tpm, hf. destruct s as [|[|s]]; try lia; cbn [Nat.eqb Ypm]; lra. }
  split; [exact E|]. f_equal. rewrite displacement_R. cbn [rsum]. rewrite !E by lia. cbn [Ypm]. lra.
Qed.
Print Assumptions C125_one_measure_refuted.

(** * C126.  jcpot_barycenter.  [class_mass nt ns Y d c G]: mass the coupling G of domain d gives to the
    samples of class c (labels shifted so that each domain starts at 0). *)
(** The proportions are positive and sum to one, and (up to the 1e-10 clipping of the projections)
    every returned coupling gives class c the same mass b_c, h being b normalised. *)
Theorem C126_shared_proportions : forall p nt ns lo norm Y Kd it thr, 0 < lo -> (0 < nt)%nat -> (1 <= it)%nat -> jc_in_range p ns Y = true ->
  (forall d i j, (d < p)%nat -> (i < ns d)%nat -> (j < nt)%nat -> 0 < Kd d i j) -> (0 < ns 0)%nat ->
  let nc := jc_nbclasses ns Y in
  exists h o b Kc, jcpot_barycenter (N:=RNum) exp ln p nt ns lo norm Y Kd it thr = Some (h, o) /\
  pos_vec nc b /\ pos_vec nc h /\ rsum nc h = 1 /\ (forall c, (c < nc)%nat -> h c = b c / rsum nc b) /\
  (forall d i, (d < p)%nat -> (i < ns d)%nat -> forall j, (j < nt)%nat -> 0 < jc_K o d i j) /\
  (forall d i c, (d < p)%nat -> (i < ns d)%nat -> (c < nc)%nat -> jc_labels ns Y d i = Z.of_nat c ->
     row_sum nt (jc_K o d) i = b c / INR (jc_count ns Y d c) * Rmin 1 (row_sum nt (Kc d) i / lo)) /\
  (forall d c, (d < p)%nat -> (c < nc)%nat -> (exists i, (i < ns d)%nat /\ jc_labels ns Y d i = Z.of_nat c) ->
     (forall i, (i < ns d)%nat -> lo <= row_sum nt (Kc d) i) -> class_mass nt ns Y d c (jc_K o d) = b c).
Proof.
  intros p nt ns lo norm Y Kd it thr Hlo Hnt Hit Hin HK Hn0 nc.
  destruct (loop_post p nt ns lo Y Hlo Hnt Hin norm thr it 0 (fun _ => 1) Kd None [] HK ltac:(lia) ltac:(discriminate)) as (o & K0 & L1 & L2 & L3 & L4).
  assert (N0 : (0 < nc)%nat).
  { unfold nc, jc_nbclasses. assert (G : forall k y, (0 < k)%nat -> (0 < length (distinct k y))%nat).
    { induction k; intros y Hk; [lia|]. cbn [distinct]. destruct k as [|k]; [cbn; lia|]. destruct (existsb _ _); [apply IHk; lia|rewrite app_length; cbn; lia]. }
    apply G; auto. }
  assert (P0 : pos_vec nc (jc_h o)) by (intros c _; rewrite L3; apply exp_pos).
  assert (S0 : 0 < rsum nc (jc_h o)) by (apply rsum_pos; auto).
  eexists. exists o, (jc_h o), (jc_C (N:=RNum) nt ns lo K0). split; [unfold jcpot_barycenter; rewrite Hin; cbv zeta; cbn [n1 RNum]; rewrite L1; reflexivity|].
  cbn [ndiv RNum]. rewrite nsum_R. fold nc. split; [exact P0|]. split; [intros c Hc; apply Rdiv_lt_0_compat; auto|].
  split; [change (carrier RNum) with R; rewrite rsum_div; unfold Rdiv; apply Rinv_r; lra|]. split; [auto|]. split; [|split].
  - intros d i Hd Hi j Hj. rewrite L4. apply (R_pos p nt ns lo Y Hlo Hnt Hin K0 L2); auto.
  - intros d i c Hd Hi Hc E. rewrite L4, L3. rewrite (R_row p nt ns lo Y Hlo Hnt K0 d i c) by auto. f_equal. set (s := row_sum nt (jc_C (N:=RNum) nt ns lo K0 d) i). assert (B : 0 < s) by (apply rsum_pos; auto; intros j Hj; apply (C_pos p nt ns lo Hlo Hnt K0 L2); auto).
    unfold Rmax, Rmin. destruct (Rle_dec s lo) as [L|L]; destruct (Rle_dec 1 (s / lo)) as [L'|L'].
    + apply (Rmult_le_compat_r lo) in L'; [|lra]. replace (s / lo * lo) with s in L' by (field; lra). assert (s = lo) by lra. rewrite <- H. field. lra.
    + auto.
    + field. lra.
    + exfalso. apply L'. apply (Rmult_le_reg_r lo); auto. replace (s / lo * lo) with s by (field; lra). lra.
  - intros d c Hd Hc HE HM. rewrite L4, L3. apply (class_R p nt ns lo Y); auto.
Qed.
Print Assumptions C126_shared_proportions.
(** numItermax = 0 leaves the result unbound; a label out of [0, number of classes of domain 0) after the
    shift is an IndexError *)
Theorem C126_errors : forall p nt ns lo norm Y Kd it thr, 
  jcpot_barycenter (N:=RNum) exp ln p nt ns lo norm Y Kd 0 thr = None /\ (jc_in_range p ns Y = false -> jcpot_barycenter (N:=RNum) exp ln p nt ns lo norm Y Kd it thr = None).
Proof. intros. split; [unfold jcpot_barycenter; destruct (jc_in_range p ns Y); reflexivity|intros E; unfold jcpot_barycenter; rewrite E; reflexivity]. Qed.
Print Assumptions C126_errors.
Example C126_errors_reached : jc_in_range 2 (fun _ => 2%nat) (fun _ i => match i with O => 0%Z | _ => 5%Z end) = false /\ jc_in_range 2 (fun _ => 2%nat) (fun _ i => match i with O => 3%Z | _ => 4%Z end) = true.
Proof. split; reflexivity. Qed.
(** The labels of each domain are read up to an own constant. *)
Theorem C126_labels : forall p nt ns lo norm Y (s : nat -> Z) Kd it thr, (forall d, (0 < ns d)%nat) ->
  jcpot_barycenter (N:=RNum) exp ln p nt ns lo norm (fun d i => (Y d i + s d)%Z) Kd it thr = jcpot_barycenter (N:=RNum) exp ln p nt ns lo norm Y Kd it thr.
Proof.
  intros p nt ns lo norm Y s Kd it thr Hn. assert (E := jc_labels_shift ns Y s Hn).
  assert (C : jc_nbclasses ns (fun d i => (Y d i + s d)%Z) = jc_nbclasses ns Y) by (unfold jc_nbclasses; rewrite (distinct_shift (ns 0%nat) (Y 0%nat) (s 0%nat)); apply map_length).
  unfold jcpot_barycenter, jc_in_range, jc_D1, jc_D2, jc_count. rewrite E, C. reflexivity.
Qed.
Print Assumptions C126_labels.
(** hence classes of different domains are confused: a domain holding only class 1 is read as class 0 *)
Theorem C126_labels_refuted : let ns := fun _ : nat => 2%nat in let cls := fun c => fun d i : nat => match d with O => Z.of_nat i | S _ => c end in
  forall nt lo norm Kd it thr, jcpot_barycenter (N:=RNum) exp ln 2 nt ns lo norm (cls 1%Z) Kd it thr = jcpot_barycenter (N:=RNum) exp ln 2 nt ns lo norm (cls 0%Z) Kd it thr.
Proof.
  intros ns cls nt lo norm Kd it thr. rewrite <- (C126_labels 2 nt ns lo norm (cls 0%Z) (fun d => match d with O => 0%Z | S _ => 1%Z end) Kd it thr) by (intros; unfold ns; lia).
  f_equal. apply FunctionalExtensionality.functional_extensionality; intro d. apply FunctionalExtensionality.functional_extensionality; intro i. unfold cls; destruct d; lia.
Qed.
Print Assumptions C126_labels_refuted.

(** Not the documented minimiser when a class has several samples: two identical domains with samples of
    classes 0, 0, 1, one target point, kernel values 1, 1/4, 1/2 (reg = 1).  The result is
    h = (5/7, 2/7) with couplings (5/14, 5/14, 2/7), for every number of iterations; h = (2/3, 1/3)
    has a strictly smaller objective. *)
Definition jk : mat := fun i _ => match i with O => 1 | 1%nat => 1 / 4 | _ => 1 / 2 end.
Definition jM : mat := fun i j => - ln (jk i j).
Definition jY : nat -> nat -> Z := fun _ i => match i with O | 1%nat => 0%Z | _ => 1%Z end.
Definition jg : mat := fun i _ => match i with O | 1%nat => 5 / 14 | _ => 2 / 7 end.
Definition jopt : mat := fun _ _ => 1 / 3.
Notation n3 := (fun _ : nat => 3%nat).
Lemma jiter : forall lo K, 0 < lo <= 1 / 10 -> (forall d i, (d < 2)%nat -> (i < 3)%nat -> K d i 0%nat = jk i 0%nat) \/ (forall d i, (d < 2)%nat -> (i < 3)%nat -> K d i 0%nat = jg i 0%nat) ->
  let D1 := jc_D1 (N:=RNum) n3 jY in let D2 := jc_D2 (N:=RNum) n3 jY in
  (jc_bary (N:=RNum) exp ln 2 1 n3 lo D1 K 0%nat = 5 / 7 /\ jc_bary (N:=RNum) exp ln 2 1 n3 lo D1 K 1%nat = 2 / 7) /\
  forall d i, (d < 2)%nat -> (i < 3)%nat -> jc_R (N:=RNum) exp ln 2 1 n3 lo 2 D1 D2 K d i 0%nat = jg i 0%nat.
Proof.
  intros lo K Hlo HK D1 D2.
  assert (CE : forall d i, (d < 2)%nat -> (i < 3)%nat -> jc_C (N:=RNum) 1 n3 lo K d i 0%nat = match i with O => match Rlt_le_dec (K d 0%nat 0%nat) 1 with left _ => 5 / 14 | right _ => 4 / 7 end | 1%nat => match Rlt_le_dec (K d 0%nat 0%nat) 1 with left _ => 5 / 14 | right _ => 1 / 7 end | _ => 2 / 7 end).
  { intros d i Hd Hi. unfold jc_C, projC. cbn [ndiv nmul n1 RNum]. rewrite nofnat_INR. change (INR 1) with 1. rewrite nsum_R, nmax_R. cbn [rsum].
    destruct HK as [HK|HK]; rewrite !HK by lia; cbn [jk jg]; (destruct (Rlt_le_dec _ 1); try lra); rewrite Rmax_left by lra; destruct i as [|[|[|i]]]; try lia; cbn [jk jg]; lra. }
  assert (BE : forall c, (c < 2)%nat -> jc_bary (N:=RNum) exp ln 2 1 n3 lo D1 K c = match c with O => 5 / 7 | _ => 2 / 7 end).
  { intros c Hc. unfold jc_bary. rewrite nsum_R. cbn [rsum]. rewrite !nsum_R. cbn [rsum]. rewrite !nsum_R. cbn [rsum]. rewrite !CE by lia. rewrite nofnat_INR. cbn [nmul ndiv RNum].
    assert (F : forall x : R, 0 < x -> exp (0 + ln x / INR 2 + ln x / INR 2) = x) by (intros x Hx; replace (0 + ln x / INR 2 + ln x / INR 2) with (ln x) by (cbn [INR]; field); apply exp_ln; auto).
    destruct c as [|[|c]]; [| |lia].
    - change (D1 0%nat 0%nat 0%nat) with 1. change (D1 0%nat 0%nat 1%nat) with 1. change (D1 0%nat 0%nat 2%nat) with 0. change (D1 1%nat 0%nat 0%nat) with 1. change (D1 1%nat 0%nat 1%nat) with 1. change (D1 1%nat 0%nat 2%nat) with 0.
      transitivity (exp (0 + ln (5 / 7) / INR 2 + ln (5 / 7) / INR 2)); [|apply F; lra]. assert (G : forall x y : R, x = 5 / 7 -> y = 5 / 7 -> exp (0 + ln x / INR 2 + ln y / INR 2) = exp (0 + ln (5 / 7) / INR 2 + ln (5 / 7) / INR 2)) by (intros x y -> ->; reflexivity). apply G; repeat destruct (Rlt_le_dec _ 1); lra.
    - change (D1 0%nat 1%nat 0%nat) with 0. change (D1 0%nat 1%nat 1%nat) with 0. change (D1 0%nat 1%nat 2%nat) with 1. change (D1 1%nat 1%nat 0%nat) with 0. change (D1 1%nat 1%nat 1%nat) with 0. change (D1 1%nat 1%nat 2%nat) with 1.
      transitivity (exp (0 + ln (2 / 7) / INR 2 + ln (2 / 7) / INR 2)); [|apply F; lra]. assert (G : forall x y : R, x = 2 / 7 -> y = 2 / 7 -> exp (0 + ln x / INR 2 + ln y / INR 2) = exp (0 + ln (2 / 7) / INR 2 + ln (2 / 7) / INR 2)) by (intros x y -> ->; reflexivity). apply G; repeat destruct (Rlt_le_dec _ 1); lra. }
  split; [split; [apply (BE 0%nat); lia|apply (BE 1%nat); lia]|].
  intros d i Hd Hi. unfold jc_R, projR. rewrite !nsum_R, nmax_R. cbn [rsum]. rewrite !BE by lia. rewrite CE by lia. cbn [nmul ndiv RNum].
  assert (CP : forall d i c, (i < 3)%nat -> D2 d c i = if Z.eqb (jY d i) (Z.of_nat c) then 1 / INR (jc_count n3 jY d c) else 0) by (intros d' i' c' _; unfold D2, jc_D2; cbn [n0 n1 ndiv RNum]; rewrite nofnat_INR; reflexivity).
  rewrite !CP by auto. change (jc_count n3 jY d 0) with 2%nat. change (jc_count n3 jY d 1) with 1%nat. cbn [INR].
  destruct i as [|[|[|i]]]; try lia; cbn [jY jg]; change (Z.of_nat 0) with 0%Z; change (Z.of_nat 1) with 1%Z; cbn [Z.eqb Pos.eqb]; try (destruct (Rlt_le_dec _ 1)); rewrite Rmax_left by lra; match goal with |- ?x = ?y => change (@eq R x y) end; field.
Qed.
Theorem C126_minimiser_refuted : forall lo norm thr it, 0 < lo <= 1 / 10 -> (1 <= it)%nat ->
  (exists h o, jcpot_barycenter (N:=RNum) exp ln 2 1 n3 lo norm jY (fun _ => jk) it thr = Some (h, o) /\ h 0%nat = 5 / 7 /\ h 1%nat = 2 / 7 /\
    forall d i, (d < 2)%nat -> (i < 3)%nat -> jc_K o d i 0%nat = jg i 0%nat) /\
  coupling 3 1 (fun i => match i with O | 1%nat => 5 / 7 / 2 | _ => 2 / 7 end) (fun _ => 1) jg /\
  coupling 3 1 (fun i => match i with O | 1%nat => 2 / 3 / 2 | _ => 1 / 3 end) (fun _ => 1) jopt /\
  (forall i j, (i < 3)%nat -> exp (- jM i j / 1) = jk i j) /\
  ent_obj 3 1 jM 1 jopt < ent_obj 3 1 jM 1 jg.
Proof.
  intros lo norm thr it Hlo Hit. split; [|split; [|split; [|split]]].
  - set (D1 := jc_D1 (N:=RNum) n3 jY). set (D2 := jc_D2 (N:=RNum) n3 jY).
    assert (LP : forall left ii old K last errs, (forall d i, (d < 2)%nat -> (i < 3)%nat -> K d i 0%nat = jk i 0%nat) \/ (forall d i, (d < 2)%nat -> (i < 3)%nat -> K d i 0%nat = jg i 0%nat) ->
      (last = None -> (0 < left)%nat) -> (forall b, last = Some b -> b 0%nat = 5 / 7 /\ b 1%nat = 2 / 7 /\ forall d i, (d < 2)%nat -> (i < 3)%nat -> K d i 0%nat = jg i 0%nat) ->
      exists o, jc_loop (N:=RNum) exp ln 2 1 n3 lo norm 2 D1 D2 thr left ii old K last errs = Some o /\ jc_h o 0%nat = 5 / 7 /\ jc_h o 1%nat = 2 / 7 /\ forall d i, (d < 2)%nat -> (i < 3)%nat -> jc_K o d i 0%nat = jg i 0%nat).
    { induction left as [|left IH]; intros ii old K last errs HK H0 HL; cbn [jc_loop].
      - destruct last as [b|]; [|specialize (H0 eq_refl); lia]. destruct (HL b eq_refl) as (A & B & C). eexists. split; [reflexivity|]. cbn [jc_h jc_K]. auto.
      - destruct (jiter lo K Hlo HK) as ((A & B) & C). cbv zeta. destruct (nltb (n:=RNum) _ thr); [eexists; split; [reflexivity|]; cbn [jc_h jc_K]; auto|]. apply IH; [right; exact C|discriminate|]. intros b E. injection E as <-. auto. }
    destruct (LP it 0%nat (fun _ => 1) (fun _ => jk) None [] ltac:(left; auto) ltac:(lia) ltac:(discriminate)) as (o & L1 & L2 & L3 & L4).
    eexists. exists o. split; [unfold jcpot_barycenter; change (jc_in_range 2 n3 jY) with true; change (jc_nbclasses n3 jY) with 2%nat; cbv zeta; subst D1 D2; cbn [n1 RNum]; change (carrier RNum) with R in *; rewrite L1; reflexivity|].
    cbn beta. rewrite nsum_R. cbn [rsum ndiv RNum]. rewrite L2, L3. split; [change (@eq R (5 / 7 / (0 + 5 / 7 + 2 / 7)) (5 / 7)); field|]. split; [change (@eq R (2 / 7 / (0 + 5 / 7 + 2 / 7)) (2 / 7)); field|exact L4].
  - split; [intros i j Hi _; unfold jg; destruct i as [|[|i]]; lra|]. split; intros i Hi; unfold row_sum, col_sum; cbn [rsum jg]; [destruct i as [|[|i]]; cbn [jg]; lra|lra].
  - split; [intros i j Hi _; unfold jopt; lra|]. split; intros i Hi; unfold row_sum, col_sum, jopt; cbn [rsum]; [destruct i as [|[|i]]; lra|lra].
  - intros i j Hi. unfold jM. replace (- - ln (jk i j) / 1) with (ln (jk i j)) by field. apply exp_ln. unfold jk. destruct i as [|[|i]]; lra.
  - unfold ent_obj, cost, ent, jM. cbn [rsum]. unfold jopt, jg, jk.
    pose proof (xlnx_tangent_lt (5 / 14) (1 / 3) ltac:(lra) ltac:(lra) ltac:(lra)) as T1. pose proof (xlnx_tangent_lt (2 / 7) (1 / 3) ltac:(lra) ltac:(lra) ltac:(lra)) as T2. unfold xlnx in T1, T2.
    assert (L4 : ln (1 / 4) = 2 * ln (1 / 2)) by (replace (1 / 4) with (1 / 2 * (1 / 2)) by lra; rewrite ln_mult by lra; ring). rewrite ln_1, L4.
    assert (L2 : - 1 < ln (1 / 2) < 0) by (split; [pose proof (ln_lt_sub1 2 ltac:(lra) ltac:(lra)) as Q; replace (1 / 2) with (/ 2) by lra; rewrite ln_Rinv; lra|rewrite <- ln_1; apply ln_increasing; lra]).
    lra.
Qed.
Print Assumptions C126_minimiser_refuted.
(** the hypotheses of C126_shared_proportions hold for these data, those of C125 for a one-point
    support, where the outer product is the only coupling *)
Example C126_example : jc_in_range 2 n3 jY = true /\ jc_nbclasses n3 jY = 2%nat /\ forall i j, (i < 3)%nat -> 0 < jk i j.
Proof. split; [reflexivity|]. split; [reflexivity|]. intros i j Hi. unfold jk. destruct i as [|[|i]]; lra. Qed.
Example C125_example : forall p (m : nat -> nat) (a : nat -> vec) reg, (forall i, (i < p)%nat -> nonneg_vec (m i) (a i) /\ rsum (m i) (a i) = 1) ->
  let b := fun _ : nat => 1 in let skh := fun (n m : nat) (a b : vec) (M : mat) => fun i j => a i * b j in
  pos_vec 1 b /\ forall i M, (i < p)%nat -> ent_optimal 1 (m i) b (a i) M reg (skh 1%nat (m i) b (a i) M).
Proof.
  intros p m a reg Ha b skh. split; [intros i _; unfold b; lra|]. intros i M Hi. destruct (Ha i Hi) as [A0 A1].
  assert (C : coupling 1 (m i) b (a i) (skh 1%nat (m i) b (a i) M)).
  { unfold skh, b. split; [intros r s _ Hs; rewrite Rmult_1_l; apply A0; auto|]. split; [intros r _; unfold row_sum; rewrite rsum_scal, A1; ring|intros s Hs; unfold col_sum; cbn [rsum]; ring]. }
  split; [exact C|]. intros G' (G1 & G2 & G3). right.
  assert (E : forall r s, (r < 1)%nat -> (s < m i)%nat -> skh 1%nat (m i) b (a i) M r s = G' r s).
  { intros r s Hr Hs. assert (r = 0%nat) by lia. subst r. specialize (G3 s Hs). unfold col_sum in G3. cbn [rsum] in G3. unfold skh, b. lra. }
  unfold ent_obj, cost, ent. f_equal; [|f_equal]; apply rsum_ext; intros r Hr; apply rsum_ext; intros s Hs; rewrite E by auto; auto.
Qed.
