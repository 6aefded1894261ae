(** C94: the gradients attached to emd2 and to the entropic value of ot.solve *)
From Coq Require Import List Arith Bool Reals Lra Lia QArith.
From Verif Require Import Num Sums Spec Entropy Duals_model Duals_proofs Duals_final Emd1d_model Emd1d_perm_proofs NS_model NS_emd_model Emd_model Emd_proofs Emd_final Sinkhorn_model Envelope_model P_Emd.
Import ListNotations.
Local Open Scope R_scope.

(** [V] is the least value of [f] over the couplings of (a, b) *)
Definition least (n m : nat) (a b : vec) (f : mat -> R) (V : R) : Prop := (forall P, coupling n m a b P -> V <= f P) /\ exists P, coupling n m a b P /\ f P = V.
Definition kl_obj (n m : nat) (a b : vec) (M : mat) (reg : R) (P : mat) : R := cost n m M P + reg * rsum n (fun i => rsum m (fun j => P i j * ln (P i j / (a i * b j)))).
Definition frob (n m : nat) (G H : mat) : R := rsum n (fun i => rsum m (fun j => G i j * H i j)).

Lemma centred_R : forall n (u : vec) i, centred (N:=RNum) n u i = u i - mass n u / INR n.
Proof. intros. unfold centred. rewrite nsum_R, nofnat_INR. reflexivity. Qed.
(** centring a gradient does not matter for perturbations that keep the mass *)
Lemma centred_dot : forall n (u a a' : vec), mass n a' = mass n a -> dot n (centred (N:=RNum) n u) (fun i => a' i - a i) = dot n u a' - dot n u a.
Proof.
  intros n u a a' H. unfold dot. rewrite (rsum_ext n _ (fun i => u i * a' i - u i * a i - mass n u / INR n * (a' i - a i))) by (intros; rewrite centred_R; ring).
  rewrite !rsum_minus, rsum_scal, rsum_minus. unfold mass in *. rewrite H. ring.
Qed.

(** ** emd2 *)
(** for every pair of histograms of the same mass, and every coupling of them, the value is at least
    the linear prediction of the attached gradient (up to the solver's tolerance); and the value of
    every other cost matrix is at most its linear prediction.  Here V + <g, h> is the tangent line. *)
Theorem C94_emd2_gradients : forall fuel it cd n m a b M o C,
  nonneg_vec n a -> nonneg_vec m b -> 0 < mass n a -> 0 < mass m b ->
  emd (N:=RNum) fuel it cd n m a b M = Ret o -> eo_type o = NS_model.OPTIMAL ->
  let b' := rescale n m a b in
  benign n m a b' M -> bounded n m M C ->
  let g := emd2_grads (N:=RNum) n m (eo_G o) (eo_alpha o) (eo_beta o) in
  (forall a2 b2 P, mass n a2 = mass n a -> mass m b2 = mass n a -> coupling n m a2 b2 P ->
     eo_cost o + dot n (g_a g) (fun i => a2 i - a i) + dot m (g_b g) (fun j => b2 j - b' j) - ns_tol n m C * mass n a <= cost n m M P) /\
  (forall M2 V2, least n m a b' (cost n m M2) V2 -> V2 <= eo_cost o + frob n m (g_M g) (fun i j => M2 i j - M i j)).
Proof.
  intros fuel it cd n m a b M o C Ha Hb Hma Hmb E Ht b' HB HC g.
  destruct (C03_emd_duals fuel it cd n m a b M o C Ha Hb Hma Hmb E Ht HC) as (F & _ & D & _). specialize (D HB).
  pose proof (C01_emd_coupling fuel it cd n m a b M o Ha Hb Hma Hmb E Ht HB) as CG. destruct (C02_emd_optimal fuel it cd n m a b M o C Ha Hb Hma Hmb E Ht HB HC) as [EC _].
  fold b' in CG, D. assert (Mb : mass m b' = mass n a) by (pose proof (coupling_mass n m a b' _ CG); lra). split.
  - intros a2 b2 P M1 M2 HP. unfold g, emd2_grads. cbn [g_a g_b]. rewrite !centred_dot by congruence. unfold dual_obj in D.
    assert (L : dot n (eo_alpha o) a2 + dot m (eo_beta o) b2 <= cost n m M P + ns_tol n m C * mass n a).
    { destruct HP as (NP & R1 & C1).
      assert (E1 : dot n (eo_alpha o) a2 = dsum n m (fun i j => eo_alpha o i * P i j)) by (rewrite dsum_row; apply rsum_ext; intros i Hi; rewrite (R1 i Hi); auto).
      assert (E2 : dot m (eo_beta o) b2 = dsum n m (fun i j => eo_beta o j * P i j)) by (rewrite dsum_col; apply rsum_ext; intros i Hi; rewrite (C1 i Hi); auto).
      assert (E3 : mass n a2 = dsum n m P) by (apply rsum_ext; intros i Hi; rewrite <- (R1 i Hi); auto).
      rewrite E1, E2, <- M1, E3, <- dsum_plus. unfold cost. fold (dsum n m (fun i j => M i j * P i j)). rewrite <- dsum_scal, <- dsum_plus. apply dsum_le. intros i j Hi Hj.
      rewrite <- Rmult_plus_distr_r, <- Rmult_plus_distr_r. apply Rmult_le_compat_r; auto. }
    lra.
  - intros M2 V2 [L _]. specialize (L _ CG). unfold g, emd2_grads, frob. cbn [g_M]. rewrite EC. apply Rle_trans with (1 := L). right. unfold cost. rewrite <- rsum_plus. apply rsum_ext. intros i _. rewrite <- rsum_plus. apply rsum_ext. intros. ring.
Qed.

(** ** ot.solve, reg_type='entropy': at a fixed point of Sinkhorn *)
Lemma lg_plan_R : forall (M : mat) reg (lu lv : vec) i j, lg_plan (N:=RNum) exp (fun i j => (0 - M i j) / reg) lu lv i j = exp ((lu i + lv j) - M i j / reg).
Proof. intros. unfold lg_plan. cbn [nadd RNum]. f_equal. unfold Rdiv. ring. Qed.
Lemma ent_tangent : forall n m (M : mat) reg (lu lv a2 b2 : vec) (P : mat), 0 < reg -> coupling n m a2 b2 P ->
  let G := lg_plan (N:=RNum) exp (fun i j => (0 - M i j) / reg) lu lv in
  reg * dot n lu a2 + reg * dot m lv b2 + reg * (mass n a2 - total n m G) <= ent_obj n m M reg P.
Proof.
  intros n m M reg lu lv a2 b2 P Hr (NP & R1 & C1) G.
  assert (E1 : dot n lu a2 = dsum n m (fun i j => lu i * P i j)) by (rewrite dsum_row; apply rsum_ext; intros i Hi; rewrite (R1 i Hi); auto).
  assert (E2 : dot m lv b2 = dsum n m (fun i j => lv j * P i j)) by (rewrite dsum_col; apply rsum_ext; intros i Hi; rewrite (C1 i Hi); auto).
  assert (E3 : mass n a2 = dsum n m P) by (apply rsum_ext; intros i Hi; rewrite <- (R1 i Hi); auto).
  rewrite E1, E2, E3. unfold ent_obj, cost, ent. fold (dsum n m (fun i j => M i j * P i j)) (dsum n m (fun i j => P i j * ln (P i j))). rewrite <- (dsum_total n m G), <- dsum_minus, <- !dsum_scal, <- !dsum_plus. apply dsum_le. intros i j Hi Hj.
  assert (HG : 0 < G i j) by (unfold G; rewrite lg_plan_R; apply exp_pos). pose proof (xlnx_div_ge (P i j) (G i j) (NP i j Hi Hj) HG) as X.
  rewrite xlnx_split in X by auto. unfold xlnx in X. assert (L : ln (G i j) = lu i + lv j - M i j / reg) by (unfold G; rewrite lg_plan_R; apply ln_exp). rewrite L in X.
  apply (Rmult_le_compat_l reg) in X; [|lra]. replace (reg * (P i j * ln (P i j) - P i j * (lu i + lv j - M i j / reg))) with (reg * (P i j * ln (P i j)) - reg * (P i j * (lu i + lv j)) + M i j * P i j) in X by (field; lra). lra.
Qed.
Lemma entropic_value_R : forall n m reg (a b : vec) (M P : mat), entropic_value (N:=RNum) exp ln 0 false n m reg a b M P = ent_obj n m M reg P.
Proof.
  intros. unfold entropic_value, ent_obj, cost, ent. cbv zeta. rewrite !nsum_R. cbn [nadd nmul RNum]. f_equal; [|f_equal]; apply rsum_ext; intros i _; rewrite nsum_R; apply rsum_ext; intros j _; [reflexivity|]. cbn [nmul nadd RNum]. rewrite Rplus_0_r. reflexivity.
Qed.
Lemma kl_value_R : forall n m reg (a b : vec) (M P : mat), entropic_value (N:=RNum) exp ln 0 true n m reg a b M P = kl_obj n m a b M reg P.
Proof.
  intros. unfold entropic_value, kl_obj, cost. cbv zeta. rewrite !nsum_R. cbn [nadd nmul RNum]. f_equal; [|f_equal]; apply rsum_ext; intros i _; rewrite nsum_R; apply rsum_ext; intros j _; [reflexivity|]. cbn [nmul nadd ndiv RNum]. rewrite Rplus_0_r. reflexivity.
Qed.
Theorem C94_solve_entropy_gradients : forall n m (a b : vec) (M : mat) reg (lu lv : vec), 0 < reg ->
  let g := envelope_grads (N:=RNum) exp n m reg M lu lv in coupling n m a b (g_M g) ->
  let V := entropic_value (N:=RNum) exp ln 0 false n m reg a b M (g_M g) in
  least n m a b (ent_obj n m M reg) V /\
  (forall a2 b2 V2, mass n a2 = mass n a -> mass m b2 = mass m b -> least n m a2 b2 (ent_obj n m M reg) V2 ->
     V + dot n (g_a g) (fun i => a2 i - a i) + dot m (g_b g) (fun j => b2 j - b j) <= V2) /\
  (forall M2 V2, least n m a b (ent_obj n m M2 reg) V2 -> V2 <= V + frob n m (g_M g) (fun i j => M2 i j - M i j)).
Proof.
  intros n m a b M reg lu lv Hr g CG V. set (G := g_M g) in *. assert (GR : forall i j, G i j = exp (lu i + lv j - M i j / reg)) by (intros; apply (lg_plan_R M reg lu lv)).
  assert (EV : V = reg * dot n lu a + reg * dot m lv b).
  { unfold V. rewrite entropic_value_R. destruct CG as (NG & R1 & C1).
    assert (E1 : dot n lu a = dsum n m (fun i j => lu i * G i j)) by (rewrite dsum_row; apply rsum_ext; intros i Hi; rewrite (R1 i Hi); auto).
    assert (E2 : dot m lv b = dsum n m (fun i j => lv j * G i j)) by (rewrite dsum_col; apply rsum_ext; intros i Hi; rewrite (C1 i Hi); auto).
    rewrite E1, E2. unfold ent_obj, cost, ent. fold (dsum n m (fun i j => M i j * G i j)) (dsum n m (fun i j => G i j * ln (G i j))). rewrite <- !dsum_scal, <- !dsum_plus. apply dsum_ext. intros i j _ _. rewrite (GR i j) at 3. rewrite ln_exp. field. lra. }
  assert (TG : total n m G = mass n a) by (apply rsum_ext; intros i Hi; destruct CG as (_ & R1 & _); apply R1; auto).
  assert (T : forall a2 b2 P, mass n a2 = mass n a -> coupling n m a2 b2 P -> reg * dot n lu a2 + reg * dot m lv b2 <= ent_obj n m M reg P).
  { intros a2 b2 P M1 HP. pose proof (ent_tangent n m M reg lu lv a2 b2 P Hr HP) as X. cbv zeta in X. change (lg_plan (N:=RNum) exp (fun i j => (0 - M i j) / reg) lu lv) with G in X. rewrite TG, M1 in X. lra. }
  split; [|split].
  - split; [intros P HP; rewrite EV; apply (T a b); auto|]. exists G. split; auto. symmetry. apply entropic_value_R.
  - intros a2 b2 V2 M1 M2 [_ (P & HP & <-)]. specialize (T a2 b2 P M1 HP). unfold g, envelope_grads. cbn [g_a g_b nmul RNum].
    assert (Ea : dot n (fun i => reg * centred (N:=RNum) n lu i) (fun i => a2 i - a i) = reg * (dot n lu a2 - dot n lu a)) by (rewrite <- centred_dot by auto; unfold dot; rewrite <- rsum_scal; apply rsum_ext; intros; ring).
    assert (Eb : dot m (fun i => reg * centred (N:=RNum) m lv i) (fun i => b2 i - b i) = reg * (dot m lv b2 - dot m lv b)) by (rewrite <- centred_dot by auto; unfold dot; rewrite <- rsum_scal; apply rsum_ext; intros; ring).
    rewrite Ea, Eb, EV. lra.
  - intros M2 V2 [L _]. specialize (L _ CG). apply Rle_trans with (1 := L). right. unfold V. rewrite entropic_value_R. unfold ent_obj, frob, cost.
    assert (X : rsum n (fun i => rsum m (fun j => M2 i j * G i j)) = rsum n (fun i => rsum m (fun j => M i j * G i j)) + rsum n (fun i => rsum m (fun j => G i j * (M2 i j - M i j)))) by (rewrite <- rsum_plus; apply rsum_ext; intros i _; rewrite <- rsum_plus; apply rsum_ext; intros; ring).
    fold G. rewrite X. ring.
Qed.

(** reg_type='KL' (the default): on couplings the two objectives differ by the entropies of the marginals *)
Lemma kl_ent : forall n m a b M reg P, pos_vec n a -> pos_vec m b -> coupling n m a b P ->
  kl_obj n m a b M reg P = ent_obj n m M reg P - reg * (dot n a (fun i => ln (a i)) + dot m b (fun j => ln (b j))).
Proof.
  intros n m a b M reg P Ha Hb (NP & R1 & C1). unfold kl_obj, ent_obj, ent. fold (dsum n m (fun i j => P i j * ln (P i j / (a i * b j)))) (dsum n m (fun i j => P i j * ln (P i j))).
  assert (E1 : dot n a (fun i => ln (a i)) = dsum n m (fun i j => ln (a i) * P i j)) by (rewrite (dsum_row n m (fun i => ln (a i)) P); apply rsum_ext; intros i Hi; rewrite (R1 i Hi); apply Rmult_comm).
  assert (E2 : dot m b (fun i => ln (b i)) = dsum n m (fun i j => ln (b j) * P i j)) by (rewrite (dsum_col n m (fun j => ln (b j)) P); apply rsum_ext; intros i Hi; rewrite (C1 i Hi); apply Rmult_comm).
  rewrite E1, E2, <- dsum_plus. replace (dsum n m (fun i j => P i j * ln (P i j / (a i * b j)))) with (dsum n m (fun i j => P i j * ln (P i j)) - dsum n m (fun i j => ln (a i) * P i j + ln (b j) * P i j)); [ring|].
  rewrite <- dsum_minus. apply dsum_ext. intros i j Hi Hj. pose proof (Ha i Hi). pose proof (Hb j Hj). rewrite xlnx_split by (auto; apply Rmult_lt_0_compat; auto). unfold xlnx. rewrite ln_mult by auto. ring.
Qed.
(** the KL value is the reported one, and adding back the marginal entropies gives the tangent inequality:
    the attached gradients miss the terms -reg ln a and -reg ln b *)
Theorem C94_solve_kl_gradients : forall n m (a b : vec) (M : mat) reg (lu lv : vec), 0 < reg -> pos_vec n a -> pos_vec m b ->
  let g := envelope_grads (N:=RNum) exp n m reg M lu lv in coupling n m a b (g_M g) ->
  let V := entropic_value (N:=RNum) exp ln 0 true n m reg a b M (g_M g) in
  let H := fun n (x : vec) => dot n x (fun i => ln (x i)) in
  least n m a b (kl_obj n m a b M reg) V /\
  (forall a2 b2 V2, pos_vec n a2 -> pos_vec m b2 -> mass n a2 = mass n a -> mass m b2 = mass m b -> least n m a2 b2 (kl_obj n m a2 b2 M reg) V2 ->
     V + dot n (g_a g) (fun i => a2 i - a i) + dot m (g_b g) (fun j => b2 j - b j) <= V2 + reg * (H n a2 - H n a) + reg * (H m b2 - H m b)) /\
  (forall M2 V2, least n m a b (kl_obj n m a b M2 reg) V2 -> V2 <= V + frob n m (g_M g) (fun i j => M2 i j - M i j)).
Proof.
  intros n m a b M reg lu lv Hr Ha Hb g CG V H. destruct (C94_solve_entropy_gradients n m a b M reg lu lv Hr CG) as (L & S & T). fold g in L, S, T. rewrite entropic_value_R in L, S, T.
  assert (EV : V = ent_obj n m M reg (g_M g) - reg * (H n a + H m b)) by (unfold V; rewrite kl_value_R; apply kl_ent; auto).
  assert (K : forall a2 b2 M2 V2, pos_vec n a2 -> pos_vec m b2 -> least n m a2 b2 (kl_obj n m a2 b2 M2 reg) V2 -> least n m a2 b2 (ent_obj n m M2 reg) (V2 + reg * (H n a2 + H m b2))).
  { intros a2 b2 M2 V2 Ha2 Hb2 [L2 (P & HP & E)]. split.
    - intros Q HQ. specialize (L2 Q HQ). rewrite kl_ent in L2 by auto. fold (H n a2) (H m b2) in L2. lra.
    - exists P. split; auto. rewrite kl_ent in E by auto. fold (H n a2) (H m b2) in E. lra. }
  split; [|split].
  - destruct L as [L _]. split; [intros P HP; specialize (L P HP); rewrite kl_ent by auto; fold (H n a) (H m b); lra|]. exists (g_M g). split; auto. symmetry. apply kl_value_R.
  - intros a2 b2 V2 Ha2 Hb2 M1 M2 HV. specialize (S a2 b2 _ M1 M2 (K _ _ _ _ Ha2 Hb2 HV)). lra.
  - intros M2 V2 HV. specialize (T M2 _ (K _ _ _ _ Ha Hb HV)). lra.
Qed.
(** zero cost, one Sinkhorn iteration from zero potentials: the KL value is 0 for all histograms, so its
    gradient in a vanishes, but the attached gradient has a non-zero slope along a mass-preserving direction *)
Theorem C94_solve_kl_gradient_refuted : exists n m reg (a b : vec) (M : mat) (d : vec), 0 < reg /\ pos_vec n a /\ pos_vec m b /\
  let Mr := fun i j => (0 - M i j) / reg in let lv := lg_v (N:=RNum) n b exp ln Mr (fun _ => 0) in let lu := lg_u (N:=RNum) m a exp ln Mr lv in
  let g := envelope_grads (N:=RNum) exp n m reg M lu lv in
  coupling n m a b (g_M g) /\
  (forall a2, nonneg_vec n a2 -> mass n a2 = 1 -> (forall i, (i < n)%nat -> 0 < a2 i) -> least n m a2 b (kl_obj n m a2 b M reg) 0) /\
  mass n d = 0 /\ 0 < dot n (g_a g) d.
Proof.
  set (a := (fun i => if Nat.eqb i 0 then 2 / 3 else 1 / 3) : vec). set (b := (fun _ => 1) : vec).
  exists 2%nat, 1%nat, 1, a, b, (fun _ _ => 0), (fun i => if Nat.eqb i 0 then 1 else -1).
  split; [lra|]. split; [intros i _; unfold a; destruct (Nat.eqb i 0); lra|]. split; [intros i _; unfold b; lra|].
  cbv zeta. set (Mr := fun i j : nat => (0 - (fun _ _ : nat => 0) i j) / 1). set (lv := lg_v (N:=RNum) 2 b exp ln Mr (fun _ => 0)). set (lu := lg_u (N:=RNum) 1 a exp ln Mr lv).
  assert (MR : forall i j, Mr i j = 0) by (intros; unfold Mr; field).
  assert (LV : forall j, lv j = - ln 2).
  { intros j. unfold lv, lg_v, logsumexp. rewrite nsum_R. cbn [nsub nadd RNum rsum]. rewrite !MR. rewrite !Rplus_0_l, exp_0. unfold b. rewrite ln_1. replace (1 + 1) with 2 by ring. change (carrier RNum) with R in *. replace (0 + 1 + 1) with 2 by ring. ring. }
  assert (LU : forall i, lu i = ln (a i) + ln 2).
  { intros i. unfold lu, lg_u, logsumexp. rewrite nsum_R. cbn [nsub nadd RNum rsum]. rewrite MR, LV, !Rplus_0_l, ln_exp. change (carrier RNum) with R in *. ring. }
  assert (AP : forall i, 0 < a i) by (intros i; unfold a; destruct (Nat.eqb i 0); lra).
  assert (G : forall i j, g_M (envelope_grads (N:=RNum) exp 2 1 1 (fun _ _ => 0) lu lv) i j = a i).
  { intros i j. cbn [g_M envelope_grads]. etransitivity; [apply (lg_plan_R (fun _ _ => 0) 1 lu lv i j)|]. rewrite LU, LV. replace (ln (a i) + ln 2 + - ln 2 - 0 / 1) with (ln (a i)) by field. apply exp_ln, AP. }
  split; [split; [|split]|split; [|split]].
  - intros i j _ _. rewrite G. left. apply AP.
  - intros i Hi. unfold row_sum. cbn [rsum]. rewrite G. ring.
  - intros j Hj. unfold col_sum. cbn [rsum]. rewrite !G. unfold a, b. cbn [Nat.eqb]. lra.
  - intros a2 _ M2 P2. assert (U : forall P, coupling 2 1 a2 b P -> forall i, (i < 2)%nat -> P i 0%nat = a2 i) by (intros P (_ & R1 & _) i Hi; rewrite <- (R1 i Hi); unfold row_sum; cbn [rsum]; ring).
    assert (V : forall P, coupling 2 1 a2 b P -> kl_obj 2 1 a2 b (fun _ _ => 0) 1 P = 0).
    { intros P HP. unfold kl_obj, cost. cbn [rsum]. rewrite !(U P HP) by lia. unfold b. replace (a2 0%nat / (a2 0%nat * 1)) with 1 by (field; pose proof (P2 0%nat ltac:(lia)); lra). replace (a2 1%nat / (a2 1%nat * 1)) with 1 by (field; pose proof (P2 1%nat ltac:(lia)); lra). rewrite ln_1. ring. }
    split; [intros P HP; rewrite (V P HP); lra|]. exists (fun i _ => a2 i). assert (CP : coupling 2 1 a2 b (fun i _ => a2 i)).
    { split; [intros i j Hi _; left; auto|]. split; [intros i Hi; unfold row_sum; cbn [rsum]; ring|]. intros j Hj. unfold col_sum, b. exact M2. }
    split; auto.
  - unfold mass. cbn [rsum Nat.eqb]. ring.
  - unfold dot. cbn [rsum Nat.eqb g_a envelope_grads nmul RNum]. rewrite !centred_R, !LU. unfold a at 1 2. cbn [Nat.eqb].
    replace (0 + 1 * (ln (2 / 3) + ln 2 - mass 2 lu / INR 2) * 1 + 1 * (ln (1 / 3) + ln 2 - mass 2 lu / INR 2) * -1) with (ln (2 / 3) - ln (1 / 3)) by ring.
    pose proof (ln_increasing (1 / 3) (2 / 3) ltac:(lra) ltac:(lra)). lra.
Qed.
(** centring drops the component along the mass: for perturbations that change the mass of both
    histograms the attached gradients are not tangent (emd2, constant cost 1: value = mass) *)
Theorem C94_mass_changing_refuted : exists n m (a b a2 b2 : vec) (M G : mat) (u v : vec),
  optimal_coupling n m a b M G /\ dual_feasible n m M u v /\ dual_obj n m a b u v = cost n m M G /\
  mass n a2 = mass m b2 /\
  let g := emd2_grads (N:=RNum) n m G u v in
  exists V2, least n m a2 b2 (cost n m M) V2 /\ V2 < cost n m M G + dot n (g_a g) (fun i => a2 i - a i) + dot m (g_b g) (fun j => b2 j - b j).
Proof.
  exists 1%nat, 1%nat, (fun _ => 1), (fun _ => 1), (fun _ => / 2), (fun _ => / 2), (fun _ _ => 1), (fun _ _ => 1), (fun _ => 1), (fun _ => 0).
  assert (CF : forall x G, coupling 1 1 (fun _ => x) (fun _ => x) G -> cost 1 1 (fun _ _ => 1) G = x).
  { intros x G (_ & R1 & _). unfold cost. cbn [rsum]. pose proof (R1 0%nat ltac:(lia)) as H. unfold row_sum in H. cbn [rsum] in H. lra. }
  assert (CI : forall x, 0 <= x -> coupling 1 1 (fun _ => x) (fun _ => x) (fun _ _ => x)).
  { intros x Hx. split; [intros i j _ _; auto|]. split; intros k _; unfold row_sum, col_sum; cbn [rsum]; ring. }
  split; [split; [apply CI; lra|intros G' HG; rewrite (CF 1 G' HG), (CF 1); [lra|apply CI; lra]]|].
  split; [intros i j _ _; lra|]. split; [unfold dual_obj, dot, cost; cbn [rsum]; ring|]. split; [reflexivity|]. cbv zeta. exists (/ 2). split.
  - split; [intros P HP; rewrite (CF _ _ HP); lra|]. exists (fun _ _ => / 2). split; [apply CI; lra|]. apply CF, CI. lra.
  - unfold emd2_grads, dot, cost. cbn [g_a g_b rsum]. rewrite !centred_R. unfold mass. cbn [rsum INR]. lra.
Qed.

(** ** examples *)
Example C94_hyps : coupling 2 1 (fun i => 1 / 2) (fun _ => 1) (g_M (envelope_grads (N:=RNum) exp 2 1 1 (fun i _ => INR i) (fun i => INR i - ln 2) (fun _ => 0))).
Proof.
  assert (G : forall i j, g_M (envelope_grads (N:=RNum) exp 2 1 1 (fun i _ => INR i) (fun i => INR i - ln 2) (fun _ => 0)) i j = / 2).
  { intros i j. cbn [g_M envelope_grads]. etransitivity; [apply (lg_plan_R (fun i _ => INR i) 1 (fun i => INR i - ln 2) (fun _ => 0) i j)|]. replace (INR i - ln 2 + 0 - INR i / 1) with (- ln 2) by field. rewrite exp_Ropp, exp_ln; lra. }
  split; [intros i j _ _; rewrite G; lra|]. split; intros k Hk; unfold row_sum, col_sum; cbn [rsum]; rewrite !G; lra.
Qed.

Print Assumptions C94_emd2_gradients.
Print Assumptions C94_solve_entropy_gradients.
Print Assumptions C94_solve_kl_gradients.
Print Assumptions C94_solve_kl_gradient_refuted.
Print Assumptions C94_mass_changing_refuted.
