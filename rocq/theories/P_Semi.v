(** C61, C62, C93, C95, C96: ot/stochastic.py.
    [kl_cost n m a b M reg P] = <M,P> + reg sum P ln (P/(a b)); [semi_dual] is the objective of the docstrings;
    [rows_are n m a P]: P is non-negative with first marginal a. *)
From Coq Require Import List Arith Bool Reals Lra Lia QArith FunctionalExtensionality.
From Verif Require Import Num Sums Spec Entropy Duals_proofs Optim_proofs Emd1d_model Emd1d_perm_proofs Smooth_proofs Semi_model Semi_proofs.
Import ListNotations.
Local Open Scope R_scope.

(** ** C62: for every potential beta, however obtained *)
Theorem C62_semi_dual_plan : forall n m (a b : vec) (M : mat) reg (be : vec), (0 < m)%nat -> 0 < reg -> nonneg_vec n a -> pos_vec m b -> mass n a = 1 ->
  let P := semi_dual_plan (N:=RNum) exp ln m a b M reg be in let g := full_grad n m a b M reg be in
  nonneg_mat n m P /\ (forall i, (i < n)%nat -> row_sum m P i = a i) /\
  (* the a-weighted mean of the coordinate gradients is the second-marginal residual *)
  (forall j, g j = b j - col_sum n P j) /\
  (* weak duality, gap, certificate *)
  (forall Q, coupling n m a b Q -> semi_dual n m a b M reg be <= kl_cost n m a b M reg Q) /\
  (forall Q, coupling n m a b Q -> kl_cost n m a b M reg P <= kl_cost n m a b M reg Q - dot m be g) /\
  ((forall j, (j < m)%nat -> g j = 0) -> coupling n m a b P /\ (forall Q, coupling n m a b Q -> kl_cost n m a b M reg P <= kl_cost n m a b M reg Q) /\
     semi_dual n m a b M reg be = kl_cost n m a b M reg P /\ forall be', semi_dual n m a b M reg be' <= semi_dual n m a b M reg be) /\
  (* supergradient *)
  forall be', semi_dual n m a b M reg be' <= semi_dual n m a b M reg be + dot m (fun j => be' j - be j) g.
Proof.
  intros n m a b M reg be Hm Hr Ha Hb Ma P g. destruct (semi_plan_rows n m a b M reg Hm Hr Ha Hb be) as [NP R1]. fold P in NP, R1.
  assert (G : forall j, g j = b j - col_sum n P j) by (intros j; unfold g; rewrite full_grad_residual by auto; rewrite Ma, Rmult_1_l; reflexivity).
  assert (W : forall be Q, coupling n m a b Q -> semi_dual n m a b M reg be <= kl_cost n m a b M reg Q).
  { intros be0 Q (NQ & RQ & CQ). pose proof (semi_lag n m a b M reg Hm Hr Ha Hb be0 Q (conj NQ RQ)) as L. rewrite dot_zero in L by (intros j Hj; rewrite Ma, (CQ j Hj); ring). lra. }
  pose proof (semi_att n m a b M reg Hm Hr Ha Hb be) as A. fold P g in A.
  pose proof (semi_super n m a b M reg Hm Hr Ha Hb be) as S. fold g in S.
  split; auto. split; auto. split; auto. split; [apply W|]. split; [intros Q HQ; specialize (W be Q HQ); lra|]. split; auto. intros Zg.
  rewrite (dot_zero m be g Zg) in A. assert (CP : coupling n m a b P) by (split; [auto|split; [auto|intros j Hj; specialize (G j); rewrite (Zg j Hj) in G; lra]]).
  split; auto. split; [intros Q HQ; specialize (W be Q HQ); lra|]. split; [lra|]. intros be'. specialize (S be'). rewrite (dot_zero m _ g Zg) in S. lra.
Qed.
(** the c-transform is the best first potential for the dual objective without exponential term constraint:
    with it the dual value equals the semi-dual, and no other alpha does better *)
Theorem C62_c_transform_best : forall n m (a b : vec) (M : mat) reg (al be : vec), (0 < m)%nat -> 0 < reg -> nonneg_vec n a -> pos_vec m b -> mass n a = 1 ->
  let D : vec -> vec -> R := loss_dual_entropic (N:=RNum) exp n m a b M reg in let ct : vec := c_transform (N:=RNum) exp ln m b M reg be in
  D ct be = semi_dual n m a b M reg be - reg /\ D al be <= D ct be.
Proof.
  intros n m a b M reg al be Hm Hr Ha Hb Ma D ct.
  assert (DV : forall al', D al' be = dot m be b + rsum n (fun i => a i * (al' i - reg * (exp (al' i / reg) * Z m b M reg be i)))).
  { intros al'. unfold D, loss_dual_entropic. rewrite !nsum_R. cbn [nadd nmul nsub ndiv n0 RNum]. unfold dot. rewrite (Rplus_comm (rsum n _)), Rplus_assoc. f_equal. rewrite <- rsum_plus. apply rsum_ext. intros i _. rewrite nsum_R.
    rewrite Rmult_minus_distr_l, (Rmult_comm (a i) (al' i)). unfold Rminus. f_equal. unfold Z. rewrite <- !rsum_scal, <- rsum_opp. apply rsum_ext. intros j _. cbn [nadd nmul nsub ndiv n0 RNum].
    rn. replace ((al' i + be j + - M i j) / reg) with (al' i / reg + (be j - M i j) / reg) by (unfold Rdiv; ring). rewrite exp_plus. ring. }
  assert (V : D ct be = semi_dual n m a b M reg be - reg).
  { rewrite DV. unfold semi_dual. fold (Z m b M reg be). rewrite (rsum_ext n _ (fun i => a i * (- (reg * ln (Z m b M reg be i))) - reg * a i)).
    - rewrite rsum_minus, rsum_scal. unfold mass in Ma. rewrite Ma. rewrite (rsum_ext n (fun i => a i * (dot m be b - _)) (fun i => dot m be b * a i + a i * - (reg * ln (Z m b M reg be i)))) by (intros; unfold Z; ring).
      rewrite rsum_plus, rsum_scal, Ma. ring.
    - intros i _. unfold ct. rewrite c_transform_R by auto. pose proof (Z_pos m b M reg Hm Hb be i) as HZ. replace (- reg * ln (Z m b M reg be i) / reg) with (- ln (Z m b M reg be i)) by (field; lra). rewrite exp_Ropp, exp_ln by auto. field. lra. }
  split; auto. rewrite !DV. apply Rplus_le_compat_l. apply rsum_le. intros i Hi. apply Rmult_le_compat_l; [apply Ha; auto|].
  unfold ct. rewrite c_transform_R by auto. pose proof (Z_pos m b M reg Hm Hb be i) as HZ. set (z := Z m b M reg be i) in *. replace (- reg * ln z / reg) with (- ln z) by (field; lra). rewrite exp_Ropp, exp_ln by auto.
  pose proof (exp_pos (al i / reg)) as He. assert (K : ln (exp (al i / reg) * z) <= exp (al i / reg) * z - 1) by (apply ln_le_sub1; apply Rmult_lt_0_compat; auto). rewrite ln_mult, ln_exp in K by auto.
  apply (Rmult_le_compat_l reg) in K; [|lra]. replace (reg * (al i / reg + ln z)) with (al i + reg * ln z) in K by (field; lra). replace (/ z * z) with 1 by (field; lra). lra.
Qed.

(** ** C61: SAG, for every sequence of sampled indices *)
Theorem C61_sag_table : forall n m (a b : vec) (M : mat) reg lr idx, (forall i, In i idx -> (i < n)%nat) ->
  let run := sag_run (N:=RNum) exp n m a b M reg lr in
  (forall j, s_sum (run idx) j = rsum n (fun i => s_stored (run idx) i j)) /\
  (* row i holds the gradient of sample i at the potential of the last time i was drawn (0 if never) *)
  (forall i, (~ In i idx /\ forall j, s_stored (run idx) i j = 0) \/
     exists l1 l2, idx = l1 ++ i :: l2 /\ ~ In i l2 /\ forall j, s_stored (run idx) i j = a i * coordinate_grad (N:=RNum) exp m b M reg (s_beta (run l1)) i j) /\
  (* the potential keeps mean zero *)
  ((0 < m)%nat -> pos_vec m b -> mass m b = 1 -> rsum m (s_beta (run idx)) = 0).
Proof.
  intros n m a b M reg lr idx H run. split; [apply sag_sum; auto|]. split; [intros i; apply sag_last|]. intros Hm Hb Mb. apply sag_mass; auto.
Qed.
(** a state that no draw changes is optimal *)
Theorem C61_sag_stationary : forall n m (a b : vec) (M : mat) reg lr idx, (0 < n)%nat -> (0 < m)%nat -> 0 < reg -> nonneg_vec n a -> pos_vec m b -> mass n a = 1 -> lr <> 0 -> (forall i, In i idx -> (i < n)%nat) ->
  let s := sag_run (N:=RNum) exp n m a b M reg lr idx in
  (forall i, (i < n)%nat -> sag_step (N:=RNum) exp n m a b M reg lr s i = s) ->
  let P := semi_dual_plan (N:=RNum) exp ln m a b M reg (s_beta s) in
  coupling n m a b P /\ forall Q, coupling n m a b Q -> kl_cost n m a b M reg P <= kl_cost n m a b M reg Q.
Proof.
  intros n m a b M reg lr idx Hn Hm Hr Ha Hb Ma Hl HI s HS P.
  assert (ST : forall i, (i < n)%nat -> forall j, s_stored s i j = a i * coordinate_grad (N:=RNum) exp m b M reg (s_beta s) i j).
  { intros i Hi j. pose proof (f_equal (fun t => s_stored t i j) (HS i Hi)) as E. unfold sag_step in E. cbn [s_stored] in E. rewrite Nat.eqb_refl in E. symmetry. exact E. }
  assert (SM : forall j, s_sum s j = full_grad n m a b M reg (s_beta s) j).
  { intros j. unfold s. rewrite sag_sum by auto. fold s. apply rsum_ext. intros i Hi. apply ST; auto. }
  assert (Zs : forall j, full_grad n m a b M reg (s_beta s) j = 0).
  { intros j. pose proof (f_equal (fun t => s_sum t j) (HS 0%nat Hn)) as E1. pose proof (f_equal (fun t => s_beta t j) (HS 0%nat Hn)) as E2. unfold sag_step in E1, E2. cbn [s_sum s_beta] in E1, E2. rewrite E1, SM, nofnat_INR in E2. cbn [nadd nmul ndiv n1 RNum] in E2.
    assert (HN : INR n <> 0) by (apply not_0_INR; lia). rn. assert (E3 : lr * (1 / INR n) * full_grad n m a b M reg (s_beta s) j = 0) by lra.
    destruct (Rmult_integral _ _ E3) as [E4 | E4]; auto. destruct (Rmult_integral _ _ E4) as [E5 | E5]; [contradiction|]. exfalso. unfold Rdiv in E5. rewrite Rmult_1_l in E5. apply (Rinv_neq_0_compat _ HN E5). }
  destruct (C62_semi_dual_plan n m a b M reg (s_beta s) Hm Hr Ha Hb Ma) as (_ & _ & _ & _ & _ & K & _). destruct K as (K1 & K2 & _); auto.
Qed.

(** ** C93: averaged SGD *)
Theorem C93_asgd_average : forall sq n m (a b : vec) (M : mat) reg lr idx,
  let run := asgd_run (N:=RNum) exp sq m b M reg lr in
  (* the returned vector is the mean of the iterates *)
  (forall j, INR (length idx) * d_ave (run idx) j = rsum (length idx) (fun t => d_beta (run (firstn (S t) idx)) j)) /\
  ((0 < m)%nat -> pos_vec m b -> mass m b = 1 -> rsum m (d_beta (run idx)) = 0 /\ rsum m (d_ave (run idx)) = 0) /\
  (* for uniform a, the step averaged over the sample is the semi-dual gradient *)
  (forall be j, (forall i, (i < n)%nat -> a i = 1 / INR n) -> rsum n (fun i => coordinate_grad (N:=RNum) exp m b M reg be i j) / INR n = full_grad n m a b M reg be j).
Proof.
  intros sq n m a b M reg lr idx run. split; [intros j; apply asgd_average|]. split; [intros Hm Hb Mb; apply asgd_mass; auto|].
  intros be j Hu. unfold full_grad, Rdiv. rewrite Rmult_comm, <- rsum_scal. apply rsum_ext. intros i Hi. rewrite (Hu i Hi). unfold Rdiv. rewrite Rmult_1_l. reflexivity.
Qed.
(** a is not used by the method: with other weights the mean step does not vanish at the optimum *)
Lemma exp_m0 : forall x, exp ((0 - x) / 1) = exp (- x). Proof. intros. f_equal. field. Qed.
Theorem C93_asgd_bias_refuted : exists n m (a b : vec) (M : mat) reg (be : vec), 0 < reg /\ pos_vec n a /\ mass n a = 1 /\ pos_vec m b /\ mass m b = 1 /\
  (forall j, (j < m)%nat -> full_grad n m a b M reg be j = 0) /\
  exists j, (j < m)%nat /\ rsum n (fun i => coordinate_grad (N:=RNum) exp m b M reg be i j) / INR n <> 0.
Proof.
  set (a := (fun i => if Nat.eqb i 0 then 3 / 5 else 2 / 5) : vec). set (b := (fun _ => 1 / 2) : vec).
  set (M := (fun i j => match i, j with O, O => 0 | O, _ => ln 2 | _, O => ln 3 | _, _ => 0 end) : mat).
  exists 2%nat, 2%nat, a, b, M, 1, (fun _ => 0).
  assert (E2 : exp (- ln 2) = / 2) by (rewrite exp_Ropp, exp_ln; lra). assert (E3 : exp (- ln 3) = / 3) by (rewrite exp_Ropp, exp_ln; lra). assert (E0 : exp (- 0) = 1) by (rewrite Ropp_0; apply exp_0).
  assert (K : forall i j, (i < 2)%nat -> (j < 2)%nat -> coordinate_grad (N:=RNum) exp 2 b M 1 (fun _ => 0) i j = match i, j with O, O => 1 / 2 - 2 / 3 | O, _ => 1 / 2 - 1 / 3 | _, O => 1 / 2 - 1 / 4 | _, _ => 1 / 2 - 3 / 4 end).
  { intros i j Hi Hj. unfold coordinate_grad. rewrite khi_R. cbn [nsub RNum]. unfold Z. cbn [rsum]. rewrite !exp_m0. unfold b, M. destruct i as [|[|]]; [| |lia]; destruct j as [|[|]]; try lia; rewrite ?E0, ?E2, ?E3; rn; lra. }
  split; [lra|]. split; [intros i _; unfold a; destruct (Nat.eqb i 0); lra|]. split; [unfold mass, a; cbn [rsum Nat.eqb]; lra|]. split; [intros i _; unfold b; lra|]. split; [unfold mass, b; cbn [rsum]; lra|]. split.
  - intros j Hj. unfold full_grad. cbn [rsum]. rewrite !K by lia. unfold a. cbn [Nat.eqb]. destruct j as [|[|]]; lra || lia.
  - exists 0%nat. split; [lia|]. cbn [rsum INR]. rewrite !K by lia. lra.
Qed.

(** ** C95: batch gradients; LA, LB list the possible batches, each sample being in p (resp. q) of them *)
Theorem C95_batch_unbiased : forall n m (a b : vec) (M : mat) reg (al be : vec) LA LB p q, (0 < n)%nat -> (0 < m)%nat -> batches n LA -> batches m LB ->
  (forall i, (i < n)%nat -> occ LA i = p) -> (forall j, (j < m)%nat -> occ LB j = q) ->
  let g := batch_grad_dual (N:=RNum) exp n m a b M reg al be in let P := dual_plan (N:=RNum) exp a b M reg al be in
  (forall i, (i < n)%nat -> sumL LA (fun A => sumL LB (fun B => fst (g A B) i)) = INR p * INR q * (a i - row_sum m P i)) /\
  (forall j, (j < m)%nat -> sumL LB (fun B => sumL LA (fun A => snd (g A B) j)) = INR p * INR q * (b j - col_sum n P j)).
Proof.
  intros n m a b M reg al be LA LB p q Hn Hm HA HB HP HQ g P. split; intros k Hk; [apply batch_alpha_sum|apply batch_beta_sum]; auto.
Qed.
(** the update touches only the sampled coordinates *)
Theorem C95_sgd_local : forall (N : NumOps) (ex sq : N -> N) n m a b M reg lr al be it ba bb al' be' it',
  sgd_step ex sq n m a b M reg lr (al, be, it) (ba, bb) = (al', be', it') -> it' = S it /\ (forall i, ~ In i ba -> al' i = al i) /\ (forall j, ~ In j bb -> be' j = be j).
Proof.
  intros N ex sq n m a b M reg lr al be it ba bb al' be' it' H. unfold sgd_step in H. destruct (batch_grad_dual ex n m a b M reg al be ba bb) as [ga gb]. injection H as <- <- <-. split; auto.
  assert (X : forall l i, ~ In i l -> inb l i = false) by (intros l i HN; destruct (inb l i) eqn:E; auto; apply inb_In in E; contradiction). split; intros i Hi; rewrite (X _ i Hi); reflexivity.
Qed.

(** ** C96: the dual losses and their plans *)
Lemma nsum2_R : forall n m (f : nat -> nat -> R), nsum (N:=RNum) n (fun i => nsum (N:=RNum) m (fun j => f i j)) = rsum n (fun i => rsum m (fun j => f i j)).
Proof. intros. rewrite nsum_R. apply rsum_ext. intros. apply nsum_R. Qed.
Theorem C96_dual_entropic : forall n m (a b : vec) (M : mat) reg, 0 < reg -> pos_vec n a -> pos_vec m b ->
  dual_correct n m a b M (fun i j y => reg * (y * ln (y / (a i * b j)) - y)) (loss_dual_entropic (N:=RNum) exp n m a b M reg) (plan_dual_entropic (N:=RNum) exp a b M reg).
Proof.
  intros n m a b M reg Hr Ha Hb.
  apply dual_correct_ext with (D := fun u v => Dobj n m a b (fun i j => reg * (a i * b j * exp ((u i + v j - M i j) / reg))) u v) (T := fun u v i j => a i * b j * exp ((u i + v j - M i j) / reg)).
  - intros u v. unfold Dobj, loss_dual_entropic. rewrite !nsum_R. cbn [nadd nmul nsub ndiv n0 RNum]. unfold dot, Rminus. f_equal. rewrite <- rsum_opp. apply rsum_ext. intros i _. rewrite nsum_R, <- rsum_opp. apply rsum_ext. intros j _. cbn [nadd nmul nsub ndiv n0 RNum]. unfold Rminus. rn. ring.
  - intros u v. extensionality i. extensionality j. unfold plan_dual_entropic. cbn [nadd nmul nsub ndiv RNum]. rn. ring.
  - apply dual_correct_intro.
    + intros u v i j y Hi Hj Hy. apply ent_conj; auto. apply Rmult_lt_0_compat; auto.
    + intros u v i j Hi Hj. assert (W : 0 < a i * b j) by (apply Rmult_lt_0_compat; auto). split; [left; apply Rmult_lt_0_compat; [auto|apply exp_pos]|]. apply (ent_conj_eq reg (a i * b j) (u i + v j - M i j) Hr W).
Qed.
Theorem C96_dual_quadratic : forall n m (a b : vec) (M : mat) reg, 0 < reg -> pos_vec n a -> pos_vec m b ->
  dual_correct n m a b M (fun i j y => reg * (y * y / (a i * b j))) (loss_dual_quadratic (N:=RNum) n m a b M reg) (plan_dual_quadratic (N:=RNum) a b M reg).
Proof.
  intros n m a b M reg Hr Ha Hb.
  apply dual_correct_ext with (D := fun u v => Dobj n m a b (fun i j => a i * b j * (Rmax (u i + v j - M i j) 0 * Rmax (u i + v j - M i j) 0) / (4 * reg)) u v) (T := fun u v i j => a i * b j * (Rmax (u i + v j - M i j) 0 / (2 * reg))).
  - intros u v. unfold Dobj, loss_dual_quadratic, four_reg, pos_part. rewrite !nsum_R, nofnat_INR. cbn [nadd nmul nsub ndiv n0 n1 RNum]. unfold dot, Rminus. f_equal. rewrite <- rsum_opp. apply rsum_ext. intros i _. rewrite nsum_R, <- rsum_opp. apply rsum_ext. intros j _. rewrite nmax_R. cbn [nadd nmul nsub ndiv n0 n1 RNum]. rewrite (INR_IZR_INZ 4). cbn [Z.of_nat Pos.of_succ_nat Pos.succ]. unfold Rminus. rn. field. lra.
  - intros u v. extensionality i. extensionality j. unfold plan_dual_quadratic, two_reg, pos_part. rewrite nmax_R, nofnat_INR, (INR_IZR_INZ 2). cbn [nadd nmul nsub ndiv n0 n1 RNum Z.of_nat Pos.of_succ_nat Pos.succ]. rn. field. lra.
  - apply dual_correct_intro.
    + intros u v i j y Hi Hj Hy. apply quad_conj; auto. apply Rmult_lt_0_compat; auto.
    + intros u v i j Hi Hj. assert (W : 0 < a i * b j) by (apply Rmult_lt_0_compat; auto). split; [|apply (quad_conj_eq reg (a i * b j) (u i + v j - M i j) Hr W)].
      apply Rmult_le_pos; [lra|]. apply Rmult_le_pos; [apply Rmax_r|]. left. apply Rinv_0_lt_compat. lra.
Qed.
(** for probability vectors the entropic problem is the one of the documentation, up to the constant reg *)
Theorem C96_entropic_objective : forall n m (a b : vec) (M : mat) reg P, coupling n m a b P -> mass n a = 1 ->
  reg_cost n m M (fun i j y => reg * (y * ln (y / (a i * b j)) - y)) P = kl_cost n m a b M reg P - reg.
Proof.
  intros n m a b M reg P (NP & R1 & C1) Ma. unfold reg_cost, kl_cost. assert (E : rsum n (fun i => rsum m (fun j => reg * (P i j * ln (P i j / (a i * b j)) - P i j))) = reg * rsum n (fun i => rsum m (fun j => P i j * ln (P i j / (a i * b j)))) - reg * rsum n a).
  { rewrite <- Rmult_minus_distr_l, <- rsum_minus, <- rsum_scal. apply rsum_ext. intros i Hi. rewrite rsum_scal, rsum_minus. do 2 f_equal. exact (R1 i Hi). }
  rewrite E. unfold mass in Ma. rewrite Ma. ring.
Qed.
(** solve_dual_entropic builds the same plan as plan_dual_entropic *)
Theorem C96_same_plan : forall (a b : vec) (M : mat) reg (u v : vec) i j, dual_plan (N:=RNum) exp a b M reg u v i j = plan_dual_entropic (N:=RNum) exp a b M reg u v i j.
Proof. intros. unfold dual_plan, plan_dual_entropic. cbn [nmul RNum]. rn. ring. Qed.

(** ** examples *)
Example C62_zero_gradient : exists (a b : vec) (M : mat) (be : vec), mass 2 a = 1 /\ pos_vec 2 b /\ nonneg_vec 2 a /\ (forall j, (j < 2)%nat -> full_grad 2 2 a b M 1 be j = 0).
Proof.
  exists (fun _ => 1 / 2), (fun _ => 1 / 2), (fun i j => if Nat.eqb i j then 0 else ln 3), (fun _ => 0).
  assert (E3 : exp (- ln 3) = / 3) by (rewrite exp_Ropp, exp_ln; lra). assert (E0 : exp (- 0) = 1) by (rewrite Ropp_0; apply exp_0).
  split; [unfold mass; cbn [rsum]; lra|]. split; [intros i _; lra|]. split; [intros i _; lra|]. intros j Hj. unfold full_grad. cbn [rsum]. unfold coordinate_grad. rewrite !khi_R. cbn [nsub RNum]. unfold Z. cbn [rsum]. rewrite !exp_m0.
  destruct j as [|[|]]; [| |lia]; cbn [Nat.eqb]; rewrite ?E0, ?E3; rn; lra.
Qed.
Example C95_batches : let L := [[0; 1]; [1; 2]; [0; 2]]%nat in batches 3 L /\ forall i, (i < 3)%nat -> occ L i = 2%nat.
Proof.
  cbv zeta. split.
  - intros B [<- | [<- | [<- | []]]]; (split; [repeat constructor; cbn; intuition lia|cbn; intros j; intuition lia]).
  - intros i Hi. destruct i as [|[|[|]]]; try reflexivity; lia.
Qed.
Example C61_run : forall j, (j < 2)%nat -> exists q, s_sum (sag_run (N:=QNum) (fun _ => 1%Q) 2 2 (fun _ => 1 # 2)%Q (fun j => if Nat.eqb j 0 then (1 # 4)%Q else (3 # 4)%Q) (fun _ _ => 0%Q) 1%Q 1%Q [0; 1; 0]%nat) j = q /\ (q == 0)%Q.
Proof. intros j Hj. eexists. split; [reflexivity|]. destruct j as [|[|]]; [vm_compute; reflexivity|vm_compute; reflexivity|lia]. Qed.
(** plan_dual_quadratic at a dual point whose plan is a coupling: 2x2, cost 1/2 off the diagonal *)
Example C96_quadratic_case : forall i j, (i < 2)%nat -> (j < 2)%nat -> plan_dual_quadratic (N:=QNum) (fun _ => 1 # 2)%Q (fun _ => 1 # 2)%Q (fun i j => if Nat.eqb i j then 0%Q else 1%Q) (1 # 4)%Q (fun _ => 1 # 2)%Q (fun _ => 1 # 2)%Q i j == if Nat.eqb i j then (1 # 2)%Q else 0%Q.
Proof. intros i j Hi Hj. destruct i as [|[|]]; try lia; destruct j as [|[|]]; try lia; vm_compute; reflexivity. Qed.

Print Assumptions C61_sag_table.
Print Assumptions C61_sag_stationary.
Print Assumptions C62_semi_dual_plan.
Print Assumptions C62_c_transform_best.
Print Assumptions C93_asgd_average.
Print Assumptions C93_asgd_bias_refuted.
Print Assumptions C95_batch_unbiased.
Print Assumptions C95_sgd_local.
Print Assumptions C96_dual_entropic.
Print Assumptions C96_dual_quadratic.
Print Assumptions C96_entropic_objective.
Print Assumptions C96_same_plan.
