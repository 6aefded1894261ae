(** C128-C130: entropic (fused) Gromov-Wasserstein by projected gradient or proximal point steps
    (ot/gromov/_bregman.py:22-253, 1010-1241).  Exact reals, natural logarithm; the inner call of
    ot.sinkhorn is assumed to return the exact Sinkhorn plan (which exists, is unique and is the
    limit of the runs of sinkhorn_knopp: C127). *)
From Coq Require Import List Arith Bool Reals Lra Lia FunctionalExtensionality.
From Verif Require Import Num Sums Spec Duals_proofs Entropy Optim_model Gw_model Gw_proofs Gw_more Egw_model Egw_proofs Egw_eucl Egw_crit Egw_more Sinkhorn_proofs P_Sinkhorn Sink_exist P_Sinkexist.
Import ListNotations.
Local Open Scope R_scope.

(** *** Specification *)
(** the gradient of the fused objective (1-alpha) <M,T> + alpha sum L(C1_ik, C2_jl) T_ij T_kl *)
Definition fgw_gradient (n m : nat) (L : R -> R -> R) (C1 C2 M : mat) (alpha : R) (T : mat) : mat := fun i j =>
  (1 - alpha) * M i j + alpha * dsum n m (fun k c => (L (C1 i k) (C2 j c) + L (C1 k i) (C2 c j)) * T k c).
(** the problem solved by one step at T: the linearised objective, plus the entropy (PGD) or the
    relative entropy to T (PPA) *)
Definition linearised (n m : nat) (sv : egw_solver) (eps : R) (G T S : mat) : R :=
  cost n m G S + eps * match sv with PGD => ent n m S | PPA => kl_plan n m S T end.
(** what the two solvers minimise *)
Definition sv_obj (n m : nat) (sv : egw_solver) (L : R -> R -> R) (C1 C2 M : mat) (alpha eps : R) (T : mat) : R :=
  fgw_obj n m L C1 C2 M alpha T + match sv with PGD => eps * ent n m T | PPA => 0 end.
Definition exact_inner (n m : nat) (p q : vec) (eps : R) (sk : warm_t (N:=RNum) -> mat -> mat * ((nat -> R) * (nat -> R))) : Prop :=
  forall w M, sinkhorn_plan n m p q M eps (fst (sk w M)).
Definition start_plan (p q : vec) (G0 : option mat) : mat := match G0 with Some G => G | None => fun i j => p i * q j end.
Definition sym_ok (sym : bool) (n m : nat) (C1 C2 : mat) : Prop := sym = true -> symmetric n C1 /\ symmetric m C2.

Lemma gradF_spec : forall n m tiny l sym C1 C2 M alpha T i j, sym_ok sym n m C1 C2 -> (i < n)%nat -> (j < m)%nat ->
  gradF n m ln tiny l sym C1 C2 M alpha T i j = fgw_gradient n m (loss_of ln tiny l) C1 C2 M alpha T i j.
Proof.
  intros n m tiny l sym C1 C2 M alpha T i j Hs Hi Hj. unfold gradF, fgw_gradient, gradT.
  assert (E : dsum n m (fun k c => (loss_of ln tiny l (C1 i k) (C2 j c) + loss_of ln tiny l (C1 k i) (C2 c j)) * T k c)
            = tens n m (loss_of ln tiny l) C1 C2 T i j + tens n m (loss_of ln tiny l) (transp C1) (transp C2) T i j).
  { unfold tens, transp. rewrite <- dsum_plus. apply dsum_ext; intros; ring. }
  rewrite E. destruct sym; [|field].
  destruct (Hs eq_refl) as (S1 & S2). assert (E2 : tens n m (loss_of ln tiny l) (transp C1) (transp C2) T i j = tens n m (loss_of ln tiny l) C1 C2 T i j).
  { unfold tens, transp. apply dsum_ext; intros k c Hk Hc. rewrite (S1 i k), (S2 j c); auto. }
  rewrite E2. ring.
Qed.
(** the Sinkhorn plan of the step is the minimiser of the linearised problem *)
Lemma step_minimises : forall n m p q sv eps G T T', 0 < eps -> sinkhorn_plan n m p q (step_cost sv eps G T) eps T' -> forall S, coupling n m p q S ->
  linearised n m sv eps G T T' <= linearised n m sv eps G T S.
Proof.
  intros n m p q sv eps G T T' He HP S HS. assert (Q := three_point n m p q _ eps T' S He HP HS).
  assert (K := kl_plan_nonneg n m p q S T' HS (proj1 HP) (plan_pos _ _ _ _ _ _ _ HP)).
  assert (E : forall X, ent_obj n m (step_cost sv eps G T) eps X = linearised n m sv eps G T X).
  { intros X. unfold ent_obj, linearised, step_cost. destruct sv; [reflexivity|]. unfold kl_plan. rewrite !cost_dsum. change (ent n m X) with (dsum n m (fun i j => X i j * ln (X i j))).
    rewrite <- !dsum_scal, <- !dsum_plus. apply dsum_ext; intros; ring. }
  rewrite !E in Q. assert (0 <= eps * kl_plan n m S T') by (apply Rmult_le_pos; lra). lra.
Qed.
Lemma cost_ext : forall n m A B T, (forall i j, (i < n)%nat -> (j < m)%nat -> A i j = B i j) -> cost n m A T = cost n m B T.
Proof. intros. rewrite !cost_dsum. apply dsum_ext; intros. rewrite H; auto. Qed.
Lemma fused_value : forall n m tiny l C1 C2 M p q alpha T, coupling n m p q T ->
  fgw_dist (N:=RNum) n m ln tiny l C1 C2 p q alpha M T = fgw_obj n m (loss_of ln tiny l) C1 C2 M alpha T.
Proof.
  intros n m tiny l C1 C2 M p q alpha T (P & RW & CL). unfold fgw_dist, fgw_obj. assert (E := gw_f_R n m ln tiny l C1 C2 p q T RW CL). unfold gw_f in E.
  rewrite E, inner_R. reflexivity.
Qed.

(** *** C128: what the loop computes.  The plans visited are couplings, each the minimiser of the
    problem linearised at the one before, with the true gradient of the objective; the loop ends at
    max_iter, or when the last two plans are within tol (or at once if tol >= 1); the value reported
    is the objective at the plan returned. *)
Theorem C128_steps : forall n m tiny l sym C1 C2 M p q alpha eps norm tol sv sk w1 w2 G0 ws max_iter,
  sym_ok sym n m C1 C2 -> 0 < eps -> exact_inner n m p q eps sk -> coupling n m p q (start_plan p q G0) ->
  let L := loss_of ln tiny l in
  let r := entropic_fused_gromov_wasserstein (N:=RNum) n m ln tiny l sym C1 C2 p q eps norm tol sv sk w1 w2 alpha M G0 ws max_iter in
  exists (k : nat) (T : nat -> mat), (k <= max_iter)%nat /\ T 0%nat = start_plan p q G0 /\ fst r = T k /\
    (forall j, coupling n m p q (T j) /\ pos_mat n m (T (S j))) /\
    (forall j S, coupling n m p q S -> linearised n m sv eps (fgw_gradient n m L C1 C2 M alpha (T j)) (T j) (T (Datatypes.S j)) <= linearised n m sv eps (fgw_gradient n m L C1 C2 M alpha (T j)) (T j) S) /\
    ((k < max_iter)%nat -> k = 0%nat /\ 1 <= tol \/ (0 < k)%nat /\ norm (fun a b => T k a b - T (k - 1)%nat a b) <= tol) /\
    snd r = fgw_obj n m L C1 C2 M alpha (fst r).
Proof.
  intros n m tiny l sym C1 C2 M p q alpha eps norm tol sv sk w1 w2 G0 ws max_iter Hs He Hsk HT0 L r.
  destruct (fused_trace n m tiny l sym C1 C2 M p q alpha eps norm tol sv sk Hs Hsk (egw_start (N:=RNum) p q w1 w2 G0 ws) max_iter) as (k & T & Hk & E0 & Ek & HC & HP & _ & _ & HS).
  { destruct G0; exact HT0. } { reflexivity. }
  exists k, T. split; [auto|]. split; [rewrite E0; reflexivity|]. split; [exact Ek|]. split.
  { intros j. split; [apply HC|apply (plan_pos _ _ _ _ _ _ _ (HP j))]. }
  split.
  { intros j S CS. apply step_minimises with (p := p) (q := q); auto. refine (sinkhorn_plan_ext n m p q _ _ eps _ _ (HP j)). intros a b Ha Hb. unfold step_cost. rewrite (gradF_spec n m tiny l sym C1 C2 M alpha (T j) a b Hs Ha Hb). reflexivity. }
  split; [exact HS|].
  assert (CR : coupling n m p q (fst r)). { change (fst r) with (e_T (egw_loop (N:=RNum) ln eps norm tol sv (fgw_grad (N:=RNum) n m ln tiny l sym C1 C2 p q alpha M) sk max_iter 0 (egw_start (N:=RNum) p q w1 w2 G0 ws))). rewrite Ek. apply HC. }
  apply (fused_value n m tiny l C1 C2 M p q alpha (fst r) CR).
Qed.
Print Assumptions C128_steps.
Lemma fused_one : forall g m : R, g = 1 * g + (1 - 1) * m. Proof. intros; ring. Qed.
Lemma fused_half : forall h g m : R, h * g = 1 * h * g + (1 - 1) * m. Proof. intros; ring. Qed.
Lemma fused_val : forall g m : R, g = (1 - 1) * m + 1 * g. Proof. intros; ring. Qed.
(** entropic_gromov_wasserstein is the fused solver at alpha = 1, whatever M and the inner solver *)
Theorem C128_gw_is_fused : forall n m tiny l sym C1 C2 M p q eps norm tol sv sk w1 w2 G0 ws max_iter,
  entropic_gromov_wasserstein (N:=RNum) n m ln tiny l sym C1 C2 p q eps norm tol sv sk w1 w2 G0 ws max_iter
  = entropic_fused_gromov_wasserstein (N:=RNum) n m ln tiny l sym C1 C2 p q eps norm tol sv sk w1 w2 1 M G0 ws max_iter.
Proof.
  intros. unfold entropic_gromov_wasserstein, entropic_fused_gromov_wasserstein.
  assert (E : egw_grad (N:=RNum) n m ln tiny l sym C1 C2 p q = fgw_grad (N:=RNum) n m ln tiny l sym C1 C2 p q 1 M).
  { extensionality T. extensionality i. extensionality j. unfold egw_grad, gw_df, fgw_grad. destruct sym; [exact (fused_one _ _)|exact (fused_half _ _ _)]. }
  rewrite E. f_equal. exact (fused_val _ _).
Qed.
Print Assumptions C128_gw_is_fused.
(** lin_loss and quad_loss of entropic_fused_gromov_wasserstein2 split the value reported *)
Theorem C128_losses : forall n m tiny l C1 C2 M p q alpha T, coupling n m p q T ->
  let r := fgw2_losses (N:=RNum) n m alpha M (T, fgw_dist (N:=RNum) n m ln tiny l C1 C2 p q alpha M T) in
  snd r = (1 - alpha) * cost n m M T /\ fst r = alpha * gw_obj n m (loss_of ln tiny l) C1 C2 T.
Proof.
  intros n m tiny l C1 C2 M p q alpha T CT r. subst r. unfold fgw2_losses. cbn [fst snd]. rewrite (fused_value n m tiny l C1 C2 M p q alpha T CT).
  assert (E : inner (N:=RNum) n m T M = cost n m M T). { rewrite inner_R, cost_dsum. apply dsum_ext; intros; ring. }
  rewrite E. cbn [nsub nmul n1 RNum]. unfold fgw_obj. split; match goal with |- @eq _ ?x ?y => change (@eq R x y) end; ring.
Qed.
Print Assumptions C128_losses.

(** *** C129: descent, termination and stationarity for the square loss between Euclidean
    structures (in particular squared Euclidean distances). *)
Theorem C129_descent : forall n m tiny sym C1 C2 M p q alpha eps norm tol sv sk w1 w2 G0 ws max_iter,
  sym_ok sym n m C1 C2 -> 0 < eps -> exact_inner n m p q eps sk -> coupling n m p q (start_plan p q G0) -> pos_mat n m (start_plan p q G0) ->
  eucl n C1 -> eucl m C2 -> 0 <= alpha ->
  let Phi := sv_obj n m sv sq_loss C1 C2 M alpha eps in
  let r := entropic_fused_gromov_wasserstein (N:=RNum) n m ln tiny SquareLoss sym C1 C2 p q eps norm tol sv sk w1 w2 alpha M G0 ws max_iter in
  exists (k : nat) (T : nat -> mat), (k <= max_iter)%nat /\ T 0%nat = start_plan p q G0 /\ fst r = T k /\
    (forall j, Phi (T (S j)) + eps * kl_plan n m (T j) (T (S j)) <= Phi (T j) /\ 0 <= kl_plan n m (T j) (T (S j))) /\
    Phi (fst r) <= Phi (start_plan p q G0).
Proof.
  intros n m tiny sym C1 C2 M p q alpha eps norm tol sv sk w1 w2 G0 ws max_iter Hs He Hsk HT0 PT0 U1 U2 Ha Phi r.
  destruct (fused_trace n m tiny SquareLoss sym C1 C2 M p q alpha eps norm tol sv sk Hs Hsk (egw_start (N:=RNum) p q w1 w2 G0 ws) max_iter) as (k & T & Hk & E0 & Ek & HC & HP & _ & _ & _).
  { destruct G0; exact HT0. } { reflexivity. }
  assert (PT : forall j, pos_mat n m (T j)). { intros [|j]; [rewrite E0; destruct G0; exact PT0|apply (plan_pos _ _ _ _ _ _ _ (HP j))]. }
  assert (CG := eucl_square n m ln tiny C1 C2 U1 U2).
  assert (D : forall j, Phi (T (S j)) + eps * kl_plan n m (T j) (T (S j)) <= Phi (T j) /\ 0 <= kl_plan n m (T j) (T (S j))).
  { intros j. assert (K1 := kl_plan_nonneg n m p q _ _ (HC j) (HC (S j)) (PT (S j))). assert (K2 := kl_plan_nonneg n m p q _ _ (HC (S j)) (HC j) (PT j)). split; auto.
    assert (HPj := HP j). unfold Phi, sv_obj. destruct sv.
    - assert (Q := pgd_step n m ln tiny SquareLoss sym C1 C2 M p q alpha Hs eps He Ha CG (T j) (T (S j)) (HC j) HPj). cbn [loss_of] in Q. lra.
    - assert (Q := ppa_step n m ln tiny SquareLoss sym C1 C2 M p q alpha Hs eps He Ha CG (T j) (T (S j)) (HC j) (PT j) HPj). cbn [loss_of] in Q.
      assert (0 <= eps * kl_plan n m (T (S j)) (T j)) by (apply Rmult_le_pos; lra). lra. }
  exists k, T. split; [auto|]. split; [rewrite E0; reflexivity|]. split; [exact Ek|]. split; [exact D|].
  change (fst r) with (e_T (egw_loop (N:=RNum) ln eps norm tol sv (fgw_grad (N:=RNum) n m ln tiny SquareLoss sym C1 C2 p q alpha M) sk max_iter 0 (egw_start (N:=RNum) p q w1 w2 G0 ws))). rewrite Ek.
  replace (start_plan p q G0) with (T 0%nat) by (rewrite E0; reflexivity).
  clear - D He. induction k; [lra|]. destruct (D k) as (A & B). assert (0 <= eps * kl_plan n m (T k) (T (S k))) by (apply Rmult_le_pos; lra). lra.
Qed.
Print Assumptions C129_descent.
(** ... so with the Frobenius norm the loop always ends by its tolerance if max_iter is large enough *)
Theorem C129_stops : forall n m tiny sym C1 C2 M p q alpha eps tol sv sk w1 w2 G0 ws,
  sym_ok sym n m C1 C2 -> 0 < eps -> exact_inner n m p q eps sk -> coupling n m p q (start_plan p q G0) -> pos_mat n m (start_plan p q G0) ->
  eucl n C1 -> eucl m C2 -> 0 <= alpha -> 0 < tol < 1 ->
  exists K, forall max_iter, (K <= max_iter)%nat -> exists Tp T, coupling n m p q Tp /\
    fst (entropic_fused_gromov_wasserstein (N:=RNum) n m ln tiny SquareLoss sym C1 C2 p q eps (frob n m) tol sv sk w1 w2 alpha M G0 ws max_iter) = T /\
    (forall S, coupling n m p q S -> linearised n m sv eps (fgw_gradient n m sq_loss C1 C2 M alpha Tp) Tp T <= linearised n m sv eps (fgw_gradient n m sq_loss C1 C2 M alpha Tp) Tp S) /\
    frob n m (fun i j => T i j - Tp i j) <= tol.
Proof.
  intros n m tiny sym C1 C2 M p q alpha eps tol sv sk w1 w2 G0 ws Hs He Hsk HT0 PT0 U1 U2 Ha (Ht0 & Ht1).
  set (Phi := sv_obj n m sv sq_loss C1 C2 M alpha eps).
  assert (LB : exists B, forall T, coupling n m p q T -> B <= Phi T).
  { destruct (fgw_lower n m sq_loss C1 C2 M alpha p q) as (B & HB). exists (B + match sv with PGD => eps * (mass n p - INR n * INR m) | PPA => 0 end). intros T CT. unfold Phi, sv_obj.
    apply Rplus_le_compat; [apply HB; auto|]. destruct sv; [|lra]. apply Rmult_le_compat_l; [lra|]. replace (mass n p) with (dsum n m T) by (apply rsum_ext; apply CT). apply ent_lower. apply CT. }
  destruct LB as (B & HB).
  assert (Mp : 0 <= mass n p). { rewrite <- (abs_total n m p q _ HT0). apply dsum_nonneg; intros; apply Rabs_pos. }
  (* each check that does not stop the loop costs at least d *)
  set (d := eps * (tol ^ 2 / (4 * (mass n p + 1)))).
  assert (Hd : 0 < d). { unfold d. apply Rmult_lt_0_compat; auto. apply Rdiv_lt_0_compat; [apply pow_lt; auto|lra]. }
  destruct (INR_unbounded ((Phi (start_plan p q G0) - B) / d)) as (c & Hc).
  exists (10 * c + 3)%nat. intros max_iter HK.
  destruct (fused_trace n m tiny SquareLoss sym C1 C2 M p q alpha eps (frob n m) tol sv sk Hs Hsk (egw_start (N:=RNum) p q w1 w2 G0 ws) max_iter) as (k & T & Hk & E0 & Ek & HC & HP & HB10 & _ & HS).
  { destruct G0; exact HT0. } { reflexivity. }
  assert (PT : forall j, pos_mat n m (T j)). { intros [|j]; [rewrite E0; destruct G0; exact PT0|apply (plan_pos _ _ _ _ _ _ _ (HP j))]. }
  assert (CG := eucl_square n m ln tiny C1 C2 U1 U2).
  assert (D : forall j, Phi (T (S j)) + eps * kl_plan n m (T j) (T (S j)) <= Phi (T j) /\ 0 <= kl_plan n m (T j) (T (S j))).
  { intros j. assert (K1 := kl_plan_nonneg n m p q _ _ (HC j) (HC (S j)) (PT (S j))). assert (K2 := kl_plan_nonneg n m p q _ _ (HC (S j)) (HC j) (PT j)). split; auto.
    assert (HPj := HP j). unfold Phi, sv_obj. destruct sv.
    - assert (Q := pgd_step n m ln tiny SquareLoss sym C1 C2 M p q alpha Hs eps He Ha CG (T j) (T (S j)) (HC j) HPj). cbn [loss_of] in Q. lra.
    - assert (Q := ppa_step n m ln tiny SquareLoss sym C1 C2 M p q alpha Hs eps He Ha CG (T j) (T (S j)) (HC j) (PT j) HPj). cbn [loss_of] in Q.
      assert (0 <= eps * kl_plan n m (T (S j)) (T j)) by (apply Rmult_le_pos; lra). lra. }
  assert (HL : (k < 10 * c + 3)%nat).
  { apply Nat.nle_gt. intros HK'.
    assert (Q := V_checks (fun j => Phi (T j)) (fun j => eps * kl_plan n m (T j) (T (S j))) k (fun j _ => proj1 (D j)) (fun j _ => Rmult_le_pos _ _ (Rlt_le _ _ He) (proj2 (D j))) c d).
    assert (Q1 : INR c * d + Phi (T (Nat.min k (10 * c))) <= Phi (T 0%nat)).
    { apply Q; [|lia]. intros j Hj. unfold d. apply Rmult_le_compat_l; [lra|].
      assert (X := HB10 j ltac:(lia)). replace (10 * j + 1)%nat with (S (10 * j)) in X by lia.
      assert (Y := kl_frob n m p q (T (10 * j)%nat) (T (S (10 * j))) (HC _) (HC _) (PT _)). destruct (D (10 * j)%nat) as (_ & KN).
      assert (tol ^ 2 <= 4 * mass n p * kl_plan n m (T (10 * j)%nat) (T (S (10 * j)))). { eapply Rle_trans; [|exact Y]. apply pow_incr. lra. }
      apply (Rmult_le_reg_r (4 * (mass n p + 1))); [lra|]. unfold Rdiv. rewrite Rmult_assoc, Rinv_l, Rmult_1_r by lra. nra. }
    assert (Y := HB _ (HC (Nat.min k (10 * c)))). assert (Z : T 0%nat = start_plan p q G0) by (rewrite E0; reflexivity). rewrite Z in Q1.
    assert (X : (Phi (start_plan p q G0) - B) / d < INR c) by lra. apply (Rmult_lt_compat_r d) in X; auto. unfold Rdiv in X. rewrite Rmult_assoc, Rinv_l, Rmult_1_r in X by lra. lra. }
  destruct (HS ltac:(lia)) as [(-> & X)|(Kp & X)]; [lra|].
  exists (T (k - 1)%nat), (T k). split; [apply HC|]. split; [exact Ek|]. split; [|exact X].
  intros S CS. assert (HPk := HP (k - 1)%nat). replace (Datatypes.S (k - 1)) with k in HPk by lia.
  apply step_minimises with (p := p) (q := q); auto. refine (sinkhorn_plan_ext n m p q _ _ eps _ _ HPk). intros a b Ha' Hb. unfold step_cost. rewrite (gradF_spec n m tiny SquareLoss sym C1 C2 M alpha (T (k - 1)%nat) a b Hs Ha' Hb). reflexivity.
Qed.
Print Assumptions C129_stops.

(** *** C130: stationarity, for every loss and all matrices.  A step leaves a positive coupling
    unchanged exactly when the derivative of what the solver minimises vanishes at it towards every
    coupling: PGD for the entropic objective, PPA for the objective without entropy. *)
Lemma sinkhorn_plan_unique : forall n m p q M eps P Q, 0 < eps -> sinkhorn_plan n m p q M eps P -> sinkhorn_plan n m p q M eps Q ->
  forall i j, (i < n)%nat -> (j < m)%nat -> P i j = Q i j.
Proof. intros n m p q M eps P Q He (C1 & S1) (C2 & S2). apply (scaling_unique n m p q M eps); auto. Qed.
Lemma deriv_unique : forall f x a b, derivable_pt_lim f x a -> derivable_pt_lim f x b -> a = b. Proof. intros. eapply uniqueness_limite; eauto. Qed.
Lemma deriv_sv : forall n m tiny l sym C1 C2 M alpha sv eps T S, sym_ok sym n m C1 C2 -> pos_mat n m T ->
  derivable_pt_lim (fun t => sv_obj n m sv (loss_of ln tiny l) C1 C2 M alpha eps (fun i j => T i j + t * (S i j - T i j))) 0
    (dsum n m (fun i j => gradF n m ln tiny l sym C1 C2 M alpha T i j * (S i j - T i j)) + match sv with PGD => eps * dsum n m (fun i j => (S i j - T i j) * (ln (T i j) + 1)) | PPA => 0 end).
Proof.
  intros n m tiny l sym C1 C2 M alpha sv eps T S Hs PT. unfold sv_obj. destruct sv.
  - apply (deriv_Fe n m ln tiny l sym C1 C2 M alpha Hs eps T (fun i j => S i j - T i j) PT).
  - apply (derivable_pt_lim_plus (fun t => fgw_obj n m (loss_of ln tiny l) C1 C2 M alpha (fun i j => T i j + t * (S i j - T i j))) (fun _ => 0)); [|apply derivable_pt_lim_const].
    apply (deriv_F n m ln tiny l sym C1 C2 M alpha Hs T (fun i j => S i j - T i j)).
Qed.
(** the potential form of stationarity *)
Lemma sv_dir : forall n m tiny l sym C1 C2 M alpha sv eps p q T S, coupling n m p q T -> coupling n m p q S ->
  dsum n m (fun i j => gradF n m ln tiny l sym C1 C2 M alpha T i j * (S i j - T i j)) + match sv with PGD => eps * dsum n m (fun i j => (S i j - T i j) * (ln (T i j) + 1)) | PPA => 0 end
  = dsum n m (fun i j => (step_cost sv eps (gradF n m ln tiny l sym C1 C2 M alpha T) T i j + eps * ln (T i j)) * (S i j - T i j)).
Proof.
  intros n m tiny l sym C1 C2 M alpha sv eps p q T S CT CS. destruct sv; unfold step_cost.
  - rewrite (ent_dir n m p q T S CT CS), <- dsum_scal, <- dsum_plus. apply dsum_ext; intros; ring.
  - rewrite Rplus_0_r. apply dsum_ext; intros; ring.
Qed.
Theorem C130_fixed_points : forall n m tiny l sym C1 C2 M p q alpha eps norm sv sk cpt (s : egw_st (N:=RNum)),
  (0 < n)%nat -> (0 < m)%nat -> sym_ok sym n m C1 C2 -> 0 < eps -> exact_inner n m p q eps sk ->
  let T := e_T s in coupling n m p q T -> pos_mat n m T ->
  let T' := e_T (egw_step (N:=RNum) ln eps norm sv (fgw_grad (N:=RNum) n m ln tiny l sym C1 C2 p q alpha M) sk cpt s) in
  (forall i j, (i < n)%nat -> (j < m)%nat -> T' i j = T i j) <->
  (forall S, coupling n m p q S -> derivable_pt_lim (fun t => sv_obj n m sv (loss_of ln tiny l) C1 C2 M alpha eps (fun i j => T i j + t * (S i j - T i j))) 0 0).
Proof.
  intros n m tiny l sym C1 C2 M p q alpha eps norm sv sk cpt s Hn Hm Hs He Hsk T CT PT T'.
  assert (HP : sinkhorn_plan n m p q (step_cost sv eps (gradF n m ln tiny l sym C1 C2 M alpha T) T) eps T').
  { unfold T'. rewrite step_T. refine (sinkhorn_plan_ext n m p q _ _ eps _ _ (Hsk _ _)). intros i j Hi Hj. assert (GE := fgw_grad_R n m ln tiny l sym C1 C2 M p q alpha Hs T i j CT).
    unfold egw_cost, step_cost. destruct sv; [exact GE|]. rewrite <- GE. reflexivity. }
  assert (HT : (forall i j, (i < n)%nat -> (j < m)%nat -> T' i j = T i j) <-> sinkhorn_plan n m p q (step_cost sv eps (gradF n m ln tiny l sym C1 C2 M alpha T) T) eps T).
  { split; intros H.
    - destruct HP as (_ & u & v & Hu & Hv & E). split; auto. exists u, v. split; auto. split; auto. intros i j Hi Hj. rewrite <- (H i j Hi Hj). auto.
    - apply (sinkhorn_plan_unique n m p q _ eps T' T He HP H). }
  rewrite HT. rewrite (plan_iff n m p q _ eps T He CT PT).
  rewrite <- (stationary_iff n m p q T (fun i j => step_cost sv eps (gradF n m ln tiny l sym C1 C2 M alpha T) T i j + eps * ln (T i j)) Hn Hm CT PT).
  split; intros H S CS; specialize (H S CS); assert (D := deriv_sv n m tiny l sym C1 C2 M alpha sv eps T S Hs PT); rewrite (sv_dir n m tiny l sym C1 C2 M alpha sv eps p q T S CT CS) in D.
  - rewrite H in D. exact D.
  - apply (deriv_unique _ _ _ _ D H).
Qed.
Print Assumptions C130_fixed_points.
(** A PGD run that ended by its tolerance: at the plan returned all directional derivatives of the
    entropic objective are at most 4 alpha Lmax mass sqrt(n m) tol in absolute value. *)
Theorem C130_stop_certificate : forall n m tiny l sym C1 C2 M p q alpha eps tol sk (w : warm_t (N:=RNum)) Lm Tp,
  sym_ok sym n m C1 C2 -> 0 < eps -> exact_inner n m p q eps sk -> 0 <= alpha -> coupling n m p q Tp ->
  (forall i k j c, (i < n)%nat -> (k < n)%nat -> (j < m)%nat -> (c < m)%nat -> Rabs (loss_of ln tiny l (C1 i k) (C2 j c)) <= Lm) ->
  let T := fst (sk w (egw_cost (N:=RNum) ln eps PGD (fgw_grad (N:=RNum) n m ln tiny l sym C1 C2 p q alpha M) Tp)) in
  frob n m (fun i j => T i j - Tp i j) <= tol ->
  forall S, coupling n m p q S -> exists d, Rabs d <= 4 * alpha * Lm * mass n p * sqrt (INR (n * m)) * tol /\
    derivable_pt_lim (fun t => fgw_obj n m (loss_of ln tiny l) C1 C2 M alpha (fun i j => T i j + t * (S i j - T i j)) + eps * ent n m (fun i j => T i j + t * (S i j - T i j))) 0 d.
Proof.
  intros n m tiny l sym C1 C2 M p q alpha eps tol sk w Lm Tp Hs He Hsk Ha CTp HL T HF S CS.
  set (G := gradF n m ln tiny l sym C1 C2 M alpha).
  assert (HP : sinkhorn_plan n m p q (G Tp) eps T).
  { refine (sinkhorn_plan_ext n m p q _ _ eps _ _ (Hsk _ _)). intros i j Hi Hj. apply (fgw_grad_R n m ln tiny l sym C1 C2 M p q alpha Hs Tp i j CTp). }
  assert (CT := proj1 HP). assert (PT := plan_pos _ _ _ _ _ _ _ HP). assert (D := deriv_sv n m tiny l sym C1 C2 M alpha PGD eps T S Hs PT).
  assert (SD := sv_dir n m tiny l sym C1 C2 M alpha PGD eps p q T S CT CS). cbv iota in D, SD. rewrite SD in D. eexists. split; [|exact D]. unfold step_cost. fold G.
  destruct (coupling_diff n m p q T S CT CS) as (Z1 & Z2). destruct (plan_pot n m p q _ eps T He HP) as (f & g & E).
  assert (Z := zero_pair n m _ f g Z1 Z2). cbn beta in Z.
  assert (X : dsum n m (fun i j => (G T i j + eps * ln (T i j)) * (S i j - T i j)) = dsum n m (fun i j => (G T i j - G Tp i j) * (S i j - T i j))).
  { rewrite <- (Rplus_0_r (dsum n m (fun i j => (G T i j - _) * _))), <- Z, <- dsum_plus. apply dsum_ext; intros i j Hi Hj. rewrite <- (E i j Hi Hj). ring. }
  rewrite X. set (Lf := loss_of ln tiny l). set (d1 := dsum n m (fun i j => Rabs (T i j - Tp i j))).
  assert (N1 : d1 <= sqrt (INR (n * m)) * tol). { eapply Rle_trans; [apply l1_frob|]. apply Rmult_le_compat_l; [apply sqrt_pos|exact HF]. }
  assert (L0 : forall i j, (i < n)%nat -> (j < m)%nat -> 0 <= Lm). { intros i j Hi Hj. eapply Rle_trans; [apply Rabs_pos|apply (HL i i j j); auto]. }
  assert (GB : forall i j, (i < n)%nat -> (j < m)%nat -> Rabs (G T i j - G Tp i j) <= alpha * (2 * (Lm * d1))).
  { intros i j Hi Hj. unfold G. rewrite !gradF_spec by auto. unfold fgw_gradient. fold Lf.
    replace (_ - _) with (alpha * (tens n m Lf C1 C2 (fun a b => T a b - Tp a b) i j + tens n m Lf (transp C1) (transp C2) (fun a b => T a b - Tp a b) i j)).
    2:{ unfold tens, transp. rewrite <- dsum_plus.
        match goal with |- ?a * ?x = ?b + ?a * ?y - (?b + ?a * ?z) => replace (b + a * y - (b + a * z)) with (a * (y - z)) by ring end. rewrite <- dsum_minus. f_equal. apply dsum_ext; intros; ring. }
    rewrite Rabs_mult, (Rabs_right alpha) by lra. apply Rmult_le_compat_l; auto. eapply Rle_trans; [apply Rabs_triang|].
    assert (B1 := tens_bound n m Lf C1 C2 (fun a b => T a b - Tp a b) Lm HL i j Hi Hj).
    assert (B2 := tens_bound n m Lf (transp C1) (transp C2) (fun a b => T a b - Tp a b) Lm (fun i k j c Hi Hk Hj Hc => HL k i c j Hk Hi Hc Hj) i j Hi Hj). cbv beta in B1, B2. fold d1 in B1, B2. lra. }
  assert (PB := pair_bound n m _ (fun i j => S i j - T i j) _ GB). assert (L1 := l1_couplings n m p q T S CT CS).
  destruct n as [|n']. { unfold dsum. cbn [rsum]. rewrite Rabs_R0. unfold mass. cbn [rsum]. lra. }
  destruct m as [|m']. { unfold dsum. rewrite rsum_0 by reflexivity. rewrite Rabs_R0, Nat.mul_0_r. cbn [INR]. rewrite sqrt_0. lra. }
  assert (LL := L0 0%nat 0%nat ltac:(lia) ltac:(lia)).
  eapply Rle_trans; [exact PB|]. assert (0 <= d1) by (apply dsum_nonneg; intros; apply Rabs_pos).
  assert (MP : 0 <= mass (Datatypes.S n') p). { rewrite <- (abs_total _ _ p q T CT). apply dsum_nonneg; intros; apply Rabs_pos. }
  apply Rle_trans with (alpha * (2 * (Lm * d1)) * (2 * mass (Datatypes.S n') p)).
  - apply Rmult_le_compat_l; [|exact L1]. repeat apply Rmult_le_pos; lra.
  - replace (alpha * (2 * (Lm * d1)) * (2 * mass (Datatypes.S n') p)) with ((4 * alpha * Lm * mass (Datatypes.S n') p) * d1) by ring.
    rewrite (Rmult_assoc (4 * alpha * Lm * mass (Datatypes.S n') p)). apply Rmult_le_compat_l; [|exact N1]. repeat apply Rmult_le_pos; lra.
Qed.
Print Assumptions C130_stop_certificate.

(** *** C131: warm starts.  With exact inner solutions the plan returned does not depend on the
    inner solver, on warmstart or on the initial potentials. *)
Definition entry_norm (n m : nat) (norm : mat -> R) : Prop := forall A B, (forall i j, (i < n)%nat -> (j < m)%nat -> A i j = B i j) -> norm A = norm B.
Lemma gradF_ext : forall n m tiny l sym C1 C2 M alpha T T' i j, (forall i j, (i < n)%nat -> (j < m)%nat -> T i j = T' i j) ->
  gradF n m ln tiny l sym C1 C2 M alpha T i j = gradF n m ln tiny l sym C1 C2 M alpha T' i j.
Proof. intros. unfold gradF. rewrite (gradT_ext n m ln tiny l sym C1 C2 T T' i j) by auto. reflexivity. Qed.
Theorem C131_warmstart_same_plan : forall n m tiny l sym C1 C2 M p q alpha eps norm tol sv sk sk' w1 w2 w1' w2' G0 ws ws' max_iter,
  sym_ok sym n m C1 C2 -> 0 < eps -> exact_inner n m p q eps sk -> exact_inner n m p q eps sk' -> coupling n m p q (start_plan p q G0) -> entry_norm n m norm ->
  let r := entropic_fused_gromov_wasserstein (N:=RNum) n m ln tiny l sym C1 C2 p q eps norm tol sv sk w1 w2 alpha M G0 ws max_iter in
  let r' := entropic_fused_gromov_wasserstein (N:=RNum) n m ln tiny l sym C1 C2 p q eps norm tol sv sk' w1' w2' alpha M G0 ws' max_iter in
  (forall i j, (i < n)%nat -> (j < m)%nat -> fst r i j = fst r' i j) /\ snd r = snd r'.
Proof.
  intros n m tiny l sym C1 C2 M p q alpha eps norm tol sv sk sk' w1 w2 w1' w2' G0 ws ws' max_iter Hs He Hsk Hsk' CT HN r r'.
  assert (X : forall left cpt (s s' : egw_st (N:=RNum)), coupling n m p q (e_T s) -> coupling n m p q (e_T s') -> (forall i j, (i < n)%nat -> (j < m)%nat -> e_T s i j = e_T s' i j) -> e_err s = e_err s' ->
    let gr := fgw_grad (N:=RNum) n m ln tiny l sym C1 C2 p q alpha M in
    let o := egw_loop (N:=RNum) ln eps norm tol sv gr sk left cpt s in let o' := egw_loop (N:=RNum) ln eps norm tol sv gr sk' left cpt s' in
    coupling n m p q (e_T o) /\ coupling n m p q (e_T o') /\ (forall i j, (i < n)%nat -> (j < m)%nat -> e_T o i j = e_T o' i j)).
  { induction left; intros cpt s s' C C' E Er; cbn [egw_loop]; [auto|]. rewrite <- Er. destruct (nltb (n:=RNum) tol (e_err s)); [|auto].
    set (gr := fgw_grad (N:=RNum) n m ln tiny l sym C1 C2 p q alpha M).
    assert (P1 : sinkhorn_plan n m p q (step_cost sv eps (gradF n m ln tiny l sym C1 C2 M alpha (e_T s)) (e_T s)) eps (e_T (egw_step (N:=RNum) ln eps norm sv gr sk cpt s))).
    { rewrite step_T. refine (sinkhorn_plan_ext n m p q _ _ eps _ _ (Hsk _ _)). intros i j Hi Hj. assert (GE := fgw_grad_R n m ln tiny l sym C1 C2 M p q alpha Hs (e_T s) i j C).
      unfold egw_cost, step_cost. destruct sv; [exact GE|]. rewrite <- GE. reflexivity. }
    assert (P2 : sinkhorn_plan n m p q (step_cost sv eps (gradF n m ln tiny l sym C1 C2 M alpha (e_T s)) (e_T s)) eps (e_T (egw_step (N:=RNum) ln eps norm sv gr sk' cpt s'))).
    { rewrite step_T. refine (sinkhorn_plan_ext n m p q _ _ eps _ _ (Hsk' _ _)). intros i j Hi Hj. assert (GE := fgw_grad_R n m ln tiny l sym C1 C2 M p q alpha Hs (e_T s') i j C').
      rewrite <- (gradF_ext n m tiny l sym C1 C2 M alpha (e_T s) (e_T s') i j E) in GE.
      unfold egw_cost, step_cost. destruct sv; [exact GE|]. rewrite <- GE, (E i j Hi Hj). reflexivity. }
    assert (EQ := sinkhorn_plan_unique n m p q _ eps _ _ He P1 P2).
    apply IHleft; [apply P1|apply P2|exact EQ|].
    rewrite !step_T in EQ. unfold egw_step. destruct (Nat.eqb _ _); cbn [e_err]; [|exact Er].
    apply HN. intros i j Hi Hj. specialize (EQ i j Hi Hj). specialize (E i j Hi Hj). change (carrier RNum) with R in *. apply f_equal2; [exact EQ|exact E]. }
  destruct (X max_iter 0%nat (egw_start (N:=RNum) p q w1 w2 G0 ws) (egw_start (N:=RNum) p q w1' w2' G0 ws')) as (A & B & C); try (destruct G0; exact CT); auto.
  split; [exact C|].
  assert (V := fused_value n m tiny l C1 C2 M p q alpha (fst r) A). assert (V' := fused_value n m tiny l C1 C2 M p q alpha (fst r') B).
  change (snd r) with (fgw_dist (N:=RNum) n m ln tiny l C1 C2 p q alpha M (fst r)). change (snd r') with (fgw_dist (N:=RNum) n m ln tiny l C1 C2 p q alpha M (fst r')).
  rewrite V, V'. apply F_ext. exact C.
Qed.
Print Assumptions C131_warmstart_same_plan.
(** But the potentials carried over are epsilon log u, epsilon log v (223-224) while the inner solver
    starts at their exponentials: for epsilon <> 1 it does not restart where it ended, even when it
    had ended on the solution of the very same problem. *)
Theorem C131_warmstart_scale_refuted : exists (n m : nat) (p q : vec) (M : mat) (eps : R) (u v : vec) (s : egw_st (N:=RNum)),
  0 < eps /\ coupling n m p q (diag_plan (gibbs M eps) u v) /\
  let sk := fun (_ : warm_t (N:=RNum)) (M : mat) => (diag_plan (gibbs M eps) u v, (u, v)) in
  exists mu nu, e_warm (egw_step (N:=RNum) ln eps (fun _ => 0) PGD (fun _ => M) sk 0 s) = Some (mu, nu) /\
    ~ coupling n m p q (diag_plan (gibbs M eps) (fun i => exp (mu i)) (fun j => exp (nu j))).
Proof.
  exists 2%nat, 2%nat, (fun _ => / 2), (fun _ => / 2), (fun _ _ => 0), 2, (fun _ => / 2), (fun _ => / 2).
  exists (mk_egw (N:=RNum) (fun _ _ => 0) (Some (fun _ => 0, fun _ => 0)) 1 []).
  assert (E : forall u v i j, diag_plan (gibbs (fun _ _ => 0) 2) u v i j = u i * v j). { intros. unfold diag_plan, gibbs. replace (- 0 / 2) with 0 by field. rewrite exp_0. ring. }
  split; [lra|]. split.
  - split; [intros i j Hi Hj; rewrite E; lra|]. split; [intros i Hi|intros j Hj]; unfold row_sum, col_sum; cbn [rsum]; rewrite !E; lra.
  - cbn zeta. eexists. eexists. split; [reflexivity|]. intros (_ & RW & _). specialize (RW 0%nat ltac:(lia)). unfold row_sum in RW. cbn [rsum] in RW. rewrite !E in RW. cbn [fst snd] in RW.
    assert (Q : exp (nmul (n:=RNum) 2 (ln (/ 2))) = / 4).
    { change (exp (2 * ln (/ 2)) = / 4). replace (2 * ln (/ 2)) with (ln (/ 2) + ln (/ 2)) by ring. rewrite exp_plus, exp_ln by lra. field. }
    rewrite Q in RW. lra.
Qed.
Print Assumptions C131_warmstart_scale_refuted.

(** the hypotheses are met: two Euclidean point clouds, uniform weights, an exact inner solver *)
Example C128_case : exists sk, exact_inner 2 2 (fun _ => / 2) (fun _ => / 2) 1 sk /\
  coupling 2 2 (fun _ => / 2) (fun _ => / 2) (start_plan (fun _ => / 2) (fun _ => / 2) None) /\ pos_mat 2 2 (start_plan (fun _ => / 2) (fun _ => / 2) None) /\
  eucl 2 (fun i k => rsum 1 (fun e => (INR i - INR k) ^ 2)) /\ eucl 2 (fun i k => rsum 1 (fun e => (3 * INR i - 3 * INR k) ^ 2)) /\
  entry_norm 2 2 (frob 2 2).
Proof.
  destruct (exact_sinkhorn_exists 2 2 (fun _ => / 2) (fun _ => / 2) 1) as (sk & Hsk); try lia; try lra; try (intros i Hi; lra); try reflexivity.
  exists (fun _ M => (sk M, (fun _ => 1, fun _ => 1))). split; [intros w M; apply Hsk|].
  split. { split; [intros i j Hi Hj; cbn; lra|]. split; [intros i Hi|intros j Hj]; unfold row_sum, col_sum; cbn; lra. }
  split; [intros i j _ _; cbn; lra|]. split; [apply (eucl_sqdist 2 1 (fun i _ => INR i))|]. split; [apply (eucl_sqdist 2 1 (fun i _ => 3 * INR i))|].
  intros A B H. unfold frob. f_equal. apply dsum_ext; intros. rewrite H; auto.
Qed.
(** ... and the stationarity of C130_fixed_points is met by the product plan of two constant
    structures *)
Example C130_case : forall S, coupling 2 2 (fun _ => / 2) (fun _ => / 2) S ->
  derivable_pt_lim (fun t => sv_obj 2 2 PPA sq_loss (fun _ _ => 0) (fun _ _ => 0) (fun _ _ => 0) 1 1 (fun i j => / 4 + t * (S i j - / 4))) 0 0.
Proof.
  intros S _. apply deriv_ext with (fun _ => 0); [|apply derivable_pt_lim_const]. intros t. unfold sv_obj, fgw_obj, gw_obj, gw_bil, cost, sq_loss. cbn [rsum]. ring.
Qed.
