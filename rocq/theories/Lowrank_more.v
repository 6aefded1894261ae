(** The mirror descent loop, the cost factorisation, the initialisations and the low rank kernel
    solver (Lowrank_model.v) over the reals. *)
From Coq Require Import List Arith Bool Reals Lra Lia.
From Verif Require Import Num Sums Spec Duals_proofs Entropy Emd1d_model Emd1d_perm_proofs Optim_model Optim_proofs Circle_proofs
  Sinkhorn_model Sinkhorn_proofs Gw_more Dmmot_proofs Lowrank_model Lowrank_proofs.
Import ListNotations.
Local Open Scope R_scope.

(** ** products through the factors *)
Definition fprod (c : nat) (M1 M2 : mat) : mat := fun i j => rsum c (fun t => M1 i t * M2 j t).
Lemma fac_mul_R : forall c l A B Z i k, fac_mul (N:=RNum) c l A B Z i k = rsum l (fun j => fprod c A B i j * Z j k).
Proof.
  intros. unfold fac_mul, fprod. rewrite nsum_R.
  rewrite (rsum_ext l _ (fun j => rsum c (fun t => A i t * B j t * Z j k))) by (intros; rewrite <- rsum_scal_r; reflexivity).
  rewrite rsum_swap. apply rsum_ext; intros t Ht. rewrite nsum_R. cbn [nmul RNum]. rewrite <- rsum_scal. apply rsum_ext; intros. ring.
Qed.
Lemma fprod_tp : forall c A B i j, fprod c A B i j = fprod c B A j i.
Proof. intros. apply rsum_ext; intros; ring. Qed.

(** ** one mirror step: the kernels handed to Dykstra *)
Section Step.
Variables (n m c r : nat) (M1 M2 : mat) (reg gm : R) (Q R0 : mat) (g : vec).
Hypotheses (HQ : forall i k, (i < n)%nat -> (k < r)%nat -> 0 < Q i k) (HR : forall j k, (j < m)%nat -> (k < r)%nat -> 0 < R0 j k) (Hg : pos_vec r g).
Definition gradQ (C : mat) : mat := fun i k => rsum m (fun j => C i j * R0 j k) / g k + reg * ln (Q i k).
Definition gradR (C : mat) : mat := fun j k => rsum n (fun i => C i j * Q i k) / g k + reg * ln (R0 j k).
Definition gradg (C : mat) : vec := fun k => - dsum n m (fun i j => C i j * (Q i k * R0 j k)) / (g k * g k) + reg * ln (g k).
Let C := fprod c M1 M2.
Lemma eps1_R : forall i k, (k < r)%nat -> lr_eps1 (N:=RNum) exp ln m c M1 M2 reg gm Q R0 g i k = exp (ln (Q i k) - gm * gradQ C i k).
Proof.
  intros. unfold lr_eps1. f_equal. rewrite fac_mul_R. unfold gradQ. specialize (Hg k H). unfold nopp. cbn. unfold C. field. lra.
Qed.
Lemma eps2_R : forall j k, (k < r)%nat -> lr_eps2 (N:=RNum) exp ln n c M1 M2 reg gm Q R0 g j k = exp (ln (R0 j k) - gm * gradR C j k).
Proof.
  intros. unfold lr_eps2. f_equal. rewrite fac_mul_R. unfold gradR. specialize (Hg k H). unfold nopp.
  rewrite (rsum_ext n (fun j0 => fprod c M2 M1 j j0 * Q j0 k) (fun i => C i j * Q i k)) by (intros; rewrite fprod_tp; reflexivity).
  cbn. field. lra.
Qed.
Lemma omega_R : forall k, lr_omega (N:=RNum) n Q (fac_mul (N:=RNum) c m M1 M2 R0) k = dsum n m (fun i j => C i j * (Q i k * R0 j k)).
Proof.
  intros. unfold lr_omega, dsum. rewrite nsum_R. apply rsum_ext; intros i Hi. rewrite fac_mul_R. cbn [nmul RNum]. rewrite <- rsum_scal.
  apply rsum_ext; intros. unfold C. ring.
Qed.
Lemma eps3_R : forall k, (k < r)%nat -> lr_eps3 (N:=RNum) exp ln n m c M1 M2 reg gm Q R0 g k = exp (ln (g k) - gm * gradg C k).
Proof.
  intros. unfold lr_eps3. f_equal. rewrite omega_R. unfold gradg. specialize (Hg k H). cbn. field. lra.
Qed.
Lemma kl_shift : forall x y d, 0 <= x -> 0 < y ->
  x * ln (x / exp (ln y - d)) - x + exp (ln y - d) = d * x + (x * ln (x / y) - x + y) + (exp (ln y - d) - y).
Proof.
  intros x y d Hx Hy. rewrite (xlnx_split x (exp (ln y - d)) Hx (exp_pos _)), (xlnx_split x y Hx Hy), ln_exp. ring.
Qed.
Definition inner_m (k l : nat) (A B : mat) : R := dsum k l (fun i j => A i j * B i j).
Lemma klm_shift : forall k (P B G E : mat), nonneg_mat k r P -> (forall i t, (i < k)%nat -> (t < r)%nat -> 0 < B i t) ->
  (forall i t, (i < k)%nat -> (t < r)%nat -> E i t = exp (ln (B i t) - gm * G i t)) ->
  klm k r P E = gm * inner_m k r G P + klm k r P B + dsum k r (fun i t => exp (ln (B i t) - gm * G i t) - B i t).
Proof.
  intros k P B G E HP HB HE. unfold klm, inner_m. rewrite <- dsum_scal, <- !dsum_plus. apply dsum_ext; intros i t Hi Ht.
  rewrite HE by auto. rewrite kl_shift by auto. ring.
Qed.
Lemma klv_shift : forall (P B G E : vec), nonneg_vec r P -> pos_vec r B ->
  (forall t, (t < r)%nat -> E t = exp (ln (B t) - gm * G t)) ->
  kl r P E = gm * dot r G P + kl r P B + rsum r (fun t => exp (ln (B t) - gm * G t) - B t).
Proof.
  intros P B G E HP HB HE. unfold kl, dot. rewrite <- rsum_scal, <- !rsum_plus. apply rsum_ext; intros t Ht.
  rewrite HE by auto. rewrite kl_shift by auto. ring.
Qed.
End Step.

(** ** the objective of the low rank problem and its directional derivative *)
Definition lr_lin (n m r : nat) (C Q R0 : mat) (g : vec) : R :=
  rsum r (fun k => dsum n m (fun i j => C i j * (Q i k * R0 j k)) / g k).
Definition lr_ent (n m r : nat) (Q R0 : mat) (g : vec) : R :=
  dsum n r (fun i k => Q i k * ln (Q i k)) + dsum m r (fun j k => R0 j k * ln (R0 j k)) + rsum r (fun k => g k * ln (g k)).
Lemma deriv_eq : forall f x l l', derivable_pt_lim f x l -> l = l' -> derivable_pt_lim f x l'.
Proof. intros; subst; auto. Qed.
Lemma deriv_lin1 : forall a d x, derivable_pt_lim (fun t => a + t * d) x d.
Proof.
  intros. eapply deriv_eq; [apply (derivable_pt_lim_plus (fun _ => a) (fun t => t * d)); [apply derivable_pt_lim_const|]|].
  - apply (derivable_pt_lim_mult id (fun _ => d)); [apply derivable_pt_lim_id|apply derivable_pt_lim_const].
  - cbn beta. unfold id. ring.
Qed.
Lemma deriv_ent : forall y d, 0 < y -> derivable_pt_lim (fun t => (y + t * d) * ln (y + t * d)) 0 (d * ln y + d).
Proof.
  intros y d Hy. assert (E0 : y + 0 * d = y) by ring.
  eapply deriv_eq; [apply (derivable_pt_lim_mult (fun t => y + t * d) (fun t => ln (y + t * d))); [apply deriv_lin1|]|].
  - apply (derivable_pt_lim_comp (fun t => y + t * d) ln); [apply deriv_lin1|]. cbn beta. rewrite E0. apply derivable_pt_lim_ln; auto.
  - cbn beta. rewrite E0. field. lra.
Qed.
Lemma deriv_quot : forall q dq r0 dr y dy, 0 < y ->
  derivable_pt_lim (fun t => (q + t * dq) * (r0 + t * dr) / (y + t * dy)) 0 (r0 / y * dq + q / y * dr - q * r0 / (y * y) * dy).
Proof.
  intros q dq r0 dr y dy Hy. assert (E0 : y + 0 * dy = y) by ring.
  eapply deriv_eq; [apply (derivable_pt_lim_div (fun t => (q + t * dq) * (r0 + t * dr)) (fun t => y + t * dy)); [|apply deriv_lin1|]|].
  - apply (derivable_pt_lim_mult (fun t => q + t * dq) (fun t => r0 + t * dr)); apply deriv_lin1.
  - cbn beta. rewrite E0. lra.
  - cbn beta. rewrite E0. unfold Rsqr. field. lra.
Qed.
Lemma deriv_dsum : forall n m (f : nat -> nat -> R -> R) (d : mat) x, (forall i j, (i < n)%nat -> (j < m)%nat -> derivable_pt_lim (f i j) x (d i j)) ->
  derivable_pt_lim (fun t => dsum n m (fun i j => f i j t)) x (dsum n m d).
Proof.
  intros. unfold dsum. apply (deriv_rsum n (fun i t => rsum m (fun j => f i j t)) (fun i => rsum m (fun j => d i j))).
  intros i Hi. apply (deriv_rsum m (fun j t => f i j t) (fun j => d i j)). intros; auto.
Qed.
Lemma deriv_ext : forall f f' x l, (forall t, f t = f' t) -> derivable_pt_lim f x l -> derivable_pt_lim f' x l.
Proof.
  intros f f' x l E H eps He. destruct (H eps He) as (dl & Hd). exists dl. intros h Hh Hlt. rewrite <- !E. auto.
Qed.
Lemma rsum3_swap : forall n m r (F : nat -> nat -> nat -> R),
  rsum r (fun k => dsum n m (fun i j => F i j k)) = dsum n r (fun i k => rsum m (fun j => F i j k)).
Proof.
  intros. unfold dsum. rewrite rsum_swap. apply rsum_ext; intros i Hi. reflexivity.
Qed.
Lemma rsum3_swap' : forall n m r (F : nat -> nat -> nat -> R),
  rsum r (fun k => dsum n m (fun i j => F i j k)) = dsum m r (fun j k => rsum n (fun i => F i j k)).
Proof.
  intros. unfold dsum. rewrite (rsum_ext r _ (fun k => rsum m (fun j => rsum n (fun i => F i j k)))) by (intros; apply rsum_swap).
  apply rsum_swap.
Qed.
Lemma lr_lin_deriv : forall n m r C Q R0 g DQ DR Dg, pos_vec r g ->
  derivable_pt_lim (fun t => lr_lin n m r C (fun i k => Q i k + t * DQ i k) (fun j k => R0 j k + t * DR j k) (fun k => g k + t * Dg k)) 0
    (dsum n r (fun i k => rsum m (fun j => C i j * R0 j k) / g k * DQ i k) + dsum m r (fun j k => rsum n (fun i => C i j * Q i k) / g k * DR j k)
     + rsum r (fun k => - dsum n m (fun i j => C i j * (Q i k * R0 j k)) / (g k * g k) * Dg k)).
Proof.
  intros n m r C Q R0 g DQ DR Dg Hg.
  apply (deriv_ext (fun t => rsum r (fun k => dsum n m (fun i j => C i j * ((Q i k + t * DQ i k) * (R0 j k + t * DR j k) / (g k + t * Dg k)))))).
  { intros t. unfold lr_lin. apply rsum_ext; intros k Hk.
    replace (dsum n m (fun i j => C i j * ((Q i k + t * DQ i k) * (R0 j k + t * DR j k))) / (g k + t * Dg k))
      with (/ (g k + t * Dg k) * dsum n m (fun i j => C i j * ((Q i k + t * DQ i k) * (R0 j k + t * DR j k)))) by (unfold Rdiv; ring).
    rewrite <- dsum_scal. apply dsum_ext; intros; unfold Rdiv; ring. }
  eapply deriv_eq.
  { apply (deriv_rsum r (fun k t => dsum n m (fun i j => C i j * ((Q i k + t * DQ i k) * (R0 j k + t * DR j k) / (g k + t * Dg k))))
       (fun k => dsum n m (fun i j => C i j * (R0 j k / g k * DQ i k + Q i k / g k * DR j k - Q i k * R0 j k / (g k * g k) * Dg k)))).
    intros k Hk. apply (deriv_dsum n m (fun i j t => C i j * ((Q i k + t * DQ i k) * (R0 j k + t * DR j k) / (g k + t * Dg k)))).
    intros i j Hi Hj. apply (derivable_pt_lim_scal (fun t => (Q i k + t * DQ i k) * (R0 j k + t * DR j k) / (g k + t * Dg k))). apply deriv_quot; auto. }
  rewrite (rsum_ext r _ (fun k => (dsum n m (fun i j => C i j * (R0 j k / g k * DQ i k)) + dsum n m (fun i j => C i j * (Q i k / g k * DR j k)))
     + dsum n m (fun i j => - (C i j * (Q i k * R0 j k / (g k * g k) * Dg k))))).
  2:{ intros k Hk. rewrite <- !dsum_plus. apply dsum_ext; intros; ring. }
  rewrite !rsum_plus. f_equal; [f_equal|].
  - rewrite (rsum3_swap n m r (fun i j k => C i j * (R0 j k / g k * DQ i k))). apply dsum_ext; intros i k Hi Hk.
    unfold Rdiv. rewrite Rmult_assoc, <- rsum_scal_r. apply rsum_ext; intros; ring.
  - rewrite (rsum3_swap' n m r (fun i j k => C i j * (Q i k / g k * DR j k))). apply dsum_ext; intros i k Hi Hk.
    unfold Rdiv. rewrite Rmult_assoc, <- rsum_scal_r. apply rsum_ext; intros; ring.
  - apply rsum_ext; intros k Hk. unfold Rdiv.
    replace (- dsum n m (fun i j => C i j * (Q i k * R0 j k)) * / (g k * g k) * Dg k) with ((- (/ (g k * g k) * Dg k)) * dsum n m (fun i j => C i j * (Q i k * R0 j k))) by ring.
    rewrite <- dsum_scal. apply dsum_ext; intros; ring.
Qed.
Lemma lr_ent_deriv : forall n m r Q R0 g DQ DR Dg, 
  (forall i k, (i < n)%nat -> (k < r)%nat -> 0 < Q i k) -> (forall j k, (j < m)%nat -> (k < r)%nat -> 0 < R0 j k) -> pos_vec r g ->
  derivable_pt_lim (fun t => lr_ent n m r (fun i k => Q i k + t * DQ i k) (fun j k => R0 j k + t * DR j k) (fun k => g k + t * Dg k)) 0
    (dsum n r (fun i k => ln (Q i k) * DQ i k) + dsum m r (fun j k => ln (R0 j k) * DR j k) + rsum r (fun k => ln (g k) * Dg k)
     + (dsum n r DQ + dsum m r DR + rsum r Dg)).
Proof.
  intros n m r Q R0 g DQ DR Dg HQ HR Hg. unfold lr_ent.
  eapply deriv_eq.
  { apply (derivable_pt_lim_plus (fun t => dsum n r (fun i k => (Q i k + t * DQ i k) * ln (Q i k + t * DQ i k)) + dsum m r (fun j k => (R0 j k + t * DR j k) * ln (R0 j k + t * DR j k)))
             (fun t => rsum r (fun k => (g k + t * Dg k) * ln (g k + t * Dg k)))).
    - apply (derivable_pt_lim_plus (fun t => dsum n r (fun i k => (Q i k + t * DQ i k) * ln (Q i k + t * DQ i k))) (fun t => dsum m r (fun j k => (R0 j k + t * DR j k) * ln (R0 j k + t * DR j k)))).
      + apply (deriv_dsum n r (fun i k t => (Q i k + t * DQ i k) * ln (Q i k + t * DQ i k)) (fun i k => DQ i k * ln (Q i k) + DQ i k)). intros; apply deriv_ent; auto.
      + apply (deriv_dsum m r (fun i k t => (R0 i k + t * DR i k) * ln (R0 i k + t * DR i k)) (fun i k => DR i k * ln (R0 i k) + DR i k)). intros; apply deriv_ent; auto.
    - apply (deriv_rsum r (fun k t => (g k + t * Dg k) * ln (g k + t * Dg k)) (fun k => Dg k * ln (g k) + Dg k)). intros; apply deriv_ent; auto. }
  rewrite !dsum_plus, rsum_plus.
  rewrite (dsum_ext n r (fun i k => DQ i k * ln (Q i k)) (fun i k => ln (Q i k) * DQ i k)) by (intros; ring).
  rewrite (dsum_ext m r (fun i k => DR i k * ln (R0 i k)) (fun i k => ln (R0 i k) * DR i k)) by (intros; ring).
  rewrite (rsum_ext r (fun k => Dg k * ln (g k)) (fun k => ln (g k) * Dg k)) by (intros; ring).
  change (fun i j => DQ i j) with DQ. change (fun i j => DR i j) with DR. change (fun i => Dg i) with Dg. ring.
Qed.

(** ** the squared euclidean factors *)
Definition sqdist (d : nat) (X Y : mat) : mat := fun i j => rsum d (fun k => (X i k - Y j k) * (X i k - Y j k)).
Lemma factors_exact : forall d X Y i j, fprod (d + 2) (lr_M1 (N:=RNum) d X) (lr_M2 (N:=RNum) d Y) i j = sqdist d X Y i j.
Proof.
  intros. unfold fprod. replace (d + 2)%nat with (S (S d)) by lia. rewrite !rsum_first.
  unfold lr_M1, lr_M2, sqn, sqdist, nopp, two. rewrite !nsum_R. cbn [n0 n1 nadd nsub nmul RNum].
  rewrite (rsum_ext d (fun k => (X i k - Y j k) * (X i k - Y j k)) (fun k => X i k * X i k + (Y j k * Y j k + (0 - (1 + 1)) * X i k * Y j k))) by (intros; ring).
  rewrite !rsum_plus. ring.
Qed.
Lemma max2_ge : forall n k (A : mat) i t, (i < n)%nat -> (t < k)%nat -> A i t <= max2 (N:=RNum) n k A.
Proof.
  intros n k A i t Hi Ht. unfold max2. eapply Rle_trans; [|apply (nmaxk_ge (n - 1) (fun i => nmaxk (N:=RNum) (k - 1) (fun t => A i t)) i); lia].
  apply (nmaxk_ge (k - 1) (fun t => A i t) t). lia.
Qed.
Lemma max2_M1 : forall n d X, (0 < n)%nat -> 1 <= max2 (N:=RNum) n (d + 2) (lr_M1 (N:=RNum) d X).
Proof. intros. apply (max2_ge n (d + 2) (lr_M1 (N:=RNum) d X) 0 1); lia. Qed.
Lemma max2_M2 : forall n d X, (0 < n)%nat -> 1 <= max2 (N:=RNum) n (d + 2) (lr_M2 (N:=RNum) d X).
Proof. intros. apply (max2_ge n (d + 2) (lr_M2 (N:=RNum) d X) 0 0); lia. Qed.
Lemma factors_rescaled : forall n m d X Y i j, (0 < n)%nat -> (0 < m)%nat ->
  let '(M1, M2) := lr_cost_factors (N:=RNum) sqrt n m d X Y true in
  fprod (d + 2) M1 M2 i j * (sqrt (max2 (N:=RNum) n (d + 2) (lr_M1 (N:=RNum) d X)) * sqrt (max2 (N:=RNum) m (d + 2) (lr_M2 (N:=RNum) d Y))) = sqdist d X Y i j.
Proof.
  intros n m d X Y i j Hn Hm. unfold lr_cost_factors. rewrite <- factors_exact.
  assert (A := max2_M1 n d X Hn). assert (B := max2_M2 m d Y Hm).
  set (s1 := sqrt (max2 (N:=RNum) n (d + 2) (lr_M1 (N:=RNum) d X))). set (s2 := sqrt (max2 (N:=RNum) m (d + 2) (lr_M2 (N:=RNum) d Y))).
  assert (S1 : 0 < s1) by (apply sqrt_lt_R0; lra). assert (S2 : 0 < s2) by (apply sqrt_lt_R0; lra).
  unfold fprod. rewrite <- rsum_scal_r. apply rsum_ext; intros t Ht. fold s1 s2. cbn. field. lra.
Qed.

(** ** value_linear is the cost of Q diag(dg) R^T for the cost C = M1 M2^T *)
Lemma lr_plan_R : forall r Q R0 d i j, lr_plan (N:=RNum) r Q R0 d i j = rsum r (fun k => Q i k * d k * R0 j k).
Proof. intros. unfold lr_plan. rewrite nsum_R. reflexivity. Qed.
Lemma value_linear_R : forall n m c r M1 M2 Q R0 dg,
  lr_value_linear (N:=RNum) n m c r M1 M2 Q R0 dg = cost n m (fprod c M1 M2) (lr_plan (N:=RNum) r Q R0 dg).
Proof.
  intros n m c r M1 M2 Q R0 dg. unfold lr_value_linear, cost. rewrite nsum_R.
  rewrite (rsum_ext c _ (fun t => rsum r (fun k => rsum n (fun i => rsum m (fun j => M1 i t * M2 j t * (Q i k * dg k * R0 j k)))))).
  2:{ intros t Ht. rewrite nsum_R. apply rsum_ext; intros k Hk. rewrite !nsum_R. cbn [nmul RNum].
      rewrite <- rsum_scal_r. apply rsum_ext; intros i Hi. rewrite <- rsum_scal. apply rsum_ext; intros; ring. }
  rewrite (rsum_ext c _ (fun t => rsum n (fun i => rsum m (fun j => rsum r (fun k => M1 i t * M2 j t * (Q i k * dg k * R0 j k)))))).
  2:{ intros t Ht. rewrite rsum_swap. apply rsum_ext; intros i Hi. apply rsum_swap. }
  rewrite rsum_swap. apply rsum_ext; intros i Hi. rewrite rsum_swap. apply rsum_ext; intros j Hj.
  rewrite lr_plan_R. unfold fprod. rewrite <- rsum_scal_r. apply rsum_ext; intros t Ht. rewrite rsum_scal. reflexivity.
Qed.

(** ** the loop ends with one mirror step from the state reached by one iteration less *)
Lemma lr_loop_S : forall (N : NumOps) ex lg cb tiny n m c r a b M1 M2 reg alpha thr gi it left s dg,
  lr_loop (N:=N) ex lg cb tiny n m c r a b M1 M2 reg alpha thr gi it (S left) s dg =
  match lr_step (N:=N) ex lg cb tiny n m c r a b M1 M2 reg alpha thr gi it (l_Q s) (l_R s) (l_g s) with
  | None => None | Some s' => lr_loop (N:=N) ex lg cb tiny n m c r a b M1 M2 reg alpha thr gi it left s' (fun k => ndiv n1 (l_g s k)) end.
Proof. reflexivity. Qed.
Lemma lr_loop_last : forall (N : NumOps) ex lg cb tiny n m c r a b M1 M2 reg alpha thr gi it left s dg s' dg',
  lr_loop (N:=N) ex lg cb tiny n m c r a b M1 M2 reg alpha thr gi it (S left) s dg = Some (s', dg') ->
  exists p dgp, lr_loop (N:=N) ex lg cb tiny n m c r a b M1 M2 reg alpha thr gi it left s dg = Some (p, dgp) /\
    lr_step (N:=N) ex lg cb tiny n m c r a b M1 M2 reg alpha thr gi it (l_Q p) (l_R p) (l_g p) = Some s' /\
    dg' = (fun k => ndiv n1 (l_g p k)).
Proof.
  intros N ex lg cb tiny n m c r a b M1 M2 reg alpha thr gi it. induction left; intros s dg s' dg' E.
  - cbn [lr_loop] in E. destruct (lr_step _ _ _ _ _ _ _ _ _ _ _ _ _ _ _ _ _ (l_Q s) (l_R s) (l_g s)) as [s1|] eqn:E1; [|discriminate].
    injection E as <- <-. exists s, dg. auto.
  - rewrite lr_loop_S in E. rewrite lr_loop_S. destruct (lr_step _ _ _ _ _ _ _ _ _ _ _ _ _ _ _ _ _ (l_Q s) (l_R s) (l_g s)) as [s1|] eqn:E1; [|discriminate].
    apply IHleft in E. exact E.
Qed.

(** ** marginals of the lazy plan when each factor got [tiny] added *)
Lemma row_bound : forall n m r (Q S : mat) (g a : vec) tiny, (0 < n)%nat -> (0 < m)%nat -> 0 <= tiny ->
  (forall i k, (i < n)%nat -> (k < r)%nat -> 0 < Q i k) -> pos_vec r g ->
  (forall k, (k < r)%nat -> col_sum n Q k = g k) -> (forall k, (k < r)%nat -> col_sum m S k = g k) ->
  rsum n (fun i => Rabs (rsum m (fun j => rsum r (fun k => (Q i k + tiny) * (1 / (g k + tiny)) * (S j k + tiny))) - a i))
  <= rsum n (fun i => Rabs (row_sum r Q i - a i)) + INR r * INR n * INR m * tiny.
Proof.
  intros n m r Q S g a tiny Hn Hm Ht HQ Hg CQ CS.
  assert (Hm1 : 1 <= INR m) by (apply (le_INR 1); lia). assert (Hn1 : 1 <= INR n) by (apply (le_INR 1); lia).
  set (e := fun i => rsum r (fun k => (Q i k + tiny) * ((INR m - 1) * tiny / (g k + tiny)))).
  assert (E : forall i, (i < n)%nat -> rsum m (fun j => rsum r (fun k => (Q i k + tiny) * (1 / (g k + tiny)) * (S j k + tiny))) = row_sum r Q i + INR r * tiny + e i).
  { intros i Hi. rewrite rsum_swap. unfold row_sum, e. rewrite <- (rsum_const r tiny), <- !rsum_plus. apply rsum_ext; intros k Hk.
    rewrite rsum_scal, rsum_plus, rsum_const. specialize (CS k Hk). unfold col_sum in CS. rewrite CS. specialize (Hg k Hk). field. lra. }
  assert (e0 : forall i, (i < n)%nat -> 0 <= e i).
  { intros i Hi. apply rsum_nonneg; intros k Hk. specialize (HQ i k Hi Hk). specialize (Hg k Hk).
    apply Rmult_le_pos; [lra|]. apply Rmult_le_pos; [apply Rmult_le_pos; lra|]. left. apply Rinv_0_lt_compat. lra. }
  assert (Se : rsum n e <= INR r * (INR n * (INR m - 1) * tiny)).
  { unfold e. rewrite rsum_swap. rewrite <- (rsum_const r (INR n * (INR m - 1) * tiny)). apply rsum_le; intros k Hk.
    rewrite rsum_scal_r, rsum_plus, rsum_const. specialize (CQ k Hk). unfold col_sum in CQ. rewrite CQ. specialize (Hg k Hk).
    assert (X : (g k + INR n * tiny) / (g k + tiny) <= INR n).
    { apply Rmult_le_reg_r with (g k + tiny); [lra|]. unfold Rdiv. rewrite Rmult_assoc, Rinv_l by lra. nra. }
    assert (Y : 0 <= (INR m - 1) * tiny) by (apply Rmult_le_pos; lra).
    replace ((g k + INR n * tiny) * ((INR m - 1) * tiny / (g k + tiny))) with (((INR m - 1) * tiny) * ((g k + INR n * tiny) / (g k + tiny))) by (field; lra).
    replace (INR n * (INR m - 1) * tiny) with ((INR m - 1) * tiny * INR n) by ring. apply Rmult_le_compat_l; auto. }
  assert (B : rsum n (fun i => Rabs (rsum m (fun j => rsum r (fun k => (Q i k + tiny) * (1 / (g k + tiny)) * (S j k + tiny))) - a i))
    <= rsum n (fun i => Rabs (row_sum r Q i - a i) + (INR r * tiny + e i))).
  { apply rsum_le; intros i Hi. rewrite E by auto. specialize (e0 i Hi).
    assert (0 <= INR r * tiny) by (apply Rmult_le_pos; auto; apply pos_INR).
    replace (row_sum r Q i + INR r * tiny + e i - a i) with ((row_sum r Q i - a i) + (INR r * tiny + e i)) by ring.
    eapply Rle_trans; [apply Rabs_triang|]. rewrite (Rabs_right (INR r * tiny + e i)) by lra. lra. }
  rewrite rsum_plus, rsum_plus, rsum_const in B. change (rsum n (fun i => e i)) with (rsum n e) in B.
  assert (Z : INR n * (INR r * tiny) + INR r * (INR n * (INR m - 1) * tiny) = INR r * INR n * INR m * tiny) by ring. lra.
Qed.

(** ** one outer iteration *)
Definition step_ok (n m r : nat) (a b : vec) (tiny thr : R) (o : lr_out (N:=RNum)) : Prop :=
  exists Q S g, (forall i k, (i < n)%nat -> (k < r)%nat -> 0 < Q i k /\ l_Q o i k = Q i k + tiny) /\
    (forall i k, (i < m)%nat -> (k < r)%nat -> 0 < S i k /\ l_R o i k = S i k + tiny) /\
    (forall k, (k < r)%nat -> 0 < g k /\ l_g o k = g k + tiny /\ col_sum n Q k = g k /\ col_sum m S k = g k) /\
    (l_conv o = true -> rsum n (fun i => Rabs (row_sum r Q i - a i)) + rsum m (fun j => Rabs (row_sum r S j - b j)) <= thr).
Lemma lr_step_ok : forall tiny n m c r a b M1 M2 reg alpha thr gi it Q S g o, (0 < n)%nat -> (0 < m)%nat -> (0 < r)%nat -> pos_vec n a -> pos_vec m b ->
  lr_step (N:=RNum) exp ln cbrt tiny n m c r a b M1 M2 reg alpha thr gi it Q S g = Some o -> step_ok n m r a b tiny thr o.
Proof.
  intros tiny n m c r a b M1 M2 reg alpha thr gi it Q S g o Hn Hm Hr Ha Hb. unfold lr_step. cbv zeta.
  match goal with |- context [lr_dykstra cbrt n m r ?x ?y ?z a b alpha thr it] => destruct (lr_dykstra (N:=RNum) cbrt n m r x y z a b alpha thr it) as [o'|] eqn:E end; [|discriminate].
  intros [= <-]. apply lr_dykstra_spec in E; auto; try (intros; apply exp_pos); [|intros k Hk; apply exp_pos]. destruct E.
  exists (l_Q o'), (l_R o'), (l_g o'). cbn [l_Q l_R l_g l_conv]. repeat split; auto.
Qed.
Lemma lr_step_some : forall tiny n m c r a b M1 M2 reg alpha thr gi it Q S g, (0 < n)%nat -> (0 < m)%nat -> (0 < r)%nat -> pos_vec n a -> pos_vec m b ->
  (0 < it)%nat -> thr < 1 ->
  exists o, lr_step (N:=RNum) exp ln cbrt tiny n m c r a b M1 M2 reg alpha thr gi it Q S g = Some o.
Proof.
  intros tiny n m c r a b M1 M2 reg alpha thr gi it Q S g Hn Hm Hr Ha Hb Hi Ht. unfold lr_step. cbv zeta.
  match goal with |- context [lr_dykstra cbrt n m r ?x ?y ?z a b alpha thr it] => destruct (lr_dykstra_ran n m r x y z a b alpha thr it) as (o & ->) end; auto; try (intros; apply exp_pos); [intros k Hk; apply exp_pos|eauto].
Qed.
Lemma lr_loop_some : forall tiny n m c r a b M1 M2 reg alpha thr gi it left s dg, (0 < n)%nat -> (0 < m)%nat -> (0 < r)%nat -> pos_vec n a -> pos_vec m b ->
  (0 < it)%nat -> thr < 1 ->
  exists o, lr_loop (N:=RNum) exp ln cbrt tiny n m c r a b M1 M2 reg alpha thr gi it left s dg = Some o.
Proof.
  intros tiny n m c r a b M1 M2 reg alpha thr gi it. induction left; intros s dg Hn Hm Hr Ha Hb Hi Ht; cbn [lr_loop]; [eauto|].
  destruct (lr_step_some tiny n m c r a b M1 M2 reg alpha thr gi it (l_Q s) (l_R s) (l_g s)) as (o & ->); auto.
Qed.

(** ** initialisations *)
Lemma ramp_R : forall n i, ramp (N:=RNum) n i = INR (S i) / rsum n (fun i => INR (S i)).
Proof. intros. unfold ramp. rewrite nsum_R, nofnat_INR. cbn [ndiv RNum]. f_equal. apply rsum_ext; intros. apply nofnat_INR. Qed.
Lemma ramp_den : forall n, (0 < n)%nat -> 0 < rsum n (fun i => INR (S i)).
Proof. intros. apply rsum_pos; auto. intros. apply lt_0_INR; lia. Qed.
Lemma ramp_sum : forall n, (0 < n)%nat -> rsum n (ramp (N:=RNum) n) = 1.
Proof.
  intros n Hn. assert (D := ramp_den n Hn). rewrite (rsum_ext n _ (fun i => INR (S i) / rsum n (fun i => INR (S i)))) by (intros; apply ramp_R).
  rewrite rsum_div. field. lra.
Qed.
Lemma ramp_pos : forall n i, (0 < n)%nat -> 0 < ramp (N:=RNum) n i.
Proof. intros. rewrite ramp_R. apply Rdiv_lt_0_compat; [apply lt_0_INR; lia|apply ramp_den; auto]. Qed.
Lemma ramp_le1 : forall n i, (i < n)%nat -> ramp (N:=RNum) n i <= 1.
Proof.
  intros n i Hi. rewrite <- (ramp_sum n) by lia. apply (rsum_le_one n (ramp (N:=RNum) n)); auto. intros. left. apply ramp_pos. lia.
Qed.
Lemma rest_sum : forall n l (a : vec), (0 < n)%nat -> l < 1 -> rsum n a = 1 -> rsum n (rest (N:=RNum) l a (ramp (N:=RNum) n)) = 1.
Proof.
  intros n l a Hn Hl Ha. rewrite (rsum_ext n _ (fun i => (a i - l * ramp (N:=RNum) n i) / (1 - l))) by reflexivity.
  rewrite rsum_div, rsum_minus, rsum_scal. change (rsum n (fun i => a i)) with (rsum n a). change (rsum n (fun i => ramp (N:=RNum) n i)) with (rsum n (ramp (N:=RNum) n)).
  rewrite Ha, ramp_sum by auto. field. lra.
Qed.
Lemma rest_pos : forall n l (a : vec), (0 < n)%nat -> 0 < l < 1 -> (forall i, (i < n)%nat -> l < a i) -> pos_vec n (rest (N:=RNum) l a (ramp (N:=RNum) n)).
Proof.
  intros n l a Hn Hl Ha i Hi. unfold rest. cbn [ndiv nsub nmul n1 RNum]. specialize (Ha i Hi).
  assert (A := ramp_le1 n i Hi). assert (B := ramp_pos n i Hn). apply Rdiv_lt_0_compat; [|lra]. change (carrier RNum) with R in *. nra.
Qed.
Lemma two_term_coupling : forall n r l (a g : vec), (0 < n)%nat -> (0 < r)%nat -> 0 < l < 1 ->
  (forall i, (i < n)%nat -> l < a i) -> (forall k, (k < r)%nat -> l < g k) -> rsum n a = 1 -> rsum r g = 1 ->
  let Q := two_term (N:=RNum) l (ramp (N:=RNum) n) (ramp (N:=RNum) r) (rest (N:=RNum) l a (ramp (N:=RNum) n)) (rest (N:=RNum) l g (ramp (N:=RNum) r)) in
  (forall i k, (i < n)%nat -> (k < r)%nat -> 0 < Q i k) /\ (forall i, (i < n)%nat -> row_sum r Q i = a i) /\ (forall k, (k < r)%nat -> col_sum n Q k = g k).
Proof.
  intros n r l a g Hn Hr Hl Ha Hg Sa Sg Q.
  assert (R1 := rest_pos n l a Hn Hl Ha). assert (R2 := rest_pos r l g Hr Hl Hg).
  assert (T1 := rest_sum n l a Hn (proj2 Hl) Sa). assert (T2 := rest_sum r l g Hr (proj2 Hl) Sg).
  assert (U1 := ramp_sum n Hn). assert (U2 := ramp_sum r Hr).
  unfold Q, two_term. cbn [nadd nsub nmul n1 RNum]. repeat split.
  - intros i k Hi Hk. assert (A := ramp_pos n i Hn). assert (B := ramp_pos r k Hr). specialize (R1 i Hi). specialize (R2 k Hk).
    apply Rplus_lt_0_compat; (apply Rmult_lt_0_compat; [lra|apply Rmult_lt_0_compat; assumption]).
  - intros i Hi. unfold row_sum. rewrite rsum_plus, !rsum_scal.
    change (rsum r (fun k => ramp (N:=RNum) r k)) with (rsum r (ramp (N:=RNum) r)).
    change (rsum r (fun k => rest (N:=RNum) l g (ramp (N:=RNum) r) k)) with (rsum r (rest (N:=RNum) l g (ramp (N:=RNum) r))). rewrite T2, U2.
    unfold rest. cbn [ndiv nsub nmul n1 RNum]. match goal with |- ?x = ?y => change (@eq R x y) end. field. lra.
  - intros k Hk. unfold col_sum. rewrite rsum_plus, !rsum_scal.
    rewrite !rsum_scal_r.
    change (rsum n (fun k => ramp (N:=RNum) n k)) with (rsum n (ramp (N:=RNum) n)).
    change (rsum n (fun k => rest (N:=RNum) l a (ramp (N:=RNum) n) k)) with (rsum n (rest (N:=RNum) l a (ramp (N:=RNum) n))). rewrite T1, U1.
    unfold rest. cbn [ndiv nsub nmul n1 RNum]. match goal with |- ?x = ?y => change (@eq R x y) end. field. lra.
Qed.

(** ** sinkhorn_low_rank_kernel is sinkhorn_knopp on K1 K2^T *)
Definition no_inf (x : R) : bool := false.
Definition sk_agree (n m : nat) (o o' : sk (N:=RNum)) : Prop :=
  (forall i, (i < n)%nat -> sk_u o i = sk_u o' i) /\ (forall j, (j < m)%nat -> sk_v o j = sk_v o' j) /\ sk_err o = sk_err o' /\ sk_exit o = sk_exit o'.
Section Kernel.
Variables (n m r : nat) (a b : vec) (K1 K2 : mat) (thr : R).
Hypotheses (Hn : (0 < n)%nat) (Hm : (0 < m)%nat) (Ha : pos_vec n a) (Hb : pos_vec m b).
Let K := fprod r K1 K2.
Hypothesis HK : forall i j, (i < n)%nat -> (j < m)%nat -> 0 < K i j.
Lemma lk_ktu_R : forall u j, lk_ktu (N:=RNum) n r K1 K2 u j = ktu n K u j.
Proof.
  intros u j. unfold lk_ktu, ktu, K, fprod. rewrite nsum_R.
  rewrite (rsum_ext n _ (fun i => rsum r (fun t => K1 i t * K2 j t * u i))) by (intros; rewrite <- rsum_scal_r; reflexivity).
  rewrite rsum_swap. apply rsum_ext; intros t Ht. rewrite nsum_R. cbn [nmul RNum]. rewrite <- rsum_scal. apply rsum_ext; intros; ring.
Qed.
Lemma lk_kv_R : forall v i, lk_kv (N:=RNum) m r K1 K2 v i = kv_sum m K v i.
Proof.
  intros v i. unfold lk_kv, kv_sum, K, fprod. rewrite nsum_R.
  rewrite (rsum_ext m _ (fun j => rsum r (fun t => K1 i t * K2 j t * v j))) by (intros; rewrite <- rsum_scal_r; reflexivity).
  rewrite rsum_swap. apply rsum_ext; intros t Ht. rewrite nsum_R. cbn [nmul RNum]. rewrite <- rsum_scal. apply rsum_ext; intros; ring.
Qed.
Lemma ktu_ext : forall u u' j, (forall i, (i < n)%nat -> u i = u' i) -> ktu n K u j = ktu n K u' j.
Proof. intros. apply rsum_ext; intros. rewrite H; auto. Qed.
Lemma kvs_ext : forall u u' j, (forall i, (i < m)%nat -> u i = u' i) -> kv_sum m K u j = kv_sum m K u' j.
Proof. intros. apply rsum_ext; intros. rewrite H; auto. Qed.
Lemma existsb_none : forall k p, (forall i, (i < k)%nat -> p i = false) -> existsb p (seq 0 k) = false.
Proof.
  intros k p H. destruct (existsb p (seq 0 k)) eqn:E; auto. apply existsb_exists in E. destruct E as (x & Hx & Px).
  apply in_seq in Hx. rewrite H in Px by lia. discriminate.
Qed.
Lemma lk_loop_agree : forall left ii u v u' v' errs,
  (forall i, (i < n)%nat -> u i = u' i) -> (forall j, (j < m)%nat -> v j = v' j) -> pos_vec n u -> pos_vec m v ->
  sk_agree n m (lk_loop (N:=RNum) n m r a b norm2 no_nan no_inf thr K1 K2 left ii u v errs)
               (kp_loop (N:=RNum) n m a b norm2 no_nan thr K left ii u' v' errs).
Proof.
  induction left; intros ii u v u' v' errs Eu Ev Pu Pv; [repeat split; auto|].
  cbn [lk_loop kp_loop].
  assert (Pu' : pos_vec n u') by (intros i Hi; rewrite <- Eu; auto).
  rewrite (bad_false n m K Hn HK u' _ _ Pu').
  assert (B : lk_bad (N:=RNum) n m r no_nan no_inf K1 K2 u (lk_u (N:=RNum) m r a K1 K2 (lk_v (N:=RNum) n r b K1 K2 u)) (lk_v (N:=RNum) n r b K1 K2 u) = false).
  { unfold lk_bad. rewrite !orb_false_iff. repeat split; try (apply existsb_none; reflexivity).
    apply existsb_none. intros j Hj. rewrite lk_ktu_R. apply Reqb_false. apply Rgt_not_eq. apply (ktu_pos n m); auto. }
  rewrite B.
  assert (E1 : forall j, (j < m)%nat -> lk_v (N:=RNum) n r b K1 K2 u j = kp_v (N:=RNum) n b K u' j).
  { intros j Hj. rewrite (kv_R n b K). unfold lk_v. rewrite lk_ktu_R. rewrite (ktu_ext u u') by auto. reflexivity. }
  assert (Pv1 : pos_vec m (lk_v (N:=RNum) n r b K1 K2 u)) by (intros j Hj; rewrite E1 by auto; apply (kv_pos n m b K Hn Hb HK); auto).
  assert (E2 : forall i, (i < n)%nat -> lk_u (N:=RNum) m r a K1 K2 (lk_v (N:=RNum) n r b K1 K2 u) i = kp_u (N:=RNum) m a K (kp_v (N:=RNum) n b K u') i).
  { intros i Hi. assert (T := kvs_pos n m K Hm HK (kp_v (N:=RNum) n b K u') i (kv_pos n m b K Hn Hb HK u' Pu') Hi).
    rewrite (ku_R n m a K) by auto. unfold lk_u. rewrite lk_kv_R. rewrite (kvs_ext _ (kp_v (N:=RNum) n b K u')) by auto. reflexivity. }
  assert (Pu1 : pos_vec n (lk_u (N:=RNum) m r a K1 K2 (lk_v (N:=RNum) n r b K1 K2 u))).
  { intros i Hi. rewrite E2 by auto. apply (ku_pos n m a K Hm Ha HK); auto. apply (kv_pos n m b K Hn Hb HK); auto. }
  set (v1 := lk_v (N:=RNum) n r b K1 K2 u) in *. set (u1 := lk_u (N:=RNum) m r a K1 K2 v1) in *.
  set (v1' := kp_v (N:=RNum) n b K u') in *. set (u1' := kp_u (N:=RNum) m a K v1') in *.
  assert (EE : lk_err (N:=RNum) n m r b norm2 K1 K2 u1 v1 = kp_err (N:=RNum) n m b norm2 K u1' v1').
  { unfold lk_err, kp_err. apply norm2_ext; intros j Hj. rewrite lk_ktu_R, nsum_R. cbn [nsub RNum]. f_equal. rewrite E1 by auto.
    rewrite (ktu_ext u1 u1') by auto. unfold ktu, scaled. cbn [nmul RNum]. rewrite <- rsum_scal. apply rsum_ext; intros; ring. }
  destruct (Nat.eqb (ii mod 10) 0); [|apply IHleft; auto]. rewrite EE.
  destruct (nltb (n:=RNum) (kp_err (N:=RNum) n m b norm2 K u1' v1') thr); [repeat split; auto|apply IHleft; auto].
Qed.
End Kernel.
