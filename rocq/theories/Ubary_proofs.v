(** Unbalanced barycenters over R: specification, duality gap, monotone ascent and convergence of the scaling iteration.
    Only the definitions [us], [qs], [vs] mirror the code; Ubary_link.v ties them to the model. *)
From Coq Require Import Reals Lra Lia.
From Verif Require Import Sums Spec Entropy Monge Wp Unb_proofs Uot1d_uot.
Local Open Scope R_scope.

(** ** specification.  A i h is the mass of histogram h at point i *)
(** sum_h w_h [ <P_h, M> + reg sum (P ln P - P + 1) + reg_m KL(P_h 1 | a_h) + reg_m KL(P_h^T 1 | q) ] *)
Definition ub_obj (n H : nat) (A M : mat) (w : vec) (reg reg_m : R) (q : vec) (P : nat -> mat) : R :=
  rsum H (fun h => w h * uot_obj n n (fun i => A i h) q M (fun _ _ => 1) reg (Some reg_m) (Some reg_m) (P h)).
(** competitors: a non-negative histogram and non-negative plans of finite divergence (no mass is taken from
    a point without mass nor sent to one) *)
Definition ub_admissible (n H : nat) (A : mat) (q : vec) (P : nat -> mat) : Prop :=
  nonneg_vec n q /\
  forall h, (h < H)%nat -> nonneg_mat n n (P h) /\
    (forall i j, (i < n)%nat -> (j < n)%nat -> A i h = 0 -> P h i j = 0) /\
    (forall i j, (i < n)%nat -> (j < n)%nat -> q j = 0 -> P h i j = 0).
(** histograms: non-negative, none empty *)
Definition ub_data (n H : nat) (A : mat) : Prop :=
  (forall i h, (i < n)%nat -> (h < H)%nat -> 0 <= A i h) /\
  (forall h, (h < H)%nat -> exists i, (i < n)%nat /\ 0 < A i h).
Definition ub_simplex (H : nat) (w : vec) : Prop := nonneg_vec H w /\ rsum H w = 1.
(** the plans of the scalings u, v *)
Definition ub_plan (M : mat) (reg : R) (u v : mat) (h : nat) : mat := fun i j => u i h * exp (- M i j / reg) * v j h.
(** reg_m sum_h w_h KL( P_h 1 | a_h u_h^(-reg/reg_m) ) *)
Definition ub_gap (n H : nat) (A M : mat) (w : vec) (reg reg_m : R) (u v : mat) : R :=
  reg_m * rsum H (fun h => w h * rsum n (fun i => gkl (row_sum n (ub_plan M reg u v h) i) (A i h * Rpower (u i h) (- (reg / reg_m))))).

Section Theory.
Variables (n H : nat) (A M : mat) (w : vec) (reg rm : R).
Hypotheses (Hn : (0 < n)%nat) (Hreg : 0 < reg) (Hrm : 0 < rm) (HA : ub_data n H A) (Hw : ub_simplex H w).
Let K (i j : nat) : R := exp (- M i j / reg).
Let f := rm / (rm + reg).
Let rho := reg / rm.
Let KV (v : mat) (i h : nat) : R := rsum n (fun j => K i j * v j h).
Let KTU (u : mat) (j h : nat) : R := rsum n (fun i => K i j * u i h).
Definition us (v : mat) : mat := fun i h => rpow (A i h / rsum n (fun j => exp (- M i j / reg) * v j h)) (rm / (rm + reg)).
Definition qs (u : mat) : vec := fun j =>
  rpow (rsum H (fun h => rpow (rsum n (fun i => exp (- M i j / reg) * u i h)) (1 - rm / (rm + reg)) * w h)) (1 / (1 - rm / (rm + reg))).
Definition vs (u : mat) (q : vec) : mat := fun j h => rpow (q j / rsum n (fun i => exp (- M i j / reg) * u i h)) (rm / (rm + reg)).

Definition posm (v : mat) : Prop := forall j h, (j < n)%nat -> (h < H)%nat -> 0 < v j h.
(** what one iteration from v0 establishes *)
Record good (v0 u v : mat) (q : vec) : Prop := Good {
  g_v0 : posm v0;
  g_u0 : forall i h, (i < n)%nat -> (h < H)%nat -> A i h = 0 -> u i h = 0;
  g_u1 : forall i h, (i < n)%nat -> (h < H)%nat -> 0 < A i h -> 0 < u i h;
  g_u : forall i h, (i < n)%nat -> (h < H)%nat -> u i h * rsum n (fun j => exp (- M i j / reg) * v0 j h) = A i h * Rpower (u i h) (- (reg / rm));
  g_v1 : posm v;
  g_v : forall j h, (j < n)%nat -> (h < H)%nat -> v j h * rsum n (fun i => exp (- M i j / reg) * u i h) = q j * Rpower (v j h) (- (reg / rm));
  g_c : forall j, (j < n)%nat -> rsum H (fun h => w h * Rpower (v j h) (- (reg / rm))) = 1;
  g_q : forall j, (j < n)%nat -> 0 < q j
}.

Lemma f_pos : 0 < f < 1.
Proof.
  unfold f. split; [apply Rdiv_lt_0_compat; lra|]. apply (Rmult_lt_reg_r (rm + reg)); [lra|]. unfold Rdiv. rewrite Rmult_assoc, Rinv_l by lra. lra.
Qed.
Lemma f_rho : f * rho = 1 - f.
Proof. unfold f, rho. field. lra. Qed.
Lemma rho_pos : 0 < rho.
Proof. apply Rdiv_lt_0_compat; lra. Qed.
Lemma K_pos : forall i j, 0 < K i j.
Proof. intros; apply exp_pos. Qed.
Lemma KV_pos : forall v i h, posm v -> (h < H)%nat -> 0 < KV v i h.
Proof. intros v i h Hv Hh. apply rsum_pos; auto. intros j Hj. apply Rmult_lt_0_compat; [apply K_pos|apply Hv; auto]. Qed.
(** x^f is the root of y^(1+rho) = x *)
Lemma root_eq : forall a k, 0 <= a -> 0 < k -> rpow (a / k) f * k = a * Rpower (rpow (a / k) f) (- rho).
Proof.
  intros a k Ha Hk. destruct (Req_dec a 0) as [-> | Ha0].
  { replace (0 / k) with 0 by (field; lra). rewrite rpow_0. ring. }
  assert (Hx : 0 < a / k) by (apply Rdiv_lt_0_compat; lra).
  rewrite rpow_pos_eq by auto. rewrite Rpower_mult.
  replace (f * - rho) with (f + - (1)) by (pose proof f_rho; lra). rewrite Rpower_plus, Rpower_Ropp, Rpower_1 by auto.
  field. lra.
Qed.
Lemma some_weight : forall k, (forall h, (h < k)%nat -> 0 <= w h) -> 0 < rsum k w -> exists h, (h < k)%nat /\ 0 < w h.
Proof.
  induction k; cbn; intros H0 H1; [lra|]. destruct (Rlt_dec 0 (w k)); [exists k; split; auto; lia|].
  destruct IHk as (h & Hh & Hp); [intros; apply H0; lia| |exists h; split; auto; lia]. pose proof (H0 k ltac:(lia)). lra.
Qed.
Lemma rsum_wpos : forall F, (forall h, (h < H)%nat -> 0 < F h) -> 0 < rsum H (fun h => F h * w h).
Proof.
  intros F HF. destruct Hw as [W0 W1]. destruct (some_weight H W0 ltac:(lra)) as (h & Hh & Hp).
  apply Rlt_le_trans with (F h * w h); [apply Rmult_lt_0_compat; auto|].
  apply (rsum_le_one H (fun h => F h * w h)); auto. intros. apply Rmult_le_pos; [left; auto|apply W0; auto].
Qed.

Lemma step_good : forall v0, posm v0 -> good v0 (us v0) (vs (us v0) (qs (us v0))) (qs (us v0)).
Proof.
  intros v0 H0. destruct HA as [A0 A1]. pose proof f_pos as Hf.
  assert (U0 : forall i h, (i < n)%nat -> (h < H)%nat -> A i h = 0 -> us v0 i h = 0).
  { intros i h Hi Hh E. unfold us. rewrite E. replace (0 / _) with 0 by (unfold Rdiv; ring). apply rpow_0. }
  assert (U1 : forall i h, (i < n)%nat -> (h < H)%nat -> 0 < A i h -> 0 < us v0 i h).
  { intros i h Hi Hh Hp. apply rpow_pos. apply Rdiv_lt_0_compat; auto. apply KV_pos; auto. }
  assert (KT : forall j h, (h < H)%nat -> 0 < KTU (us v0) j h).
  { intros j h Hh. destruct (A1 h Hh) as (i & Hi & Hp).
    apply Rlt_le_trans with (K i j * us v0 i h); [apply Rmult_lt_0_compat; [apply K_pos|apply U1; auto]|].
    apply (rsum_le_one n (fun i => K i j * us v0 i h)); auto. intros. apply Rmult_le_pos; [left; apply K_pos|apply rpow_nonneg]. }
  assert (S0 : forall j, 0 < rsum H (fun h => rpow (KTU (us v0) j h) (1 - f) * w h)).
  { intros j. apply rsum_wpos. intros h Hh. apply rpow_pos, KT; auto. }
  assert (Q0 : forall j, 0 < qs (us v0) j) by (intros j; apply rpow_pos, S0).
  assert (Qf : forall j, rpow (qs (us v0) j) (1 - f) = rsum H (fun h => rpow (KTU (us v0) j h) (1 - f) * w h)).
  { intros j. unfold qs. apply rpow_root'; [left; apply S0|lra]. }
  constructor; auto.
  - intros i h Hi Hh. apply root_eq; [apply A0; auto|apply KV_pos; auto].
  - intros j h Hj Hh. apply rpow_pos. apply Rdiv_lt_0_compat; [apply Q0|apply KT; auto].
  - intros j h Hj Hh. apply root_eq; [left; apply Q0|apply KT; auto].
  - intros j Hj. assert (E : forall h, (h < H)%nat -> w h * Rpower (vs (us v0) (qs (us v0)) j h) (- (reg / rm)) = rpow (KTU (us v0) j h) (1 - f) * w h * / rpow (qs (us v0) j) (1 - f)).
    { intros h Hh. unfold vs. fold f. change (rsum n (fun i => exp (- M i j / reg) * us v0 i h)) with (KTU (us v0) j h). fold rho.
      assert (Hk := KT j h Hh). assert (Hq := Q0 j). rewrite (rpow_pos_eq (_ / _)) by (apply Rdiv_lt_0_compat; auto).
      rewrite Rpower_mult. replace (f * - rho) with (- (1 - f)) by (pose proof f_rho; lra).
      rewrite Rpower_Ropp. rewrite !rpow_pos_eq by auto.
      assert (D : Rpower (qs (us v0) j) (1 - f) = Rpower (qs (us v0) j / KTU (us v0) j h) (1 - f) * Rpower (KTU (us v0) j h) (1 - f)).
      { rewrite Rpower_mult_distr by (auto; apply Rdiv_lt_0_compat; auto). f_equal. field. lra. }
      rewrite D. field. split; apply Rgt_not_eq, exp_pos. }
    rewrite (rsum_ext H _ _ E). rewrite rsum_scal_r, <- Qf. apply Rinv_r. apply Rgt_not_eq, rpow_pos, Q0.
Qed.

(** ** consequences of [good] *)
Lemma uot_shift : forall (a b : vec) P, nonneg_mat n n P ->
  uot_obj n n a b M (fun _ _ => 1) reg (Some rm) (Some rm) P
  = reg * rsum n (fun i => rsum n (fun j => gkl (P i j) (K i j) + (1 - K i j)))
    + rm * rsum n (fun i => gkl (row_sum n P i) (a i)) + rm * rsum n (fun j => gkl (col_sum n P j) (b j)).
Proof.
  intros a b P HP. unfold uot_obj, penalty. f_equal. f_equal. unfold cost. rewrite <- !rsum_scal, <- rsum_plus.
  apply rsum_ext; intros i Hi. rewrite <- !rsum_scal, <- rsum_plus. apply rsum_ext; intros j Hj.
  pose proof (HP i j Hi Hj) as H0. unfold gkl. destruct (Req_dec (P i j) 0) as [-> | Hp]; [ring|].
  rewrite !ln_div by (try apply K_pos; lra). rewrite ln_1. unfold K at 1. rewrite ln_exp. field. lra.
Qed.

(** the dual value of the scalings *)
Definition ub_dual (u v : mat) : R :=
  rsum H (fun h => w h * (reg * rsum n (fun i => rsum n (fun j => 1 - u i h * exp (- M i j / reg) * v j h))
                          + rm * rsum n (fun i => A i h * (1 - Rpower (u i h) (- (reg / rm)))))).
Definition supp (u : mat) : Prop := forall i h, (i < n)%nat -> (h < H)%nat -> (A i h = 0 -> u i h = 0) /\ (0 < A i h -> 0 < u i h).
Definition feas (v : mat) : Prop := forall j, (j < n)%nat -> rsum H (fun h => w h * Rpower (v j h) (- (reg / rm))) = 1.

Lemma weak_one : forall h (u v : mat) (q' : vec) P, (h < H)%nat -> supp u -> posm v -> nonneg_vec n q' ->
  nonneg_mat n n P -> (forall i j, (i < n)%nat -> (j < n)%nat -> A i h = 0 -> P i j = 0) ->
  (forall i j, (i < n)%nat -> (j < n)%nat -> q' j = 0 -> P i j = 0) ->
  reg * rsum n (fun i => rsum n (fun j => 1 - u i h * K i j * v j h)) + rm * rsum n (fun i => A i h * (1 - Rpower (u i h) (- rho)))
  + rm * rsum n (fun j => q' j * (1 - Rpower (v j h) (- rho)))
  <= uot_obj n n (fun i => A i h) q' M (fun _ _ => 1) reg (Some rm) (Some rm) P.
Proof.
  intros h u v q' P Hh Hu Hv Hq HP P1 P2. rewrite uot_shift by auto.
  set (lu := fun i => ln (u i h)). set (lv := fun j => ln (v j h)).
  assert (T1 : reg * rsum n (fun i => rsum n (fun j => 1 - u i h * K i j * v j h)) + reg * rsum n (fun i => rsum n (fun j => (lu i + lv j) * P i j))
     <= reg * rsum n (fun i => rsum n (fun j => gkl (P i j) (K i j) + (1 - K i j)))).
  { rewrite <- Rmult_plus_distr_l. apply Rmult_le_compat_l; [lra|]. rewrite <- rsum_plus. apply rsum_le; intros i Hi.
    rewrite <- rsum_plus. apply rsum_le; intros j Hj. destruct (Hu i h Hi Hh) as [Hu0 Hu1].
    destruct HA as [A0 _]. destruct (Rle_lt_or_eq_dec 0 (A i h) (A0 i h Hi Hh)) as [Ap|Az].
    - pose proof (young 1 (P i j) (K i j) (- (lu i + lv j)) ltac:(lra) (HP i j Hi Hj) (K_pos i j)) as Y.
      replace (- - (lu i + lv j) / 1) with (lu i + lv j) in Y by field. rewrite exp_plus in Y. unfold lu, lv in *.
      rewrite !exp_ln in Y by auto. lra.
    - rewrite (P1 i j) by auto. rewrite Hu0 by auto. unfold gkl. lra. }
  assert (T2 : rm * rsum n (fun i => A i h * (1 - Rpower (u i h) (- rho))) - reg * rsum n (fun i => lu i * row_sum n P i)
     <= rm * rsum n (fun i => gkl (row_sum n P i) (A i h))).
  { rewrite <- !rsum_scal, <- rsum_minus. apply rsum_le; intros i Hi.
    destruct HA as [A0 _]. destruct (Rle_lt_or_eq_dec 0 (A i h) (A0 i h Hi Hh)) as [Ap|Az].
    - pose proof (young rm (row_sum n P i) (A i h) (reg * lu i) Hrm (row_sum_nonneg n n P HP i Hi) Ap) as Y.
      unfold Rpower. fold (lu i). replace (- rho * lu i) with (- (reg * lu i) / rm) by (unfold rho; field; lra). lra.
    - assert (E : row_sum n P i = 0) by (apply rsum_0; intros; apply P1; auto). rewrite E, <- Az. unfold gkl. lra. }
  assert (T3 : rm * rsum n (fun j => q' j * (1 - Rpower (v j h) (- rho))) - reg * rsum n (fun j => lv j * col_sum n P j)
     <= rm * rsum n (fun j => gkl (col_sum n P j) (q' j))).
  { rewrite <- !rsum_scal, <- rsum_minus. apply rsum_le; intros j Hj.
    destruct (Rle_lt_or_eq_dec 0 (q' j) (Hq j Hj)) as [Ap|Az].
    - pose proof (young rm (col_sum n P j) (q' j) (reg * lv j) Hrm (col_sum_nonneg n n P HP j Hj) Ap) as Y.
      unfold Rpower. fold (lv j). replace (- rho * lv j) with (- (reg * lv j) / rm) by (unfold rho; field; lra). lra.
    - assert (E : col_sum n P j = 0) by (apply rsum_0; intros; apply P2; auto). rewrite E, <- Az. unfold gkl. lra. }
  assert (E : rsum n (fun i => rsum n (fun j => (lu i + lv j) * P i j)) = rsum n (fun i => lu i * row_sum n P i) + rsum n (fun j => lv j * col_sum n P j)).
  { unfold row_sum, col_sum. rewrite (rsum_ext n (fun j => lv j * rsum n (fun i => P i j)) (fun j => rsum n (fun i => lv j * P i j))) by (intros; rewrite rsum_scal; auto).
    rewrite (rsum_swap n n (fun j i => lv j * P i j)). rewrite <- rsum_plus. apply rsum_ext; intros i Hi. rewrite <- rsum_scal, <- rsum_plus. apply rsum_ext; intros; ring. }
  rewrite E in T1. lra.
Qed.

Lemma weak : forall u v q' P, supp u -> posm v -> feas v -> ub_admissible n H A q' P ->
  ub_dual u v <= ub_obj n H A M w reg rm q' P.
Proof.
  intros u v q' P Hu Hv Hf [Hq HP]. destruct Hw as [W0 W1].
  assert (Z : rsum H (fun h => w h * (rm * rsum n (fun j => q' j * (1 - Rpower (v j h) (- rho))))) = 0).
  { rewrite (rsum_ext H _ (fun h => rsum n (fun j => rm * q' j * (w h - w h * Rpower (v j h) (- rho))))).
    2:{ intros h Hh. rewrite <- !rsum_scal. apply rsum_ext; intros; ring. }
    rewrite rsum_swap. apply rsum_0. intros j Hj. rewrite rsum_scal, rsum_minus.
    unfold feas in Hf. unfold rho. rewrite (Hf j Hj), W1. ring. }
  rewrite <- (Rplus_0_r (ub_dual u v)), <- Z. unfold ub_dual, ub_obj. rewrite <- rsum_plus. apply rsum_le. intros h Hh.
  rewrite <- Rmult_plus_distr_l. apply Rmult_le_compat_l; [apply W0; auto|]. destruct (HP h Hh) as (P0 & P1 & P2). apply weak_one; auto.
Qed.

Lemma good_supp : forall v0 u v q, good v0 u v q -> supp u.
Proof. intros v0 u v q G i h Hi Hh. split; [apply (g_u0 _ _ _ _ G)|apply (g_u1 _ _ _ _ G)]; auto. Qed.
Lemma u_nonneg : forall v0 u v q i h, good v0 u v q -> (i < n)%nat -> (h < H)%nat -> 0 <= u i h.
Proof.
  intros v0 u v q i h G Hi Hh. destruct HA as [A0 _]. destruct (Rle_lt_or_eq_dec 0 (A i h) (A0 i h Hi Hh)) as [Ap|Az].
  - left. eapply g_u1; eauto.
  - rewrite (g_u0 _ _ _ _ G) by auto. lra.
Qed.

(** the marginal identity *)
Lemma good_marginal : forall v0 u v q j, good v0 u v q -> (j < n)%nat ->
  rsum H (fun h => w h * col_sum n (ub_plan M reg u v h) j) = q j.
Proof.
  intros v0 u v q j G Hj. rewrite (rsum_ext H _ (fun h => q j * (w h * Rpower (v j h) (- (reg / rm))))).
  - rewrite rsum_scal, (g_c _ _ _ _ G) by auto. ring.
  - intros h Hh. transitivity (w h * (v j h * rsum n (fun i => exp (- M i j / reg) * u i h))).
    + f_equal. unfold col_sum, ub_plan. rewrite <- rsum_scal. apply rsum_ext; intros; ring.
    + rewrite (g_v _ _ _ _ G) by auto. ring.
Qed.

Lemma good_value : forall v0 u v q, good v0 u v q ->
  ub_obj n H A M w reg rm q (ub_plan M reg u v) = ub_dual u v + ub_gap n H A M w reg rm u v.
Proof.
  intros v0 u v q G. destruct HA as [A0 _]. destruct Hw as [W0 W1].
  set (P := ub_plan M reg u v).
  assert (HP : forall h, (h < H)%nat -> nonneg_mat n n (P h)).
  { intros h Hh i j Hi Hj. unfold P, ub_plan. apply Rmult_le_pos; [apply Rmult_le_pos; [eapply u_nonneg; eauto|left; apply exp_pos]|left; apply (g_v1 _ _ _ _ G); auto]. }
  assert (Z : rsum H (fun h => w h * (rm * rsum n (fun j => q j * (1 - Rpower (v j h) (- rho))))) = 0).
  { rewrite (rsum_ext H _ (fun h => rsum n (fun j => rm * q j * (w h - w h * Rpower (v j h) (- rho))))).
    2:{ intros h Hh. rewrite <- !rsum_scal. apply rsum_ext; intros; ring. }
    rewrite rsum_swap. apply rsum_0. intros j Hj. rewrite rsum_scal, rsum_minus. unfold rho. rewrite (g_c _ _ _ _ G j Hj), W1. ring. }
  rewrite <- (Rplus_0_r (ub_dual u v)), <- Z. unfold ub_gap. fold P. rewrite <- rsum_scal.
  unfold ub_dual, ub_obj. rewrite <- !rsum_plus. apply rsum_ext. intros h Hh.
  rewrite uot_shift by auto.
  set (lu := fun i => ln (u i h)). set (lv := fun j => ln (v j h)).
  assert (T1 : rsum n (fun i => rsum n (fun j => gkl (P h i j) (K i j) + (1 - K i j)))
     = rsum n (fun i => rsum n (fun j => 1 - u i h * exp (- M i j / reg) * v j h)) + rsum n (fun i => rsum n (fun j => (lu i + lv j) * P h i j))).
  { rewrite <- rsum_plus. apply rsum_ext; intros i Hi. rewrite <- rsum_plus. apply rsum_ext; intros j Hj.
    destruct (Rle_lt_or_eq_dec 0 (A i h) (A0 i h Hi Hh)) as [Ap|Az].
    - pose proof (g_u1 _ _ _ _ G i h Hi Hh Ap) as Up. pose proof (g_v1 _ _ _ _ G j h Hj Hh) as Vp.
      unfold P, ub_plan, gkl. fold (K i j). pose proof (K_pos i j).
      replace (u i h * K i j * v j h / K i j) with (u i h * v j h) by (field; lra). rewrite ln_mult by auto. fold (lu i) (lv j). ring.
    - assert (E : P h i j = 0) by (unfold P, ub_plan; rewrite (g_u0 _ _ _ _ G) by auto; ring).
      rewrite E, (g_u0 _ _ _ _ G i h) by auto. unfold gkl. ring. }
  assert (T2 : rm * rsum n (fun i => gkl (row_sum n (P h) i) (A i h))
     = rm * rsum n (fun i => A i h * (1 - Rpower (u i h) (- (reg / rm)))) - reg * rsum n (fun i => lu i * row_sum n (P h) i)
       + rm * rsum n (fun i => gkl (row_sum n (P h) i) (A i h * Rpower (u i h) (- (reg / rm))))).
  { rewrite <- !rsum_scal, <- rsum_minus, <- rsum_plus. apply rsum_ext; intros i Hi.
    destruct (Rle_lt_or_eq_dec 0 (A i h) (A0 i h Hi Hh)) as [Ap|Az].
    - assert (Rp : 0 < row_sum n (P h) i).
      { apply rsum_pos; auto. intros j Hj. unfold P, ub_plan. repeat apply Rmult_lt_0_compat; try apply exp_pos; [apply (g_u1 _ _ _ _ G); auto|apply (g_v1 _ _ _ _ G); auto]. }
      unfold gkl. assert (Ep : 0 < Rpower (u i h) (- (reg / rm))) by apply exp_pos.
      rewrite !ln_div by (try apply Rmult_lt_0_compat; auto). rewrite ln_mult by auto.
      replace (ln (Rpower (u i h) (- (reg / rm)))) with (- (reg / rm) * lu i) by (unfold Rpower, lu; rewrite ln_exp; auto).
      unfold lu. field. lra.
    - assert (E : row_sum n (P h) i = 0) by (apply rsum_0; intros j Hj; unfold P, ub_plan; rewrite (g_u0 _ _ _ _ G) by auto; ring).
      rewrite E, <- Az. unfold gkl. ring. }
  assert (T3 : rm * rsum n (fun j => gkl (col_sum n (P h) j) (q j))
     = rm * rsum n (fun j => q j * (1 - Rpower (v j h) (- rho))) - reg * rsum n (fun j => lv j * col_sum n (P h) j)).
  { rewrite <- !rsum_scal, <- rsum_minus. apply rsum_ext; intros j Hj.
    assert (E : col_sum n (P h) j = q j * Rpower (v j h) (- rho)).
    { unfold rho. rewrite <- (g_v _ _ _ _ G) by auto. unfold col_sum, P, ub_plan. rewrite <- rsum_scal. apply rsum_ext; intros; ring. }
    rewrite E. unfold gkl. pose proof (g_q _ _ _ _ G j Hj) as Qp.
    replace (q j * Rpower (v j h) (- rho) / q j) with (Rpower (v j h) (- rho)) by (field; lra).
    replace (ln (Rpower (v j h) (- rho))) with (- (reg / rm) * lv j) by (unfold Rpower, lv; rewrite ln_exp; auto).
    field. lra. }
  assert (E : rsum n (fun i => rsum n (fun j => (lu i + lv j) * P h i j)) = rsum n (fun i => lu i * row_sum n (P h) i) + rsum n (fun j => lv j * col_sum n (P h) j)).
  { unfold row_sum, col_sum. rewrite (rsum_ext n (fun j => lv j * rsum n (fun i => P h i j)) (fun j => rsum n (fun i => lv j * P h i j))) by (intros; rewrite rsum_scal; auto).
    rewrite (rsum_swap n n (fun j i => lv j * P h i j)). rewrite <- rsum_plus. apply rsum_ext; intros i Hi. rewrite <- rsum_scal, <- rsum_plus. apply rsum_ext; intros; ring. }
  rewrite T1, E, T2, T3. ring.
Qed.
End Theory.
