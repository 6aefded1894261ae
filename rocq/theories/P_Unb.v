(** C30-C32, C73-C77: unbalanced optimal transport (ot/unbalanced/_sinkhorn.py, _mm.py), exact reals.
    From Unb_proofs: [uot_obj] is <P,M> + reg KL(P|c) + reg_m1 KL(P1|a) + reg_m2 KL(P^T 1|b) with
    KL(x|y) = sum x ln(x/y) - x + y, a marginal of infinite penalty ([None]) being a constraint
    instead; [uot_plan] are the non-negative plans meeting these constraints. *)
From Coq Require Import List Arith Bool Reals Lra Lia.
From Verif Require Import Num Sums Spec Duals_proofs Entropy Sinkhorn_model Sinkhorn_proofs Sinkhorn_more Unb_model Unb_proofs Unb_conv Unb_opt Unb_mm Unb_stab Unb_ex.
Import ListNotations.
Local Open Scope R_scope.

(** P is the unique minimiser *)
Definition uot_best (n m : nat) (a b : vec) (M c : mat) (reg : R) (rm1 rm2 : option R) (P : mat) : Prop :=
  uot_plan n m a b rm1 rm2 P /\ forall Q, uot_plan n m a b rm1 rm2 Q ->
  uot_obj n m a b M c reg rm1 rm2 P <= uot_obj n m a b M c reg rm1 rm2 Q /\
  (uot_obj n m a b M c reg rm1 rm2 Q <= uot_obj n m a b M c reg rm1 rm2 P -> forall i j, (i < n)%nat -> (j < m)%nat -> Q i j = P i j).
Definition pos_mat (n m : nat) (P : mat) : Prop := forall i j, (i < n)%nat -> (j < m)%nat -> 0 < P i j.
Definition warm_ok (n m : nat) (w : option (vec * vec)) : Prop := match w with None => True | Some (u, v) => pos_vec n u /\ pos_vec m v end.
(** exp(-M/reg) * c *)
Definition ukernel (M c : mat) (reg : R) : mat := fun i j => exp (- M i j / reg) * c i j.
Definition uplan (M c : mat) (reg : R) (u v : vec) : mat := fun i j => u i * ukernel M c reg i j * v j.

Lemma uplan_splan : forall M c reg u v i j, 0 < reg -> uplan M c reg u v i j = splan (un_K (N:=RNum) exp reg M c) u v i j.
Proof. intros. unfold uplan, splan, ukernel. rewrite un_K_R by auto. reflexivity. Qed.
Lemma best_ext : forall n m a b M c reg rm1 rm2 P P', (forall i j, P i j = P' i j) -> uot_best n m a b M c reg rm1 rm2 P -> uot_best n m a b M c reg rm1 rm2 P'.
Proof.
  intros n m a b M c reg rm1 rm2 P P' E H.
  assert (F : P = P') by (apply FunctionalExtensionality.functional_extensionality; intros i; apply FunctionalExtensionality.functional_extensionality; intros j; auto).
  subst; auto.
Qed.

(** C30: scalings that one more iteration of sinkhorn_knopp_unbalanced leaves unchanged give the
    unique minimiser of the unbalanced objective. *)
Theorem C30_fixed_point_optimal : forall n m a b M c reg rm1 rm2 u v,
  (0 < n)%nat -> (0 < m)%nat -> pos_vec n a -> pos_vec m b -> 0 < reg -> pos_rm rm1 -> pos_rm rm2 -> pos_mat n m c ->
  pos_vec n u -> pos_vec m v ->
  let K := un_K (N:=RNum) exp reg M c in
  (forall i, (i < n)%nat -> un_u (N:=RNum) m a Rpower K (fi (N:=RNum) reg rm1) v i = u i) ->
  (forall j, (j < m)%nat -> un_v (N:=RNum) n b Rpower K (fi (N:=RNum) reg rm2) u j = v j) ->
  uot_best n m a b M c reg rm1 rm2 (uplan M c reg u v).
Proof.
  intros n m a b M c reg rm1 rm2 u v Hn Hm Ha Hb Hr H1 H2 Hc Hu Hv K EU EV.
  apply best_ext with (splan K u v); [intros; symmetry; apply uplan_splan; auto|]. split.
  - apply fix_plan; auto; intros; symmetry; auto.
  - intros Q HQ. apply fix_optimal; auto; intros; symmetry; auto.
Qed.
Print Assumptions C30_fixed_point_optimal.

(** C30, C74: with at least one finite penalty the minimiser exists and the iterates converge to it:
    after k >= 1 iterations every entry of the returned plan is within a factor
    exp(C rho^k), rho = fi_1 fi_2 < 1, of the minimiser, whatever the warm start and stopThr. *)
Theorem C30_converges : forall n m a b M c reg rm1 rm2 warm,
  (0 < n)%nat -> (0 < m)%nat -> pos_vec n a -> pos_vec m b -> 0 < reg -> pos_rm rm1 -> pos_rm rm2 -> (rm1 <> None \/ rm2 <> None) -> pos_mat n m c ->
  warm_ok n m warm ->
  let rho := fi (N:=RNum) reg rm1 * fi (N:=RNum) reg rm2 in
  0 < rho < 1 /\ exists P C, uot_best n m a b M c reg rm1 rm2 P /\ pos_mat n m P /\ 0 <= C /\
  forall thr it, (0 < it)%nat ->
  let o := sinkhorn_knopp_unbalanced (N:=RNum) n m a b exp Rpower no_nan reg rm1 rm2 M c thr it warm in
  let k := length (sk_err o) in
  (1 <= k <= it)%nat /\ (forall q, sk_exit o <> NumErr q) /\ (sk_exit o = MaxIter -> k = it) /\
  forall i j, (i < n)%nat -> (j < m)%nat -> Rabs (ln (uplan M c reg (sk_u o) (sk_v o) i j) - ln (P i j)) <= C * rho ^ k.
Proof.
  intros n m a b M c reg rm1 rm2 warm Hn Hm Ha Hb Hr H1 H2 Hfin Hc Hw rho.
  assert (R1 := fi_range reg Hr rm1 H1). assert (R2 := fi_range reg Hr rm2 H2).
  set (f1 := fi (N:=RNum) reg rm1) in *. set (f2 := fi (N:=RNum) reg rm2) in *.
  assert (Rr : 0 < rho < 1).
  { unfold rho. split; [apply Rmult_lt_0_compat; lra|]. destruct Hfin as [Hf|Hf].
    - destruct rm1 as [r|]; [|contradiction]. assert (L := fi_lt1 reg Hr r H1). fold f1 in L. nra.
    - destruct rm2 as [r|]; [|contradiction]. assert (L := fi_lt1 reg Hr r H2). fold f2 in L. nra. }
  split; [auto|].
  set (K := un_K (N:=RNum) exp reg M c).
  assert (HK := K_pos n m M c reg Hr Hc). fold K in HK.
  set (uv := match warm with None => (fun _ => 1, fun _ => 1) | Some w => w end : vec * vec).
  assert (Hu0 : pos_vec n (fst uv)) by (unfold uv; destruct warm as [[? ?]|]; cbn in *; [tauto|intros ? ?; lra]).
  assert (Hv0 : pos_vec m (snd uv)) by (unfold uv; destruct warm as [[? ?]|]; cbn in *; [tauto|intros ? ?; lra]).
  assert (F12 : f1 * f2 < 1) by apply Rr.
  destruct (fix_exists n m a b K f1 f2 Hn Hm Ha Hb HK (ltac:(lra)) (ltac:(lra)) F12 (snd uv) Hv0) as (vs & Hvs & Fix & Near).
  set (D := first_step n m a b K f1 f2 (snd uv)) in *. assert (HD : 0 <= D) by apply lmax_nonneg.
  set (us := un_u (N:=RNum) m a Rpower K f1 vs).
  assert (Hus : pos_vec n us) by (intros i Hi; apply U_pos).
  exists (uplan M c reg us vs), (D / (1 - rho) * (1 + f1 / rho)).
  split; [apply C30_fixed_point_optimal; auto|]. split.
  { intros i j Hi Hj. rewrite uplan_splan by auto. apply (splan_pos n m M c reg Hr Hc); auto. }
  assert (HE : 0 <= D / (1 - rho)) by (apply Rmult_le_pos; auto; left; apply Rinv_0_lt_compat; lra).
  split. { apply Rmult_le_pos; auto. assert (0 < f1 / rho) by (apply Rdiv_lt_0_compat; lra). lra. }
  intros thr it Hit o k.
  assert (Eo : o = un_loop (N:=RNum) n m a b Rpower no_nan K f1 f2 thr it 0 (fst uv) (snd uv) []).
  { unfold o, sinkhorn_knopp_unbalanced, uv. destruct warm as [[? ?]|]; reflexivity. }
  destruct (un_loop_spec n m a b K f1 f2 Hn Hm HK thr it 0 (fst uv) (snd uv) [] Hv0) as (q & Hq & E1 & E2 & E3 & E4 & _).
  rewrite <- Eo in E1, E2, E3, E4. cbn [length Nat.add] in E3. change (length (sk_err o)) with k in E3. subst q.
  assert (K1 : (1 <= k)%nat) by (destruct E4 as [[_ E4]|(k' & E4 & _)]; lia).
  split; [lia|]. split. { intros q X. destruct E4 as [[E4 _]|(k' & _ & E4 & _)]; rewrite X in E4; discriminate. }
  split. { intros X. destruct E4 as [[_ E4]|(k' & _ & E4 & _)]; [auto|rewrite X in E4; discriminate]. }
  intros i j Hi Hj. rewrite E1, E2. rewrite !uplan_splan by auto. unfold splan. fold K.
  assert (Pu : 0 < uit n m a b K f1 f2 k (fst uv) (snd uv) i) by (apply (uit_pos n); auto).
  assert (Pv : 0 < vit n m a b K f1 f2 k (snd uv) j) by (apply (vit_pos n m); auto).
  assert (Pk := HK i j Hi Hj). assert (Pus := Hus i Hi). assert (Pvs := Hvs j Hj).
  rewrite !ln_mult by (auto; apply Rmult_lt_0_compat; auto).
  assert (NV := Near k j Hj). destruct k as [|k']; [lia|].
  assert (NU := uit_near n m a b K f1 f2 Hm Ha HK ltac:(lra) (snd uv) vs (fst uv) k' Hv0 Hvs _ (Near k') i Hi).
  fold us in NU. fold rho in NU, NV.
  match goal with |- Rabs ?z <= _ => replace z with ((ln (uit n m a b K f1 f2 (S k') (fst uv) (snd uv) i) - ln (us i)) + (ln (vit n m a b K f1 f2 (S k') (snd uv) j) - ln (vs j))) by ring end.
  eapply Rle_trans; [apply Rabs_triang|]. eapply Rle_trans; [apply Rplus_le_compat; [apply NU|apply NV]|].
  right. simpl. field. lra.
Qed.
Print Assumptions C30_converges.

(** ... and the value of the objective is close to the minimum: any iterate is suboptimal by at most
    (reg + reg_m1) times the movement of ln u in the next iteration, weighted by the row sums. *)
Theorem C30_gap : forall n m a b M c reg r1 rm2 u v Q,
  (0 < n)%nat -> (0 < m)%nat -> pos_vec n a -> pos_vec m b -> 0 < reg -> 0 < r1 -> pos_rm rm2 -> pos_mat n m c ->
  let K := un_K (N:=RNum) exp reg M c in
  pos_vec n u -> (forall j, (j < m)%nat -> v j = un_v (N:=RNum) n b Rpower K (fi (N:=RNum) reg rm2) u j) -> uot_plan n m a b (Some r1) rm2 Q ->
  let u' := un_u (N:=RNum) m a Rpower K (fi (N:=RNum) reg (Some r1)) v in
  let J := uot_obj n m a b M c reg (Some r1) rm2 in
  J (uplan M c reg u v) <= J Q + (reg + r1) * rsum n (fun i => (ln (u i) - ln (u' i)) * (row_sum m (uplan M c reg u v) i - row_sum m Q i)).
Proof.
  intros n m a b M c reg r1 rm2 u v Q Hn Hm Ha Hb Hr H1 H2 Hc K Hu EV HQ u' J.
  assert (Hv : pos_vec m v) by (intros j Hj; rewrite EV by auto; apply V_pos).
  assert (E : uplan M c reg u v = splan K u v).
  { apply FunctionalExtensionality.functional_extensionality; intros i; apply FunctionalExtensionality.functional_extensionality; intros j; apply uplan_splan; auto. }
  rewrite E. apply (iter_gap n m a b M c reg (Some r1) rm2 Hn Hm Ha Hb Hr H1 H2 Hc r1 u v Q eq_refl Hu Hv EV HQ).
Qed.
Print Assumptions C30_gap.

Lemma pow_reaches : forall rho D thr, 0 <= rho < 1 -> 0 <= D -> 0 < thr -> exists k0, forall k, (k0 <= k)%nat -> rho ^ k * D < thr.
Proof.
  intros rho D thr Hr HD Ht. destruct (pow_lt_1_zero rho (ltac:(rewrite Rabs_pos_eq; lra)) (thr / (D + 1))) as [k0 H]; [apply Rdiv_lt_0_compat; lra|].
  exists k0. intros k Hk. specialize (H k Hk). rewrite Rabs_pos_eq in H by (apply pow_le; lra). assert (0 <= rho ^ k) by (apply pow_le; lra).
  apply Rle_lt_trans with (rho ^ k * (D + 1)); [nra|]. apply Rlt_le_trans with (thr / (D + 1) * (D + 1)); [apply Rmult_lt_compat_r; lra|right; field; lra].
Qed.
(** C74: for every stopThr > 0 there is an iteration budget from which on the loop always ends by its
    stopping test. *)
Theorem C74_terminates : forall n m a b M c reg rm1 rm2 warm thr,
  (0 < n)%nat -> (0 < m)%nat -> pos_vec n a -> pos_vec m b -> 0 < reg -> pos_rm rm1 -> pos_rm rm2 -> (rm1 <> None \/ rm2 <> None) -> pos_mat n m c ->
  warm_ok n m warm -> 0 < thr ->
  exists it0, forall it, (it0 <= it)%nat ->
  exists k, sk_exit (sinkhorn_knopp_unbalanced (N:=RNum) n m a b exp Rpower no_nan reg rm1 rm2 M c thr it warm) = Converged k /\ (k < it0)%nat.
Proof.
  intros n m a b M c reg rm1 rm2 warm thr Hn Hm Ha Hb Hr H1 H2 Hfin Hc Hw Ht.
  assert (R1 := fi_range reg Hr rm1 H1). assert (R2 := fi_range reg Hr rm2 H2).
  set (f1 := fi (N:=RNum) reg rm1) in *. set (f2 := fi (N:=RNum) reg rm2) in *.
  assert (Rr : f1 * f2 < 1).
  { destruct Hfin as [Hf|Hf].
    - destruct rm1 as [r|]; [|contradiction]. assert (L := fi_lt1 reg Hr r H1). fold f1 in L. nra.
    - destruct rm2 as [r|]; [|contradiction]. assert (L := fi_lt1 reg Hr r H2). fold f2 in L. nra. }
  assert (Rp : 0 <= f1 * f2) by (apply Rmult_le_pos; lra).
  set (K := un_K (N:=RNum) exp reg M c).
  assert (HK := K_pos n m M c reg Hr Hc). fold K in HK.
  set (uv := match warm with None => (fun _ => 1, fun _ => 1) | Some w => w end : vec * vec).
  assert (Hu0 : pos_vec n (fst uv)) by (unfold uv; destruct warm as [[? ?]|]; cbn in *; [tauto|intros ? ?; lra]).
  assert (Hv0 : pos_vec m (snd uv)) by (unfold uv; destruct warm as [[? ?]|]; cbn in *; [tauto|intros ? ?; lra]).
  destruct (pow_reaches (f1 * f2) (first_step n m a b K f1 f2 (snd uv)) thr (conj Rp Rr) (lmax_nonneg _ _) Ht) as [k0 Hk0].
  assert (Eo : forall it, sinkhorn_knopp_unbalanced (N:=RNum) n m a b exp Rpower no_nan reg rm1 rm2 M c thr it warm =
    un_loop (N:=RNum) n m a b Rpower no_nan K f1 f2 thr it 0 (fst uv) (snd uv) []) by (intros; unfold sinkhorn_knopp_unbalanced, uv; destruct warm as [[? ?]|]; reflexivity).
  exists (S (S k0)). intros it Hit.
  destruct (un_converges n m a b K f1 f2 Hn Hm Ha Hb HK ltac:(lra) ltac:(lra) Rr thr it (fst uv) (snd uv) [] Hu0 Hv0 ltac:(lra) ltac:(lia)) as [k Ek].
  { apply Hk0. lia. }
  exists k. rewrite Eo. split; [exact Ek|].
  destruct (un_loop_spec n m a b K f1 f2 Hn Hm HK thr it 0 (fst uv) (snd uv) [] Hv0) as (q & Hq & _ & _ & _ & E4 & E5).
  destruct E4 as [[E4 _]|(k' & E4 & E4' & _)]; [rewrite Ek in E4; discriminate|]. rewrite Ek in E4'. injection E4' as E4'. cbn in E4'. subst k' q.
  apply Nat.lt_nge. intros L. destruct (Nat.eq_dec k 0) as [Z|Z]; [lia|].
  assert (LL : (S (S k0) < S k)%nat) by lia. assert (X := E5 (S k0) (or_introl LL)). clear Z.
  assert (Y := err_bound n m a b K f1 f2 Hn Hm Ha Hb HK ltac:(lra) ltac:(lra) Rr k0 (fst uv) (snd uv) Hu0 Hv0 ltac:(lra)).
  specialize (Hk0 k0 (le_n _)). apply (Rlt_irrefl thr). eapply Rle_lt_trans; [exact X|]. eapply Rle_lt_trans; [exact Y|exact Hk0].
Qed.
Print Assumptions C74_terminates.

Example C30_hypotheses_met : pos_rm (Some 1) /\ (Some 1 <> None \/ @None R <> None) /\ pos_mat 2 2 (fun _ _ => 1).
Proof. split; [cbn; lra|]. split; [left; discriminate|intros i j _ _; lra]. Qed.

(** C73: the total_cost that log=True records (and sinkhorn_unbalanced2(returnCost="total") returns)
    is not the objective: it misses the mass terms of every KL ... *)
Definition psize (rm : option R) (k : nat) (r a : vec) : R := match rm with Some rho => rho * (rsum k r - rsum k a) | None => 0 end.
Theorem C73_total_cost : forall n m a b M c reg rm1 rm2 P,
  log_total_cost (N:=RNum) n m a b ln reg rm1 rm2 M c P =
  uot_obj n m a b M c reg rm1 rm2 P + reg * (total n m P - total n m c) + psize rm1 n (row_sum m P) a + psize rm2 m (col_sum n P) b.
Proof.
  intros n m a b M c reg rm1 rm2 P. unfold log_total_cost, uot_obj.
  assert (E1 : nsum (N:=RNum) n (fun i => nsum (N:=RNum) m (fun j => nmul (n:=RNum) (P i j) (M i j))) = cost n m M P).
  { rewrite nsum_R. unfold cost. apply rsum_ext; intros. rewrite nsum_R. apply rsum_ext; intros. cbn. ring. }
  assert (E2 : kl_nomass2 (N:=RNum) n m ln P c = rsum n (fun i => rsum m (fun j => gkl (P i j) (c i j))) + (total n m P - total n m c)).
  { unfold kl_nomass2. rewrite nsum_R. unfold total. rewrite <- rsum_minus, <- rsum_plus. apply rsum_ext; intros. unfold row_sum. rewrite nsum_R, <- rsum_minus, <- rsum_plus.
    apply rsum_ext; intros. unfold gkl. cbn. ring. }
  assert (E3 : forall k p q, kl_nomass (N:=RNum) ln k p q = rsum k (fun i => gkl (p i) (q i)) + (rsum k p - rsum k q)).
  { intros. unfold kl_nomass. rewrite nsum_R, <- rsum_minus, <- rsum_plus. apply rsum_ext; intros. unfold gkl. cbn. ring. }
  rewrite E1, E2.
  assert (ER : forall r, r * kl_nomass (N:=RNum) ln n (fun i => nsum (N:=RNum) m (fun j => P i j)) a = r * rsum n (fun i => gkl (row_sum m P i) (a i)) + r * (rsum n (row_sum m P) - rsum n a)).
  { intros. rewrite E3. rewrite <- Rmult_plus_distr_l. f_equal. f_equal; [|f_equal]; apply rsum_ext; intros; rewrite nsum_R; reflexivity. }
  assert (EC : forall r, r * kl_nomass (N:=RNum) ln m (fun j => nsum (N:=RNum) n (fun i => P i j)) b = r * rsum m (fun i => gkl (col_sum n P i) (b i)) + r * (rsum m (col_sum n P) - rsum m b)).
  { intros. rewrite E3. rewrite <- Rmult_plus_distr_l. f_equal. f_equal; [|f_equal]; apply rsum_ext; intros; rewrite nsum_R; reflexivity. }
  unfold penalty, psize. cbn [nadd nmul RNum]. destruct rm1 as [r1|], rm2 as [r2|]; rewrite ?ER, ?EC; match goal with |- @eq _ ?x ?y => change (@eq R x y) end; ring.
Qed.
Print Assumptions C73_total_cost.
(** ... so it is not minimised by the plan, and another plan can have a smaller total_cost: one
    source and one target of mass 1, M = 3, reg = reg_m = 1. *)
Theorem C73_refuted : exists P Q,
  let a := fun _ : nat => 1 in let M := fun _ _ : nat => 3 in let c := fun _ _ : nat => 1 in
  uot_best 1 1 a a M c 1 (Some 1) (Some 1) P /\ uot_plan 1 1 a a (Some 1) (Some 1) Q /\
  log_total_cost (N:=RNum) 1 1 a a ln 1 (Some 1) (Some 1) M c Q < log_total_cost (N:=RNum) 1 1 a a ln 1 (Some 1) (Some 1) M c P /\
  log_total_cost (N:=RNum) 1 1 a a ln 1 (Some 1) (Some 1) M c P < uot_obj 1 1 a a M c 1 (Some 1) (Some 1) P.
Proof.
  exists (uplan (fun _ _ => 3) (fun _ _ => 1) 1 (fun _ => exp 1) (fun _ => exp 1)), (fun _ _ => exp (-2)). cbn zeta.
  set (P := uplan (fun _ _ => 3) (fun _ _ => 1) 1 (fun _ => exp 1) (fun _ => exp 1)).
  assert (EP : forall i j, P i j = exp (-1)). { intros. unfold P, uplan, ukernel. rewrite Rmult_1_r, <- !exp_plus. f_equal. field. }
  split; [|split; [|]].
  - assert (E : forall (x : R), 0 + exp (- 3 / 1) * 1 * x = exp (-3) * x) by (intros; rewrite Rplus_0_l, Rmult_1_r; f_equal; f_equal; field).
    apply C30_fixed_point_optimal; auto; try (intros ? ?; lra); try (intros ? ? ? ?; lra); try (cbn; lra).
    + intros ? ?; apply exp_pos. + intros ? ?; apply exp_pos.
    + intros i Hi. rewrite U_R. unfold rkv. cbn [rsum]. rewrite un_K_R by lra. rewrite E, <- exp_plus. unfold Rpower. apply ln_inv; try apply exp_pos. rewrite !ln_exp.
      unfold Rdiv. rewrite Rmult_1_l, <- exp_Ropp, ln_exp. cbn. field.
    + intros i Hi. rewrite V_R. unfold rktu. cbn [rsum]. rewrite un_K_R by lra. rewrite E, <- exp_plus. unfold Rpower. apply ln_inv; try apply exp_pos. rewrite !ln_exp.
      unfold Rdiv. rewrite Rmult_1_l, <- exp_Ropp, ln_exp. cbn. field.
  - split; [intros i j _ _; left; apply exp_pos|]. split; exact I.
  - assert (L : forall x, log_total_cost (N:=RNum) 1 1 (fun _ => 1) (fun _ => 1) ln 1 (Some 1) (Some 1) (fun _ _ => 3) (fun _ _ => 1) (fun _ _ => exp x) = exp x * (3 + 3 * x)).
    { intros. unfold log_total_cost, kl_nomass, kl_nomass2. cbn. rewrite !Rplus_0_l. replace (exp x / 1) with (exp x) by field. rewrite ln_exp. ring. }
    assert (FE : P = fun _ _ => exp (-1)).
    { apply FunctionalExtensionality.functional_extensionality; intros i; apply FunctionalExtensionality.functional_extensionality; intros j; apply EP. }
    rewrite FE, !L.
    assert (O : uot_obj 1 1 (fun _ => 1) (fun _ => 1) (fun _ _ => 3) (fun _ _ => 1) 1 (Some 1) (Some 1) (fun _ _ => exp (-1)) = 3 - 3 * exp (-1)).
    { unfold uot_obj, penalty, gkl, cost, row_sum, col_sum. cbn. rewrite !Rplus_0_l. replace (exp (-1) / 1) with (exp (-1)) by field. rewrite ln_exp. ring. }
    rewrite O.
    assert (B1 := exp_ineq1 1 ltac:(lra)). assert (Pm := exp_pos (-1)). assert (Em : exp (-1) * exp 1 = 1) by (rewrite <- exp_plus; replace (-1 + 1) with 0 by ring; apply exp_0).
    assert (P2 := exp_pos (-2)). repeat split; nra.
Qed.
Print Assumptions C73_refuted.

(** C31: mm_unbalanced never increases its objective (the 1e-16 guard taken as 0).  div = "kl",
    including reg = 0, whatever the stopping test; each step decreases it by at least
    (reg + reg_m1 + reg_m2) KL(G | G'). *)
Notation mm_kl_run n m a b M c reg r1 r2 norm thr it G0 :=
  (mm_unbalanced (N:=RNum) n m a b exp Rpower M c reg r1 r2 0 thr norm KL it G0).
Notation mm_l2_run n m a b M c reg r1 r2 norm thr it G0 :=
  (mm_unbalanced (N:=RNum) n m a b exp Rpower M c reg r1 r2 0 thr norm L2 it G0).
Definition start (a b : vec) (G0 : option mat) : mat := match G0 with Some G => G | None => fun i j => a i * b j end.
Definition pos_start (n m : nat) (G0 : option mat) : Prop := match G0 with Some G => pos_mat n m G | None => True end.
Definition nonneg_start (n m : nat) (G0 : option mat) : Prop := match G0 with Some G => nonneg_mat n m G | None => True end.
Theorem C31_kl_decreases : forall n m a b M c reg r1 r2 norm thr it G0,
  (0 < n)%nat -> (0 < m)%nat -> pos_vec n a -> pos_vec m b -> 0 <= reg -> 0 <= r1 -> 0 <= r2 -> 0 < reg + r1 + r2 ->
  (0 < reg -> pos_mat n m c) -> pos_start n m G0 ->
  let J := uot_obj n m a b M c reg (Some r1) (Some r2) in
  let step := mm_step (N:=RNum) n m a b exp Rpower M c reg r1 r2 0 KL in
  (forall G, pos_mat n m G -> pos_mat n m (step G) /\
     (reg + r1 + r2) * rsum n (fun i => rsum m (fun j => G i j * ln (G i j / step G i j) - G i j + step G i j)) <= J G - J (step G)) /\
  let o := fst (mm_kl_run n m a b M c reg r1 r2 norm thr it G0) in
  pos_mat n m o /\ J o <= J (start a b G0).
Proof.
  intros n m a b M c reg r1 r2 norm thr it G0 Hn Hm Ha Hb Hreg H1 H2 HS Hc HG J step.
  assert (D : forall G, pos_mat n m G -> pos_mat n m (step G) /\
     (reg + r1 + r2) * rsum n (fun i => rsum m (fun j => gkl (G i j) (step G i j))) <= J G - J (step G)).
  { intros G HG'. split; [intros i j _ _; apply mm_kl_pos|]. apply (mm_kl_decrease n m a b M c reg r1 r2 Hn Hm Ha Hb Hreg H1 H2 HS Hc G HG'). }
  split; [exact D|].
  assert (Q : forall it G, pos_mat n m G -> let o := fst (mm_loop (N:=RNum) n m a b exp Rpower M c reg r1 r2 0 thr norm KL it G) in pos_mat n m o /\ J o <= J G).
  { induction it0; intros G HG'; cbn [mm_loop]; [cbn; split; auto; lra|]. destruct (D G HG') as [D1 D2].
    assert (D3 : J (step G) <= J G).
    { assert (0 <= rsum n (fun i => rsum m (fun j => gkl (G i j) (step G i j)))); [|assert (X := Rmult_le_pos _ _ (Rlt_le _ _ HS) H); lra].
      apply rsum_nonneg; intros i Hi; apply rsum_nonneg; intros j Hj. apply gkl_nonneg; [left; apply HG'; auto|apply D1; auto]. }
    cbn zeta. destruct (nltb _ _); cbn [fst]; [split; auto|]. destruct (IHit0 _ D1) as [A B]. split; [auto|]. eapply Rle_trans; [apply B|exact D3]. }
  apply Q. destruct G0 as [G|]; [exact HG|]. intros i j Hi Hj. apply Rmult_lt_0_compat; auto.
Qed.
Print Assumptions C31_kl_decreases.
Example C31_hypotheses_met : pos_vec 2 (fun i => INR (S i)) /\ pos_vec 3 (fun _ => 2) /\ 0 <= 0 /\ 0 < 0 + 1 + 2 /\ (0 < 0 -> pos_mat 2 3 (fun _ _ => 0)) /\ pos_start 2 3 None.
Proof. repeat split; try (intros ? ?; try apply lt_0_INR; try lia; lra); try lra; intros H; lra. Qed.
(** div = "l2", objective <G,M> + reg/2 |G - c|^2 + reg_m1/2 |G1 - a|^2 + reg_m2/2 |G^T 1 - b|^2 *)
Definition l2_obj (n m : nat) (a b : vec) (M c : mat) (reg r1 r2 : R) (G : mat) : R :=
  cost n m M G + reg * (/ 2 * rsum n (fun i => rsum m (fun j => (G i j - c i j) * (G i j - c i j))))
  + r1 * (/ 2 * rsum n (fun i => (row_sum m G i - a i) * (row_sum m G i - a i)))
  + r2 * (/ 2 * rsum m (fun j => (col_sum n G j - b j) * (col_sum n G j - b j))).
Theorem C31_l2_decreases : forall n m a b M c reg r1 r2 norm thr it G0,
  nonneg_vec n a -> nonneg_vec m b -> 0 <= r1 -> 0 <= r2 -> 0 < reg + r1 + r2 -> nonneg_start n m G0 ->
  let J := l2_obj n m a b M c reg r1 r2 in
  let step := mm_step (N:=RNum) n m a b exp Rpower M c reg r1 r2 0 L2 in
  (forall G, nonneg_mat n m G -> nonneg_mat n m (step G) /\
     (reg + r1 + r2) / 2 * rsum n (fun i => rsum m (fun j => (step G i j - G i j) * (step G i j - G i j))) <= J G - J (step G)) /\
  let o := fst (mm_l2_run n m a b M c reg r1 r2 norm thr it G0) in
  nonneg_mat n m o /\ J o <= J (start a b G0).
Proof.
  intros n m a b M c reg r1 r2 norm thr it G0 Ha Hb H1 H2 HS HG J step.
  assert (D : forall G, nonneg_mat n m G -> nonneg_mat n m (step G) /\
     (reg + r1 + r2) / 2 * rsum n (fun i => rsum m (fun j => (step G i j - G i j) * (step G i j - G i j))) <= J G - J (step G)).
  { intros G HG'. split; [apply mm_l2_nonneg; auto|]. apply (mm_l2_decrease n m a b M c reg r1 r2 H1 H2 HS G HG'). }
  split; [exact D|].
  assert (Q : forall it G, nonneg_mat n m G -> let o := fst (mm_loop (N:=RNum) n m a b exp Rpower M c reg r1 r2 0 thr norm L2 it G) in nonneg_mat n m o /\ J o <= J G).
  { induction it0; intros G HG'; cbn [mm_loop]; [cbn; split; auto; lra|]. destruct (D G HG') as [D1 D2].
    assert (D3 : J (step G) <= J G).
    { assert (0 <= rsum n (fun i => rsum m (fun j => (step G i j - G i j) * (step G i j - G i j)))) by (apply rsum_nonneg; intros; apply rsum_nonneg; intros; apply Rle_0_sqr).
      assert (X := Rmult_le_pos ((reg + r1 + r2) / 2) _ ltac:(lra) H). lra. }
    cbn zeta. destruct (nltb _ _); cbn [fst]; [split; auto|]. destruct (IHit0 _ D1) as [A B]. split; [auto|]. eapply Rle_trans; [apply B|exact D3]. }
  apply Q. destruct G0 as [G|]; [exact HG|]. intros i j Hi Hj. apply Rmult_le_pos; auto.
Qed.
Print Assumptions C31_l2_decreases.

(** C75: with M >= 0 the stopping test |G - G'| < stopThr (Frobenius norm) is met after a number of
    iterations bounded explicitly. *)
Definition fnorm (n m : nat) (G : mat) : R := sqrt (rsum n (fun i => rsum m (fun j => G i j * G i j))).
Lemma mm_is_gloop : forall n m a b M c reg r1 r2 thr d it G,
  mm_loop (N:=RNum) n m a b exp Rpower M c reg r1 r2 0 thr fnorm d it G = gloop n m (mm_step (N:=RNum) n m a b exp Rpower M c reg r1 r2 0 d) thr it G.
Proof.
  intros n m a b M c reg r1 r2 thr d it. induction it; intros G; [reflexivity|]. cbn [mm_loop gloop]. cbn zeta.
  change (@nltb RNum) with Rltb.
  change (fnorm n m (fun i j : nat => nsub (n:=RNum) (mm_step (N:=RNum) n m a b exp Rpower M c reg r1 r2 0 d G i j) (G i j)))
    with (frob n m (fun i j : nat => mm_step (N:=RNum) n m a b exp Rpower M c reg r1 r2 0 d G i j - G i j)).
  destruct (Rltb _ thr); [reflexivity|apply IHit].
Qed.
Theorem C75_l2_stops : forall n m a b M c reg r1 r2 thr it G0,
  nonneg_vec n a -> nonneg_vec m b -> 0 <= reg -> 0 <= r1 -> 0 <= r2 -> 0 < reg + r1 + r2 -> nonneg_start n m G0 ->
  (forall i j, (i < n)%nat -> (j < m)%nat -> 0 <= M i j) -> 0 < thr ->
  l2_obj n m a b M c reg r1 r2 (start a b G0) < (reg + r1 + r2) / 2 * (thr * thr) * INR it ->
  snd (mm_l2_run n m a b M c reg r1 r2 fnorm thr it G0) = true.
Proof.
  intros n m a b M c reg r1 r2 thr it G0 Ha Hb Hreg H1 H2 HS HG HM Ht HI. unfold mm_unbalanced. rewrite mm_is_gloop.
  set (G := start a b G0) in *. match goal with |- context [gloop _ _ _ _ _ ?X] => change X with G end.
  assert (HG' : nonneg_mat n m G) by (unfold G, start; destruct G0 as [G1|]; [exact HG|intros i j Hi Hj; apply Rmult_le_pos; auto]).
  set (step := mm_step (N:=RNum) n m a b exp Rpower M c reg r1 r2 0 L2).
  destruct (snd (gloop n m step thr it G)) eqn:E; auto. exfalso.
  assert (X := gloop_stops n m step (l2_obj n m a b M c reg r1 r2) (nonneg_mat n m) ((reg + r1 + r2) / 2) thr ltac:(lra) Ht
    (mm_l2_nonneg n m a b M c reg r1 r2 H1 H2 HS) (mm_l2_decrease n m a b M c reg r1 r2 H1 H2 HS) it G HG' E).
  assert (Y := gloop_inv n m (mm_step (N:=RNum) n m a b exp Rpower M c reg r1 r2 0 L2) (fun _ => 0) (nonneg_mat n m) thr (mm_l2_nonneg n m a b M c reg r1 r2 H1 H2 HS) (fun _ _ => Rle_refl 0) it G HG').
  assert (Z := J_l2_nonneg n m a b M c reg r1 r2 Hreg H1 H2 (fst (gloop n m step thr it G)) HM (proj1 Y)). fold step in Z. change (J_l2 n m a b M c reg r1 r2) with (l2_obj n m a b M c reg r1 r2) in Z.
  lra.
Qed.
Print Assumptions C75_l2_stops.
Theorem C75_kl_stops : forall n m a b M c reg r1 r2 thr it G0,
  (0 < n)%nat -> (0 < m)%nat -> pos_vec n a -> pos_vec m b -> 0 <= reg -> 0 < r1 -> 0 <= r2 ->
  (0 < reg -> pos_mat n m c) -> pos_start n m G0 ->
  (forall i j, (i < n)%nat -> (j < m)%nat -> 0 <= M i j) -> 0 < thr ->
  let J0 := uot_obj n m a b M c reg (Some r1) (Some r2) (start a b G0) in
  J0 < (reg + r1 + r2) / (4 * (J0 / r1 + 2 * rsum n a)) * (thr * thr) * INR it ->
  snd (mm_kl_run n m a b M c reg r1 r2 fnorm thr it G0) = true.
Proof.
  intros n m a b M c reg r1 r2 thr it G0 Hn Hm Ha Hb Hreg H1 H2 Hc HG HM Ht J0 HI. unfold mm_unbalanced. rewrite mm_is_gloop.
  assert (H1' : 0 <= r1) by lra. assert (HS : 0 < reg + r1 + r2) by lra.
  set (G := start a b G0) in *. match goal with |- context [gloop _ _ _ _ _ ?X] => change X with G end.
  assert (HG' : posm n m G) by (unfold G, start; destruct G0 as [G1|]; [exact HG|intros i j Hi Hj; apply Rmult_lt_0_compat; auto]).
  set (J := J_kl n m a b M c reg r1 r2). assert (EJ : J0 = J G) by reflexivity.
  assert (N0 : 0 <= J G) by (apply (J_kl_nonneg n m a b M c reg r1 r2 Ha Hb Hreg H1' H2 HS Hc HM); auto).
  assert (SA : 0 < rsum n a) by (apply rsum_pos; auto).
  set (B := J0 / r1 + 2 * rsum n a) in *. assert (PJ : 0 <= J0 / r1) by (apply Rmult_le_pos; [rewrite EJ; auto|left; apply Rinv_0_lt_compat; auto]).
  assert (PB : 0 < B) by (unfold B; lra).
  set (step := mm_step (N:=RNum) n m a b exp Rpower M c reg r1 r2 0 KL).
  assert (Dec : forall X, posm n m X -> J (step X) <= J X).
  { intros X HX. assert (A := mm_kl_decrease n m a b M c reg r1 r2 Hn Hm Ha Hb Hreg H1' H2 HS Hc X HX).
    assert (0 <= dsum n m (fun i j => gkl (X i j) (step X i j))).
    { apply dsum_nonneg; intros i j Hi Hj. apply gkl_nonneg; [left; apply HX; auto|apply mm_kl_pos]. }
    assert (Y := Rmult_le_pos _ _ (Rlt_le _ _ HS) H). change (step X) with (mm_kl (N:=RNum) n m a b exp Rpower M c reg r1 r2 0 X) in *. unfold J. lra. }
  set (inv := fun X => posm n m X /\ J X <= J0).
  assert (Hinv : forall X, inv X -> inv (step X)).
  { intros X [X1 X2]. split; [intros i j _ _; apply mm_kl_pos|]. eapply Rle_trans; [apply Dec; auto|auto]. }
  assert (Tot : forall X, inv X -> total n m X <= B).
  { intros X [X1 X2]. assert (A := mass_bound n m a b M c reg r1 r2 Ha Hb Hreg H1' H2 HS Hc HM X X1). fold J in A.
    apply Rmult_le_reg_l with r1; auto. unfold B. replace (r1 * (J0 / r1 + 2 * rsum n a)) with (J0 + r1 * (2 * rsum n a)) by (field; lra). lra. }
  assert (Hmov : forall X, inv X -> (reg + r1 + r2) / (4 * B) * fro2 n m (fun i j => step X i j - X i j) <= J X - J (step X)).
  { intros X HX. assert (A := mm_kl_move n m a b M c reg r1 r2 Hn Hm Ha Hb Hreg H1' H2 HS Hc X B (proj1 HX) (Tot X HX) (Tot _ (Hinv X HX))).
    apply Rmult_le_reg_l with (4 * B); [lra|]. eapply Rle_trans; [|apply A]. right. unfold step. cbn [mm_step]. field. lra. }
  destruct (snd (gloop n m step thr it G)) eqn:E; auto. exfalso.
  assert (IG : inv G) by (split; auto; rewrite EJ; lra).
  assert (X := gloop_stops n m step J inv ((reg + r1 + r2) / (4 * B)) thr ltac:(apply Rdiv_lt_0_compat; lra) Ht Hinv Hmov it G IG E).
  destruct (gloop_inv n m step J inv thr Hinv (fun X HX => Dec X (proj1 HX)) it G IG) as [[Y1 _] _].
  assert (Z := J_kl_nonneg n m a b M c reg r1 r2 Ha Hb Hreg H1' H2 HS Hc HM _ Y1). fold J in Z. rewrite <- EJ in X. lra.
Qed.
Print Assumptions C75_kl_stops.

(** C32: sinkhorn_unbalanced_translation_inv with equal finite penalties: scalings that one more
    iteration leaves unchanged give (after the final translation t) the unique minimiser. *)
Theorem C32_equal_penalties : forall n m a b M c reg r v_,
  (0 < n)%nat -> (0 < m)%nat -> pos_vec n a -> pos_vec m b -> 0 < reg -> 0 < r -> pos_mat n m c -> pos_vec m v_ ->
  let K := un_K (N:=RNum) exp reg M c in
  let u_ := ti_u (N:=RNum) n m a b Rpower K reg (Some r) (Some r) v_ in
  (forall j, (j < m)%nat -> ti_v (N:=RNum) n m a b Rpower K reg (Some r) (Some r) u_ j = v_ j) ->
  let t := ti_t (N:=RNum) n m a b Rpower reg (Some r) (Some r) u_ v_ in
  uot_best n m a b M c reg (Some r) (Some r) (uplan M c reg (fun i => u_ i * t) (fun j => v_ j / t)).
Proof.
  intros n m a b M c reg r v_ Hn Hm Ha Hb Hreg Hr Hc Hv K u_ E t.
  destruct (ti_fix n m a b M c reg (Some r) (Some r) Hn Hm Ha Hb Hreg Hc r Hr eq_refl eq_refl v_ Hv E) as [A B].
  assert (Pt : 0 < t) by apply exp_pos.
  apply C30_fixed_point_optimal; auto.
  - intros i Hi. apply Rmult_lt_0_compat; auto. apply tu_pos.
  - intros j Hj. apply Rdiv_lt_0_compat; auto.
  - intros i Hi. symmetry. apply A; auto.
  - intros j Hj. symmetry. apply B; auto.
Qed.
Print Assumptions C32_equal_penalties.
(** a steady state: M = 3, reg = reg_m = 1, v_ = 1 and u_ = e^2 *)
Example C32_hypotheses_met :
  let a := fun _ : nat => 1 in let K := un_K (N:=RNum) exp 1 (fun _ _ => 3) (fun _ _ => 1) in
  let u_ := ti_u (N:=RNum) 1 1 a a Rpower K 1 (Some 1) (Some 1) a in
  u_ 0%nat = exp 2 /\ forall j, (j < 1)%nat -> ti_v (N:=RNum) 1 1 a a Rpower K 1 (Some 1) (Some 1) u_ j = 1.
Proof.
  intros a K u_.
  assert (KE : forall i j, K i j = exp (-3)) by (intros; unfold K; rewrite un_K_R by lra; rewrite Rmult_1_r; f_equal; field).
  assert (P1 : forall p, Rpower 1 p = 1) by (intros; unfold Rpower; rewrite ln_1, Rmult_0_r; apply exp_0).
  assert (L1 : forall x : R, ln (1 / exp x) = - x) by (intros; unfold Rdiv; rewrite Rmult_1_l, <- exp_Ropp; apply ln_exp).
  assert (EU : u_ 0%nat = exp 2).
  { unfold u_, ti_u. cbn zeta. rewrite !ti_sum_R. cbn [rsum nmul ndiv RNum]. rewrite un_Kv_R. unfold rkv. cbn [rsum]. rewrite KE. unfold a. rewrite !Rplus_0_l, !Rmult_1_r, !P1, !Rmult_1_l, !P1, !Rmult_1_r.
    unfold Rpower. repeat (progress rewrite ?L1, ?ln_exp, <- ?exp_plus). f_equal. unfold ti_xr1, ti_xi1, ti_ratio, fi, nopp. cbn. field. }
  split; [exact EU|]. intros j Hj. assert (j = 0%nat) by lia. subst j.
  unfold ti_v. cbn zeta. rewrite !ti_sum_R. cbn [rsum nmul ndiv RNum]. rewrite un_Ktu_R. unfold rktu. cbn [rsum]. rewrite KE, EU. unfold a. rewrite !Rplus_0_l, !Rmult_1_l, <- !exp_plus.
  unfold Rpower. repeat (progress rewrite ?L1, ?ln_exp, <- ?exp_plus). match goal with |- exp ?x = _ => replace x with 0; [apply exp_0|] end. unfold ti_xr2, ti_xi2, ti_kr1, ti_k1, ti_ratio, fi, nopp. cbn. field.
Qed.
(** With unequal penalties it converges to something else: one source and one target of mass 1,
    M = 20, reg = 1, reg_m = (1, 3).  For every stopThr and numItermax >= 1 the plan stays above
    e^-3 while the minimiser is e^-4. *)
Theorem C32_refuted :
  let a := fun _ : nat => 1 in let M := fun _ _ : nat => 20 in let c := fun _ _ : nat => 1 in
  uot_best 1 1 a a M c 1 (Some 1) (Some 3) (fun _ _ => exp (-4)) /\
  forall thr it, (0 < it)%nat ->
  let o := sinkhorn_ti (N:=RNum) 1 1 a a Rpower no_nan (un_K (N:=RNum) exp 1 M c) 1 (Some 1) (Some 3) thr it None in
  let P := uplan M c 1 (sk_u o) (sk_v o) in
  exp (-3) <= P 0%nat 0%nat /\
  uot_obj 1 1 a a M c 1 (Some 1) (Some 3) (fun _ _ => exp (-4)) + 5 * exp (-4) <= uot_obj 1 1 a a M c 1 (Some 1) (Some 3) P.
Proof.
  cbn zeta. split.
  - assert (E4 := exp_pos (-4)). split; [split; [intros i j _ _; left; auto|split; exact I]|].
    intros Q [HQ _]. assert (Q0 := HQ 0%nat 0%nat ltac:(lia) ltac:(lia)).
    assert (O4 := obj20_opt (fun _ _ => exp (-4)) eq_refl). unfold one, M20, c1 in O4. rewrite O4.
    assert (OQ : uot_obj 1 1 one one M20 c1 1 (Some 1) (Some 3) Q = 20 * Q 0%nat 0%nat + 5 * gkl (Q 0%nat 0%nat) 1).
    { unfold uot_obj, penalty, cost, row_sum, col_sum. cbn [rsum]. unfold one, M20, c1. rewrite !Rplus_0_l. unfold gkl. ring. }
    unfold one, M20, c1 in OQ. rewrite OQ.
    assert (G : ln (exp (-4) / 1) = -4) by (replace (exp (-4) / 1) with (exp (-4)) by field; apply ln_exp).
    split.
    + assert (A := gkl_tan (Q 0%nat 0%nat) (exp (-4)) 1 Q0 E4 ltac:(lra)). rewrite gkl_e, G in A. lra.
    + intros L i j Hi Hj. assert (i = 0%nat) by lia. assert (j = 0%nat) by lia. subst.
      destruct (Req_dec (Q 0%nat 0%nat) (exp (-4))) as [|D]; auto. exfalso.
      assert (A := gkl_tan_lt (Q 0%nat 0%nat) (exp (-4)) 1 Q0 E4 ltac:(lra) D). rewrite gkl_e, G in A. lra.
  - intros thr it Hit.
    assert (L1 : 0 <= ln 1 <= 2) by (rewrite ln_1; lra). assert (L0 : 0 < 1) by lra.
    assert (B := ti_loop1 thr it 0 (fun _ => 1) (fun _ => 1) (fun _ => 1) (fun _ => 1) [] L0 L1 (or_introl Hit)).
    set (o := sinkhorn_ti _ _ _ _ _ _ _ _ _ _ _ _ _) . cbn zeta in B. change (big_plan (sk_u o) (sk_v o)) in B.
    assert (E : uplan (fun _ _ => 20) (fun _ _ => 1) 1 (sk_u o) (sk_v o) 0%nat 0%nat = sk_u o 0%nat * exp (-20) * sk_v o 0%nat).
    { unfold uplan, ukernel. replace (- (20) / 1) with (-20) by field. match goal with |- @eq _ ?x ?y => change (@eq R x y) end. ring. }
    split; [rewrite E; exact B|]. assert (O4 := obj20_opt (fun _ _ => exp (-4)) eq_refl). unfold one, M20, c1 in O4. rewrite O4.
    assert (OB := obj20_big (uplan (fun _ _ => 20) (fun _ _ => 1) 1 (sk_u o) (sk_v o))). rewrite E in OB. specialize (OB B). unfold one, M20, c1 in OB. lra.
Qed.
Print Assumptions C32_refuted.

Lemma existsb_any : forall k f, any k f = true -> exists i, (i < k)%nat /\ f i = true.
Proof.
  induction k; intros f H; [discriminate|]. cbn [any] in H. apply orb_true_iff in H.
  destruct (f k) eqn:E; [exists k; split; [lia|auto]|]. destruct H as [H|H]; try congruence; destruct (IHk f H) as (i & Hi & F); exists i; split; [lia|auto].
Qed.
Lemma vmax_ext : forall k (f g : vec), (forall i, (i < k)%nat -> f i = g i) -> (0 < k)%nat -> vmax (N:=RNum) k f = vmax (N:=RNum) k g.
Proof.
  intros k f g H Hk. apply Rle_antisym; apply vmax_le; auto; intros i Hi; [rewrite H by auto|rewrite <- H by auto]; apply vmax_ge; auto.
Qed.

(** C76: sinkhorn_stabilized_unbalanced (1e-16 guards taken as 0; M0 is the cost with the
    reference term folded in).  Whatever tau, numItermax >= 1 and stopThr < 1, the plan that is
    returned is one plain unbalanced Sinkhorn step from some positive v — the same u, v a call of
    sinkhorn_knopp_unbalanced could return, so C30_gap applies — unless the very last iteration
    absorbed, in which case column j of that plan is multiplied by max(u) max(v) / v_j. *)
Definition stab_plan (n m : nat) (a b : vec) (M0 : mat) (reg : R) (rm1 rm2 : option R) (tau thr : R) (it : nat) : mat :=
  us_plan (N:=RNum) exp ln M0 reg (fst (sinkhorn_stabilized_unbalanced (N:=RNum) n m a b exp ln Rpower no_nan M0 reg rm1 rm2 tau thr 0 it)).
Theorem C76_last_step : forall n m a b M0 reg rm1 rm2 tau thr it,
  (0 < n)%nat -> (0 < m)%nat -> pos_vec n a -> pos_vec m b -> 0 < reg -> pos_rm rm1 -> pos_rm rm2 -> (0 < it)%nat -> thr < 1 ->
  let K := fun i j => exp (- M0 i j / reg) in
  exists v0, pos_vec m v0 /\
  let u := un_u (N:=RNum) m a Rpower K (fi (N:=RNum) reg rm1) v0 in
  let v := un_v (N:=RNum) n b Rpower K (fi (N:=RNum) reg rm2) u in
  (forall i j, (i < n)%nat -> (j < m)%nat -> stab_plan n m a b M0 reg rm1 rm2 tau thr it i j = u i * K i j * v j) \/
  exists s t : R, 0 < s /\ 0 < t /\ ((exists i, (i < n)%nat /\ tau < u i * s) \/ (exists j, (j < m)%nat /\ tau < v j * t)) /\
  forall i j, (i < n)%nat -> (j < m)%nat -> stab_plan n m a b M0 reg rm1 rm2 tau thr it i j =
    u i * K i j * v j * (vmax (N:=RNum) n (fun i => u i * s) * (vmax (N:=RNum) m (fun j => v j * t) / (v j * t))).
Proof.
  intros n m a b M0 reg rm1 rm2 tau thr it Hn Hm Ha Hb Hreg H1 H2 Hit Ht K. unfold stab_plan, sinkhorn_stabilized_unbalanced.
  match goal with |- context [us_loop _ _ _ _ _ _ _ _ _ _ _ _ _ _ _ _ _ _ ?s] => set (s0 := s) end.
  assert (V0 : pos_vec m (us_v s0)) by (intros j Hj; cbn; lra).
  destruct (us_at_least_one n m a b M0 reg rm1 rm2 tau thr Hn Hm Ha Hb Hreg H1 H2 it 0 1 s0 V0 Hit Ht) as [S|(s1 & S & B & E)].
  - destruct S as (v0 & P0 & SU & SV & PU & PV). exists v0. split; auto. cbn zeta. left. intros i j Hi Hj.
    rewrite us_plan_R by auto. exact (f_equal2 Rmult (f_equal2 Rmult (SU i Hi) eq_refl) (SV j Hj)).
  - destruct S as (v0 & P0 & SU & SV & PU & PV). exists v0. split; auto. cbn zeta. right.
    exists (exp (- (us_al s1 / reg))), (exp (- (us_be s1 / reg))). split; [apply exp_pos|]. split; [apply exp_pos|].
    assert (C : forall x, exp x * exp (- x) = 1) by (intros; rewrite <- exp_plus; replace (x + - x) with 0 by ring; apply exp_0).
    assert (EU : forall i, (i < n)%nat -> us_u s1 i = un_u (N:=RNum) m a Rpower K (fi (N:=RNum) reg rm1) v0 i * exp (- (us_al s1 / reg))).
    { intros i Hi. change K with (K0 M0 reg). rewrite <- (SU i Hi). unfold true_u. rewrite Rmult_assoc, C. symmetry. apply Rmult_1_r. }
    assert (EV : forall j, (j < m)%nat -> us_v s1 j = un_v (N:=RNum) n b Rpower K (fi (N:=RNum) reg rm2) (un_u (N:=RNum) m a Rpower K (fi (N:=RNum) reg rm1) v0) j * exp (- (us_be s1 / reg))).
    { intros j Hj. change K with (K0 M0 reg). rewrite <- (SV j Hj). unfold true_v. rewrite Rmult_assoc, C. symmetry. apply Rmult_1_r. }
    split.
    + unfold us_big in B. apply orb_true_iff in B. destruct B as [B|B]; apply existsb_any in B; destruct B as (k & Hk & B); change (@nltb RNum) with Rltb in B; apply Rltb_true in B; [left|right]; exists k; split; auto.
      * rewrite <- EU; auto. * rewrite <- EV; auto.
    + intros i j Hi Hj. cbn zeta in E. match goal with |- us_plan _ _ _ _ ?o i j = _ => change (us_plan (N:=RNum) exp ln M0 reg o i j) with (us_plan (N:=RNum) exp ln M0 reg (fst (us_loop (N:=RNum) n m a b exp ln Rpower no_nan M0 reg rm1 rm2 tau thr 0 it 0 1 s0)) i j) end.
      rewrite E. rewrite absorb_plan by auto. rewrite us_plan_R by auto. rewrite (SU i Hi), (SV j Hj).
      rewrite (vmax_ext n _ _ EU Hn), (vmax_ext m _ _ EV Hm), EV by auto. reflexivity.
Qed.
Print Assumptions C76_last_step.
(** ... it does happen: one source and one target of mass 1, cost 40, reg = reg_m = 1, the default
    tau = 100000, numItermax = 1: e^10 is returned where sinkhorn_knopp_unbalanced returns e^-10. *)
Theorem C76_refuted : forall thr, 0 < thr < 1 ->
  let a := fun _ : nat => 1 in let M := fun _ _ : nat => 40 in let c := fun _ _ : nat => 1 in
  stab_plan 1 1 a a M 1 (Some 1) (Some 1) 100000 thr 1 0%nat 0%nat = exp 10 /\
  let o := sinkhorn_knopp_unbalanced (N:=RNum) 1 1 a a exp Rpower no_nan 1 (Some 1) (Some 1) M c thr 1 None in
  uplan M c 1 (sk_u o) (sk_v o) 0%nat 0%nat = exp (-10).
Proof.
  intros thr Ht. cbn zeta. split.
  - unfold stab_plan, sinkhorn_stabilized_unbalanced. cbn [us_loop].
    change (@nltb RNum) with Rltb. replace (Rltb thr (@n1 RNum)) with true by (symmetry; apply Rltb_true; cbn; lra). cbn zeta.
    set (s0 := mk_us (N:=RNum) _ _ _ _). set (s1 := us_update _ _ _ _ _ _ _ _ _ _ _ s0).
    assert (K0E : forall i j, us_K (N:=RNum) exp (fun _ _ => 40) 1 s0 i j = exp (-40)) by (intros; unfold us_K; cbn; f_equal; field).
    assert (F0 : us_f (N:=RNum) exp 1 (@n0 RNum) (Some 1) = 1) by (unfold us_f, nopp; cbn; replace ((0 - 0) / (1 + 1)) with 0 by field; apply exp_0).
    assert (EU : us_u s1 0%nat = exp 20).
    { apply ln_inv; [apply (proj1 (upd_pos 1 1 (fun _ => 1) (fun _ => 1) (fun _ _ => 40) 1 (Some 1) (Some 1) s0))|apply exp_pos|].
      rewrite ln_exp. unfold s1, us_update. cbn [us_u us_al]. change (us_al s0) with (@n0 RNum). rewrite F0. cbn [nmul ndiv nadd RNum]. rewrite Rmult_1_r, lnpw, un_Kv_R.
      unfold rkv. cbn [rsum]. rewrite K0E. change (us_v s0 0%nat) with 1. rewrite Rplus_0_l, Rplus_0_r, Rmult_1_r. unfold Rdiv. rewrite Rmult_1_l, <- exp_Ropp, ln_exp. unfold fi. cbn. field. }
    assert (EV : us_v s1 0%nat = exp 10).
    { apply ln_inv; [apply (proj2 (upd_pos 1 1 (fun _ => 1) (fun _ => 1) (fun _ _ => 40) 1 (Some 1) (Some 1) s0))|apply exp_pos|].
      rewrite ln_exp. change (us_v s1 0%nat) with (Rpower (1 / (un_Ktu (N:=RNum) 1 (us_K (N:=RNum) exp (fun _ _ => 40) 1 s0) (us_u s1) 0%nat + 0)) (fi (N:=RNum) 1 (Some 1)) * us_f (N:=RNum) exp 1 (@n0 RNum) (Some 1)).
      rewrite F0, Rmult_1_r, lnpw, un_Ktu_R. unfold rktu. cbn [rsum]. rewrite K0E, EU. rewrite Rplus_0_l, Rplus_0_r, <- exp_plus.
      unfold Rdiv. rewrite Rmult_1_l, <- exp_Ropp, ln_exp. unfold fi. cbn. field. }
    assert (E20 : 100000 < exp 20).
    { assert (A := exp_ineq1 1 ltac:(lra)). assert (B : 2 < exp 1) by lra.
      replace 20 with (INR 20) by (cbn; ring). rewrite <- (Rmult_1_r (INR 20)). rewrite Rmult_comm. fold (IZR 1).
      assert (C : forall k, exp (1 * INR k) = exp 1 ^ k).
      { induction k; [cbn; rewrite Rmult_0_r; apply exp_0|]. rewrite S_INR. rewrite Rmult_plus_distr_l, exp_plus, IHk. cbn [pow]. rewrite Rmult_1_r. ring. }
      rewrite C. apply Rlt_le_trans with (2 ^ 20); [cbn; lra|]. apply pow_incr. lra. }
    assert (BG : us_big (N:=RNum) 1 1 100000 s1 = true).
    { unfold us_big. apply orb_true_iff. left. cbn [any]. change (@nltb RNum) with Rltb. rewrite EU. rewrite (proj2 (Rltb_true _ _) E20). reflexivity. }
    rewrite BG.
    set (s2 := us_absorb (N:=RNum) 1 1 ln 1 s1).
    match goal with |- context [fst (if ?c then _ else _)] => assert (BD : c = false) end.
    { rewrite !orb_false_iff. repeat split; apply any_false; intros q Hq; auto. cbn [neqb RNum n0]. apply Reqb_false. apply Rgt_not_eq. rewrite un_Ktu_R.
      unfold rktu. cbn [rsum]. rewrite Rplus_0_l. apply Rmult_lt_0_compat; [apply exp_pos|]. rewrite EU. apply exp_pos. }
    rewrite BD. match goal with |- us_plan _ _ _ _ (fst (if ?c then _ else _)) _ _ = _ => destruct c end; cbn [fst];
    unfold us_plan, s2, us_absorb, vmax; cbn [us_al us_be us_u us_v nmaxk Nat.sub]; rewrite EU, EV; unfold s1, us_update; cbn [us_al us_be]; unfold s0; cbn; rewrite !ln_exp, ln_1; f_equal; field.
  - assert (H := un_loop_spec 1 1 (fun _ => 1) (fun _ => 1) (un_K (N:=RNum) exp 1 (fun _ _ => 40) (fun _ _ => 1)) (fi (N:=RNum) 1 (Some 1)) (fi (N:=RNum) 1 (Some 1)) ltac:(lia) ltac:(lia)).
    destruct (H ltac:(intros; rewrite un_K_R by lra; rewrite Rmult_1_r; apply exp_pos) thr 1%nat 0%nat (fun _ => 1) (fun _ => 1) [] ltac:(intros ? ?; lra)) as (k & Hk & E1 & E2 & _ & E4 & _). clear H.
    assert (k = 1%nat) by (destruct E4 as [[_ E4]|(k' & E4 & _)]; lia). subst k. clear E4.
    unfold sinkhorn_knopp_unbalanced. unfold uplan. cbn zeta in E1, E2. cbn [n1 RNum]. rewrite E1, E2. cbn [uit vit].
    assert (FE : un_K (N:=RNum) exp 1 (fun _ _ => 40) (fun _ _ => 1) = fun _ _ => exp (-40)).
    { apply FunctionalExtensionality.functional_extensionality; intros i; apply FunctionalExtensionality.functional_extensionality; intros j. rewrite un_K_R by lra. rewrite Rmult_1_r. f_equal. field. }
    rewrite FE. assert (FK : ukernel (fun _ _ => 40) (fun _ _ => 1) 1 0%nat 0%nat = exp (-40)) by (unfold ukernel; rewrite Rmult_1_r; f_equal; field). rewrite FK.
    set (u := un_u _ _ _ _ _ _). assert (Pu : 0 < u 0%nat) by (unfold u; rewrite U_R; apply pw_pos).
    assert (Lu : ln (u 0%nat) = 20) by (unfold u; rewrite lnU1 by lra; rewrite !ln_1; field).
    match goal with |- _ * _ * ?x = _ => set (v := x) end. assert (Pv : 0 < v) by (unfold v; rewrite V_R; apply pw_pos).
    assert (Lv : ln v = 10) by (unfold v; rewrite lnV1 by (auto; lra); rewrite ln_1, Lu; field).
    rewrite <- (exp_ln (u 0%nat)), <- (exp_ln v) by auto. rewrite Lu, Lv, <- !exp_plus. f_equal. ring.
Qed.
Print Assumptions C76_refuted.

(** C77: sinkhorn_unbalanced with several target histograms: every column runs the plain iteration,
    for as many iterations as all the columns together need, with the kernel exp(-M/reg) — the one
    of reg_type = "entropy" (c = 1) — whatever reg_type and c were passed. *)
Theorem C77_columns : forall n m nh a bs M reg rm1 rm2 thr it h,
  (0 < n)%nat -> (0 < m)%nat -> 0 < reg -> 
  exists k, (k <= it)%nat /\ ((0 < it)%nat -> (0 < k)%nat) /\
  let K := fun i j => exp (- M i j / reg) in
  let u := uit n m a (bs h) K (fi (N:=RNum) reg rm1) (fi (N:=RNum) reg rm2) k (fun _ => 1) (fun _ => 1) in
  let v := vit n m a (bs h) K (fi (N:=RNum) reg rm1) (fi (N:=RNum) reg rm2) k (fun _ => 1) in
  knopp_unbalanced_hists (N:=RNum) n m a exp Rpower no_nan nh bs reg rm1 rm2 M thr it h = cost n m M (fun i j => u i * K i j * v j).
Proof.
  intros n m nh a bs M reg rm1 rm2 thr it h Hn Hm Hr. set (K := fun i j => exp (- M i j / reg)).
  assert (HK : forall i j, (i < n)%nat -> (j < m)%nat -> 0 < K i j) by (intros; apply exp_pos).
  destruct (uh_lockstep n m nh a bs K (fi (N:=RNum) reg rm1) (fi (N:=RNum) reg rm2) thr Hn Hm HK it (fun _ _ => 1) (fun _ _ => 1)) as (k & H1 & H2 & H3).
  exists k. split; auto. split; auto. cbn zeta in *. specialize (H3 h). unfold knopp_unbalanced_hists.
  assert (EK : (fun i j => exp (ndiv (n:=RNum) (nopp (N:=RNum) (M i j)) reg)) = K).
  { apply FunctionalExtensionality.functional_extensionality; intros i; apply FunctionalExtensionality.functional_extensionality; intros j. unfold K, nopp. cbn. f_equal. field. lra. }
  cbn zeta. rewrite EK. change (@n1 RNum) with 1. destruct (uh_loop _ _ _ _ _ _ _ _ _ _ _ _ _ _) as [[u v] w]. cbn [fst snd] in H3. destruct H3 as [-> ->].
  rewrite nsum_R. unfold cost. apply rsum_ext; intros i Hi. rewrite nsum_R. apply rsum_ext; intros j Hj. cbn [nmul RNum]. change (exp (ndiv (n:=RNum) (nopp (N:=RNum) (M i j)) reg)) with ((fun i j => exp (ndiv (n:=RNum) (nopp (N:=RNum) (M i j)) reg)) i j). rewrite EK. match goal with |- @eq _ ?x ?y => change (@eq R x y) end. ring.
Qed.
Print Assumptions C77_columns.
(** ... so with the default reg_type = "kl" (c = a b^T) the value is not the one obtained from the
    column alone: a = b = e^2, M = 1, reg = reg_m = 1, any stopThr, any numItermax >= 1. *)
Theorem C77_refuted : forall thr it thr' it', (0 < it)%nat -> (0 < it')%nat ->
  let a := fun _ : nat => exp 2 in let M := fun _ _ : nat => 1 in let c := fun i j => a i * a j in
  knopp_unbalanced_hists (N:=RNum) 1 1 a exp Rpower no_nan 1 (fun _ => a) 1 (Some 1) (Some 1) M thr it 0 <= exp (5 / 4) /\
  let o := sinkhorn_knopp_unbalanced (N:=RNum) 1 1 a a exp Rpower no_nan 1 (Some 1) (Some 1) M c thr' it' None in
  exp (9 / 4) <= cost 1 1 M (uplan M c 1 (sk_u o) (sk_v o)).
Proof.
  intros thr it thr' it' Hit Hit'. cbn zeta. split.
  - destruct (C77_columns 1 1 1 (fun _ => exp 2) (fun _ _ => exp 2) (fun _ _ => 1) 1 (Some 1) (Some 1) thr it 0 ltac:(lia) ltac:(lia) ltac:(lra)) as (k & _ & Hk & E).
    rewrite E. destruct k; [lia|]. unfold cost. cbn [rsum].
    assert (FE : (fun _ _ : nat => exp (- (1) / 1)) = fun _ _ => exp (-1)).
    { apply FunctionalExtensionality.functional_extensionality; intros i; apply FunctionalExtensionality.functional_extensionality; intros j. f_equal. field. }
    cbn zeta. rewrite FE. replace (- (1) / 1) with (-1) by field. rewrite !Rplus_0_l, Rmult_1_l.
    apply (col_plan k (fun _ => 1) (fun _ => 1)); [lra|apply ln_1].
  - assert (FE : un_K (N:=RNum) exp 1 (fun _ _ => 1) (fun _ _ => exp 2 * exp 2) = fun _ _ => exp 3).
    { apply FunctionalExtensionality.functional_extensionality; intros i; apply FunctionalExtensionality.functional_extensionality; intros j. rewrite un_K_R by lra. rewrite <- !exp_plus. f_equal. field. }
    destruct (un_loop_spec 1 1 (fun _ => exp 2) (fun _ => exp 2) (fun _ _ => exp 3) (fi (N:=RNum) 1 (Some 1)) (fi (N:=RNum) 1 (Some 1)) ltac:(lia) ltac:(lia) ltac:(intros; apply exp_pos) thr' it' 0%nat (fun _ => 1) (fun _ => 1) [] ltac:(intros ? ?; lra)) as (k & _ & E1 & E2 & _ & E4 & _).
    assert (Hk : exists q, k = S q) by (destruct E4 as [[_ E4]|(k' & E4 & _)]; [exists (pred k); lia|exists k'; auto]). destruct Hk as [q ->]. clear E4.
    unfold sinkhorn_knopp_unbalanced. rewrite FE. unfold cost, uplan. cbn [rsum]. cbn zeta in E1, E2. cbn [n1 RNum]. rewrite E1, E2. rewrite !Rplus_0_l, Rmult_1_l.
    assert (FK : ukernel (fun _ _ => 1) (fun _ _ => exp 2 * exp 2) 1 0%nat 0%nat = exp 3) by (unfold ukernel; rewrite <- !exp_plus; f_equal; field). rewrite FK.
    apply (kl_plan q (fun _ => 1) (fun _ => 1)); [lra|apply ln_1].
Qed.
Print Assumptions C77_refuted.
