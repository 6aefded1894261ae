(** C147: unbalanced barycenters. *)
From Coq Require Import List Arith Bool String Reals Lra Lia FunctionalExtensionality.
From Verif Require Import Num Sums Spec Duals_proofs Emd1d_perm_proofs Entropy Monge Wp Bary_loops Unb_proofs Uot1d_uot
  Sinkhorn_model Emd1d_model Unb_model Ubary_model Ubary_proofs Ubary_conv Ubary_link Ubary_stab Ubary_uniq Ubary_more.
Import ListNotations.
Local Open Scope R_scope.

Definition plain := barycenter_unbalanced_sinkhorn (N:=RNum) exp rpow (fun _ => false).
Definition stab := barycenter_unbalanced_stabilized (N:=RNum) exp ln rpow (fun _ => false).
(** what the user may pass *)
Definition ub_input (n H : nat) (A : mat) (w : option (nat * vec)) (reg reg_m : R) : Prop :=
  (0 < n)%nat /\ ub_data n H A /\ len_ok H w /\ ub_simplex H (spec_w H w) /\ 0 < reg /\ 0 < reg_m.

(** what the histogram q and the scalings u, v must satisfy to be called a certified result:
    admissible; q is the weighted average of the second marginals of the plans; the objective is within the gap of the optimum,
    and if the gap is zero every other minimiser has the same histogram and the same plans *)
Definition ub_certified (n H : nat) (A M : mat) (w : vec) (reg reg_m : R) (q : vec) (u v : mat) : Prop :=
  let P := ub_plan M reg u v in
  (forall j, (j < n)%nat -> 0 < q j) /\
  ub_admissible n H A q P /\
  (forall j, (j < n)%nat -> rsum H (fun h => w h * col_sum n (P h) j) = q j) /\
  0 <= ub_gap n H A M w reg reg_m u v /\
  (forall q' P', ub_admissible n H A q' P' -> ub_obj n H A M w reg reg_m q P <= ub_obj n H A M w reg reg_m q' P' + ub_gap n H A M w reg reg_m u v) /\
  (ub_gap n H A M w reg reg_m u v = 0 -> forall q' P', ub_admissible n H A q' P' -> ub_obj n H A M w reg reg_m q' P' <= ub_obj n H A M w reg reg_m q P ->
     (forall j, (j < n)%nat -> q' j = q j) /\
     forall h i j, (h < H)%nat -> 0 < w h -> (i < n)%nat -> (j < n)%nat -> P' h i j = P h i j).
Lemma good_certified : forall n H A M w reg rm v0 u v q, (0 < n)%nat -> 0 < reg -> 0 < rm -> ub_data n H A -> ub_simplex H w ->
  good n H A M w reg rm v0 u v q -> ub_certified n H A M w reg rm q u v.
Proof.
  intros n H A M w reg rm v0 u v q Hn Hr Hm HA Hw G. unfold ub_certified. cbn zeta.
  pose proof (good_admissible n H A M w reg rm HA v0 u v q G) as Ad.
  assert (B : forall q' P', ub_admissible n H A q' P' -> ub_obj n H A M w reg rm q (ub_plan M reg u v) <= ub_obj n H A M w reg rm q' P' + ub_gap n H A M w reg rm u v)
    by (intros; eapply good_bracket; eauto).
  split; [intros; eapply g_q; eauto|]. split; [exact Ad|]. split; [intros; eapply good_marginal; eauto|].
  split; [pose proof (B _ _ Ad); lra|]. split; [exact B|]. intros G0 q' P' Ad' LE. eapply gap0_unique; eauto.
Qed.

Lemma at_init : forall n H A M w reg rm, at_it n H A M w reg rm (fun _ _ => 1) 0 (UbState (N:=RNum) (fun _ _ => 1) (fun _ _ => 1) (fun _ => 1) [] None 1 false).
Proof. intros. constructor; auto; lia. Qed.
Lemma one_pos : forall n H, posm n H (fun _ _ => 1).
Proof. intros n H j h _ _. lra. Qed.

(** every number of iterations of the plain method gives a certified result *)
Theorem C147_plain : forall n H A M reg reg_m w numItermax stopThr log,
  ub_input n H A w reg reg_m -> (0 < numItermax)%nat ->
  exists s k, plain n H A M reg reg_m w numItermax stopThr log = UbOk s /\
    ub_certified n H A M (spec_w H w) reg reg_m (st_q s) (st_u s) (st_v s) /\
    st_numerr s = false /\ st_i s = Some (k - 1)%nat /\ (1 <= k <= numItermax)%nat /\
    (k = numItermax \/ (12 <= k)%nat /\ st_err s < stopThr).
Proof.
  intros n H A M reg rm w N thr log (Hn & HA & Hl & Hw & Hr & Hm) HN.
  destruct (loop_spec n H A M (spec_w H w) reg rm Hn Hr Hm HA Hw thr (fun _ _ => 1) (one_pos n H) N 0 _ (at_init n H A M (spec_w H w) reg rm)) as (k & Hk & Hk' & Hat & Hend).
  specialize (Hk' HN). set (s := ub_loop _ _ _ _ _ _ _ _ _ _ _ _) in *. exists s, k.
  destruct k as [|k]; [lia|]. pose proof (it_good n H A M (spec_w H w) reg rm Hn Hr Hm HA Hw (fun _ _ => 1) k (one_pos n H)) as G.
  rewrite <- (at_v _ _ _ _ _ _ _ _ _ _ Hat), <- (at_u _ _ _ _ _ _ _ _ _ _ Hat Hk'), <- (at_q _ _ _ _ _ _ _ _ _ _ Hat Hk') in G.
  split; [|split; [|split; [|split; [|split]]]].
  - unfold plain, barycenter_unbalanced_sinkhorn. rewrite weights_link by auto. unfold ub_return.
    replace (st_i (ub_loop (N:=RNum) rpow (fun _ => false) n H A (ub_kernel (N:=RNum) exp M reg) (spec_w H w) (ndiv (n:=RNum) rm (nadd (n:=RNum) rm reg)) thr N 0 (UbState (N:=RNum) (fun _ _ => n1) (fun _ _ => n1) (fun _ => n1) [] None n1 false)))
      with (Some (S k - 1)%nat) by (symmetry; exact (at_i _ _ _ _ _ _ _ _ _ _ Hat Hk')). destruct log; reflexivity.
  - eapply good_certified; eauto.
  - apply (at_n _ _ _ _ _ _ _ _ _ _ Hat Hk').
  - apply (at_i _ _ _ _ _ _ _ _ _ _ Hat Hk').
  - lia.
  - destruct Hend as [E|[E1 E2]]; [left; lia|right; split; [lia|exact E2]].
Qed.
Print Assumptions C147_plain.

(** without early stop (stopThr <= 0): the lower bounds increase, the objective tends to the infimum over all competitors, and among the
    iterations 2..N+1 one is within C/N of it *)
Theorem C147_converges : forall n H A M reg reg_m w stopThr, ub_input n H A w reg reg_m -> stopThr <= 0 ->
  exists st : nat -> ub_state (N:=RNum),
    (forall N log, plain n H A M reg reg_m w (S N) stopThr log = UbOk (st N)) /\
    let J N := ub_obj n H A M (spec_w H w) reg reg_m (st_q (st N)) (ub_plan M reg (st_u (st N)) (st_v (st N))) in
    let D N := ub_dual n H A M (spec_w H w) reg reg_m (st_u (st N)) (st_v (st N)) in
    (forall N, D N <= D (S N)) /\
    (forall N q' P', ub_admissible n H A q' P' -> D N <= ub_obj n H A M (spec_w H w) reg reg_m q' P') /\
    (forall eps, 0 < eps -> exists N0, forall N, (N0 <= N)%nat -> J N - D N <= eps /\
       forall q' P', ub_admissible n H A q' P' -> J N <= ub_obj n H A M (spec_w H w) reg reg_m q' P' + eps) /\
    (exists C, forall N, (0 < N)%nat -> exists k, (1 <= k <= N)%nat /\ forall q' P', ub_admissible n H A q' P' ->
       J k <= ub_obj n H A M (spec_w H w) reg reg_m q' P' + C / INR N).
Proof.
  intros n H A M reg rm w thr (Hn & HA & Hl & Hw & Hr & Hm) Ht.
  set (st := fun N => ub_loop (N:=RNum) rpow (fun _ => false) n H A (ub_kernel (N:=RNum) exp M reg) (spec_w H w) (rm / (rm + reg)) thr (S N) 0 (UbState (N:=RNum) (fun _ _ => 1) (fun _ _ => 1) (fun _ => 1) [] None 1 false)).
  assert (At : forall N, at_it n H A M (spec_w H w) reg rm (fun _ _ => 1) (S N) (st N)).
  { intros N. exact (loop_all n H A M (spec_w H w) reg rm Hn Hr Hm HA Hw thr Ht (fun _ _ => 1) (one_pos n H) (S N) 0 _ (at_init n H A M (spec_w H w) reg rm)). }
  assert (Eu : forall N, st_u (st N) = itu n H A M (spec_w H w) reg rm (fun _ _ => 1) (S N)) by (intros N; apply (at_u _ _ _ _ _ _ _ _ _ _ (At N)); lia).
  assert (Ev : forall N, st_v (st N) = it n H A M (spec_w H w) reg rm (fun _ _ => 1) (S N)) by (intros N; apply (at_v _ _ _ _ _ _ _ _ _ _ (At N))).
  assert (Eq : forall N, st_q (st N) = itq n H A M (spec_w H w) reg rm (fun _ _ => 1) (S N)) by (intros N; apply (at_q _ _ _ _ _ _ _ _ _ _ (At N)); lia).
  assert (Gd : forall N, good n H A M (spec_w H w) reg rm (it n H A M (spec_w H w) reg rm (fun _ _ => 1) N) (st_u (st N)) (st_v (st N)) (st_q (st N))).
  { intros N. rewrite Eu, Ev, Eq. apply it_good; auto. apply one_pos. }
  exists st. split.
  { intros N log. unfold plain, barycenter_unbalanced_sinkhorn. rewrite weights_link by auto. unfold ub_return.
    replace (st_i (ub_loop (N:=RNum) rpow (fun _ => false) n H A (ub_kernel (N:=RNum) exp M reg) (spec_w H w) (ndiv (n:=RNum) rm (nadd (n:=RNum) rm reg)) thr (S N) 0 (UbState (N:=RNum) (fun _ _ => n1) (fun _ _ => n1) (fun _ => n1) [] None n1 false)))
      with (Some (S N - 1)%nat) by (symmetry; apply (at_i _ _ _ _ _ _ _ _ _ _ (At N)); lia). destruct log; reflexivity. }
  cbn zeta. set (gap := fun N => ub_gap n H A M (spec_w H w) reg rm (st_u (st N)) (st_v (st N))).
  assert (V : forall N, ub_obj n H A M (spec_w H w) reg rm (st_q (st N)) (ub_plan M reg (st_u (st N)) (st_v (st N))) = ub_dual n H A M (spec_w H w) reg rm (st_u (st N)) (st_v (st N)) + gap N)
    by (intros N; eapply good_value; eauto).
  assert (W : forall N q' P', ub_admissible n H A q' P' -> ub_dual n H A M (spec_w H w) reg rm (st_u (st N)) (st_v (st N)) <= ub_obj n H A M (spec_w H w) reg rm q' P').
  { intros N q' P' Ad. apply weak; auto; [eapply good_supp; apply Gd|exact (g_v1 _ _ _ _ _ _ _ _ _ _ _ (Gd N))|exact (g_c _ _ _ _ _ _ _ _ _ _ _ (Gd N))]. }
  assert (G0 : forall N, 0 <= gap N).
  { intros N. pose proof (W N _ _ (good_admissible n H A M (spec_w H w) reg rm HA _ _ _ _ (Gd N))) as X. rewrite V in X. lra. }
  destruct (it_gap_sum n H A M (spec_w H w) reg rm Hn Hr Hm HA Hw (fun _ _ => 1) (one_pos n H)) as (C & HC).
  assert (HC' : forall N, rsum N (fun k => gap (S k)) <= C).
  { intros N. eapply Rle_trans; [|apply (HC N)]. right. apply rsum_ext; intros k Hk. unfold gap. rewrite Eu, Ev. reflexivity. }
  split; [|split; [exact W|split]].
  - intros N. rewrite !Eu, !Ev. pose proof (it_dual_mono n H A M (spec_w H w) reg rm Hn Hr Hm HA Hw (fun _ _ => 1) N 1 (one_pos n H)) as X.
    replace (N + 1)%nat with (S N) in X by lia. exact X.
  - intros eps He. destruct (summable_cv (fun k => gap (S k)) C ltac:(intros; apply G0) HC' eps He) as (N0 & HN).
    exists (S N0). intros N HNN. destruct N as [|N]; [lia|]. specialize (HN N ltac:(lia)). cbv beta in HN. split; [rewrite V; lra|].
    intros q' P' Ad. rewrite V. pose proof (W (S N) q' P' Ad). lra.
  - exists C. intros N HN. destruct (summable_min (fun k => gap (S k)) C HC' N HN) as (k & Hk & L). exists (S k). split; [lia|].
    intros q' P' Ad. rewrite V. pose proof (W (S k) q' P' Ad). lra.
Qed.
Print Assumptions C147_converges.

(** the stabilized version, its 1e-16 guards taken as 0 *)
Theorem C147_stab : forall n H A M reg reg_m w tau numItermax stopThr log,
  ub_input n H A w reg reg_m -> (0 < numItermax)%nat ->
  exists s u v, stab n H A M reg reg_m w tau 0 numItermax stopThr log = UbsOk s /\
    ub_certified n H A M (spec_w H w) reg reg_m (ss_q s) u v /\
    (ss_absorbed s = false -> forall i h, (i < n)%nat -> (h < H)%nat ->
       u i h = ss_u s i h * exp (ss_al s i / reg) /\ v i h = ss_v s i h * exp (ss_be s i / reg)).
Proof.
  intros n H A M reg rm w tau N thr log (Hn & HA & Hl & Hw & Hr & Hm) HN.
  set (s := ss_loop (N:=RNum) exp ln rpow (fun _ => false) n H A M (spec_w H w) reg rm tau 0 thr N 0 (ss_init (N:=RNum) exp n M reg)).
  destruct (loop_after n H A M (spec_w H w) reg rm tau thr Hn Hr Hm HA Hw N 0 _ (init_inv n H M reg Hn) (or_introl HN)) as (v0 & [A1 A2 A3 A4]). fold s in A2, A3, A4.
  pose proof (step_good n H A M (spec_w H w) reg rm Hn Hr Hm HA Hw v0 A1) as G.
  exists s, (us n A M reg rm v0), (vs n M reg rm (us n A M reg rm v0) (qs n H M (spec_w H w) reg rm (us n A M reg rm v0))). split; [|split].
  - unfold stab, barycenter_unbalanced_stabilized. rewrite weights_link by auto.
    pose proof (loop_i n H A M (spec_w H w) reg rm tau thr Hn Hr Hm HA Hw N 0 _ (init_inv n H M reg Hn) (or_introl HN)) as Ni.
    change (ss_loop (N:=RNum) exp ln rpow (fun _ => false) n H A M (spec_w H w) reg rm tau 0 thr N 0 (ss_init (N:=RNum) exp n M reg)) with s in Ni |- *.
    destruct log; auto. destruct (ss_i s); [reflexivity|congruence].
  - replace (ss_q s) with (qs n H M (spec_w H w) reg rm (us n A M reg rm v0)) by (apply functional_extensionality; intros j; symmetry; apply A2).
    eapply good_certified; eauto.
  - intros F i h Hi Hh. split; symmetry; auto.
Qed.
Print Assumptions C147_stab.

(** one histogram, or finitely many absorptions: the stabilized version converges too *)
Theorem C147_stab_converges : forall n H A M reg reg_m w tau stopThr N1, ub_input n H A w reg reg_m -> stopThr <= 0 ->
  H = 1%nat \/ (forall N s, (N1 < N)%nat -> stab n H A M reg reg_m w tau 0 N stopThr false = UbsOk s -> ss_absorbed s = false) ->
  forall eps, 0 < eps -> exists N0, forall N, (N0 <= N)%nat -> exists s P,
    stab n H A M reg reg_m w tau 0 N stopThr false = UbsOk s /\ ub_admissible n H A (ss_q s) P /\
    forall q' P', ub_admissible n H A q' P' ->
      ub_obj n H A M (spec_w H w) reg reg_m (ss_q s) P <= ub_obj n H A M (spec_w H w) reg reg_m q' P' + eps.
Proof.
  intros n H A M reg rm w tau thr N1 (Hn & HA & Hl & Hw & Hr & Hm) Ht Hc eps He.
  set (L := fun N => ss_loop (N:=RNum) exp ln rpow (fun _ => false) n H A M (spec_w H w) reg rm tau 0 thr N 0 (ss_init (N:=RNum) exp n M reg)).
  assert (St : forall N, stab n H A M reg rm w tau 0 N thr false = UbsOk (L N)).
  { intros N. unfold stab, barycenter_unbalanced_stabilized. rewrite weights_link by auto. reflexivity. }
  assert (Hc' : H = 1%nat \/ (forall N, (N1 < N)%nat -> ss_absorbed (L N) = false)) by (destruct Hc as [Hc|Hc]; [left; auto|right; intros; eapply Hc; eauto]).
  set (v0 := vt reg (L N1)).
  assert (P0 : posm n H v0) by (apply (loop_vt_pos n H A M (spec_w H w) reg rm tau thr); auto).
  destruct (it_gap_sum n H A M (spec_w H w) reg rm Hn Hr Hm HA Hw v0 P0) as (C & HC).
  destruct (summable_cv _ C ltac:(intros; apply (it_gap_nonneg n H A M (spec_w H w) reg rm Hn Hr Hm HA Hw v0); auto) HC eps He) as (N0 & HN).
  exists (N1 + S (S N0))%nat. intros N HNN. exists (L N).
  assert (E : exists k, (N0 <= k)%nat /\ N = (N1 + S (S k))%nat) by (exists (N - N1 - 2)%nat; lia). destruct E as (k & Hk & ->).
  specialize (HN k Hk). pose proof (it_good n H A M (spec_w H w) reg rm Hn Hr Hm HA Hw v0 (S k) P0) as G.
  exists (ub_plan M reg (itu n H A M (spec_w H w) reg rm v0 (S (S k))) (it n H A M (spec_w H w) reg rm v0 (S (S k)))).
  assert (Q : forall j, (j < n)%nat -> ss_q (L (N1 + S (S k))%nat) j = itq n H A M (spec_w H w) reg rm v0 (S (S k)) j).
  { intros j Hj. exact (loop_calm_q n H A M (spec_w H w) reg rm tau thr Hn Hr Hm HA Hw Ht N1 Hc' (S k) j Hj). }
  split; [apply St|]. pose proof (good_admissible n H A M (spec_w H w) reg rm HA _ _ _ _ G) as [Ad1 Ad2].
  split.
  - split; [intros j Hj; rewrite Q by auto; apply Ad1; auto|]. intros h Hh. destruct (Ad2 h Hh) as (B1 & B2 & B3). split; [|split]; auto.
    intros i j Hi Hj. rewrite Q by auto. apply B3; auto.
  - intros q' P' Ad. pose proof (good_bracket n H A M (spec_w H w) reg rm Hn Hr Hm HA Hw _ _ _ _ q' P' G Ad) as B.
    replace (ub_obj n H A M (spec_w H w) reg rm (ss_q (L (N1 + S (S k))%nat)) (ub_plan M reg (itu n H A M (spec_w H w) reg rm v0 (S (S k))) (it n H A M (spec_w H w) reg rm v0 (S (S k)))))
      with (ub_obj n H A M (spec_w H w) reg rm (itq n H A M (spec_w H w) reg rm v0 (S (S k))) (ub_plan M reg (itu n H A M (spec_w H w) reg rm v0 (S (S k))) (it n H A M (spec_w H w) reg rm v0 (S (S k))))); [lra|].
    unfold ub_obj. apply rsum_ext; intros h Hh. f_equal. unfold uot_obj, penalty. f_equal. f_equal. apply rsum_ext; intros j Hj. rewrite Q by auto. reflexivity.
Qed.
Print Assumptions C147_stab_converges.

(** errors, for every arithmetic *)
Theorem C147_errors : forall (N : NumOps) (ex lg : N -> N) (pw : N -> N -> N) (bad : N -> bool) n H A M reg reg_m l x tau guard it thr log,
  (l <> H -> barycenter_unbalanced_sinkhorn ex pw bad n H A M reg reg_m (Some (l, x)) it thr log = UbAssert /\
             barycenter_unbalanced_stabilized ex lg pw bad n H A M reg reg_m (Some (l, x)) tau guard it thr log = UbsAssert) /\
  (barycenter_unbalanced_sinkhorn ex pw bad n H A M reg reg_m None 0 thr true = UbUnbound /\
   barycenter_unbalanced_stabilized ex lg pw bad n H A M reg reg_m None tau guard 0 thr true = UbsUnbound) /\
  (exists s s', barycenter_unbalanced_sinkhorn ex pw bad n H A M reg reg_m None 0 thr false = UbOk s /\ st_q s = (fun _ => n1) /\
     barycenter_unbalanced_stabilized ex lg pw bad n H A M reg reg_m None tau guard 0 thr false = UbsOk s' /\ ss_q s' = (fun _ => ndiv n1 (nofnat n))) /\
  (forall w, barycenter_unbalanced ex lg pw bad n H "sinkhorn" A M reg reg_m w tau guard it thr log = plain_any (barycenter_unbalanced_sinkhorn ex pw bad n H A M reg reg_m w it thr log) /\
     barycenter_unbalanced ex lg pw bad n H "sinkhorn_reg_scaling" A M reg reg_m w tau guard it thr log = plain_any (barycenter_unbalanced_sinkhorn ex pw bad n H A M reg reg_m w it thr log) /\
     barycenter_unbalanced ex lg pw bad n H "sinkhorn_translation_invariant" A M reg reg_m w tau guard it thr log = plain_any (barycenter_unbalanced_sinkhorn ex pw bad n H A M reg reg_m w it thr log) /\
     barycenter_unbalanced ex lg pw bad n H "sinkhorn_stabilized" A M reg reg_m w tau guard it thr log = stab_any (barycenter_unbalanced_stabilized ex lg pw bad n H A M reg reg_m w tau guard it thr log)) /\
  (forall w name, name <> "sinkhorn"%string -> name <> "sinkhorn_stabilized"%string -> name <> "sinkhorn_reg_scaling"%string -> name <> "sinkhorn_translation_invariant"%string ->
     barycenter_unbalanced ex lg pw bad n H name A M reg reg_m w tau guard it thr log = AnyUnknown).
Proof.
  intros. split; [|split; [|split; [|split]]].
  - intros Hl. apply Nat.eqb_neq in Hl. unfold barycenter_unbalanced_sinkhorn, barycenter_unbalanced_stabilized, ub_weights. rewrite Hl. auto.
  - split; reflexivity.
  - eexists; eexists. repeat split.
  - intros w. repeat split.
  - intros w name H1 H2 H3 H4. unfold barycenter_unbalanced. apply String.eqb_neq in H1, H2, H3, H4. rewrite H1, H2, H3, H4. reflexivity.
Qed.
Print Assumptions C147_errors.

(** Failures and stopping, for every arithmetic.  The scalings returned by 'sinkhorn' never hold a NaN or an infinity;
    the histogram returned by 'sinkhorn_stabilized' is the start or comes from an iteration whose u had none.  A run
    that ends before numItermax ended on such a failure, or on an error below stopThr: after iteration 10 ('sinkhorn'),
    at an iteration number divisible by 10 ('sinkhorn_stabilized'). *)
Theorem C147_exit : forall (N : NumOps) (ex lg : N -> N) (pw : N -> N -> N) (bad : N -> bool) n H A M reg reg_m w tau guard it thr log,
  bad n1 = false ->
  (forall s, barycenter_unbalanced_sinkhorn ex pw bad n H A M reg reg_m w it thr log = UbOk s ->
     finite bad n H (st_u s) /\ finite bad n H (st_v s) /\
     (it <> 0%nat -> exists k, st_i s = Some k /\ (k < it)%nat /\ (S k = it \/ st_numerr s = true \/ (nltb (st_err s) thr = true /\ (10 < k)%nat)))) /\
  (forall s, barycenter_unbalanced_stabilized ex lg pw bad n H A M reg reg_m w tau guard it thr log = UbsOk s ->
     (ss_q s = (fun _ => ndiv n1 (nofnat n)) \/ exists s' w', ss_q s = ss_newq ex pw n H w' reg reg_m s' (ss_newu ex pw n A reg reg_m guard s') /\ finite bad n H (ss_newu ex pw n A reg reg_m guard s')) /\
     (it <> 0%nat -> exists k, ss_i s = Some k /\ (k < it)%nat /\
        (S k = it \/ (exists Ktu, ub_bad bad n H Ktu (ss_u s) (ss_v s) = true) \/ (nltb (ss_err s) thr = true /\ Nat.modulo k 10 = 0%nat)))).
Proof.
  intros N ex lg pw bad n H A M reg reg_m w tau guard it thr log B. split; intros s E.
  - unfold barycenter_unbalanced_sinkhorn in E. destruct (ub_weights H w) as [w0|]; [|discriminate]. cbv zeta in E. unfold ub_return in E.
    set (s0 := UbState (fun _ _ => n1) (fun _ _ => n1) (fun _ => n1) [] None n1 false) in E.
    destruct (plain_exit pw bad n H A (ub_kernel ex M reg) w0 (ndiv reg_m (nadd reg_m reg)) thr it 0 s0) as (R1 & R2 & R3); [intros i h _ _; exact B|intros i h _ _; exact B|].
    assert (E' : s = ub_loop pw bad n H A (ub_kernel ex M reg) w0 (ndiv reg_m (nadd reg_m reg)) thr it 0 s0) by (destruct log; [destruct (st_i _); [|discriminate]|]; inversion E; reflexivity).
    rewrite E'. split; [exact R1|]. split; [exact R2|]. intros Hi. destruct (R3 Hi) as (k & K1 & K2 & K3). exists k. split; [exact K1|]. split; [lia|exact K3].
  - unfold barycenter_unbalanced_stabilized in E. destruct (ub_weights H w) as [w0|]; [|discriminate]. cbv zeta in E.
    destruct (stab_exit ex lg pw bad n H A M w0 reg reg_m tau guard thr it 0 (ss_init ex n M reg)) as (R1 & R2).
    assert (E' : s = ss_loop ex lg pw bad n H A M w0 reg reg_m tau guard thr it 0 (ss_init ex n M reg)) by (destruct log; [destruct (ss_i _); [|discriminate]|]; inversion E; reflexivity).
    rewrite E'. split.
    + destruct R1 as [R1|(s' & R1)]; [left; exact R1|right]. exists s', w0. exact R1.
    + intros Hi. destruct (R2 Hi) as (k & K1 & K2 & K3). exists k. split; [exact K1|]. split; [lia|exact K3].
Qed.
Print Assumptions C147_exit.

(** ** boundary: a threshold below 1 makes every iteration absorb, and with several histograms the run then settles on
    something else than the barycenter: masses 2 and 54 on one point, reg = reg_m = 1; the barycenter is 4 *)
Definition rA : mat := fun _ h => if (h =? 0)%nat then 2 else 54.
Definition rM : mat := fun _ _ => 0.
Definition rw : vec := fun _ => / INR 2.
Lemma r_input : ub_input 1 2 rA None 1 1.
Proof.
  repeat split; try lia; try lra.
  - intros i h _ _. unfold rA. destruct (h =? 0)%nat; lra.
  - intros h _. exists 0%nat. split; [lia|]. unfold rA. destruct (h =? 0)%nat; lra.
  - intros h _. cbn. lra.
  - cbn. field.
Qed.
Definition r27 : R := sqrt (sqrt 27).
Lemma r27_4 : r27 * r27 * (r27 * r27) = 27 /\ 0 < r27.
Proof.
  unfold r27. assert (0 < sqrt 27) by (apply sqrt_lt_R0; lra). split; [|apply sqrt_lt_R0; auto]. rewrite !sqrt_sqrt by lra. reflexivity.
Qed.
Lemma half_rpow : forall x y, 0 < y -> x = y * y -> rpow x (1 / (1 + 1)) = y.
Proof.
  intros x y Hy ->. rewrite rpow_pos_eq by nra. replace (1 / (1 + 1)) with (/ 2) by lra. rewrite Rpower_sqrt by nra. apply sqrt_square. lra.
Qed.
Lemma two_rpow : forall x, 0 < x -> rpow x (1 / (1 - 1 / (1 + 1))) = x * x.
Proof.
  intros x Hx. rewrite rpow_pos_eq by auto. replace (1 / (1 - 1 / (1 + 1))) with (INR 2) by (cbn; field). rewrite Rpower_pow by auto. ring.
Qed.
(** one iteration in the true variables from a common scaling x = y^2: z = (2/x)^(1/4) *)
Lemma r_step : forall (v0 : mat) z, 0 < z -> (forall h, (h < 2)%nat -> 0 < v0 0%nat h /\ 2 / v0 0%nat h = z * z * (z * z)) ->
  us 1 rA rM 1 1 v0 0%nat 0%nat = z * z /\ us 1 rA rM 1 1 v0 0%nat 1%nat = z * z * (r27 * r27) /\
  qs 1 2 rM rw 1 1 (us 1 rA rM 1 1 v0) 0%nat = (z * (1 + r27) / 2) * (z * (1 + r27) / 2) /\
  vs 1 rM 1 1 (us 1 rA rM 1 1 v0) (qs 1 2 rM rw 1 1 (us 1 rA rM 1 1 v0)) 0%nat 0%nat = (1 + r27) / 2 /\
  vs 1 rM 1 1 (us 1 rA rM 1 1 v0) (qs 1 2 rM rw 1 1 (us 1 rA rM 1 1 v0)) 0%nat 1%nat = (1 + r27) / 2 / r27.
Proof.
  intros v0 z Hz Hv. destruct r27_4 as [R4 Rp]. set (t := r27) in *.
  assert (E0 : exp (- rM 0%nat 0%nat / 1) = 1) by (unfold rM; replace (- 0 / 1) with 0 by field; apply exp_0).
  assert (U0 : us 1 rA rM 1 1 v0 0%nat 0%nat = z * z).
  { unfold us. cbn [rsum]. rewrite E0. apply half_rpow; [nra|]. destruct (Hv 0%nat ltac:(lia)) as [V1 V2]. rewrite <- V2. unfold rA. cbn [Nat.eqb]. field. lra. }
  assert (U1 : us 1 rA rM 1 1 v0 0%nat 1%nat = z * z * (t * t)).
  { unfold us. cbn [rsum]. rewrite E0. apply half_rpow; [nra|]. destruct (Hv 1%nat ltac:(lia)) as [V1 V2].
    replace (z * z * (t * t) * (z * z * (t * t))) with (z * z * (z * z) * (t * t * (t * t))) by ring. rewrite <- V2, R4. unfold rA. cbn [Nat.eqb]. field. lra. }
  assert (Q : qs 1 2 rM rw 1 1 (us 1 rA rM 1 1 v0) 0%nat = (z * (1 + t) / 2) * (z * (1 + t) / 2)).
  { unfold qs. cbn [rsum]. rewrite E0, U0, U1, !Rmult_1_l, !Rplus_0_l. replace (1 - 1 / (1 + 1)) with (1 / (1 + 1)) at 1 2 by field.
    rewrite (half_rpow (z * z) z), (half_rpow (z * z * (t * t)) (z * t)) by (try ring; nra).
    unfold rw. cbn [INR]. replace (z * / (1 + 1) + z * t * / (1 + 1)) with (z * (1 + t) / 2) by field. rewrite two_rpow by nra. reflexivity. }
  split; [exact U0|]. split; [exact U1|]. split; [exact Q|]. unfold vs. cbn [rsum]. rewrite E0, Q, U0, U1. split.
  - apply half_rpow; [lra|]. field. lra.
  - apply half_rpow; [apply Rdiv_lt_0_compat; lra|]. field. lra.
Qed.

(** the exact barycenter *)
Definition ru : mat := fun _ h => if (h =? 0)%nat then 1 else 9.
Definition rv : mat := fun _ h => if (h =? 0)%nat then 2 else 2 / 3.
Lemma inv_pow : forall x, 0 < x -> Rpower x (- (1 / 1)) = / x.
Proof. intros x Hx. rewrite Rpower_Ropp. replace (1 / 1) with 1 by field. rewrite Rpower_1 by auto. reflexivity. Qed.
Lemma r_good : good 1 2 rA rM rw 1 1 rv ru rv (fun _ => 4).
Proof.
  assert (E0 : forall j, exp (- rM 0%nat j / 1) = 1) by (intros j; unfold rM; replace (- 0 / 1) with 0 by field; apply exp_0).
  constructor.
  - intros j h _ _. unfold rv. destruct (h =? 0)%nat; lra.
  - intros i h _ _. unfold rA. destruct (h =? 0)%nat; lra.
  - intros i h _ _ _. unfold ru. destruct (h =? 0)%nat; lra.
  - intros i h Hi Hh. replace i with 0%nat by lia. cbn [rsum]. rewrite E0. unfold ru, rA, rv. destruct (h =? 0)%nat; rewrite inv_pow by lra; field.
  - intros j h _ _. unfold rv. destruct (h =? 0)%nat; lra.
  - intros j h Hj Hh. replace j with 0%nat by lia. cbn [rsum]. rewrite E0. unfold ru, rv. destruct (h =? 0)%nat; rewrite inv_pow by lra; field.
  - intros j Hj. cbn [rsum]. unfold rv, rw. cbn [Nat.eqb INR]. rewrite !inv_pow by lra. field.
  - intros; lra.
Qed.
Lemma r_gap : ub_gap 1 2 rA rM rw 1 1 ru rv = 0.
Proof.
  assert (E0 : exp (- rM 0%nat 0%nat / 1) = 1) by (unfold rM; replace (- 0 / 1) with 0 by field; apply exp_0).
  unfold ub_gap. cbn [rsum]. unfold row_sum, ub_plan. cbn [rsum]. rewrite E0. unfold ru, rv, rA. cbn [Nat.eqb]. rewrite !inv_pow by lra.
  assert (Z : forall x, 0 < x -> gkl x x = 0) by (intros x Hx; unfold gkl; replace (x / x) with 1 by (field; lra); rewrite ln_1; ring).
  replace (0 + 1 * 1 * 2) with 2 by ring. replace (2 * / 1) with 2 by field. replace (0 + 9 * 1 * (2 / 3)) with 6 by field. replace (54 * / 9) with 6 by field.
  rewrite !Z by lra. ring.
Qed.

(** the absorbing run *)
Notation rS := (ub_stab (N:=RNum)).
Definition r_inv (s : rS) : Prop := inv 1 2 rM 1 s /\ exp (ss_al s 0%nat / 1) * exp (ss_al s 0%nat / 1) <= 54 /\
  exists z, 0 < z /\ 4 / (1 + r27) <= z * z * (z * z) <= 2 /\ forall h, (h < 2)%nat -> 0 < vt 1 s 0%nat h /\ 2 / vt 1 s 0%nat h = z * z * (z * z).
Definition r_fix (s : rS) : Prop := forall h, (h < 2)%nat -> vt 1 s 0%nat h = (1 + r27) / 2.
Definition r_c : R := sqrt (4 * ((1 + r27) / 4 * ((1 + r27) / 2) * (1 + r27) / 2)).
Lemma r27_bounds : 2 < r27 < 3.
Proof. destruct r27_4 as [E P]. split; apply Rnot_le_lt; intros L.
  - assert (r27 * r27 <= 4) by nra. nra.
  - assert (9 <= r27 * r27) by nra. nra.
Qed.
Lemma r_simplex : ub_simplex 2 rw. Proof. exact (proj1 (proj2 (proj2 (proj2 r_input)))). Qed.
Lemma r_nxt : forall i s, r_inv s -> let s' := nxt 1 2 rA rM rw 1 1 (1 / 2) i s in r_inv s' /\ r_fix s' /\ (r_fix s -> ss_q s' 0%nat = r_c).
Proof.
  intros i s (I & Ha & z & Hz & [Z1 Z2] & Hv) s'. pose proof r27_bounds as Bt. destruct r27_4 as [R4 Rp].
  destruct r_input as (Hn & HA & _ & _ & _ & _). pose proof r_simplex as Hw.
  destruct (r_step (vt 1 s) z Hz Hv) as (U0 & U1 & Q & V0 & V1).
  pose proof (nxt_inv 1 2 rA rM rw 1 1 (1 / 2) Hn Rlt_0_1 Rlt_0_1 HA Hw i s I) as I'. fold s' in I'.
  pose proof (nxt_after 1 2 rA rM rw 1 1 (1 / 2) Hn Rlt_0_1 Rlt_0_1 HA Hw i s I) as [_ Aq _ _]. fold s' in Aq.
  set (nu := ss_newu (N:=RNum) exp rpow 1 rA 1 1 0 s). set (nq := ss_newq (N:=RNum) exp rpow 1 2 rw 1 1 s nu). set (nv := ss_newv (N:=RNum) exp rpow 1 1 1 0 s nu nq).
  set (E := exp (ss_al s 0%nat / 1)) in *. assert (Ep : 0 < E) by apply exp_pos.
  assert (N0 : nu 0%nat 0%nat * E = z * z) by (rewrite <- U0; apply (newu_true 1 2 rA rM 1 1); auto; lra).
  assert (N1 : nu 0%nat 1%nat * E = z * z * (r27 * r27)) by (rewrite <- U1; apply (newu_true 1 2 rA rM 1 1); auto; lra).
  assert (NV : forall h, (h < 2)%nat -> nv 0%nat h * exp (ss_be s 0%nat / 1) = vs 1 rM 1 1 (us 1 rA rM 1 1 (vt 1 s)) (qs 1 2 rM rw 1 1 (us 1 rA rM 1 1 (vt 1 s))) 0%nat h)
    by (intros h Hh; apply (nxt_newv 1 2 rA rM rw 1 1); auto; lra).
  assert (NVp : posm 1 2 nv) by (apply (newv_pos 1 2 rA rM rw 1 1); auto; lra).
  change (carrier RNum) with R in *.
  assert (Big : 1 / 2 < nu 0%nat 1%nat).
  { assert (Z3 : 1 <= z * z * (z * z)).
    { apply Rle_trans with (4 / (1 + r27)); auto. apply (Rmult_le_reg_r (1 + r27)); [lra|]. unfold Rdiv. rewrite Rmult_assoc, Rinv_l by lra. lra. }
    apply Rnot_le_lt. intros L. assert (L2 : nu 0%nat 1%nat * E <= 1 / 2 * E) by (apply Rmult_le_compat_r; lra). rewrite N1 in L2.
    assert (0 < z * z * (r27 * r27)) by (repeat apply Rmult_lt_0_compat; lra).
    assert (z * z * (r27 * r27) * (z * z * (r27 * r27)) <= 1 / 2 * E * (1 / 2 * E)) by (apply Rmult_le_compat; lra).
    replace (z * z * (r27 * r27) * (z * z * (r27 * r27))) with (z * z * (z * z) * (r27 * r27 * (r27 * r27))) in * by ring. rewrite R4 in *. lra. }
  assert (Ab : ss_absorbed s' = true /\ ss_al s' 0%nat = ss_al s 0%nat + 1 * ln (nmaxk (N:=RNum) 1 (nu 0%nat))).
  { unfold s', nxt, absorb. fold nu. fold nq. fold nv.
    replace (any2 1 2 (fun i h => nltb (n:=RNum) (1 / 2) (nu i h))) with true; [split; reflexivity|].
    symmetry. unfold any2. cbn [any]. replace (nltb (n:=RNum) (1 / 2) (nu 0%nat 1%nat)) with true by (symmetry; apply Rltb_true; exact Big).
    rewrite !orb_true_r. reflexivity. }
  destruct Ab as [Ab Al].
  assert (VT : forall h, (h < 2)%nat -> vt 1 s' 0%nat h = (1 + r27) / 2).
  { intros h Hh. pose proof (absorb_vt 1 2 rA rM rw 1 1 (1 / 2) 0 Hn Rlt_0_1 HA Hw s nu nv nq i 0%nat h NVp ltac:(lia) Hh) as AV.
    change (absorb (N:=RNum) exp ln 1 2 rM 1 (1 / 2) s nu nv nq i) with s' in AV. rewrite Ab in AV.
    etransitivity; [exact AV|]. clear AV. cbn [Nat.sub nmaxk]. rewrite nmax_R.
    pose proof (NV 0%nat ltac:(lia)) as X0. pose proof (NV 1%nat ltac:(lia)) as X1. rewrite V0 in X0. rewrite V1 in X1.
    pose proof (exp_pos (ss_be s 0%nat / 1)) as Eb.
    rewrite Rmax_left; [exact X0|]. apply (Rmult_le_reg_r (exp (ss_be s 0%nat / 1))); auto. rewrite X0, X1.
    apply (Rmult_le_reg_r r27); [lra|]. replace ((1 + r27) / 2 / r27 * r27) with ((1 + r27) / 2) by (field; lra). nra. }
  assert (Ml : ss_al s' 0%nat / 1 = ss_al s 0%nat / 1 + ln (nu 0%nat 1%nat)).
  { rewrite Al. cbn [nmaxk]. rewrite nmax_R, Rmax_right; [field|]. apply (Rmult_le_reg_r E); auto. rewrite N0, N1.
    assert (1 <= r27 * r27) by nra. assert (0 < z * z) by nra. nra. }
  split; [|split; [exact VT|]].
  - split; [exact I'|]. split.
    + rewrite Ml, exp_plus, exp_ln by lra. fold E. rewrite (Rmult_comm E), N1.
      replace (z * z * (r27 * r27) * (z * z * (r27 * r27))) with (z * z * (z * z) * (r27 * r27 * (r27 * r27))) by ring. rewrite R4. lra.
    + assert (F : 0 < 4 / (1 + r27)) by (apply Rdiv_lt_0_compat; lra).
      exists (sqrt (sqrt (4 / (1 + r27)))). assert (0 < sqrt (4 / (1 + r27))) by (apply sqrt_lt_R0; auto).
      split; [apply sqrt_lt_R0; auto|]. rewrite !sqrt_sqrt by lra. split.
      * split; [lra|]. apply (Rmult_le_reg_r (1 + r27)); [lra|]. unfold Rdiv. rewrite Rmult_assoc, Rinv_l by lra. lra.
      * intros h Hh. rewrite VT by auto. split; [lra|]. field. lra.
  - intros F. rewrite Aq, Q. unfold r_c.
    assert (Zf : z * z * (z * z) = 4 / (1 + r27)) by (destruct (Hv 0%nat ltac:(lia)) as [_ X]; rewrite F in X by lia; rewrite <- X; field; lra).
    set (qq := z * (1 + r27) / 2 * (z * (1 + r27) / 2)).
    assert (0 <= qq) by (unfold qq; apply Rle_0_sqr).
    replace (4 * ((1 + r27) / 4 * ((1 + r27) / 2) * (1 + r27) / 2)) with (qq * qq); [symmetry; apply sqrt_square; auto|].
    unfold qq. replace (z * (1 + r27) / 2 * (z * (1 + r27) / 2) * (z * (1 + r27) / 2 * (z * (1 + r27) / 2)))
      with (z * z * (z * z) * ((1 + r27) * (1 + r27) * ((1 + r27) * (1 + r27))) / 16) by field. rewrite Zf. field. lra.
Qed.
Lemma r_c_neq : r_c <> 4.
Proof.
  intros E. pose proof r27_bounds as B. destruct r27_4 as [R4 Rp]. unfold r_c in E.
  set (x := 4 * ((1 + r27) / 4 * ((1 + r27) / 2) * (1 + r27) / 2)) in *.
  assert (Hx : 0 <= x) by (unfold x; repeat apply Rmult_le_pos; lra).
  assert (X : x = 16) by (rewrite <- (sqrt_sqrt x Hx), E; ring). unfold x in X.
  assert (C : (1 + r27) * (1 + r27) * (1 + r27) = 64) by lra.
  assert ((1 + r27) * (1 + r27) < 16) by nra. nra.
Qed.
Lemma r_init : r_inv (ss_init (N:=RNum) exp 1 rM 1).
Proof.
  split; [apply init_inv; lia|]. unfold ss_init, vt. cbn [ss_al ss_v ss_be n0 RNum]. replace (0 / 1) with 0 by field. rewrite exp_0. split; [lra|].
  pose proof r27_bounds as B. exists (sqrt (sqrt 2)). assert (0 < sqrt 2) by (apply sqrt_lt_R0; lra). split; [apply sqrt_lt_R0; auto|].
  rewrite !sqrt_sqrt by lra. split.
  - split; [|lra]. apply (Rmult_le_reg_r (1 + r27)); [lra|]. unfold Rdiv. rewrite Rmult_assoc, Rinv_l by lra. lra.
  - intros h Hh. cbn. split; [lra|field].
Qed.
Lemma r_loop : forall N i s, r_inv s -> r_fix s -> (0 < N)%nat \/ ss_q s 0%nat = r_c ->
  ss_q (ss_loop (N:=RNum) exp ln rpow (fun _ => false) 1 2 rA rM rw 1 1 (1 / 2) 0 0 N i s) 0%nat = r_c.
Proof.
  induction N as [|N IH]; intros i s Hi Hf Hq; [destruct Hq as [Hq|Hq]; [lia|exact Hq]|].
  destruct r_input as (Hn & HA & _ & _ & _ & _).
  destruct (loop_cut 1 2 rA rM rw 1 1 (1 / 2) 0 Hn Rlt_0_1 Rlt_0_1 HA r_simplex (Rle_refl 0) i s (proj1 Hi)) as (s' & Hs' & E). rewrite E.
  destruct (r_nxt i s Hi) as (J1 & J2 & J3). specialize (J3 Hf).
  apply IH; [| |right]; destruct Hs' as [-> |(e & ->)]; auto.
  destruct J1 as (K1 & K2). split; auto. apply with_err_inv; auto.
Qed.
Theorem C147_tau_refuted : exists A M q P, ub_input 1 2 A None 1 1 /\ ub_admissible 1 2 A q P /\
  (forall q' P', ub_admissible 1 2 A q' P' -> ub_obj 1 2 A M (spec_w 2 None) 1 1 q P <= ub_obj 1 2 A M (spec_w 2 None) 1 1 q' P') /\
  exists c, c <> q 0%nat /\ forall N, (2 <= N)%nat -> exists s, stab 1 2 A M 1 1 None (1 / 2) 0 N 0 false = UbsOk s /\ ss_q s 0%nat = c /\
    forall P', ub_admissible 1 2 A (ss_q s) P' -> ub_obj 1 2 A M (spec_w 2 None) 1 1 q P < ub_obj 1 2 A M (spec_w 2 None) 1 1 (ss_q s) P'.
Proof.
  pose proof r_input as RI. destruct RI as (Hn & HA & _ & _ & _ & _).
  destruct (good_certified 1 2 rA rM rw 1 1 rv ru rv (fun _ => 4) Hn Rlt_0_1 Rlt_0_1 HA r_simplex r_good) as (_ & Ad & _ & _ & Br & Un).
  exists rA, rM, (fun _ => 4), (ub_plan rM 1 ru rv). split; [exact r_input|]. split; [exact Ad|].
  split; [intros q' P' Ad'; pose proof (Br q' P' Ad') as X; rewrite r_gap in X; change (spec_w 2 None) with rw; lra|].
  exists r_c. split; [apply r_c_neq|]. intros N HN.
  set (s := ss_loop (N:=RNum) exp ln rpow (fun _ => false) 1 2 rA rM rw 1 1 (1 / 2) 0 0 N 0 (ss_init (N:=RNum) exp 1 rM 1)).
  assert (Sq : ss_q s 0%nat = r_c).
  { unfold s. destruct N as [|N]; [lia|].
    destruct (loop_cut 1 2 rA rM rw 1 1 (1 / 2) 0 Hn Rlt_0_1 Rlt_0_1 HA r_simplex (Rle_refl 0) 0 _ (proj1 r_init)) as (s' & Hs' & E). rewrite E.
    destruct (r_nxt 0 _ r_init) as (J1 & J2 & _). apply r_loop; [| |left; lia]; destruct Hs' as [-> |(e & ->)]; auto.
    destruct J1 as (K1 & K2). split; auto. apply with_err_inv; auto. }
  exists s. split; [|split; [exact Sq|]].
  - unfold stab, barycenter_unbalanced_stabilized. rewrite weights_link by exact I. reflexivity.
  - intros P' Ad'. change (spec_w 2 None) with rw. apply Rnot_le_lt. intros L. destruct (Un r_gap _ _ Ad' L) as [Q _].
    specialize (Q 0%nat ltac:(lia)). change (carrier RNum) with R in *. rewrite Sq in Q. apply r_c_neq. exact Q.
Qed.
Print Assumptions C147_tau_refuted.

(** ** a concrete case: three histograms on four points, one of them a single point, unequal weights *)
Definition exA : mat := fun i h => match h with 0%nat => if (i =? 2)%nat then 5 else 0 | 1%nat => INR (S i) | _ => 1 / 2 end.
Example C147_ex : ub_input 4 3 exA (Some (3%nat, fun h => match h with 0%nat => 1 / 2 | 1%nat => 0 | _ => 1 / 2 end)) (1 / 10) 7.
Proof.
  repeat split; try lia; try lra.
  - intros i h _ _. unfold exA. destruct h as [|[|h]]; [destruct (i =? 2)%nat; lra|apply pos_INR|lra].
  - intros h _. exists 2%nat. split; [lia|]. unfold exA. destruct h as [|[|h]]; cbn; lra.
  - intros h _. cbn. destruct h as [|[|h]]; lra.
  - cbn. lra.
Qed.
