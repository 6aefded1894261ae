(** The model of the unbalanced barycenters at the reals is the iteration of Ubary_proofs.v. *)
From Coq Require Import List Arith Bool Reals Lra Lia FunctionalExtensionality.
From Verif Require Import Num Sums Spec Duals_proofs Emd1d_perm_proofs Entropy Monge Wp Bary_loops Unb_proofs Uot1d_uot
  Sinkhorn_model Emd1d_model Unb_model Ubary_model Ubary_proofs Ubary_conv.
Import ListNotations.
Local Open Scope R_scope.

(** specification of the weights argument *)
Definition spec_w (H : nat) (w : option (nat * vec)) : vec := match w with None => fun _ => / INR H | Some (_, x) => x end.
Definition len_ok (H : nat) (w : option (nat * vec)) : Prop := match w with None => True | Some (l, _) => l = H end.
Lemma weights_link : forall H w, len_ok H w -> ub_weights (N:=RNum) H w = Some (spec_w H w).
Proof.
  intros H [[l x]|] L; cbn in *; [rewrite L, Nat.eqb_refl; auto|].
  f_equal. apply functional_extensionality; intros _. rewrite nofnat_INR. unfold Rdiv. ring.
Qed.

Section Link.
Variables (n H : nat) (A M : mat) (w : vec) (reg rm : R).
Let f : R := rm / (rm + reg).
Let K : mat := ub_kernel (N:=RNum) exp M reg.
Lemma K_link : K = fun i j => exp (- M i j / reg).
Proof. unfold K, ub_kernel. apply functional_extensionality; intros i. apply functional_extensionality; intros j. cbn. f_equal. unfold Rdiv. ring. Qed.
Lemma u_link : forall v, ub_u (N:=RNum) rpow n A K f v = us n A M reg rm v.
Proof.
  intros v. apply functional_extensionality; intros i. apply functional_extensionality; intros h. unfold ub_u, us, ub_Kv. cbn [ndiv RNum].
  rewrite nsum_R, K_link. reflexivity.
Qed.
Lemma ktu_link : forall u j h, ub_Ktu (N:=RNum) n K u j h = rsum n (fun i => exp (- M i j / reg) * u i h).
Proof. intros. unfold ub_Ktu. rewrite nsum_R, K_link. reflexivity. Qed.
Lemma q_link : forall u, ub_q (N:=RNum) rpow n H K w f u = qs n H M w reg rm u.
Proof.
  intros u. apply functional_extensionality; intros j. unfold ub_q, qs. cbn [ndiv nsub nmul n1 RNum]. rewrite nsum_R.
  f_equal. apply rsum_ext; intros h Hh. rewrite ktu_link. reflexivity.
Qed.
Lemma v_link : forall u q, ub_v (N:=RNum) rpow n K f u q = vs n M reg rm u q.
Proof.
  intros u q. apply functional_extensionality; intros j. apply functional_extensionality; intros h. unfold ub_v, vs. cbn [ndiv RNum].
  rewrite ktu_link. reflexivity.
Qed.

(** the iterates *)
Fixpoint it (v0 : mat) (k : nat) : mat := match k with O => v0 | S k' => let u := us n A M reg rm (it v0 k') in vs n M reg rm u (qs n H M w reg rm u) end.
Definition itu (v0 : mat) (k : nat) : mat := us n A M reg rm (it v0 (k - 1)).
Definition itq (v0 : mat) (k : nat) : vec := qs n H M w reg rm (itu v0 k).

Hypotheses (Hn : (0 < n)%nat) (Hreg : 0 < reg) (Hrm : 0 < rm) (HA : ub_data n H A) (Hw : ub_simplex H w).
Lemma it_good : forall v0 k, posm n H v0 -> good n H A M w reg rm (it v0 k) (itu v0 (S k)) (it v0 (S k)) (itq v0 (S k)).
Proof.
  intros v0 k P. unfold itq, itu. replace (S k - 1)%nat with k by lia.
  assert (Pk : posm n H (it v0 k)).
  { induction k; auto. cbn [it]. exact (g_v1 _ _ _ _ _ _ _ _ _ _ _ (step_good n H A M w reg rm Hn Hreg Hrm HA Hw (it v0 k) IHk)). }
  cbn [it]. apply step_good; auto.
Qed.

Lemma any_false : forall k p, (forall i, (i < k)%nat -> p i = false) -> any k p = false.
Proof. induction k; cbn; intros p Hp; auto. rewrite IHk, Hp by (intros; auto; try apply Hp; lia). auto. Qed.
Lemma any_true : forall k p i, (i < k)%nat -> p i = true -> any k p = true.
Proof.
  induction k; intros p i Hi Hp; [lia|]. cbn. destruct (Nat.eq_dec i k) as [-> |]; [rewrite Hp; apply orb_true_r|].
  rewrite (IHk p i) by (auto; lia). auto.
Qed.
Lemma nobad : forall v0 u v q, good n H A M w reg rm v0 u v q -> ub_bad (N:=RNum) (fun _ => false) n H (ub_Ktu (N:=RNum) n K u) u v = false.
Proof.
  intros v0 u v q G. unfold ub_bad, any2.
  assert (F : any n (fun i => any H (fun h => false)) = false) by (apply any_false; intros; apply any_false; auto).
  rewrite F, !orb_false_r. apply any_false; intros j Hj. apply any_false; intros h Hh. apply Reqb_false.
  rewrite ktu_link. match goal with |- ?x <> _ => change (x <> 0) end. apply Rgt_not_eq.
  pose proof (g_v _ _ _ _ _ _ _ _ _ _ _ G j h Hj Hh) as E. pose proof (g_v1 _ _ _ _ _ _ _ _ _ _ _ G j h Hj Hh) as V.
  assert (P : 0 < q j * Rpower (v j h) (- (reg / rm))) by (apply Rmult_lt_0_compat; [apply (g_q _ _ _ _ _ _ _ _ _ _ _ G); auto|apply exp_pos]).
  rewrite <- E in P. apply (Rmult_lt_reg_l (v j h)); auto. lra.
Qed.

Lemma maxk_nonneg : forall k (g : nat -> R), 0 <= nmaxk (N:=RNum) k (fun i => nabs (N:=RNum) (g i)).
Proof.
  assert (X : forall x, 0 <= nabs (N:=RNum) x).
  { intros x. unfold nabs, nopp. cbn. destruct (Rltb x 0) eqn:E; [apply Rltb_true in E; lra|apply Rltb_false in E; lra]. }
  induction k; intros g; cbn [nmaxk]; [apply X|]. unfold nmax. destruct (nltb _ _); auto.
Qed.
Lemma rel_err_nonneg : forall x y, 0 <= rel_err (N:=RNum) n x y.
Proof.
  intros x y. unfold rel_err, vmax. cbn [ndiv RNum]. apply Rle_mult_inv_pos; [apply (maxk_nonneg _ (fun i => x i - y i))|].
  unfold nmax at 1. cbn [nltb n1 RNum]. destruct (Rltb _ 1) eqn:E; [lra|]. apply Rltb_false in E. lra.
Qed.

Variable thr : R.
Let loop := ub_loop (N:=RNum) rpow (fun _ => false) n H A K w f thr.
(** the state after k iterations from v0, k counted by the loop variable *)
Record at_it (v0 : mat) (k : nat) (s : ub_state (N:=RNum)) : Prop := At {
  at_v : st_v s = it v0 k;
  at_u : (0 < k)%nat -> st_u s = itu v0 k;
  at_q : (0 < k)%nat -> st_q s = itq v0 k;
  at_i : (0 < k)%nat -> st_i s = Some (k - 1)%nat;
  at_n : (0 < k)%nat -> st_numerr s = false
}.
Lemma loop_spec : forall v0, posm n H v0 -> forall left i s, at_it v0 i s ->
  exists k, (i <= k <= i + left)%nat /\ ((0 < left)%nat -> (i < k)%nat) /\ at_it v0 k (loop left i s) /\
    (k = (i + left)%nat \/ (10 < k - 1)%nat /\ st_err (loop left i s) < thr).
Proof.
  intros v0 P. induction left as [|left IH]; intros i s Hs.
  - exists i. repeat split; try lia; auto; try apply Hs.
  - unfold loop. cbn [ub_loop]. rewrite u_link, (at_v _ _ _ Hs), q_link, v_link.
    pose proof (it_good v0 i P) as G. unfold itq, itu in G. replace (S i - 1)%nat with i in G by lia.
    change (vs n M reg rm (us n A M reg rm (it v0 i)) (qs n H M w reg rm (us n A M reg rm (it v0 i)))) with (it v0 (S i)).
    rewrite (nobad _ _ _ _ G).
    set (s' := UbState _ _ _ _ _ _ _).
    assert (Hs' : at_it v0 (S i) s').
    { constructor; cbn; auto; intros _; unfold itq, itu; replace (S i - 1)%nat with i by lia; rewrite ?Nat.sub_0_r; auto. }
    destruct (_ && _)%bool eqn:E.
    + apply andb_prop in E. destruct E as [E1 E2]. apply Rltb_true in E1. apply Nat.ltb_lt in E2.
      exists (S i). repeat split; try lia; try apply Hs'. right. split; [lia|exact E1].
    + destruct (IH (S i) s' Hs') as (k & Hk & _ & Hat & Hend). exists k. unfold loop in *. repeat split; try lia; try apply Hat.
      destruct Hend as [-> |Hend]; [left; lia|right; auto].
Qed.
Lemma loop_more : forall left d i s, loop (left + d) i s = loop left i s \/ loop (left + d) i s = loop d (i + left) (loop left i s).
Proof.
  induction left as [|left IH]; intros d i s; unfold loop in *.
  - right. rewrite Nat.add_0_r. reflexivity.
  - cbn [plus ub_loop]. destruct (ub_bad _ _ _ _ _); [left; auto|]. destruct (_ && _)%bool; [left; auto|].
    destruct (IH d (S i) (UbState (ub_u (N:=RNum) rpow n A K f (st_v s)) (ub_v (N:=RNum) rpow n K f (ub_u (N:=RNum) rpow n A K f (st_v s)) (ub_q (N:=RNum) rpow n H K w f (ub_u (N:=RNum) rpow n A K f (st_v s)))) (ub_q (N:=RNum) rpow n H K w f (ub_u (N:=RNum) rpow n A K f (st_v s)))
      (st_errs s ++ [rel_err (N:=RNum) n (ub_q (N:=RNum) rpow n H K w f (ub_u (N:=RNum) rpow n A K f (st_v s))) (st_q s)]) (Some i) (rel_err (N:=RNum) n (ub_q (N:=RNum) rpow n H K w f (ub_u (N:=RNum) rpow n A K f (st_v s))) (st_q s)) false)) as [-> | ->]; [left; auto|right].
    rewrite <- Nat.add_succ_comm. reflexivity.
Qed.
Lemma loop_all : thr <= 0 -> forall v0, posm n H v0 -> forall left i s, at_it v0 i s -> at_it v0 (i + left) (loop left i s).
Proof.
  intros Ht v0 P. induction left as [|left IH]; intros i s Hs; [rewrite Nat.add_0_r; auto|].
  unfold loop in *. cbn [ub_loop]. rewrite u_link, (at_v _ _ _ Hs), q_link, v_link.
  pose proof (it_good v0 i P) as G. unfold itq, itu in G. replace (S i - 1)%nat with i in G by lia.
  change (vs n M reg rm (us n A M reg rm (it v0 i)) (qs n H M w reg rm (us n A M reg rm (it v0 i)))) with (it v0 (S i)).
  rewrite (nobad _ _ _ _ G). set (e := rel_err _ _ _).
  replace (nltb e thr) with false. 2:{ symmetry. apply Rltb_false. pose proof (rel_err_nonneg (qs n H M w reg rm (us n A M reg rm (it v0 i))) (st_q s)). unfold e. change (carrier RNum) with R in *. lra. }
  cbn [andb]. rewrite <- Nat.add_succ_comm. apply IH. constructor; cbn; auto; intros _; unfold itq, itu; replace (S i - 1)%nat with i by lia; rewrite ?Nat.sub_0_r; auto.
Qed.

(** ** convergence of the iterates *)
Let dual := ub_dual n H A M w reg rm.
Let gap := ub_gap n H A M w reg rm.
Let obj := ub_obj n H A M w reg rm.
Lemma it_dual_mono : forall v0 k d, posm n H v0 -> dual (itu v0 (S k)) (it v0 (S k)) <= dual (itu v0 (S (k + d))) (it v0 (S (k + d))).
Proof.
  intros v0 k d P. induction d; [rewrite Nat.add_0_r; lra|]. eapply Rle_trans; [apply IHd|]. rewrite <- plus_n_Sm.
  eapply ascent_mono; eauto; [exact (it_good v0 (k + d) P)|exact (it_good v0 (S (k + d)) P)].
Qed.
Lemma good_admissible : forall v0 u v q, good n H A M w reg rm v0 u v q -> ub_admissible n H A q (ub_plan M reg u v).
Proof.
  intros v0 u v q G. split; [intros j Hj; left; apply (g_q _ _ _ _ _ _ _ _ _ _ _ G); auto|].
  intros h Hh. repeat split.
  - intros i j Hi Hj. unfold ub_plan. apply Rmult_le_pos; [apply Rmult_le_pos; [eapply u_nonneg; eauto|left; apply exp_pos]|left; apply (g_v1 _ _ _ _ _ _ _ _ _ _ _ G); auto].
  - intros i j Hi Hj Az. unfold ub_plan. rewrite (g_u0 _ _ _ _ _ _ _ _ _ _ _ G) by auto. ring.
  - intros i j Hi Hj Qz. pose proof (g_q _ _ _ _ _ _ _ _ _ _ _ G j Hj). lra.
Qed.
Lemma good_bracket : forall v0 u v q q' P, good n H A M w reg rm v0 u v q -> ub_admissible n H A q' P ->
  obj q (ub_plan M reg u v) <= obj q' P + gap u v.
Proof.
  intros v0 u v q q' P G Ad. pose proof (good_value n H A M w reg rm Hn Hreg Hrm HA Hw v0 u v q G).
  pose proof (weak n H A M w reg rm Hreg Hrm HA Hw u v q' P (good_supp n H A M w reg rm v0 u v q G) (g_v1 _ _ _ _ _ _ _ _ _ _ _ G) (g_c _ _ _ _ _ _ _ _ _ _ _ G) Ad).
  unfold obj, gap. lra.
Qed.
(** the gaps are summable *)
Lemma it_gap_sum : forall v0, posm n H v0 -> exists C, forall N, rsum N (fun k => gap (itu v0 (S (S k))) (it v0 (S (S k)))) <= C.
Proof.
  intros v0 P. set (D := fun k => dual (itu v0 (S k)) (it v0 (S k))).
  destruct (gap_ascent n H A M w reg rm Hn Hreg Hrm HA Hw (D 1%nat)) as (B & B0 & HB).
  assert (Up : forall k, D k <= obj (itq v0 1) (ub_plan M reg (itu v0 1) (it v0 1))).
  { intros k. pose proof (it_good v0 k P) as G. apply weak; auto.
    - eapply good_supp; eauto. - exact (g_v1 _ _ _ _ _ _ _ _ _ _ _ G). - exact (g_c _ _ _ _ _ _ _ _ _ _ _ G).
    - apply (good_admissible _ _ _ _ (it_good v0 0 P)). }
  assert (S1 : forall N, rsum N (fun k => gap (itu v0 (S (S k))) (it v0 (S (S k)))) <= B * (D (S N) - D 1%nat)).
  { induction N; cbn [rsum]; [lra|].
    assert (St : gap (itu v0 (S (S N))) (it v0 (S (S N))) <= B * (D (S (S N)) - D (S N))).
    { unfold D. apply (HB (it v0 (S N)) (itu v0 (S (S N))) (it v0 (S (S N))) (itq v0 (S (S N))) _ _ (itq v0 (S (S (S N))))).
      - exact (it_good v0 (S N) P).
      - exact (it_good v0 (S (S N)) P).
      - exact (g_c _ _ _ _ _ _ _ _ _ _ _ (it_good v0 N P)).
      - apply (it_dual_mono v0 1 N P). }
    change (carrier RNum) with R in *. lra. }
  exists (B * (obj (itq v0 1) (ub_plan M reg (itu v0 1) (it v0 1)) - D 1%nat)). intros N.
  eapply Rle_trans; [apply S1|]. apply Rmult_le_compat_l; auto. pose proof (Up (S N)). lra.
Qed.
Lemma it_gap_nonneg : forall v0 k, posm n H v0 -> 0 <= gap (itu v0 (S k)) (it v0 (S k)).
Proof.
  intros v0 k P. pose proof (it_good v0 k P) as G. pose proof (good_bracket _ _ _ _ _ _ G (good_admissible _ _ _ _ G)). lra.
Qed.
End Link.

(** bounded sums of non-negative terms *)
Lemma summable_cv : forall (g : nat -> R) C, (forall k, 0 <= g k) -> (forall N, rsum N g <= C) -> forall eps, 0 < eps -> exists N0, forall k, (N0 <= k)%nat -> g k <= eps.
Proof.
  intros g C G0 GC eps He. destruct (growing_cv (fun N => rsum N g)) as (l & Hl).
  - intros N. cbn. pose proof (G0 N). lra.
  - exists C. intros x (i & ->). apply GC.
  - destruct (Hl (eps / 2) ltac:(lra)) as (N0 & HN). exists N0. intros k Hk.
    pose proof (HN k ltac:(lia)) as A1. pose proof (HN (S k) ltac:(lia)) as A2. unfold R_dist in *. cbn [rsum] in A2.
    apply Rabs_def2 in A1. apply Rabs_def2 in A2. lra.
Qed.
Lemma summable_min : forall (g : nat -> R) C, (forall N, rsum N g <= C) -> forall N, (0 < N)%nat -> exists k, (k < N)%nat /\ g k <= C / INR N.
Proof.
  intros g C GC N HN.
  assert (X : (exists k, (k < N)%nat /\ g k <= C / INR N) \/ forall k, (k < N)%nat -> C / INR N < g k).
  { clear GC HN. set (e := C / INR N). clearbody e. induction N; [right; intros; lia|]. destruct IHN as [(k & Hk & L)|IH]; [left; exists k; split; auto|].
    destruct (Rle_dec (g N) e); [left; exists N; split; auto|right]. intros k Hk. destruct (Nat.eq_dec k N) as [-> |]; [lra|apply IH; lia]. }
  destruct X as [X|X]; auto. exfalso.
  assert (Ni : 0 < INR N) by (apply lt_0_INR; auto).
  assert (L : rsum N (fun _ => C / INR N) < rsum N g).
  { apply rsum_lt; [intros i Hi; left; apply X; auto|]. exists 0%nat. split; auto. }
  rewrite rsum_const in L. replace (INR N * (C / INR N)) with C in L by (field; lra). specialize (GC N). lra.
Qed.
