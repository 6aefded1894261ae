(** The stabilized unbalanced barycenter at the reals, without the 1e-16 guards: every iteration is an iteration of
    the plain algorithm in the variables u e^(alpha/reg), v e^(beta/reg). *)
From Coq Require Import List Arith Bool Reals Lra Lia FunctionalExtensionality.
From Verif Require Import Num Sums Spec Duals_proofs Emd1d_perm_proofs Entropy Monge Wp Bary_loops Unb_proofs Uot1d_uot
  Sinkhorn_model Emd1d_model Unb_model Ubary_model Ubary_proofs Ubary_conv Ubary_link.
Import ListNotations.
Local Open Scope R_scope.

Section Stab.
Variables (n H : nat) (A M : mat) (w : vec) (reg rm tau thr : R).
Hypotheses (Hn : (0 < n)%nat) (Hreg : 0 < reg) (Hrm : 0 < rm) (HA : ub_data n H A) (Hw : ub_simplex H w).
Notation state := (ub_stab (N:=RNum)).
Let f : R := rm / (rm + reg).
Notation us := (us n A M reg rm). Notation qs := (qs n H M w reg rm). Notation vs := (vs n M reg rm).
Let newu := ss_newu (N:=RNum) exp rpow n A reg rm 0.
Let newq := ss_newq (N:=RNum) exp rpow n H w reg rm.
Let newv := ss_newv (N:=RNum) exp rpow n reg rm 0.
Let ab := absorb (N:=RNum) exp ln n H M reg tau.
Let loop := ss_loop (N:=RNum) exp ln rpow (fun _ => false) n H A M w reg rm tau 0 thr.

Record inv (s : state) : Prop := Inv {
  inv_K : forall i j, ss_K s i j = exp ((ss_al s i + ss_be s j - M i j) / reg);
  inv_v : posm n H (ss_v s)
}.
(** the true scaling *)
Definition vt (s : state) : mat := fun j h => ss_v s j h * exp (ss_be s j / reg).
Lemma vt_pos : forall s, inv s -> posm n H (vt s).
Proof. intros s I j h Hj Hh. apply Rmult_lt_0_compat; [apply (inv_v _ I); auto|apply exp_pos]. Qed.

Lemma fac_R : forall (al : vec) i, fac (N:=RNum) exp reg rm al i = exp (- al i / (reg + rm)).
Proof. intros. unfold fac. cbn. f_equal. unfold Rdiv. ring. Qed.
Lemma rpow_exp : forall x t p, 0 <= x -> rpow (x * exp t) p = rpow x p * exp (t * p).
Proof.
  intros x t p Hx. rewrite rpow_mult by (auto; left; apply exp_pos). f_equal. rewrite rpow_pos_eq by apply exp_pos.
  unfold Rpower. rewrite ln_exp. f_equal. ring.
Qed.
Lemma newu_true : forall s i h, inv s -> (i < n)%nat -> (h < H)%nat -> newu s i h * exp (ss_al s i / reg) = us (vt s) i h.
Proof.
  intros s i h I Hi Hh. unfold newu, ss_newu, us, ub_Kv. cbn [nmul nadd ndiv RNum]. rewrite nsum_R, fac_R, Rplus_0_r.
  set (X := rsum n (fun j => exp (- M i j / reg) * vt s j h)).
  assert (Xp : 0 < X) by (apply rsum_pos; auto; intros j Hj; apply Rmult_lt_0_compat; [apply exp_pos|apply vt_pos; auto]).
  assert (E : rsum n (fun j => ss_K s i j * ss_v s j h) = X * exp (ss_al s i / reg)).
  { unfold X. rewrite <- rsum_scal_r. apply rsum_ext; intros j Hj. rewrite (inv_K _ I). unfold vt.
    replace ((ss_al s i + ss_be s j - M i j) / reg) with (ss_al s i / reg + ss_be s j / reg + - M i j / reg) by (field; lra).
    rewrite !exp_plus. ring. }
  replace (rsum n (fun j => ss_K s i j * ss_v s j h)) with (X * exp (ss_al s i / reg)) by (symmetry; exact E).
  replace (A i h / (X * exp (ss_al s i / reg))) with (A i h / X * exp (- (ss_al s i / reg))).
  2:{ rewrite exp_Ropp. field. split; [apply Rgt_not_eq, exp_pos|lra]. }
  rewrite rpow_exp by (apply Rle_mult_inv_pos; auto; apply HA; auto).
  rewrite !Rmult_assoc, <- !exp_plus.
  replace (- (ss_al s i / reg) * (rm / (rm + reg)) + (- ss_al s i / (reg + rm) + ss_al s i / reg)) with 0 by (field; lra).
  rewrite exp_0. ring.
Qed.
Lemma ktu_true : forall s j h, inv s -> (h < H)%nat ->
  ub_Ktu (N:=RNum) n (ss_K s) (newu s) j h = rsum n (fun i => exp (- M i j / reg) * us (vt s) i h) * exp (ss_be s j / reg).
Proof.
  intros s j h I Hh. unfold ub_Ktu. cbn [nmul RNum]. rewrite nsum_R, <- rsum_scal_r. apply rsum_ext; intros i Hi.
  rewrite <- (newu_true s i h) by auto. cbn [nmul RNum].
  replace (ss_K s i j) with (exp ((ss_al s i + ss_be s j - M i j) / reg)) by (symmetry; apply (inv_K _ I)).
  replace ((ss_al s i + ss_be s j - M i j) / reg) with (ss_al s i / reg + ss_be s j / reg + - M i j / reg) by (field; lra).
  rewrite !exp_plus. ring.
Qed.
Lemma ktu0_pos : forall s j h, inv s -> (h < H)%nat -> 0 < rsum n (fun i => exp (- M i j / reg) * us (vt s) i h).
Proof.
  intros s j h I Hh. destruct (proj2 HA h Hh) as (i & Hi & Hp).
  pose proof (step_good n H A M w reg rm Hn Hreg Hrm HA Hw (vt s) (vt_pos s I)) as G.
  apply Rlt_le_trans with (exp (- M i j / reg) * us (vt s) i h); [apply Rmult_lt_0_compat; [apply exp_pos|apply (g_u1 _ _ _ _ _ _ _ _ _ _ _ G); auto]|].
  apply (rsum_le_one n (fun i => exp (- M i j / reg) * us (vt s) i h)); auto. intros. apply Rmult_le_pos; [left; apply exp_pos|eapply u_nonneg; eauto].
Qed.
Lemma newq_true : forall s j, inv s -> newq s (newu s) j = qs (us (vt s)) j.
Proof.
  intros s j I. unfold newq, ss_newq, qs. cbn [nmul nsub ndiv nadd n1 RNum]. rewrite nsum_R, fac_R. f_equal.
  apply rsum_ext; intros h Hh. rewrite ktu_true by auto. rewrite rpow_exp by (left; apply ktu0_pos; auto).
  rewrite (Rmult_assoc (rpow _ _)), <- exp_plus.
  replace (ss_be s j / reg * (1 - rm / (rm + reg)) + - ss_be s j / (reg + rm)) with 0 by (field; lra). rewrite exp_0. ring.
Qed.
Lemma newv_true : forall s (q : vec) j h, inv s -> (j < n)%nat -> (h < H)%nat -> 0 <= q j ->
  newv s (newu s) q j h * exp (ss_be s j / reg) = vs (us (vt s)) q j h.
Proof.
  intros s q j h I Hj Hh Hq. unfold newv, ss_newv, vs. cbn [nmul nadd ndiv RNum]. rewrite fac_R, ktu_true, Rplus_0_r by auto.
  pose proof (ktu0_pos s j h I Hh) as Xp. set (X := rsum n _) in *.
  replace (q j / (X * exp (ss_be s j / reg))) with (q j / X * exp (- (ss_be s j / reg))).
  2:{ rewrite exp_Ropp. field. split; [apply Rgt_not_eq, exp_pos|lra]. }
  rewrite rpow_exp by (apply Rle_mult_inv_pos; auto). rewrite !Rmult_assoc, <- !exp_plus.
  replace (- (ss_be s j / reg) * (rm / (rm + reg)) + (- ss_be s j / (reg + rm) + ss_be s j / reg)) with 0 by (field; lra).
  rewrite exp_0. ring.
Qed.

(** the absorption *)
Lemma maxk_pos : forall (g : nat -> R), (0 < H)%nat -> (forall h, (h < H)%nat -> 0 < g h) -> 0 < nmaxk (N:=RNum) (H - 1) g.
Proof. intros g H0 Hg. apply Rlt_le_trans with (g 0%nat); [apply Hg; auto|]. apply (nmaxk_ge (H - 1) g 0%nat). lia. Qed.
Lemma H_pos : (0 < H)%nat.
Proof. destruct H; [|lia]. destruct Hw as [_ W1]. cbn in W1. lra. Qed.
Lemma absorb_inv : forall s u v q i, inv s -> posm n H v -> inv (ab s u v q i).
Proof.
  intros s u v q i I Hv. unfold ab, absorb. destruct (_ || _)%bool; constructor; cbn [ss_K ss_al ss_be ss_v]; auto.
  - intros j h _ _. cbn. lra.
  - apply (inv_K _ I).
Qed.
(** after an absorption every column of the true scaling is the largest of them *)
Lemma absorb_vt : forall s u v q i j h, posm n H v -> (j < n)%nat -> (h < H)%nat ->
  vt (ab s u v q i) j h = (if ss_absorbed (ab s u v q i) then nmaxk (N:=RNum) (H - 1) (v j) else v j h) * exp (ss_be s j / reg).
Proof.
  intros s u v q i j h Hv Hj Hh. unfold ab, absorb, vt. destruct (_ || _)%bool; cbn [ss_absorbed ss_v ss_be]; auto.
  cbn [nadd nmul n1 RNum]. replace ((ss_be s j + reg * ln (nmaxk (N:=RNum) (H - 1) (v j))) / reg) with (ln (nmaxk (N:=RNum) (H - 1) (v j)) + ss_be s j / reg) by (field; lra).
  rewrite exp_plus, exp_ln by (apply maxk_pos; [apply H_pos|auto]). ring.
Qed.

(** the state after at least one iteration *)
Record after (v0 : mat) (s : state) : Prop := After {
  af_pos : posm n H v0;
  af_q : forall j, ss_q s j = qs (us v0) j;
  af_u : ss_absorbed s = false -> forall i h, (i < n)%nat -> (h < H)%nat -> ss_u s i h * exp (ss_al s i / reg) = us v0 i h;
  af_v : ss_absorbed s = false -> forall j h, (j < n)%nat -> (h < H)%nat -> ss_v s j h * exp (ss_be s j / reg) = vs (us v0) (qs (us v0)) j h
}.
Definition nxt (i : nat) (s : state) : state := ab s (newu s) (newv s (newu s) (newq s (newu s))) (newq s (newu s)) i.
Lemma newv_pos : forall s, inv s -> posm n H (newv s (newu s) (newq s (newu s))).
Proof.
  intros s I j h Hj Hh. pose proof (step_good n H A M w reg rm Hn Hreg Hrm HA Hw (vt s) (vt_pos s I)) as G.
  assert (Q : forall j, newq s (newu s) j = qs (us (vt s)) j) by (intros; apply newq_true; auto).
  assert (0 <= newq s (newu s) j) by (rewrite Q; left; apply (g_q _ _ _ _ _ _ _ _ _ _ _ G); auto).
  pose proof (newv_true s (newq s (newu s)) j h I Hj Hh H0) as E.
  pose proof (g_v1 _ _ _ _ _ _ _ _ _ _ _ G j h Hj Hh) as V. pose proof (exp_pos (ss_be s j / reg)).
  assert (E2 : vs (us (vt s)) (newq s (newu s)) j h = vs (us (vt s)) (qs (us (vt s))) j h) by (unfold vs; rewrite Q; auto).
  rewrite E2 in E. rewrite <- E in V. apply (Rmult_lt_reg_r (exp (ss_be s j / reg))); auto. lra.
Qed.
Lemma nxt_inv : forall i s, inv s -> inv (nxt i s).
Proof. intros. apply absorb_inv; auto. apply newv_pos; auto. Qed.
Lemma nxt_newv : forall s j h, inv s -> (j < n)%nat -> (h < H)%nat ->
  newv s (newu s) (newq s (newu s)) j h * exp (ss_be s j / reg) = vs (us (vt s)) (qs (us (vt s))) j h.
Proof.
  intros s j h I Hj Hh. pose proof (step_good n H A M w reg rm Hn Hreg Hrm HA Hw (vt s) (vt_pos s I)) as G.
  rewrite newv_true; auto.
  - unfold vs. rewrite newq_true; auto.
  - rewrite newq_true by auto. left; apply (g_q _ _ _ _ _ _ _ _ _ _ _ G); auto.
Qed.
Lemma nxt_after : forall i s, inv s -> after (vt s) (nxt i s).
Proof.
  intros i s I. assert (Q : ss_q (nxt i s) = newq s (newu s)) by (unfold nxt, ab, absorb; destruct (_ || _)%bool; reflexivity).
  constructor.
  - apply vt_pos; auto.
  - intros j. rewrite Q. apply newq_true; auto.
  - intros F j h Hj Hh. rewrite <- newu_true by auto. unfold nxt, ab, absorb in *. destruct (_ || _)%bool; [discriminate|reflexivity].
  - intros F j h Hj Hh. rewrite <- nxt_newv by auto. unfold nxt, ab, absorb in *. destruct (_ || _)%bool; [discriminate|reflexivity].
Qed.
Lemma nxt_nobad : forall i s, inv s -> ub_bad (N:=RNum) (fun _ => false) n H (ub_Ktu (N:=RNum) n (ss_K s) (newu s)) (ss_u (nxt i s)) (ss_v (nxt i s)) = false.
Proof.
  intros i s I. unfold ub_bad, any2.
  assert (F : any n (fun i => any H (fun h => false)) = false) by (apply any_false; intros; apply any_false; auto).
  rewrite F, !orb_false_r. apply any_false; intros j Hj. apply any_false; intros h Hh. apply Reqb_false.
  rewrite ktu_true by auto. match goal with |- ?x <> _ => change (x <> 0) end. apply Rgt_not_eq.
  apply Rmult_lt_0_compat; [apply ktu0_pos; auto|apply exp_pos].
Qed.
(** adding the error to the state *)
Definition with_err (e : R) (s : state) : state := UbStab (ss_al s) (ss_be s) (ss_K s) (ss_u s) (ss_v s) (ss_q s) (ss_errs s ++ [e]) (ss_i s) e (ss_absorbed s).
Lemma nxt_i : forall i s, ss_i (nxt i s) = Some i.
Proof. intros. unfold nxt, ab, absorb. destruct (_ || _)%bool; reflexivity. Qed.
Lemma loop_S : forall i s, inv s -> exists s',
  (s' = nxt i s \/ exists e, s' = with_err e (nxt i s)) /\
  ((forall left, loop (S left) i s = s') /\ 0 <= ss_err s' < thr \/ forall left, loop (S left) i s = loop left (S i) s').
Proof.
  intros i s I. unfold loop. cbn [ss_loop]. fold newu newq newv.
  change (absorb (N:=RNum) exp ln n H M reg tau s (newu s) (newv s (newu s) (newq s (newu s))) (newq s (newu s)) i) with (nxt i s).
  rewrite (nxt_nobad i s I). destruct (_ || _)%bool; [|exists (nxt i s); split; [left; auto|right; auto]].
  assert (Re : 0 <= rel_err (N:=RNum) n (newq s (newu s)) (ss_q s)) by (apply rel_err_nonneg; auto).
  set (e := rel_err _ _ _) in *. exists (with_err e (nxt i s)). split; [right; eauto|].
  assert (Ei : ss_i (nxt i s) = Some i) by apply nxt_i. unfold with_err. rewrite Ei.
  destruct (nltb e thr) eqn:E; [left; split; auto; apply Rltb_true in E; split; auto|right; auto].
Qed.
Lemma with_err_inv : forall e s, inv s -> inv (with_err e s).
Proof. intros e s [I1 I2]. constructor; auto. Qed.
Lemma with_err_after : forall v0 e s, after v0 s -> after v0 (with_err e s).
Proof. intros v0 e s [I1 I2 I3 I4]. constructor; auto. Qed.
Lemma loop_after : forall left i s, inv s -> ((0 < left)%nat \/ exists v0, after v0 s) ->
  exists v0, after v0 (loop left i s).
Proof.
  induction left as [|left IH]; intros i s I [L|D]; try lia; auto.
  - destruct (loop_S i s I) as (s' & Hs' & [[E _]|E]); rewrite E.
    + exists (vt s). destruct Hs' as [-> |(e & ->)]; [|apply with_err_after]; apply nxt_after; auto.
    + apply IH; [|right; exists (vt s)]; destruct Hs' as [-> |(e & ->)]; try apply with_err_after; try apply with_err_inv; try apply nxt_after; try apply nxt_inv; auto.
  - destruct (loop_S i s I) as (s' & Hs' & [[E _]|E]); rewrite E.
    + exists (vt s). destruct Hs' as [-> |(e & ->)]; [|apply with_err_after]; apply nxt_after; auto.
    + apply IH; [|right; exists (vt s)]; destruct Hs' as [-> |(e & ->)]; try apply with_err_after; try apply with_err_inv; try apply nxt_after; try apply nxt_inv; auto.
Qed.
Let init := ss_init (N:=RNum) exp n M reg.
Lemma init_inv : inv init.
Proof.
  constructor.
  - intros i j. unfold init, ss_init, ub_kernel. cbn. f_equal. unfold Rdiv. ring.
  - intros j h _ _. unfold init, ss_init. cbn [ss_v ndiv n1 RNum]. rewrite nofnat_INR. apply Rdiv_lt_0_compat; [lra|]. apply lt_0_INR; auto.
Qed.
Lemma loop_i : forall left i s, inv s -> (0 < left)%nat \/ ss_i s <> None -> ss_i (loop left i s) <> None.
Proof.
  induction left as [|left IH]; intros i s I [L|D]; try lia; auto;
  destruct (loop_S i s I) as (s' & Hs' & [[E _]|E]); rewrite E;
  try (destruct Hs' as [-> |(e & ->)]; cbn; rewrite nxt_i; discriminate);
  (apply IH; [|right]; destruct Hs' as [-> |(e & ->)]; try apply with_err_inv; try apply nxt_inv; auto; cbn; rewrite nxt_i; discriminate).
Qed.

(** ** exact runs: one histogram, or no absorption *)
Lemma us_ext : forall v v' i h, (forall j, (j < n)%nat -> v j h = v' j h) -> us v i h = us v' i h.
Proof. intros v v' i h E. unfold us. f_equal. f_equal. apply rsum_ext; intros j Hj. rewrite E; auto. Qed.
Lemma qs_ext : forall u u' j, (forall i h, (i < n)%nat -> (h < H)%nat -> u i h = u' i h) -> qs u j = qs u' j.
Proof. intros u u' j E. unfold qs. f_equal. apply rsum_ext; intros h Hh. f_equal. f_equal. apply rsum_ext; intros i Hi. rewrite E; auto. Qed.
Lemma vs_ext : forall u u' q q' j h, (forall i, (i < n)%nat -> u i h = u' i h) -> q j = q' j -> vs u q j h = vs u' q' j h.
Proof. intros u u' q q' j h E Eq. unfold vs. rewrite Eq. f_equal. f_equal. apply rsum_ext; intros i Hi. rewrite E; auto. Qed.
Lemma step_ext : forall v v', (forall j h, (j < n)%nat -> (h < H)%nat -> v j h = v' j h) ->
  forall j h, (j < n)%nat -> (h < H)%nat -> vs (us v) (qs (us v)) j h = vs (us v') (qs (us v')) j h.
Proof.
  intros v v' E j h Hj Hh. apply vs_ext; [intros; apply us_ext; auto|]. apply qs_ext. intros; apply us_ext; auto.
Qed.
Lemma nxt_vt : forall i s, inv s -> H = 1%nat \/ ss_absorbed (nxt i s) = false ->
  forall j h, (j < n)%nat -> (h < H)%nat -> vt (nxt i s) j h = vs (us (vt s)) (qs (us (vt s))) j h.
Proof.
  intros i s I D j h Hj Hh. unfold nxt. rewrite absorb_vt by (auto; apply newv_pos; auto). fold (nxt i s). rewrite <- nxt_newv by auto. f_equal.
  destruct D as [D|D].
  - replace (H - 1)%nat with 0%nat by lia. replace h with 0%nat by lia. cbn [nmaxk]. destruct (ss_absorbed _); reflexivity.
  - rewrite D. reflexivity.
Qed.
Lemma with_err_vt : forall e s, vt (with_err e s) = vt s.
Proof. reflexivity. Qed.
Notation it := (it n H A M w reg rm). Notation itq := (itq n H A M w reg rm).
(** without early stop *)
Lemma loop_cut : thr <= 0 -> forall i s, inv s ->
  exists s', (s' = nxt i s \/ exists e, s' = with_err e (nxt i s)) /\ forall left, loop (S left) i s = loop left (S i) s'.
Proof. intros Ht i s I. destruct (loop_S i s I) as (s' & Hs' & [[E Er]|E]); [lra|eauto]. Qed.
Lemma loop_inv : forall left i s, inv s -> inv (loop left i s).
Proof.
  induction left as [|left IH]; intros i s I; auto.
  destruct (loop_S i s I) as (s' & Hs' & D).
  assert (I' : inv s') by (destruct Hs' as [-> |(e & ->)]; try apply with_err_inv; apply nxt_inv; auto).
  destruct D as [[E _]|E]; rewrite E; auto.
Qed.
Lemma loop_seq : thr <= 0 -> forall a b i s, inv s -> loop (a + b) i s = loop b (i + a) (loop a i s).
Proof.
  intros Ht. induction a as [|a IH]; intros b i s I; [rewrite Nat.add_0_r; reflexivity|].
  destruct (loop_cut Ht i s I) as (s' & Hs' & E).
  assert (I' : inv s') by (destruct Hs' as [-> |(e & ->)]; try apply with_err_inv; apply nxt_inv; auto).
  cbn [plus]. rewrite !E, IH by auto. f_equal. lia.
Qed.
(** from the last absorption on (or throughout, for one histogram) the run is the plain iteration *)
Lemma loop_calm : thr <= 0 -> forall N1, H = 1%nat \/ (forall N, (N1 < N)%nat -> ss_absorbed (loop N 0 init) = false) ->
  forall d j h, (j < n)%nat -> (h < H)%nat -> vt (loop (N1 + d) 0 init) j h = it (vt (loop N1 0 init)) d j h.
Proof.
  intros Ht N1 Hc. induction d as [|d IH]; intros j h Hj Hh.
  - rewrite Nat.add_0_r. reflexivity.
  - pose proof (loop_inv (N1 + d) 0 init init_inv) as I.
    assert (Hc' : H = 1%nat \/ ss_absorbed (loop (N1 + d + 1) 0 init) = false) by (destruct Hc as [Hc|Hc]; [left; auto|right; apply Hc; lia]). clear Hc.
    destruct (loop_cut Ht (N1 + d) _ I) as (s' & Hs' & E).
    replace (N1 + S d)%nat with (N1 + d + 1)%nat by lia. rewrite (loop_seq Ht (N1 + d) 1 0 init init_inv) in Hc' |- *. cbn [plus] in *. rewrite E in Hc' |- *.
    change (loop 0 (S (N1 + d)) s') with s' in *.
    transitivity (vt (nxt (N1 + d) (loop (N1 + d) 0 init)) j h); [destruct Hs' as [-> |(e & ->)]; reflexivity|].
    rewrite nxt_vt; auto.
    + cbn [Ubary_link.it]. apply step_ext; auto.
    + destruct Hc' as [Hc'|Hc']; [left; auto|right]. destruct Hs' as [-> |(e & ->)]; exact Hc'.
Qed.
Lemma loop_calm_q : thr <= 0 -> forall N1, H = 1%nat \/ (forall N, (N1 < N)%nat -> ss_absorbed (loop N 0 init) = false) ->
  forall d j, (j < n)%nat -> ss_q (loop (N1 + S d) 0 init) j = itq (vt (loop N1 0 init)) (S d) j.
Proof.
  intros Ht N1 Hc d j Hj. pose proof (loop_inv (N1 + d) 0 init init_inv) as I.
  destruct (loop_cut Ht (N1 + d) _ I) as (s' & Hs' & E).
  replace (N1 + S d)%nat with (N1 + d + 1)%nat by lia. rewrite (loop_seq Ht (N1 + d) 1 0 init init_inv). cbn [plus]. rewrite E. change (loop 0 (S (N1 + d)) s') with s'.
  transitivity (ss_q (nxt (N1 + d) (loop (N1 + d) 0 init)) j); [destruct Hs' as [-> |(e & ->)]; reflexivity|].
  rewrite (af_q _ _ (nxt_after (N1 + d) _ I)). unfold Ubary_link.itq, Ubary_link.itu. replace (S d - 1)%nat with d by lia.
  apply qs_ext. intros; apply us_ext. intros; apply loop_calm; auto.
Qed.
Lemma loop_vt_pos : forall N, posm n H (vt (loop N 0 init)).
Proof. intros N. apply vt_pos, loop_inv, init_inv. Qed.
End Stab.
