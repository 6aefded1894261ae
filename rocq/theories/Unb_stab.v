(** Stabilised unbalanced Sinkhorn and several histograms. *)
From Coq Require Import List Arith Bool Reals Lra Lia.
From Verif Require Import Num Sums Spec Duals_proofs Entropy Sinkhorn_model Sinkhorn_proofs Sinkhorn_more Unb_model Unb_proofs Unb_conv Unb_opt.
Import ListNotations.
Local Open Scope R_scope.

Section Stab.
Variables (n m : nat) (a b : vec) (M0 : mat) (reg : R) (rm1 rm2 : option R) (tau thr : R).
Hypotheses (Hn : (0 < n)%nat) (Hm : (0 < m)%nat) (Ha : pos_vec n a) (Hb : pos_vec m b) (Hreg : 0 < reg)
  (Hr1 : pos_rm rm1) (Hr2 : pos_rm rm2).
Definition K0 : mat := fun i j => exp (- M0 i j / reg).
Let f1 : R := fi (N:=RNum) reg rm1.
Let f2 : R := fi (N:=RNum) reg rm2.
Notation U := (un_u (N:=RNum) m a Rpower K0 f1).
Notation V := (un_v (N:=RNum) n b Rpower K0 f2).
Notation upd := (us_update (N:=RNum) n m a b exp Rpower M0 reg rm1 rm2 0).
Definition true_u (s : us (N:=RNum)) : vec := fun i => us_u s i * exp (us_al s / reg).
Definition true_v (s : us (N:=RNum)) : vec := fun j => us_v s j * exp (us_be s / reg).
Lemma K0_pos : forall i j, 0 < K0 i j. Proof. intros; apply exp_pos. Qed.
Lemma us_K_R : forall (s : us (N:=RNum)) i j, us_K (N:=RNum) exp M0 reg s i j = exp (us_al s / reg) * exp (us_be s / reg) * K0 i j.
Proof. intros. unfold us_K, K0. cbn [ndiv nsub nadd RNum]. rewrite <- !exp_plus. f_equal. field. lra. Qed.
Lemma us_plan_R : forall (s : us (N:=RNum)) i j, 0 < us_u s i -> 0 < us_v s j -> us_plan (N:=RNum) exp ln M0 reg s i j = true_u s i * K0 i j * true_v s j.
Proof.
  intros s i j Hu Hv. unfold us_plan, true_u, true_v, K0. cbn [ndiv nsub nadd RNum].
  rewrite <- (exp_ln (us_u s i)) at 2 by auto. rewrite <- (exp_ln (us_v s j)) at 2 by auto. rewrite <- !exp_plus. f_equal. field. lra.
Qed.
Lemma us_f_fi : forall rm x, pos_rm rm -> ln (us_f (N:=RNum) exp reg x rm) = (fi (N:=RNum) reg rm - 1) * (x / reg).
Proof.
  intros [r|] x H; unfold us_f, fi; cbn in *; [rewrite ln_exp; field; lra|rewrite ln_1; ring].
Qed.
Lemma us_f_pos : forall rm x, 0 < us_f (N:=RNum) exp reg x rm.
Proof. intros [r|] x; unfold us_f; [apply exp_pos|cbn; lra]. Qed.
Lemma upd_pos : forall (s : us (N:=RNum)), (forall i, 0 < us_u (upd s) i) /\ (forall j, 0 < us_v (upd s) j).
Proof. intros s. split; intros; unfold us_update; cbn [us_u us_v nmul RNum]; apply Rmult_lt_0_compat; try apply exp_pos; apply us_f_pos. Qed.
Lemma upd_true : forall (s : us (N:=RNum)), pos_vec m (us_v s) ->
  (forall i, (i < n)%nat -> true_u (upd s) i = U (true_v s) i) /\
  (forall j, (j < m)%nat -> true_v (upd s) j = V (true_u (upd s)) j).
Proof.
  intros s Hv. assert (HK : forall i j, (i < n)%nat -> (j < m)%nat -> 0 < K0 i j) by (intros; apply K0_pos).
  assert (HV : pos_vec m (true_v s)) by (intros j Hj; apply Rmult_lt_0_compat; [auto|apply exp_pos]).
  destruct (upd_pos s) as [PU PV].
  assert (HU' : pos_vec n (true_u (upd s))) by (intros i Hi; apply Rmult_lt_0_compat; [auto|apply exp_pos]).
  split.
  - intros i Hi. apply ln_inv; [apply HU'; auto|apply U_pos|]. rewrite (ln_U n m a K0 f1 Hm Ha HK) by auto.
    unfold true_u. rewrite ln_mult, ln_exp by (auto; apply exp_pos). unfold us_update; cbn [us_u us_al nmul RNum].
    rewrite ln_mult by (try apply exp_pos; apply us_f_pos). rewrite ln_pw, us_f_fi by auto.
    rewrite un_Kv_R. cbn [ndiv nadd RNum]. rewrite Rplus_0_r.
    assert (E : rkv m (us_K (N:=RNum) exp M0 reg s) (us_v s) i = exp (us_al s / reg) * rkv m K0 (true_v s) i).
    { unfold rkv, true_v. rewrite <- rsum_scal. apply rsum_ext; intros. rewrite us_K_R. ring. }
    rewrite E. assert (Pk := rkv_pos n m K0 Hm HK (true_v s) i HV Hi). assert (Pe := exp_pos (us_al s / reg)).
    rewrite ln_div, ln_mult, ln_exp by (auto; apply Rmult_lt_0_compat; auto). fold f1. ring.
  - intros j Hj. apply ln_inv; [apply Rmult_lt_0_compat; [auto|apply exp_pos]|apply V_pos|]. rewrite (ln_V n m b K0 f2 Hn Hb HK) by auto.
    unfold true_v. rewrite ln_mult, ln_exp by (auto; apply exp_pos). unfold us_update at 1 2; cbn [us_v us_be nmul RNum].
    rewrite ln_mult by (try apply exp_pos; apply us_f_pos). rewrite ln_pw, us_f_fi by auto.
    match goal with |- context [un_Ktu (N:=RNum) n _ ?w j] => change w with (us_u (upd s)) end.
    rewrite un_Ktu_R. cbn [ndiv nadd RNum]. rewrite Rplus_0_r.
    assert (E : rktu n (us_K (N:=RNum) exp M0 reg s) (us_u (upd s)) j = exp (us_be s / reg) * rktu n K0 (true_u (upd s)) j).
    { unfold rktu, true_u. rewrite <- rsum_scal. apply rsum_ext; intros. rewrite us_K_R. change (us_al (upd s)) with (us_al s). ring. }
    rewrite E. assert (Pk := rktu_pos n m K0 Hn HK (true_u (upd s)) j HU' Hj). assert (Pe := exp_pos (us_be s / reg)).
    rewrite ln_div, ln_mult, ln_exp by (auto; apply Rmult_lt_0_compat; auto). fold f2. ring.
Qed.
(** what absorption does to the plan *)
Lemma absorb_plan : forall (s : us (N:=RNum)) i j, (forall i, (i < n)%nat -> 0 < us_u s i) -> (forall j, (j < m)%nat -> 0 < us_v s j) -> (i < n)%nat -> (j < m)%nat ->
  us_plan (N:=RNum) exp ln M0 reg (us_absorb (N:=RNum) n m ln reg s) i j =
  us_plan (N:=RNum) exp ln M0 reg s i j * (vmax (N:=RNum) n (us_u s) * (vmax (N:=RNum) m (us_v s) / us_v s j)).
Proof.
  intros s i j Hu Hv Hi Hj.
  assert (PU : 0 < vmax (N:=RNum) n (us_u s)) by (apply Rlt_le_trans with (us_u s i); [auto|apply (vmax_ge n (us_u s) i Hi)]).
  assert (PV : 0 < vmax (N:=RNum) m (us_v s)) by (apply Rlt_le_trans with (us_v s j); [auto|apply (vmax_ge m (us_v s) j Hj)]).
  rewrite us_plan_R; [|exact (Hu i Hi)|cbn; lra]. rewrite us_plan_R by auto. unfold true_u, true_v, us_absorb. cbn [us_u us_v us_al us_be nadd nmul n1 RNum].
  assert (E : forall x y, 0 < y -> exp ((x + reg * ln y) / reg) = exp (x / reg) * y).
  { intros x y Hy. rewrite <- (exp_ln y) at 2 by auto. rewrite <- exp_plus. f_equal. field. lra. }
  rewrite !E by auto. match goal with |- @eq _ ?x ?y => change (@eq R x y) end. field. apply Rgt_not_eq. apply Rlt_gt. apply (Hv j Hj).
Qed.

(** if no scaling exceeds tau the loop is the plain one *)
Notation vit := (vit n m a b K0 f1 f2). Notation uit := (uit n m a b K0 f1 f2).
Definition below (u v : vec) : Prop := (forall i, (i < n)%nat -> u i <= tau) /\ (forall j, (j < m)%nat -> v j <= tau).
Definition same (k : nat) (x y : vec) : Prop := forall i, (i < k)%nat -> x i = y i.
Lemma U_same : forall v v', same m v v' -> same n (U v) (U v').
Proof. intros v v' H i Hi. rewrite !U_R. do 2 f_equal. unfold rkv. apply rsum_ext; intros. rewrite H; auto. Qed.
Lemma V_same : forall u u', same n u u' -> same m (V u) (V u').
Proof. intros v v' H i Hi. rewrite !V_R. do 2 f_equal. unfold rktu. apply rsum_ext; intros. rewrite H; auto. Qed.
Lemma us_no_absorb : forall left cpt err (s : us (N:=RNum)) u v, pos_vec m v -> us_al s = 0 -> us_be s = 0 -> same n (us_u s) u -> same m (us_v s) v ->
  (forall k, (0 < k <= left)%nat -> below (uit k u v) (vit k v)) ->
  let o := us_loop (N:=RNum) n m a b exp ln Rpower no_nan M0 reg rm1 rm2 tau thr 0 left cpt err s in
  exists k, (k <= left)%nat /\ same n (us_u (fst o)) (uit k u v) /\ same m (us_v (fst o)) (vit k v) /\
    us_al (fst o) = 0 /\ us_be (fst o) = 0 /\ (k = left \/ snd o <= thr).
Proof.
  induction left; intros cpt err s u v Hv Al Be Su Sv Hb'.
  - cbn [us_loop]. exists 0%nat. change (@nltb RNum) with Rltb. destruct (Rltb thr err); cbn; repeat split; auto.
  - cbn [us_loop]. change (@nltb RNum) with Rltb. destruct (Rltb thr err) eqn:E.
    2: { apply Rltb_false in E. exists 0%nat. cbn. repeat split; auto; lia. }
    assert (Hvs : pos_vec m (us_v s)) by (intros j Hj; rewrite Sv; auto).
    destruct (upd_true s Hvs) as [TU TV]. destruct (upd_pos s) as [PU PV].
    assert (TVs : forall w : us (N:=RNum), us_be w = 0 -> same m (true_v w) (us_v w)) by (intros w Hw j Hj; unfold true_v; rewrite Hw; unfold Rdiv; rewrite Rmult_0_l, exp_0; ring).
    assert (TUs : forall w : us (N:=RNum), us_al w = 0 -> same n (true_u w) (us_u w)) by (intros w Hw j Hj; unfold true_u; rewrite Hw; unfold Rdiv; rewrite Rmult_0_l, exp_0; ring).
    set (s1 := upd s) in *.
    assert (Al1 : us_al s1 = 0) by exact Al. assert (Be1 : us_be s1 = 0) by exact Be.
    assert (Su1 : same n (us_u s1) (U v)).
    { intros i Hi. rewrite <- (TUs s1 Al1 i Hi), TU by auto. apply U_same; auto. intros j Hj. rewrite (TVs s Be j Hj). auto. }
    assert (Sv1 : same m (us_v s1) (V (U v))).
    { intros j Hj. rewrite <- (TVs s1 Be1 j Hj), TV by auto. apply V_same; auto. intros i Hi. rewrite (TUs s1 Al1 i Hi). auto. }
    destruct (Hb' 1%nat ltac:(lia)) as [B1 B2]. cbn [Unb_proofs.uit Unb_proofs.vit] in B1, B2.
    assert (BG : us_big (N:=RNum) n m tau s1 = false).
    { unfold us_big. apply orb_false_iff. change (@nltb RNum) with Rltb. split; apply any_false; intros k Hk; apply Rltb_false; [rewrite Su1|rewrite Sv1]; auto. }
    cbn zeta. rewrite BG.
    assert (BD : (any m (fun j => neqb (n:=RNum) (un_Ktu (N:=RNum) n (us_K (N:=RNum) exp M0 reg s) (us_u s1) j) (@n0 RNum)) || any n (fun i => no_nan (us_u s1 i)) || any m (fun j => no_nan (us_v s1 j)))%bool = false).
    { rewrite !orb_false_iff. repeat split; apply any_false; intros; auto. cbn [neqb RNum n0]. apply Reqb_false. apply Rgt_not_eq. rewrite un_Ktu_R.
      apply (rktu_pos n m (us_K (N:=RNum) exp M0 reg s)); auto. intros; apply exp_pos. intros q Hq. apply PU. }
    rewrite BD.
    match goal with |- context [us_loop _ _ _ _ _ _ _ _ _ _ _ _ _ _ _ left (S cpt) ?e s1] => set (err' := e) end.
    destruct (IHleft (S cpt) err' s1 (U v) (V (U v))) as (k & Hk & A1 & A2 & A3 & A4 & A5); auto.
    { intros j Hj; apply V_pos. }
    { intros k Hk. specialize (Hb' (S k) ltac:(lia)). destruct k; [lia|]. unfold Unb_proofs.uit in *. rewrite vit_S in Hb'. rewrite vit_S in Hb'. rewrite <- !vit_S in Hb' |- *. exact Hb'. }
    exists (S k). split; [lia|]. rewrite vit_S.
    assert (UI : uit (S k) u v = uit k (U v) (V (U v))) by (destruct k; auto; unfold Unb_proofs.uit; rewrite vit_S; auto).
    rewrite UI. repeat split; auto. destruct A5 as [A5|A5]; [left; lia|right; auto].
Qed.
(** the state after at least one iteration: one plain step from some positive v, or such a state
    absorbed *)
Definition plain_step (s : us (N:=RNum)) : Prop :=
  exists v0, pos_vec m v0 /\ same n (true_u s) (U v0) /\ same m (true_v s) (V (U v0)) /\ (forall i, 0 < us_u s i) /\ (forall j, 0 < us_v s j).
Lemma us_last : forall left cpt err (s : us (N:=RNum)), pos_vec m (us_v s) ->
  let o := us_loop (N:=RNum) n m a b exp ln Rpower no_nan M0 reg rm1 rm2 tau thr 0 left cpt err s in
  fst o = s \/ plain_step (fst o) \/ exists s1, plain_step s1 /\ us_big (N:=RNum) n m tau s1 = true /\ fst o = us_absorb (N:=RNum) n m ln reg s1.
Proof.
  induction left; intros cpt err s Hv; cbn [us_loop]; change (@nltb RNum) with Rltb; destruct (Rltb thr err) eqn:E; try (left; reflexivity).
  cbn zeta. destruct (upd_true s Hv) as [TU TV]. destruct (upd_pos s) as [PU PV]. set (s1 := upd s) in *.
  assert (P1 : plain_step s1).
  { exists (true_v s). split; [intros j Hj; apply Rmult_lt_0_compat; [apply Hv; auto|apply exp_pos]|]. split; [intros i Hi; apply TU; auto|]. split; [|auto].
    intros j Hj. rewrite TV by auto. apply V_same; auto; intros i Hi; apply TU; auto. }
  set (s2 := if us_big (N:=RNum) n m tau s1 then us_absorb (N:=RNum) n m ln reg s1 else s1).
  assert (P2 : plain_step s2 \/ exists s1, plain_step s1 /\ us_big (N:=RNum) n m tau s1 = true /\ s2 = us_absorb (N:=RNum) n m ln reg s1).
  { unfold s2. destruct (us_big (N:=RNum) n m tau s1) eqn:B; [right; exists s1; auto|left; auto]. }
  assert (V2 : pos_vec m (us_v s2)).
  { unfold s2. destruct (us_big (N:=RNum) n m tau s1); intros j Hj; [cbn; lra|apply PV]. }
  match goal with |- context [if ?c then _ else us_loop _ _ _ _ _ _ _ _ _ _ _ _ _ _ _ _ _ _ _] => assert (BD : c = false) end.
  { rewrite !orb_false_iff. repeat split; apply any_false; intros q Hq; auto. cbn [neqb RNum n0]. apply Reqb_false. apply Rgt_not_eq. rewrite un_Ktu_R.
    apply (rktu_pos n m (us_K (N:=RNum) exp M0 reg s)); auto. intros; apply exp_pos. intros z Hz. apply PU. }
  rewrite BD.
  match goal with |- context [us_loop _ _ _ _ _ _ _ _ _ _ _ _ _ _ _ left (S cpt) ?e s2] => set (err' := e) end.
  destruct (IHleft (S cpt) err' s2 V2) as [I|I]; [|right; exact I]. right. rewrite I. exact P2.
Qed.
Lemma us_at_least_one : forall left cpt err (s : us (N:=RNum)), pos_vec m (us_v s) -> (0 < left)%nat -> thr < err ->
  let o := us_loop (N:=RNum) n m a b exp ln Rpower no_nan M0 reg rm1 rm2 tau thr 0 left cpt err s in
  plain_step (fst o) \/ exists s1, plain_step s1 /\ us_big (N:=RNum) n m tau s1 = true /\ fst o = us_absorb (N:=RNum) n m ln reg s1.
Proof.
  intros [|left] cpt err s Hv Hl Ht; [lia|]. cbn [us_loop]; change (@nltb RNum) with Rltb. apply Rltb_true in Ht. rewrite Ht.
  cbn zeta. destruct (upd_true s Hv) as [TU TV]. destruct (upd_pos s) as [PU PV]. set (s1 := upd s) in *.
  assert (P1 : plain_step s1).
  { exists (true_v s). split; [intros j Hj; apply Rmult_lt_0_compat; [apply Hv; auto|apply exp_pos]|]. split; [intros i Hi; apply TU; auto|]. split; [|auto].
    intros j Hj. rewrite TV by auto. apply V_same; auto; intros i Hi; apply TU; auto. }
  set (s2 := if us_big (N:=RNum) n m tau s1 then us_absorb (N:=RNum) n m ln reg s1 else s1).
  assert (P2 : plain_step s2 \/ exists s1, plain_step s1 /\ us_big (N:=RNum) n m tau s1 = true /\ s2 = us_absorb (N:=RNum) n m ln reg s1).
  { unfold s2. destruct (us_big (N:=RNum) n m tau s1) eqn:B; [right; exists s1; auto|left; auto]. }
  assert (V2 : pos_vec m (us_v s2)).
  { unfold s2. destruct (us_big (N:=RNum) n m tau s1); intros j Hj; [cbn; lra|apply PV]. }
  match goal with |- context [if ?c then _ else us_loop _ _ _ _ _ _ _ _ _ _ _ _ _ _ _ _ _ _ _] => assert (BD : c = false) end.
  { rewrite !orb_false_iff. repeat split; apply any_false; intros q Hq; auto. cbn [neqb RNum n0]. apply Reqb_false. apply Rgt_not_eq. rewrite un_Ktu_R.
    apply (rktu_pos n m (us_K (N:=RNum) exp M0 reg s)); auto. intros; apply exp_pos. intros z Hz. apply PU. }
  rewrite BD.
  match goal with |- context [us_loop _ _ _ _ _ _ _ _ _ _ _ _ _ _ _ left (S cpt) ?e s2] => set (err' := e) end.
  destruct (us_last left (S cpt) err' s2 V2) as [I|I]; [|exact I]. rewrite I. exact P2.
Qed.
End Stab.

(** several histograms: every column follows the plain iterates of the kernel without c *)
Section Hists.
Variables (n m nh : nat) (a : vec) (bs : nat -> vec) (K : mat) (f1 f2 thr : R).
Hypotheses (Hn : (0 < n)%nat) (Hm : (0 < m)%nat).
Hypothesis HK : forall i j, (i < n)%nat -> (j < m)%nat -> 0 < K i j.
Lemma uh_lockstep : forall left (u v : nat -> vec),
  exists k, (k <= left)%nat /\ ((0 < left)%nat -> (0 < k)%nat) /\
  let o := uh_loop (N:=RNum) n m a Rpower no_nan nh bs K f1 f2 thr left u v in
  forall h, fst (fst o) h = uit n m a (bs h) K f1 f2 k (u h) (v h) /\ snd (fst o) h = vit n m a (bs h) K f1 f2 k (v h).
Proof.
  induction left; intros u v.
  { exists 0%nat. repeat split; auto. }
  cbn [uh_loop].
  assert (BD : any nh (fun h => un_bad (N:=RNum) n m no_nan K (fst (uh_step (N:=RNum) n m a Rpower bs K f1 f2 h (v h))) (snd (uh_step (N:=RNum) n m a Rpower bs K f1 f2 h (v h)))) = false).
  { apply any_false; intros h Hh. apply (un_bad_false n m K Hn HK). intros i Hi. apply exp_pos. }
  rewrite BD. change (@nltb RNum) with Rltb.
  match goal with |- context [Rltb ?x thr] => destruct (Rltb x thr) eqn:E end.
  { exists 1%nat. split; [lia|]. split; [lia|]. intros h. split; reflexivity. }
  edestruct (IHleft (fun h => fst (uh_step (N:=RNum) n m a Rpower bs K f1 f2 h (v h))) (fun h => snd (uh_step (N:=RNum) n m a Rpower bs K f1 f2 h (v h)))) as (k & Hk & _ & A).
  exists (S k). split; [lia|]. split; [lia|]. intros h. destruct (A h) as [A1 A2]. rewrite A1, A2. rewrite vit_S. split; [|reflexivity].
  destruct k; [reflexivity|]. unfold uit. rewrite vit_S. reflexivity.
Qed.
End Hists.
