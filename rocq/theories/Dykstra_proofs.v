(** The Dykstra iterations of entropic partial transport over the reals: the scaling invariant,
    the mass of every iterate, and the optimality gap read off the scalings. *)
From Coq Require Import List Arith Bool Reals Lra Lia.
From Verif Require Import Num Sums Spec Duals_model Duals_proofs Entropy NS_model Emd_model Partial_model Partial_proofs Partial_final.
Import ListNotations.
Local Open Scope R_scope.

Lemma dk_q : forall (q k r : R), 0 < q -> 0 < k -> 0 < r -> q * k / (r * (k * q)) = / r.
Proof. intros; field; repeat split; lra. Qed.

Lemma dk_prod : forall k q1 q2 q3 r s c : R, 0 < r -> 0 < s -> 0 < c -> s * (r * (k * q1) * q2) * q3 * c * / r * / s * / c = k * q1 * q2 * q3.
Proof. intros; field; repeat split; lra. Qed.
Lemma k1k : forall r k : R, 0 < r -> r * (k * / r) = k.
Proof. intros; field; lra. Qed.
Lemma pos1 : forall x : R, 1 <= x -> 0 < x. Proof. intros; lra. Qed.

Section D.
Variables (n m : nat) (a b : vec) (w : R) (K0 : mat).
Hypotheses (Hn : (0 < n)%nat) (Hm : (0 < m)%nat) (Ha : pos_vec n a) (Hb : pos_vec m b) (Hw : 0 < w)
  (HK0 : forall i j, (i < n)%nat -> (j < m)%nat -> 0 < K0 i j).

Definition posm (K : mat) := forall i j, (i < n)%nat -> (j < m)%nat -> 0 < K i j.
Lemma posm_tot : forall K, posm K -> 0 < total n m K.
Proof. intros K H. apply rsum_pos; auto. intros i Hi; apply rsum_pos; auto. Qed.
Lemma posm_row : forall K i, posm K -> (i < n)%nat -> 0 < row_sum m K i.
Proof. intros K i H Hi. apply rsum_pos; auto. Qed.
Lemma posm_col : forall K j, posm K -> (j < m)%nat -> 0 < col_sum n K j.
Proof. intros K j H Hj. apply rsum_pos; auto. Qed.

(** the row, column and total scalings of one pass *)
Definition rho (Kq : mat) (i : nat) : R := Rmin (a i / row_sum m Kq i) 1.
Definition sig (Kq : mat) (j : nat) : R := Rmin (b j / col_sum n Kq j) 1.
Lemma rho_pos : forall Kq i, posm Kq -> (i < n)%nat -> 0 < rho Kq i <= 1.
Proof.
  intros Kq i H Hi. unfold rho. split; [|apply Rmin_r].
  apply Rmin_glb_lt; [apply Rdiv_lt_0_compat; [auto|apply posm_row; auto]|lra].
Qed.
Lemma sig_pos : forall Kq j, posm Kq -> (j < m)%nat -> 0 < sig Kq j <= 1.
Proof.
  intros Kq j H Hj. unfold sig. split; [|apply Rmin_r].
  apply Rmin_glb_lt; [apply Rdiv_lt_0_compat; [auto|apply posm_col; auto]|lra].
Qed.

Record dinv (s : dstate (N:=RNum)) : Prop := mk_dinv {
  i_K : posm (dK s);
  i_q1 : forall i j, (i < n)%nat -> (j < m)%nat -> dq1 s i j = dq1 s i 0%nat /\ 1 <= dq1 s i j;
  i_q2 : forall i j, (i < n)%nat -> (j < m)%nat -> dq2 s i j = dq2 s 0%nat j /\ 1 <= dq2 s i j;
  i_q3 : forall i j, (i < n)%nat -> (j < m)%nat -> dq3 s i j = dq3 s 0%nat 0%nat /\ 0 < dq3 s i j;
  i_prod : forall i j, (i < n)%nat -> (j < m)%nat ->
    dK s i j * dq1 s i j * dq2 s i j * dq3 s i j = K0 i j * (w / total n m K0);
  i_tot : total n m (dK s) = w
}.

Lemma tot_R : forall K, tot (N:=RNum) n m K = total n m K.
Proof. intros K. unfold tot, total. rewrite nsum_R. apply rsum_ext; intros; apply nsum_R. Qed.

Lemma d_init_inv : dinv (d_init (N:=RNum) n m w K0).
Proof.
  assert (T := posm_tot K0 HK0).
  assert (S0 : 0 < w / total n m K0) by (apply Rdiv_lt_0_compat; auto).
  unfold d_init. rewrite tot_R. split; cbn; intros; try (split; lra); try ring.
  - intros i j Hi Hj. apply Rmult_lt_0_compat; auto.
  - unfold total. rewrite (rsum_ext n _ (fun i => rsum m (fun j => K0 i j) * (w / total n m K0))) by (intros; apply rsum_scal_r).
    rewrite rsum_scal_r. fold (total n m K0). field. lra.
Qed.

Lemma d_step_inv : forall s, dinv s -> dinv (d_step (N:=RNum) n m a b w s).
Proof.
  intros s [I1 I2 I3 I4 I5 I6]. unfold d_step.
  set (Kq := fun i j => nmul (n:=RNum) (dK s i j) (dq1 s i j)).
  assert (PKq : posm Kq). { intros i j Hi Hj. unfold Kq. apply (Rmult_lt_0_compat (dK s i j)); auto. apply pos1, I2; auto. }
  set (K1 := fun i j => nmul (n:=RNum) (nmin (ndiv (n:=RNum) (a i) (nsum m (fun j => Kq i j))) n1) (Kq i j)).
  assert (E1 : forall i j, K1 i j = rho Kq i * Kq i j) by (intros; unfold K1; rewrite nsum_R, nmin_R; reflexivity).
  assert (PK1 : posm K1). { intros i j Hi Hj. rewrite E1. apply Rmult_lt_0_compat; auto. apply rho_pos; auto. }
  set (q1 := fun i j => ndiv (n:=RNum) (nmul (n:=RNum) (dq1 s i j) (dK s i j)) (K1 i j)).
  assert (Q1 : forall i j, (i < n)%nat -> (j < m)%nat -> q1 i j = / rho Kq i).
  { intros i j Hi Hj. unfold q1. rewrite E1. unfold Kq at 2. apply dk_q; auto. apply pos1, I2; auto. apply rho_pos; auto. }
  set (K1q := fun i j => nmul (n:=RNum) (K1 i j) (dq2 s i j)).
  assert (PK1q : posm K1q). { intros i j Hi Hj. unfold K1q. apply (Rmult_lt_0_compat (K1 i j)); auto. apply pos1, I3; auto. }
  set (K2 := fun i j => nmul (n:=RNum) (K1q i j) (nmin (ndiv (n:=RNum) (b j) (nsum n (fun i => K1q i j))) n1)).
  assert (E2 : forall i j, K2 i j = sig K1q j * K1q i j) by (intros; unfold K2; rewrite nsum_R, nmin_R; apply Rmult_comm).
  assert (PK2 : posm K2). { intros i j Hi Hj. rewrite E2. apply Rmult_lt_0_compat; auto. apply sig_pos; auto. }
  set (q2 := fun i j => ndiv (n:=RNum) (nmul (n:=RNum) (dq2 s i j) (K1 i j)) (K2 i j)).
  assert (Q2 : forall i j, (i < n)%nat -> (j < m)%nat -> q2 i j = / sig K1q j).
  { intros i j Hi Hj. unfold q2. rewrite E2. unfold K1q at 2. apply dk_q; auto. apply pos1, I3; auto. apply sig_pos; auto. }
  set (K2q := fun i j => nmul (n:=RNum) (K2 i j) (dq3 s i j)).
  assert (PK2q : posm K2q). { intros i j Hi Hj. unfold K2q. apply (Rmult_lt_0_compat (K2 i j)); auto. apply I4; auto. }
  rewrite tot_R. set (c := ndiv (n:=RNum) w (total n m K2q)).
  assert (Hc : 0 < c) by (apply Rdiv_lt_0_compat; auto; apply posm_tot; auto).
  set (K := fun i j => nmul (n:=RNum) (K2q i j) c).
  assert (PK : posm K). { intros i j Hi Hj. unfold K. apply (Rmult_lt_0_compat (K2q i j)); auto. }
  set (q3 := fun i j => ndiv (n:=RNum) (nmul (n:=RNum) (dq3 s i j) (K2 i j)) (K i j)).
  assert (Q3 : forall i j, (i < n)%nat -> (j < m)%nat -> q3 i j = / c).
  { intros i j Hi Hj. unfold q3, K, K2q. replace (nmul (n:=RNum) (nmul (n:=RNum) (K2 i j) (dq3 s i j)) c) with (c * (K2 i j * dq3 s i j)) by (cbn; ring).
    apply dk_q; auto. apply I4; auto. }
  constructor.
  - exact PK.
  - intros i j Hi Hj. change (q1 i j = q1 i 0%nat /\ 1 <= q1 i j). rewrite !Q1 by auto. split; auto. rewrite <- Rinv_1. apply Rinv_le_contravar; apply rho_pos; auto.
  - intros i j Hi Hj. change (q2 i j = q2 0%nat j /\ 1 <= q2 i j). rewrite !Q2 by auto. split; auto. rewrite <- Rinv_1. apply Rinv_le_contravar; apply sig_pos; auto.
  - intros i j Hi Hj. change (q3 i j = q3 0%nat 0%nat /\ 0 < q3 i j). rewrite !Q3 by auto. split; auto. apply Rinv_0_lt_compat; auto.
  - intros i j Hi Hj. change (K i j * q1 i j * q2 i j * q3 i j = K0 i j * (w / total n m K0)). rewrite Q1, Q2, Q3 by auto. rewrite <- I5 by auto.
    change (K i j) with (K2 i j * dq3 s i j * c). rewrite E2. change (K1q i j) with (K1 i j * dq2 s i j). rewrite E1. change (Kq i j) with (dK s i j * dq1 s i j).
    apply (dk_prod (dK s i j) (dq1 s i j) (dq2 s i j) (dq3 s i j)); auto.
    all: [> apply rho_pos; auto | apply sig_pos; auto].
  - change (total n m K = w). unfold K, total. rewrite (rsum_ext n _ (fun i => rsum m (fun j => K2q i j) * c)) by (intros; apply rsum_scal_r).
    rewrite rsum_scal_r. fold (total n m K2q). unfold c. assert (T := posm_tot K2q PK2q). cbn. field. lra.
Qed.

Lemma d_loop_inv : forall err bad thr left cpt e s, dinv s -> dinv (d_loop (N:=RNum) n m a b w err bad thr left cpt e s).
Proof.
  intros err bad thr. induction left; intros cpt e s H; cbn; auto.
  destruct (Rltb thr e); auto. destruct (bad _); [apply d_step_inv; auto|]. apply IHleft, d_step_inv; auto.
Qed.

(** potentials read off the scalings *)
Lemma dinv_gap : forall M reg s P, 0 < reg -> (forall i j, K0 i j = exp (- M i j / reg)) -> dinv s ->
  subcoupling n m a b P -> total n m P = w ->
  ent_obj n m M reg (dK s) <= ent_obj n m M reg P
    + reg * rsum n (fun i => ln (dq1 s i 0%nat) * (a i - row_sum m (dK s) i))
    + reg * rsum m (fun j => ln (dq2 s 0%nat j) * (b j - col_sum n (dK s) j)).
Proof.
  intros M reg s P Hr HM [I1 I2 I3 I4 I5 I6] (P1 & P2 & P3) P4.
  assert (T := posm_tot K0 HK0).
  assert (S0 : 0 < w / total n m K0) by (apply Rdiv_lt_0_compat; auto).
  assert (G := ent_gap n m M reg P (dK s) (fun i => - reg * ln (dq1 s i 0%nat)) (fun j => - reg * ln (dq2 s 0%nat j))
     (reg * (ln (w / total n m K0) - ln (dq3 s 0%nat 0%nat))) ltac:(lra) P1 I1).
  assert (HE : forall i j, (i < n)%nat -> (j < m)%nat -> M i j + reg * ln (dK s i j) =
     - reg * ln (dq1 s i 0%nat) + - reg * ln (dq2 s 0%nat j) + reg * (ln (w / total n m K0) - ln (dq3 s 0%nat 0%nat))).
  { intros i j Hi Hj. destruct (I2 i j Hi Hj) as [<- A], (I3 i j Hi Hj) as [<- B], (I4 i j Hi Hj) as [<- C].
    assert (D := I5 i j Hi Hj). assert (D' := I1 i j Hi Hj).
    assert (L : ln (dK s i j) + ln (dq1 s i j) + ln (dq2 s i j) + ln (dq3 s i j) = - M i j / reg + ln (w / total n m K0)).
    { rewrite <- (ln_exp (- M i j / reg)), <- HM. rewrite <- !ln_mult; auto; try lra; repeat apply Rmult_lt_0_compat; auto; try lra. f_equal. exact D. }
    replace (M i j) with (- reg * (- M i j / reg)) by (field; lra). nra. }
  specialize (G HE). rewrite P4, I6 in G.
  assert (A1 : - rsum n (fun i => reg * (ln (dq1 s i 0%nat) * (a i - row_sum m (dK s) i))) <= rsum n (fun i => - reg * ln (dq1 s i 0%nat) * (row_sum m P i - row_sum m (dK s) i))).
  { rewrite <- rsum_opp. apply rsum_le; intros i Hi. destruct (I2 i 0%nat Hi Hm) as [_ B].
    assert (0 <= ln (dq1 s i 0%nat)) by (apply ln_ge0; auto). specialize (P2 i Hi).
    assert (0 <= reg * ln (dq1 s i 0%nat)) by (apply Rmult_le_pos; lra). nra. }
  assert (A2 : - rsum m (fun j => reg * (ln (dq2 s 0%nat j) * (b j - col_sum n (dK s) j))) <= rsum m (fun j => - reg * ln (dq2 s 0%nat j) * (col_sum n P j - col_sum n (dK s) j))).
  { rewrite <- rsum_opp. apply rsum_le; intros j Hj. destruct (I3 0%nat j Hn Hj) as [_ B].
    assert (0 <= ln (dq2 s 0%nat j)) by (apply ln_ge0; auto). specialize (P3 j Hj).
    assert (0 <= reg * ln (dq2 s 0%nat j)) by (apply Rmult_le_pos; lra). nra. }
  rewrite !rsum_scal in A1, A2. lra.
Qed.

(** ** the log-domain iteration is the logarithm of the other one *)
Record logs (l s : dstate (N:=RNum)) : Prop := mk_logs {
  g_K : forall i j, (i < n)%nat -> (j < m)%nat -> dK s i j = exp (dK l i j);
  g_q1 : forall i j, (i < n)%nat -> (j < m)%nat -> dq1 s i j = exp (dq1 l i j);
  g_q2 : forall i j, (i < n)%nat -> (j < m)%nat -> dq2 s i j = exp (dq2 l i j);
  g_q3 : forall i j, (i < n)%nat -> (j < m)%nat -> dq3 s i j = exp (dq3 l i j)
}.
Lemma lse2_R : forall L K, (forall i j, (i < n)%nat -> (j < m)%nat -> K i j = exp (L i j)) ->
  lse2 (N:=RNum) n m exp ln L = ln (total n m K).
Proof. intros L K H. unfold lse2. rewrite tot_R. f_equal. apply rsum_ext; intros; apply rsum_ext; intros; symmetry; auto. Qed.
Lemma lse_R : forall k (f g : vec), (forall j, (j < k)%nat -> g j = exp (f j)) -> lse (N:=RNum) exp ln k f = ln (rsum k g).
Proof. intros k f g H. unfold lse. rewrite nsum_R. f_equal. apply rsum_ext; intros; symmetry; auto. Qed.
Lemma exp_pos_tot : forall (L K : mat), (forall i j, (i < n)%nat -> (j < m)%nat -> K i j = exp (L i j)) -> posm K.
Proof. intros L K H i j Hi Hj. rewrite H by auto. apply exp_pos. Qed.
Lemma scale_log : forall x t v : R, 0 < t -> 0 < v -> exp (x + ln v - ln t) = exp x * (v / t).
Proof. intros x t v Ht Hv. replace (x + ln v - ln t) with (x + (ln v - ln t)) by ring. rewrite exp_plus, <- ln_div, exp_ln; auto. apply Rdiv_lt_0_compat; auto. Qed.
Lemma min_log : forall t v : R, 0 < t -> 0 < v -> exp (Rmin (ln v - ln t) 0) = Rmin (v / t) 1.
Proof.
  intros t v Ht Hv. rewrite <- ln_div by auto. assert (0 < v / t) by (apply Rdiv_lt_0_compat; auto).
  destruct (Rle_lt_dec (v / t) 1) as [A|A].
  - rewrite (Rmin_left (v / t)) by auto. rewrite Rmin_left; [apply exp_ln; auto|]. rewrite <- ln_1. apply ln_mono; auto.
  - rewrite (Rmin_right (v / t)) by lra. rewrite Rmin_right; [apply exp_0|]. apply ln_ge0. lra.
Qed.
Lemma sub_log : forall x y z : R, exp (x + y - z) = exp x * exp y / exp z.
Proof. intros. unfold Rminus. rewrite !exp_plus, exp_Ropp. reflexivity. Qed.

Lemma l_init_logs : forall L0, (forall i j, (i < n)%nat -> (j < m)%nat -> K0 i j = exp (L0 i j)) ->
  logs (l_init (N:=RNum) n m w exp ln L0) (d_init (N:=RNum) n m w K0).
Proof.
  intros L0 H. constructor; intros i j Hi Hj; cbn [d_init l_init dK dq1 dq2 dq3]; try (symmetry; apply exp_0).
  rewrite tot_R, (lse2_R L0 K0 H). symmetry. rewrite (H i j) by auto. apply scale_log; auto. apply posm_tot; auto.
Qed.
Lemma l_step_logs : forall l s, logs l s -> logs (l_step (N:=RNum) n m a b w exp ln l) (d_step (N:=RNum) n m a b w s).
Proof.
  intros l s [G1 G2 G3 G4]. unfold l_step, d_step.
  set (Kq := fun i j => nmul (n:=RNum) (dK s i j) (dq1 s i j)). set (Lq := fun i j => nadd (n:=RNum) (dK l i j) (dq1 l i j)).
  assert (A1 : forall i j, (i < n)%nat -> (j < m)%nat -> Kq i j = exp (Lq i j)).
  { intros i j Hi Hj. unfold Kq, Lq. rewrite G1, G2 by auto. symmetry. apply exp_plus. }
  set (K1 := fun i j => nmul (n:=RNum) (nmin (ndiv (n:=RNum) (a i) (nsum m (fun j => Kq i j))) n1) (Kq i j)).
  set (L1 := fun i j => nadd (n:=RNum) (nmin (nsub (n:=RNum) (ln (a i)) (lse (N:=RNum) exp ln m (fun j => Lq i j))) n0) (Lq i j)).
  assert (A2 : forall i j, (i < n)%nat -> (j < m)%nat -> K1 i j = exp (L1 i j)).
  { intros i j Hi Hj. unfold K1, L1. rewrite nsum_R, !nmin_R. rewrite (lse_R m (fun j => Lq i j) (fun j => Kq i j)) by (intros; auto).
    rewrite (A1 i j) by auto. etransitivity; [|symmetry; apply exp_plus]. apply (Rmult_eq_compat_r (exp (Lq i j))). symmetry. apply min_log; auto.
    apply rsum_pos; auto. intros; rewrite A1 by auto. apply exp_pos. }
  set (q1 := fun i j => ndiv (n:=RNum) (nmul (n:=RNum) (dq1 s i j) (dK s i j)) (K1 i j)).
  set (lq1 := fun i j => nsub (n:=RNum) (nadd (n:=RNum) (dq1 l i j) (dK l i j)) (L1 i j)).
  assert (A3 : forall i j, (i < n)%nat -> (j < m)%nat -> q1 i j = exp (lq1 i j)).
  { intros i j Hi Hj. unfold q1, lq1. rewrite G1, G2, A2 by auto. symmetry. apply sub_log. }
  set (K1q := fun i j => nmul (n:=RNum) (K1 i j) (dq2 s i j)). set (L1q := fun i j => nadd (n:=RNum) (L1 i j) (dq2 l i j)).
  assert (A4 : forall i j, (i < n)%nat -> (j < m)%nat -> K1q i j = exp (L1q i j)).
  { intros i j Hi Hj. unfold K1q, L1q. rewrite A2, G3 by auto. symmetry. apply exp_plus. }
  set (K2 := fun i j => nmul (n:=RNum) (K1q i j) (nmin (ndiv (n:=RNum) (b j) (nsum n (fun i => K1q i j))) n1)).
  set (L2 := fun i j => nadd (n:=RNum) (L1q i j) (nmin (nsub (n:=RNum) (ln (b j)) (lse (N:=RNum) exp ln n (fun i => L1q i j))) n0)).
  assert (A5 : forall i j, (i < n)%nat -> (j < m)%nat -> K2 i j = exp (L2 i j)).
  { intros i j Hi Hj. unfold K2, L2. rewrite nsum_R, !nmin_R. rewrite (lse_R n (fun i => L1q i j) (fun i => K1q i j)) by (intros; auto).
    rewrite (A4 i j) by auto. etransitivity; [|symmetry; apply exp_plus]. apply (Rmult_eq_compat_l (exp (L1q i j))). symmetry. apply min_log; auto.
    apply rsum_pos; auto. intros; rewrite A4 by auto. apply exp_pos. }
  set (q2 := fun i j => ndiv (n:=RNum) (nmul (n:=RNum) (dq2 s i j) (K1 i j)) (K2 i j)).
  set (lq2 := fun i j => nsub (n:=RNum) (nadd (n:=RNum) (dq2 l i j) (L1 i j)) (L2 i j)).
  assert (A6 : forall i j, (i < n)%nat -> (j < m)%nat -> q2 i j = exp (lq2 i j)).
  { intros i j Hi Hj. unfold q2, lq2. rewrite G3, A2, A5 by auto. symmetry. apply sub_log. }
  set (K2q := fun i j => nmul (n:=RNum) (K2 i j) (dq3 s i j)). set (L2q := fun i j => nadd (n:=RNum) (L2 i j) (dq3 l i j)).
  assert (A7 : forall i j, (i < n)%nat -> (j < m)%nat -> K2q i j = exp (L2q i j)).
  { intros i j Hi Hj. unfold K2q, L2q. rewrite A5, G4 by auto. symmetry. apply exp_plus. }
  set (K := fun i j => nmul (n:=RNum) (K2q i j) (ndiv (n:=RNum) w (tot (N:=RNum) n m K2q))).
  set (L := fun i j => nsub (n:=RNum) (nadd (n:=RNum) (L2q i j) (ln w)) (lse2 (N:=RNum) n m exp ln L2q)).
  assert (A8 : forall i j, (i < n)%nat -> (j < m)%nat -> K i j = exp (L i j)).
  { intros i j Hi Hj. unfold K, L. rewrite tot_R, (lse2_R L2q K2q A7), (A7 i j) by auto. symmetry. apply scale_log; auto. apply posm_tot. eapply exp_pos_tot; eauto. }
  constructor; intros i j Hi Hj.
  - apply (A8 i j Hi Hj).
  - apply (A3 i j Hi Hj).
  - apply (A6 i j Hi Hj).
  - change (ndiv (n:=RNum) (nmul (n:=RNum) (dq3 s i j) (K2 i j)) (K i j) = exp (nsub (n:=RNum) (nadd (n:=RNum) (dq3 l i j) (L2 i j)) (L i j))).
    rewrite G4, A5, A8 by auto. symmetry. apply sub_log.
Qed.
Lemma iter_logs : forall L0 k, (forall i j, (i < n)%nat -> (j < m)%nat -> K0 i j = exp (L0 i j)) ->
  logs (Nat.iter k (l_step (N:=RNum) n m a b w exp ln) (l_init (N:=RNum) n m w exp ln L0))
       (Nat.iter k (d_step (N:=RNum) n m a b w) (d_init (N:=RNum) n m w K0)).
Proof. intros L0 k H. induction k; cbn; [apply l_init_logs; auto|apply l_step_logs; auto]. Qed.
End D.

(** the loops stop somewhere within the budget *)
Lemma iter_S : forall A (f : A -> A) k x, Nat.iter k f (f x) = Nat.iter (S k) f x.
Proof. intros A f k x. induction k; [reflexivity|]. change (f (Nat.iter k f (f x)) = f (Nat.iter (S k) f x)). f_equal; auto. Qed.
Lemma d_loop_iter : forall (N : NumOps) n m a b w err bad thr lft cpt e s, exists k, (k <= lft)%nat /\ d_loop (N:=N) n m a b w err bad thr lft cpt e s = Nat.iter k (d_step n m a b w) s.
Proof.
  intros N n m a b w err bad thr. induction lft; intros cpt e s; cbn [d_loop]; [exists 0%nat; auto|].
  destruct (nltb thr e); [|exists 0%nat; split; auto; lia].
  destruct (bad _); [exists 1%nat; split; auto; lia|].
  destruct (IHlft (S cpt) (if Nat.eqb (cpt mod 10) 0 then err (dK s) (dK (d_step n m a b w s)) else e) (d_step n m a b w s)) as (k & Hk & E).
  exists (S k). split; [lia|]. cbn zeta. rewrite E, iter_S. reflexivity.
Qed.
Lemma l_loop_iter : forall (N : NumOps) n m a b w err bad thr ex lg lft cpt e s, exists k, (k <= lft)%nat /\ l_loop (N:=N) n m a b w err bad thr ex lg lft cpt e s = Nat.iter k (l_step n m a b w ex lg) s.
Proof.
  intros N n m a b w err bad thr ex lg. induction lft; intros cpt e s; cbn [l_loop]; [exists 0%nat; auto|].
  destruct (nltb thr e); [|exists 0%nat; split; auto; lia].
  destruct (bad _); [exists 1%nat; split; auto; lia|].
  destruct (IHlft (S cpt) (if Nat.eqb (cpt mod 10) 0 then err (dK s) (dK (l_step n m a b w ex lg s)) else e) (l_step n m a b w ex lg s)) as (k & Hk & E).
  exists (S k). split; [lia|]. cbn zeta. rewrite E, iter_S. reflexivity.
Qed.

(** ** fixed points *)
Lemma fixed_scale : forall c r q al : R, 0 < r -> 0 < q -> 1 <= al -> 0 < c ->
  al = / (Rmin (c / (r * al)) 1) -> r <= c /\ (ln al * (c - r) = 0).
Proof.
  intros c r q al Hr Hq Hal Hc E. assert (0 < r * al) by (apply Rmult_lt_0_compat; lra).
  destruct (Rle_lt_dec (c / (r * al)) 1) as [A|A].
  - rewrite Rmin_left in E by auto. assert (B : c = r). { apply (Rmult_eq_reg_r (al / c)); [|apply Rgt_not_eq; apply Rdiv_lt_0_compat; lra]. replace (c * (al / c)) with al by (field; lra). rewrite E at 1. field. split; lra. }
    split; [lra|]. rewrite B. ring.
  - rewrite Rmin_right in E by lra. rewrite Rinv_1 in E. subst al. rewrite Rmult_1_r in A. rewrite ln_1. split; [|ring].
    apply (Rmult_lt_compat_r r) in A; auto. replace (c / r * r) with c in A by (field; lra). lra.
Qed.

Lemma d_fixed : forall n m a b w K0, (0 < n)%nat -> (0 < m)%nat -> pos_vec n a -> pos_vec m b -> 0 < w ->
  (forall i j, (i < n)%nat -> (j < m)%nat -> 0 < K0 i j) -> forall s, dinv n m w K0 s ->
  (forall i j, (i < n)%nat -> (j < m)%nat -> dq1 (d_step (N:=RNum) n m a b w s) i j = dq1 s i j /\ dq2 (d_step (N:=RNum) n m a b w s) i j = dq2 s i j) ->
  subcoupling n m a b (dK s) /\
  (forall i, (i < n)%nat -> ln (dq1 s i 0%nat) * (a i - row_sum m (dK s) i) = 0) /\
  (forall j, (j < m)%nat -> ln (dq2 s 0%nat j) * (b j - col_sum n (dK s) j) = 0).
Proof.
  intros n m a b w K0 Hn Hm Ha Hb Hw HK0 s [I1 I2 I3 I4 I5 I6] HF.
  set (Kq := fun i j => nmul (n:=RNum) (dK s i j) (dq1 s i j)) in *.
  assert (PKq : posm n m Kq). { intros i j Hi Hj. unfold Kq. apply (Rmult_lt_0_compat (dK s i j)); auto. apply pos1, I2; auto. }
  set (K1 := fun i j => nmul (n:=RNum) (nmin (ndiv (n:=RNum) (a i) (nsum m (fun j => Kq i j))) n1) (Kq i j)) in *.
  assert (E1 : forall i j, K1 i j = rho m a Kq i * Kq i j) by (intros; unfold K1; rewrite nsum_R, nmin_R; reflexivity).
  assert (R1 : forall i j, (i < n)%nat -> (j < m)%nat -> dq1 s i j = / rho m a Kq i).
  { intros i j Hi Hj. rewrite <- (proj1 (HF i j Hi Hj)). change (dq1 s i j * dK s i j / K1 i j = / rho m a Kq i). rewrite E1. change (Kq i j) with (dK s i j * dq1 s i j). apply dk_q; auto. apply pos1, I2; auto. eapply rho_pos; eauto. }
  assert (K1K : forall i j, (i < n)%nat -> (j < m)%nat -> K1 i j = dK s i j).
  { intros i j Hi Hj. rewrite E1. unfold Kq at 2. rewrite R1 by auto. change (nmul (n:=RNum) (dK s i j) (/ rho m a Kq i)) with (dK s i j * / rho m a Kq i).
    assert (T := rho_pos n m a Hm Ha Kq i PKq Hi). apply (k1k _ (dK s i j)); lra. }
  set (K1q := fun i j => nmul (n:=RNum) (K1 i j) (dq2 s i j)) in *.
  assert (EK1q : forall i j, (i < n)%nat -> (j < m)%nat -> K1q i j = dK s i j * dq2 s i j) by (intros; unfold K1q; rewrite K1K; auto).
  assert (PK1q : posm n m K1q). { intros i j Hi Hj. rewrite EK1q by auto. apply (Rmult_lt_0_compat (dK s i j)); auto. apply pos1, I3; auto. }
  set (K2 := fun i j => nmul (n:=RNum) (K1q i j) (nmin (ndiv (n:=RNum) (b j) (nsum n (fun i => K1q i j))) n1)) in *.
  assert (E2 : forall i j, K2 i j = sig n b K1q j * K1q i j) by (intros; unfold K2; rewrite nsum_R, nmin_R; apply Rmult_comm).
  assert (R2 : forall i j, (i < n)%nat -> (j < m)%nat -> dq2 s i j = / sig n b K1q j).
  { intros i j Hi Hj. rewrite <- (proj2 (HF i j Hi Hj)). change (dq2 s i j * K1 i j / K2 i j = / sig n b K1q j). rewrite E2. change (K1q i j) with (K1 i j * dq2 s i j). apply dk_q; auto. apply pos1, I3; auto. rewrite K1K by auto; apply I1; auto. eapply sig_pos; eauto. }
  assert (A : forall i, (i < n)%nat -> row_sum m (dK s) i <= a i /\ ln (dq1 s i 0%nat) * (a i - row_sum m (dK s) i) = 0).
  { intros i Hi. assert (T := posm_row n m Hm (dK s) i I1 Hi).
    apply (fixed_scale (a i) (row_sum m (dK s) i) 1); auto; try lra. apply I2; auto.
    rewrite (R1 i 0%nat) at 1 by auto. unfold rho. do 3 f_equal.
    unfold row_sum. rewrite <- rsum_scal_r. apply rsum_ext; intros j Hj. unfold Kq. destruct (I2 i j Hi Hj) as [-> _]. reflexivity. }
  assert (B : forall j, (j < m)%nat -> col_sum n (dK s) j <= b j /\ ln (dq2 s 0%nat j) * (b j - col_sum n (dK s) j) = 0).
  { intros j Hj. assert (T := posm_col n m Hn (dK s) j I1 Hj).
    apply (fixed_scale (b j) (col_sum n (dK s) j) 1); auto; try lra. apply I3; auto.
    rewrite (R2 0%nat j) at 1 by auto. unfold sig. do 3 f_equal.
    unfold col_sum. rewrite <- rsum_scal_r. apply rsum_ext; intros i Hi. rewrite EK1q by auto. destruct (I3 i j Hi Hj) as [-> _]. reflexivity. }
  split; [split; [intros i j Hi Hj; left; apply I1; auto|split; [intros i Hi; apply A; auto|intros j Hj; apply B; auto]]|].
  split; [intros i Hi; apply A; auto|intros j Hj; apply B; auto].
Qed.
