(** The debiased barycenter: optimality of the fixed points. *)
From Coq Require Import Reals Lra Lia Arith Bool List.
Import ListNotations.
From Verif Require Import Num Sums Spec Duals_proofs Entropy Emd1d_model Emd1d_perm_proofs Sinkhorn_model Sinkhorn_proofs Bary_model Bary_proofs Bary_more Bary_loops.
Local Open Scope R_scope.

(** * Specification.  The debiased objective of plans P_s (with common second marginal a) and a
    positive vector d:  sum_s w_s (<M,P_s> + reg sum P_s log P_s) - reg <a, log d> + reg/2 <d, K d>.
    The last two terms, minimised over d, are minus one half of the entropic cost from a to itself. *)
Definition deb_obj (n h : nat) (w : vec) (M : mat) (reg : R) (P : nat -> mat) (a d : vec) : R :=
  bary_obj n h w M reg P - reg * rsum n (fun j => a j * ln (d j)) + reg / 2 * rsum n (fun i => rsum n (fun j => d i * exp (- M i j / reg) * d j)).

Lemma ent_lin : forall n m M reg P Q f g, 0 <= reg -> nonneg_mat n m P ->
  (forall i j, (i < n)%nat -> (j < m)%nat -> (0 < Q i j /\ M i j + reg * ln (Q i j) = f i + g j) \/ (Q i j = 0 /\ P i j = 0)) ->
  rsum n (fun i => f i * row_sum m P i) + rsum m (fun j => g j * col_sum n P j) + reg * (total n m P - total n m Q) <= ent_obj n m M reg P.
Proof.
  intros n m M reg P Q f g Hr HP HE.
  assert (E : forall B : mat, dsum n m (fun i j => f i * B i j + g j * B i j) = rsum n (fun i => f i * row_sum m B i) + rsum m (fun j => g j * col_sum n B j)).
  { intros B. rewrite dsum_plus, dsum_row, dsum_col. auto. }
  rewrite <- E, <- (dsum_total n m P), <- (dsum_total n m Q), <- dsum_minus, <- dsum_scal, <- dsum_plus.
  unfold ent_obj, cost, ent. fold (dsum n m (fun i j => M i j * P i j)) (dsum n m (fun i j => P i j * ln (P i j))). rewrite <- dsum_scal, <- dsum_plus.
  apply dsum_le. intros i j Hi Hj. destruct (HE i j Hi Hj) as [[HQ Eq]|[HQ Eq]].
  - assert (B := xlnx_tangent (P i j) (Q i j) (HP i j Hi Hj) HQ). unfold xlnx in B. apply (Rmult_le_compat_l reg) in B; auto.
    replace (f i * P i j + g j * P i j) with ((f i + g j) * P i j) by ring. rewrite <- Eq. lra.
  - rewrite HQ, Eq. lra.
Qed.
Lemma ent_val : forall n m M reg Q f g, 
  (forall i j, (i < n)%nat -> (j < m)%nat -> (0 < Q i j /\ M i j + reg * ln (Q i j) = f i + g j) \/ Q i j = 0) ->
  ent_obj n m M reg Q = rsum n (fun i => f i * row_sum m Q i) + rsum m (fun j => g j * col_sum n Q j).
Proof.
  intros n m M reg Q f g HE. rewrite <- dsum_row, <- dsum_col, <- dsum_plus.
  unfold ent_obj, cost, ent. fold (dsum n m (fun i j => M i j * Q i j)) (dsum n m (fun i j => Q i j * ln (Q i j))). rewrite <- dsum_scal, <- dsum_plus.
  apply dsum_ext. intros i j Hi Hj. destruct (HE i j Hi Hj) as [[HQ Eq]|HQ].
  - replace (f i * Q i j + g j * Q i j) with ((f i + g j) * Q i j) by ring. rewrite <- Eq. ring.
  - rewrite HQ. ring.
Qed.

Section Deb.
Variables (n h : nat) (M : mat) (reg : R) (A : mat) (w : vec).
Hypotheses (Hreg : 0 < reg) (HA : nonneg_mat n h A) (Hw : nonneg_vec h w).
Notation K := (fun i j => exp (- M i j / reg)).
Definition quad (d : vec) : R := rsum n (fun i => rsum n (fun j => d i * exp (- M i j / reg) * d j)).
Definition kmul (d : vec) (i : nat) : R := rsum n (fun j => exp (- M i j / reg) * d j).
(** K is symmetric and positive semidefinite *)
Definition psd : Prop := (forall i j, (i < n)%nat -> (j < n)%nat -> M i j = M j i) /\ forall x, 0 <= quad x.
Lemma quad_kmul : forall d, quad d = rsum n (fun i => d i * kmul d i).
Proof. intros. unfold quad, kmul. apply rsum_ext. intros i Hi. rewrite <- rsum_scal. apply rsum_ext; intros; ring. Qed.
Lemma quad_tangent : forall c d, psd -> quad c / 2 + rsum n (fun i => kmul c i * (d i - c i)) <= quad d / 2.
Proof.
  intros c d [Hs Hp]. pose proof (Hp (fun i => d i - c i)) as Q.
  assert (E : quad (fun i => d i - c i) = quad d - quad c - 2 * rsum n (fun i => kmul c i * (d i - c i))).
  { assert (X : forall x y, rsum n (fun i => x i * kmul y i) = rsum n (fun i => y i * kmul x i)).
    { intros x y. unfold kmul. rewrite (rsum_ext n _ (fun i => rsum n (fun j => x i * exp (- M i j / reg) * y j))) by (intros; rewrite <- rsum_scal; apply rsum_ext; intros; ring).
      rewrite rsum_swap. apply rsum_ext. intros j Hj. rewrite <- rsum_scal. apply rsum_ext. intros i Hi. rewrite (Hs i j) by auto. ring. }
    rewrite !quad_kmul. rewrite (rsum_ext n (fun i => (d i - c i) * kmul (fun i => d i - c i) i) (fun i => d i * kmul d i - d i * kmul c i - c i * kmul d i + c i * kmul c i)).
    - rewrite rsum_plus, !rsum_minus, (X c d). rewrite (rsum_ext n (fun i => kmul c i * (d i - c i)) (fun i => d i * kmul c i - c i * kmul c i)) by (intros; ring). rewrite rsum_minus. ring.
    - intros i Hi. assert (L : kmul (fun i => d i - c i) i = kmul d i - kmul c i) by (unfold kmul; rewrite <- rsum_minus; apply rsum_ext; intros; ring). rewrite L. ring. }
  lra.
Qed.
Lemma deb1 : forall V s P a (g d : vec), pos_mat n h V -> (s < h)%nat -> coupling n n (fun i => A i s) a P -> pos_vec n g -> pos_vec n d ->
  reg * rsum n (fun j => a j * (ln (V j s) + ln (d j) - ln (g j)) - scal_col n K A V j s * ln (V j s) + scal_col n K A V j s * (1 - d j / g j))
   <= ent_obj n n M reg P - ent_obj n n M reg (scal_plan n K A V s).
Proof.
  intros V s P a g d HV Hs (P1 & P2 & P3) Hg Hd.
  set (f := fun i => reg * ln (lscal n K A V i s)).
  set (W := fun (j t : nat) => V j t * (d j / g j)).
  set (Q := fun i j => lscal n K A V i s * K i j * W j s).
  assert (F : forall (U : mat) i j, pos_mat n h U -> (i < n)%nat -> (j < n)%nat -> 0 < A i s ->
     0 < lscal n K A V i s * K i j * U j s /\ M i j + reg * ln (lscal n K A V i s * K i j * U j s) = f i + reg * ln (U j s)).
  { intros U i j HU Hi Hj L. assert (X : 0 < lscal n K A V i s) by (apply Rdiv_lt_0_compat; auto; apply (kv_pos n h M reg); auto). pose proof (HU j s Hj Hs) as Y.
    assert (E : 0 < exp (- M i j / reg)) by apply exp_pos. split; [apply Rmult_lt_0_compat; auto; apply Rmult_lt_0_compat; auto|].
    unfold f. rewrite !ln_mult, ln_exp; auto using Rmult_lt_0_compat. field. lra. }
  assert (HW : pos_mat n h W) by (intros j t Hj Ht; apply Rmult_lt_0_compat; [apply HV; auto|apply Rdiv_lt_0_compat; auto]).
  assert (Z : forall i, (i < n)%nat -> 0 = A i s -> lscal n K A V i s = 0 /\ forall j, (j < n)%nat -> P i j = 0).
  { intros i Hi L. split; [unfold lscal; rewrite <- L; unfold Rdiv; ring|]. intros j Hj. apply (row_zero n P i); auto. rewrite (P2 i Hi). symmetry. exact L. }
  assert (B := ent_lin n n M reg P Q f (fun j => reg * ln (W j s)) ltac:(lra) P1).
  assert (C := ent_val n n M reg (scal_plan n K A V s) f (fun j => reg * ln (V j s))).
  rewrite C; clear C.
  2:{ intros i j Hi Hj. destruct (Rle_lt_or_eq_dec 0 (A i s) (HA i s Hi Hs)) as [L|L]; [left; apply (F V); auto|right]. unfold scal_plan. rewrite (proj1 (Z i Hi L)). ring. }
  eapply Rle_trans; [|apply Rplus_le_compat_r; apply B]; clear B.
  2:{ intros i j Hi Hj. destruct (Rle_lt_or_eq_dec 0 (A i s) (HA i s Hi Hs)) as [L|L]; [left; apply (F W); auto|right]. unfold Q. rewrite (proj1 (Z i Hi L)). split; [ring|apply (Z i Hi L); auto]. }
  rewrite (rsum_ext n (fun i => f i * row_sum n (scal_plan n K A V s) i) (fun i => f i * row_sum n P i)) by (intros i Hi; rewrite (plan_row n h M reg A) by auto; rewrite (P2 i Hi); auto).
  assert (T1 : total n n P = rsum n (fun j => scal_col n K A V j s)).
  { rewrite (total_rows n n P (scal_plan n K A V s)) by (intros i Hi; rewrite (plan_row n h M reg A) by auto; apply P2; auto).
    unfold total. rewrite rsum_swap. apply rsum_ext. intros j Hj. rewrite <- (plan_col n M reg A). reflexivity. }
  assert (T2 : total n n Q = rsum n (fun j => scal_col n K A V j s * (d j / g j))).
  { unfold total. rewrite rsum_swap. apply rsum_ext. intros j Hj. rewrite <- (plan_col n M reg A). unfold col_sum. rewrite <- rsum_scal_r. apply rsum_ext. intros i Hi. unfold Q, W, scal_plan. ring. }
  rewrite T1, T2.
  rewrite (rsum_ext n (fun j => reg * ln (W j s) * col_sum n P j) (fun j => reg * (a j * (ln (V j s) + ln (d j) - ln (g j))))).
  2:{ intros j Hj. unfold W. rewrite (P3 j Hj). unfold Rdiv. pose proof (HV j s Hj Hs). pose proof (Hd j Hj). pose proof (Hg j Hj). rewrite !ln_mult, ln_Rinv; auto using Rinv_0_lt_compat, Rmult_lt_0_compat. ring. }
  rewrite (rsum_ext n (fun j => reg * ln (V j s) * col_sum n (scal_plan n K A V s) j) (fun j => reg * (scal_col n K A V j s * ln (V j s)))) by (intros; rewrite (plan_col n M reg A); ring).
  right. rewrite !rsum_scal.
  rewrite (rsum_ext n (fun j => a j * (ln (V j s) + ln (d j) - ln (g j)) - scal_col n K A V j s * ln (V j s) + scal_col n K A V j s * (1 - d j / g j))
     (fun j => a j * (ln (V j s) + ln (d j) - ln (g j)) - scal_col n K A V j s * ln (V j s) + (scal_col n K A V j s - scal_col n K A V j s * (d j / g j)))) by (intros; ring).
  rewrite rsum_plus, !rsum_minus. ring.
Qed.
(** the certificate; g carries the dual constraint sum_s w_s log V_s = log g *)
Lemma deb_cert : forall V P a (bar g d : vec), psd -> rsum h w = 1 -> pos_mat n h V -> pos_vec n g -> pos_vec n d -> bary_feasible n h A P a ->
  (forall j, (j < n)%nat -> tilt h w V j = ln (g j)) ->
  deb_obj n h w M reg (scal_plan n K A V) bar g <= deb_obj n h w M reg P a d
    + reg * rsum h (fun s => w s * rsum n (fun j => ln (V j s) * (scal_col n K A V j s - bar j)))
    + reg * rsum n (fun j => (rsum h (fun s => w s * scal_col n K A V j s) / g j - kmul g j) * (d j - g j)).
Proof.
  intros V P a bar g d HP H1 HV Hg Hd HF HT.
  assert (G : rsum h (fun s => w s * (reg * rsum n (fun j => a j * (ln (V j s) + ln (d j) - ln (g j)) - scal_col n K A V j s * ln (V j s) + scal_col n K A V j s * (1 - d j / g j))))
     <= bary_obj n h w M reg P - bary_obj n h w M reg (scal_plan n K A V)).
  { unfold bary_obj. rewrite <- rsum_minus. apply rsum_le. intros s Hs. rewrite <- Rmult_minus_distr_l. apply Rmult_le_compat_l; [apply Hw; auto|]. apply deb1; auto. }
  pose proof (quad_tangent g d HP) as QT. apply (Rmult_le_compat_l reg) in QT; [|lra].
  unfold deb_obj. fold (quad g) (quad d).
  assert (E : rsum h (fun s => w s * (reg * rsum n (fun j => a j * (ln (V j s) + ln (d j) - ln (g j)) - scal_col n K A V j s * ln (V j s) + scal_col n K A V j s * (1 - d j / g j)))) =
     reg * rsum n (fun j => a j * ln (d j)) - reg * rsum n (fun j => bar j * ln (g j))
     - reg * rsum h (fun s => w s * rsum n (fun j => ln (V j s) * (scal_col n K A V j s - bar j)))
     - reg * rsum n (fun j => (rsum h (fun s => w s * scal_col n K A V j s) / g j) * (d j - g j))).
  { transitivity (reg * rsum n (fun j => rsum h (fun s => w s * (a j * (ln (V j s) + ln (d j) - ln (g j)) - scal_col n K A V j s * ln (V j s) + scal_col n K A V j s * (1 - d j / g j))))).
    { rewrite (rsum_swap n h). rewrite <- rsum_scal. apply rsum_ext. intros s Hs. rewrite rsum_scal. ring. }
    rewrite (rsum_ext h (fun s => w s * rsum n (fun j => ln (V j s) * (scal_col n K A V j s - bar j))) (fun s => rsum n (fun j => w s * (ln (V j s) * (scal_col n K A V j s - bar j))))) by (intros; rewrite rsum_scal; auto).
    rewrite (rsum_swap h n). rewrite <- !Rmult_minus_distr_l. f_equal. rewrite <- !rsum_minus. apply rsum_ext. intros j Hj. pose proof (Hg j Hj) as Gj.
    replace (bar j * ln (g j)) with (rsum h (fun s => bar j * (w s * ln (V j s)))) by (rewrite rsum_scal; fold (tilt h w V j); rewrite (HT j Hj); auto).
    replace (rsum h (fun s => w s * scal_col n K A V j s) / g j * (d j - g j)) with (rsum h (fun s => w s * scal_col n K A V j s * (/ g j * (d j - g j)))) by (rewrite rsum_scal_r; field; lra).
    replace (a j * ln (d j)) with (rsum h (fun s => w s * (a j * ln (d j) + a j * ln (V j s) - a j * ln (g j)))).
    - rewrite <- !rsum_minus. apply rsum_ext. intros s Hs. field. lra.
    - rewrite (rsum_ext h _ (fun s => (a j * ln (d j) - a j * ln (g j)) * w s + a j * (w s * ln (V j s)))) by (intros; ring). rewrite rsum_plus, !rsum_scal, H1.
      fold (tilt h w V j). rewrite (HT j Hj). ring. }
  assert (E2 : reg * rsum n (fun j => (rsum h (fun s => w s * scal_col n K A V j s) / g j - kmul g j) * (d j - g j)) =
    reg * rsum n (fun j => (rsum h (fun s => w s * scal_col n K A V j s) / g j) * (d j - g j)) - reg * rsum n (fun i => kmul g i * (d i - g i))).
  { rewrite <- Rmult_minus_distr_l. f_equal. rewrite <- rsum_minus. apply rsum_ext; intros; ring. }
  rewrite E2. rewrite E in G. lra.
Qed.
End Deb.

(** ** The loop of _barycenter_debiased *)
Section DebRun.
Variables (n h : nat) (M : mat) (reg : R) (A : mat) (w : vec).
Hypotheses (HA : nonneg_mat n h A) (HA1 : forall s, (s < h)%nat -> exists i, (i < n)%nat /\ 0 < A i s).
Hypothesis (H1 : rsum h w = 1).
Hypothesis (Hsym : forall i j, (i < n)%nat -> (j < n)%nat -> M i j = M j i).
Notation K := (fun i j => exp (- M i j / reg)).
Notation step := (db_step (N:=RNum) exp ln sqrt n h A w K).
Notation ukv := (db_ukv (N:=RNum) n A K).
Definition db_pos (s : db (N:=RNum)) : Prop := pos_mat n h (db_u s) /\ pos_vec n (db_c s).
Lemma db_ukv_R : forall s j k, (j < n)%nat -> ukv s j k = ktv n M reg A (db_u s) j k.
Proof.
  intros s j k Hj. unfold db_ukv, dotK, ktv. rewrite nsum_R. apply rsum_ext. intros i Hi. unfold div_mat, lscal. rewrite nsum_R. cbn [nmul ndiv RNum]. rewrite (Hsym j i) by auto. reflexivity.
Qed.
Lemma db_bar_R : forall s j, (j < n)%nat -> db_bar (step s) j = db_c s j * gmean_w h w (ktv n M reg A (db_u s)) j.
Proof. intros s j Hj. cbn [db_step db_bar]. rewrite gbar_R. rewrite (gmean_ext h w (ukv s) (ktv n M reg A (db_u s))) by (intros; apply db_ukv_R; auto). reflexivity. Qed.
Lemma db_u_R : forall s j k, (j < n)%nat -> db_u (step s) j k = db_bar (step s) j / ktv n M reg A (db_u s) j k.
Proof. intros s j k Hj. rewrite <- db_ukv_R by auto. reflexivity. Qed.
Lemma db_c_R : forall s j, (j < n)%nat -> db_c (step s) j = sqrt (db_c s j * db_bar (step s) j / kmul n M reg (db_c s) j).
Proof. intros s j Hj. cbn [db_step db_c db_bar]. rewrite nsum_R. reflexivity. Qed.
Lemma kmul_pos : forall c j, (j < n)%nat -> pos_vec n c -> 0 < kmul n M reg c j.
Proof. intros c j Hj Hc. apply rsum_pos; [lia|]. intros i Hi. apply Rmult_lt_0_compat; [apply exp_pos|apply Hc; auto]. Qed.
Lemma db_bar_pos : forall s, db_pos s -> pos_vec n (db_bar (step s)).
Proof. intros s [_ Hc] j Hj. rewrite db_bar_R by auto. apply Rmult_lt_0_compat; [apply Hc; auto|apply gmean_w_pos]. Qed.
Lemma db_step_pos : forall s, db_pos s -> db_pos (step s).
Proof.
  intros s HP. pose proof (db_bar_pos s HP) as B. destruct HP as [Hu Hc]. split.
  - intros j k Hj Hk. rewrite db_u_R by auto. apply Rdiv_lt_0_compat; [apply B; auto|apply (ktv_pos n h M reg A HA HA1); auto].
  - intros j Hj. rewrite db_c_R by auto. apply sqrt_lt_R0. apply Rdiv_lt_0_compat; [apply Rmult_lt_0_compat; auto|apply kmul_pos; auto].
Qed.
Lemma db_step_tilt : forall s j, db_pos s -> (j < n)%nat -> tilt h w (db_u (step s)) j = ln (db_c s j).
Proof.
  intros s j HP Hj. pose proof (db_bar_pos s HP j Hj) as B. destruct HP as [Hu Hc]. unfold tilt.
  rewrite (rsum_ext h _ (fun k => ln (db_bar (step s) j) * w k - w k * ln (ktv n M reg A (db_u s) j k))).
  - rewrite rsum_minus, rsum_scal, H1, db_bar_R by auto. rewrite ln_mult, ln_gmean; [ring|apply Hc; auto|apply gmean_w_pos].
  - intros k Hk. rewrite db_u_R by auto. unfold Rdiv. rewrite ln_mult, ln_Rinv; auto using (ktv_pos n h M reg A HA HA1), Rinv_0_lt_compat. ring.
Qed.
Fixpoint db_iter (k : nat) (s : db (N:=RNum)) : db (N:=RNum) := match k with O => s | S k' => db_iter k' (step s) end.
Lemma db_iter_S : forall k s, db_iter (S k) s = step (db_iter k s).
Proof. induction k; intros; [reflexivity|]. cbn [db_iter] in *. rewrite <- IHk. reflexivity. Qed.
Lemma db_iter_pos : forall k s, db_pos s -> db_pos (db_iter k s).
Proof. induction k; intros; [auto|]. rewrite db_iter_S. apply db_step_pos; auto. Qed.
Lemma db_start_pos : db_pos (db_start (N:=RNum) exp ln n h A K).
Proof. split; [apply (u0_pos n h M reg A HA HA1)|]. intros j Hj. cbn. lra. Qed.
Lemma db_post : forall thr left ii s errs,
  let o := db_loop (N:=RNum) exp ln sqrt n h A w K thr left ii s errs in
  exists k, (k <= left)%nat /\ fst (fst o) = db_iter k s /\ (snd o = MaxIter -> k = left) /\ (forall j, snd o <> NumErr j) /\
  (forall j, snd o = Converged j -> S j = (ii + k)%nat /\ (1 <= k)%nat /\ (20 < j)%nat /\ Nat.modulo j 10 = 9%nat /\ db_err (N:=RNum) n (db_iter (k - 1) s) (db_iter k s) < thr).
Proof.
  intros thr. induction left as [|left IH]; intros ii s errs; cbn [db_loop].
  - exists 0%nat. cbn. repeat split; auto; discriminate.
  - cbv zeta.
    assert (R1 : forall e, let o := db_loop (N:=RNum) exp ln sqrt n h A w K thr left (S ii) (step s) e in
      exists k, (k <= S left)%nat /\ fst (fst o) = db_iter k s /\ (snd o = MaxIter -> k = S left) /\ (forall j, snd o <> NumErr j) /\
      (forall j, snd o = Converged j -> S j = (ii + k)%nat /\ (1 <= k)%nat /\ (20 < j)%nat /\ Nat.modulo j 10 = 9%nat /\ db_err (N:=RNum) n (db_iter (k - 1) s) (db_iter k s) < thr)).
    { intros e. destruct (IH (S ii) (step s) e) as (k & K1 & K2 & K3 & K4 & K5). exists (S k). split; [lia|]. split; [exact K2|]. split; [intros E; rewrite (K3 E); auto|]. split; [auto|].
      intros j Hj. destruct (K5 j Hj) as (J1 & J2 & J3 & J4 & J5). split; [lia|]. split; [lia|]. split; [auto|]. split; [auto|]. replace (S k - 1)%nat with (S (k - 1)) by lia. exact J5. }
    destruct (Nat.eqb_spec (Nat.modulo ii 10) 9) as [E|E]; [|apply R1].
    destruct (nltb (n:=RNum) _ thr && Nat.ltb 20 ii)%bool eqn:B; [|apply R1]. apply andb_true_iff in B. destruct B as [B1 B2]. exists 1%nat. cbn [fst snd]. split; [lia|]. split; [reflexivity|]. split; [discriminate|]. split; [discriminate|].
    intros j Hj. injection Hj as <-. apply Rltb_true in B1. apply Nat.ltb_lt in B2. split; [lia|]. split; [lia|]. split; [lia|]. split; [auto|]. exact B1.
Qed.
End DebRun.
