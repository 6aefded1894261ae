(** Unbalanced barycenters over R: the dual value increases at every iteration and the gap tends to zero. *)
From Coq Require Import Reals Lra Lia Psatz.
From Verif Require Import Sums Spec Entropy Monge Wp Unb_proofs Uot1d_uot Ubary_proofs.
Local Open Scope R_scope.

(** ** elementary estimates *)
Lemma exp_ge1 : forall s, 1 + s <= exp s.
Proof. intros s. destruct (Req_dec s 0) as [-> |]; [rewrite exp_0; lra|]. left; apply exp_ineq1; auto. Qed.
Lemma exp_quad : forall s, 0 <= s -> 1 + s + s * s / 2 <= exp s.
Proof.
  intros s Hs. set (F := fun x => exp x - 1 - x - x * x / 2).
  assert (D : forall x, derivable_pt_lim F x (exp x - 0 - 1 - (1 * x + x * 1) / 2)).
  { intros x. unfold F. repeat apply derivable_pt_lim_minus; [apply derivable_pt_lim_exp|apply derivable_pt_lim_const|apply derivable_pt_lim_id|].
    unfold Rdiv. replace ((1 * x + x * 1) * / 2) with ((1 * x + x * 1) * / 2 + x * x * 0) by ring.
    apply (derivable_pt_lim_mult (fun x => x * x) (fun _ => / 2)); [apply (derivable_pt_lim_mult id id); apply derivable_pt_lim_id|apply derivable_pt_lim_const]. }
  destruct (Req_dec s 0) as [-> |Hs0]; [rewrite exp_0; lra|].
  destruct (MVT_cor2 F (fun x => exp x - 0 - 1 - (1 * x + x * 1) / 2) 0 s ltac:(lra) (fun c _ => D c)) as (c & E & Hc).
  unfold F in E. rewrite exp_0 in E. pose proof (exp_ge1 c). nra.
Qed.
Lemma exp_mono : forall x y, x <= y -> exp x <= exp y.
Proof. intros x y [L|<-]; [left; apply exp_increasing; auto|lra]. Qed.
Lemma exp_diff : forall a b, exp a - exp b <= exp a * (a - b).
Proof.
  intros a b. pose proof (exp_ge1 (b - a)) as E. replace (exp b) with (exp a * exp (b - a)) by (rewrite <- exp_plus; f_equal; ring).
  pose proof (exp_pos a). nra.
Qed.
Lemma chi2 : forall x y, 0 < x -> 0 < y -> gkl x y <= (x - y) * (x - y) / y.
Proof.
  intros x y Hx Hy. unfold gkl. assert (Hr : 0 < x / y) by (apply Rdiv_lt_0_compat; auto).
  assert (L : ln (x / y) <= x / y - 1).
  { pose proof (exp_ge1 (ln (x / y))) as E. rewrite exp_ln in E by auto. lra. }
  replace ((x - y) * (x - y) / y) with (x * (x / y - 1) - x + y) by (field; lra). nra.
Qed.
(** x = y' e^s, y = y' e^(-rho s): the ascent dominates the gap *)
Lemma ascent_term : forall reg rm s y', 0 < reg -> 0 < rm -> 0 < y' ->
  reg / 2 * Rmin 1 (reg / rm) * (y' * (s * s)) <= reg * (y' * exp s - y') + rm * (y' * exp (- (reg / rm) * s) - y').
Proof.
  intros reg rm s y' Hr Hm Hy. set (rho := reg / rm). assert (Hp : 0 < rho) by (apply Rdiv_lt_0_compat; auto).
  assert (E : rm * rho = reg) by (unfold rho; field; lra).
  assert (Q : reg / 2 * Rmin 1 rho * (s * s) <= reg * (exp s - 1) + rm * (exp (- rho * s) - 1)).
  { destruct (Rle_dec 0 s) as [Hs|Hs].
    - pose proof (exp_quad s Hs). pose proof (exp_ge1 (- rho * s)). pose proof (Rmin_l 1 rho).
      assert (reg / 2 * Rmin 1 rho * (s * s) <= reg / 2 * 1 * (s * s)) by (apply Rmult_le_compat_r; [nra|apply Rmult_le_compat_l; lra]).
      assert (reg * (s + s * s / 2) <= reg * (exp s - 1)) by (apply Rmult_le_compat_l; lra).
      assert (rm * (- rho * s) <= rm * (exp (- rho * s) - 1)) by (apply Rmult_le_compat_l; lra).
      replace (rm * (- rho * s)) with (- reg * s) in * by (rewrite <- E; ring). lra.
    - pose proof (exp_quad (- rho * s) ltac:(nra)). pose proof (exp_ge1 s). pose proof (Rmin_r 1 rho).
      assert (reg / 2 * Rmin 1 rho * (s * s) <= reg / 2 * rho * (s * s)) by (apply Rmult_le_compat_r; [nra|apply Rmult_le_compat_l; lra]).
      assert (reg * s <= reg * (exp s - 1)) by (apply Rmult_le_compat_l; lra).
      assert (rm * (- rho * s + (- rho * s) * (- rho * s) / 2) <= rm * (exp (- rho * s) - 1)) by (apply Rmult_le_compat_l; lra).
      replace (rm * (- rho * s + (- rho * s) * (- rho * s) / 2)) with (- reg * s + reg / 2 * rho * (s * s)) in * by (rewrite <- E; field). lra. }
  apply (Rmult_le_compat_l y') in Q; [|lra]. lra.
Qed.
Lemma gap_term : forall reg rm s y' c C, 0 < reg -> 0 < rm -> 0 < c -> c <= y' <= C -> y' * exp s <= C -> c <= y' * exp (- (reg / rm) * s) <= C ->
  gkl (y' * exp s) (y' * exp (- (reg / rm) * s))
  <= C * (1 + reg / rm) * (C * (1 + reg / rm)) / c * (s * s).
Proof.
  intros reg rm s y' c C Hr Hm Hc [H1 H2] H3 [H4 H5]. set (rho := reg / rm) in *. assert (Hp : 0 < rho) by (apply Rdiv_lt_0_compat; auto).
  assert (Hy : 0 < y') by lra. set (x := y' * exp s) in *. set (y := y' * exp (- rho * s)) in *.
  assert (Hx : 0 < x) by (apply Rmult_lt_0_compat; auto; apply exp_pos).
  eapply Rle_trans; [apply chi2; lra|].
  assert (B : (x - y) * (x - y) <= C * (1 + rho) * (C * (1 + rho)) * (s * s)).
  { assert (X1 : x - y <= x * ((1 + rho) * s)).
    { unfold x, y. pose proof (exp_diff s (- rho * s)). apply (Rmult_le_compat_l y') in H; [|lra].
      replace (s - - rho * s) with ((1 + rho) * s) in H by ring. lra. }
    assert (X2 : y - x <= y * (- ((1 + rho) * s))).
    { unfold x, y. pose proof (exp_diff (- rho * s) s). apply (Rmult_le_compat_l y') in H; [|lra].
      replace (- rho * s - s) with (- ((1 + rho) * s)) in H by ring. lra. }
    set (t := (1 + rho) * s) in *.
    replace (C * (1 + rho) * (C * (1 + rho)) * (s * s)) with ((C * t) * (C * t)) by (unfold t; ring).
    destruct (Rle_dec 0 t) as [Ht|Ht].
    - assert (0 <= x - y) by nra. assert (x - y <= C * t) by nra. nra.
    - assert (0 <= y - x) by nra. assert (y - x <= C * - t) by nra. nra. }
  unfold Rdiv. apply Rle_trans with ((C * (1 + rho) * (C * (1 + rho)) * (s * s)) * / y).
  - apply Rmult_le_compat_r; auto. left. apply Rinv_0_lt_compat. lra.
  - replace (C * (1 + rho) * (C * (1 + rho)) * / c * (s * s)) with (C * (1 + rho) * (C * (1 + rho)) * (s * s) * / c) by ring.
    apply Rmult_le_compat_l; [|apply Rinv_le_contravar; lra].
    apply Rmult_le_pos; [apply Rle_0_sqr|apply Rle_0_sqr].
Qed.
(** finitely many bounds have a common one *)
Lemma common_bound : forall k (Q : nat -> R -> Prop), (forall i B B', B <= B' -> Q i B -> Q i B') ->
  (forall i, (i < k)%nat -> exists B, 0 <= B /\ Q i B) -> exists B, 0 <= B /\ forall i, (i < k)%nat -> Q i B.
Proof.
  intros k Q Hm. induction k; intros Hq.
  - exists 0. split; [lra|intros; lia].
  - destruct IHk as (B1 & P1 & H1); [intros; apply Hq; lia|]. destruct (Hq k ltac:(lia)) as (B2 & P2 & H2).
    exists (Rmax B1 B2). split; [apply Rle_trans with B1; auto; apply Rmax_l|].
    intros i Hi. destruct (Nat.eq_dec i k) as [-> |]; [apply (Hm _ B2); auto; apply Rmax_r|apply (Hm _ B1); [apply Rmax_l|apply H1; lia]].
Qed.

Section Conv.
Variables (n H : nat) (A M : mat) (w : vec) (reg rm : R).
Hypotheses (Hn : (0 < n)%nat) (Hreg : 0 < reg) (Hrm : 0 < rm) (HA : ub_data n H A) (Hw : ub_simplex H w).
Let K (i j : nat) : R := exp (- M i j / reg).
Let rho := reg / rm.
Let good := good n H A M w reg rm.
Let dual := ub_dual n H A M w reg rm.
Let gap := ub_gap n H A M w reg rm.
Let KV (v : mat) (i h : nat) : R := rsum n (fun j => K i j * v j h).
Let KTU (u : mat) (j h : nat) : R := rsum n (fun i => K i j * u i h).

Lemma dual_rows : forall u v, dual u v = rsum H (fun h => w h * (reg * rsum n (fun i => INR n - u i h * KV v i h) + rm * rsum n (fun i => A i h * (1 - Rpower (u i h) (- rho))))).
Proof.
  intros u v. unfold dual, ub_dual. apply rsum_ext; intros h Hh. f_equal. f_equal. f_equal. apply rsum_ext; intros i Hi.
  rewrite rsum_minus, rsum_const. f_equal; [ring|]. unfold KV. rewrite <- rsum_scal. apply rsum_ext; intros; unfold K; ring.
Qed.
Lemma dual_cols : forall u v, dual u v = rsum H (fun h => w h * (reg * rsum n (fun j => INR n - v j h * KTU u j h) + rm * rsum n (fun i => A i h * (1 - Rpower (u i h) (- rho))))).
Proof.
  intros u v. unfold dual, ub_dual. apply rsum_ext; intros h Hh. f_equal. f_equal. f_equal. rewrite rsum_swap. apply rsum_ext; intros j Hj.
  rewrite rsum_minus, rsum_const. f_equal; [ring|]. unfold KTU. rewrite <- rsum_scal. apply rsum_ext; intros; unfold K; ring.
Qed.
Lemma row_plan : forall u v i h, row_sum n (ub_plan M reg u v h) i = u i h * KV v i h.
Proof. intros. unfold row_sum, ub_plan, KV. rewrite <- rsum_scal. apply rsum_ext; intros; unfold K; ring. Qed.

(** the second half step: best scalings v among those allowed *)
Lemma v_step : forall v0 u v q v1, good v0 u v q -> posm n H v1 -> feas n H w reg rm v1 -> dual u v1 <= dual u v.
Proof.
  intros v0 u v q v1 G Hv1 Hf. rewrite !dual_cols. destruct Hw as [W0 W1].
  assert (C : rsum H (fun h => w h * rsum n (fun j => v j h * KTU u j h)) <= rsum H (fun h => w h * rsum n (fun j => v1 j h * KTU u j h))).
  { rewrite (rsum_ext H (fun h => w h * rsum n (fun j => v j h * KTU u j h)) (fun h => rsum n (fun j => w h * (v j h * KTU u j h)))) by (intros; rewrite rsum_scal; auto).
    rewrite (rsum_ext H (fun h => w h * rsum n (fun j => v1 j h * KTU u j h)) (fun h => rsum n (fun j => w h * (v1 j h * KTU u j h)))) by (intros; rewrite rsum_scal; auto).
    rewrite (rsum_swap H n), (rsum_swap H n (fun h j => w h * (v1 j h * KTU u j h))). apply rsum_le. intros j Hj.
    set (p := fun h => w h * Rpower (v j h) (- rho)). set (s := fun h => ln (v1 j h) - ln (v j h)).
    assert (P1 : rsum H p = 1) by (apply (g_c _ _ _ _ _ _ _ _ _ _ _ G); auto).
    assert (E1 : forall h, (h < H)%nat -> v1 j h = v j h * exp (s h)).
    { intros h Hh. unfold s. pose proof (Hv1 j h Hj Hh). pose proof (g_v1 _ _ _ _ _ _ _ _ _ _ _ G j h Hj Hh).
      unfold Rminus. rewrite exp_plus, exp_Ropp, !exp_ln by auto. field. lra. }
    assert (P2 : rsum H (fun h => p h * exp (- rho * s h)) = 1).
    { rewrite <- (Hf j Hj). apply rsum_ext; intros h Hh. unfold p, Rpower, s, rho. rewrite Rmult_assoc, <- exp_plus. f_equal. f_equal. ring. }
    assert (S0 : 0 <= rsum H (fun h => p h * s h)).
    { assert (L : rsum H (fun h => p h + - rho * (p h * s h)) <= rsum H (fun h => p h * exp (- rho * s h))).
      { apply rsum_le. intros h Hh. pose proof (exp_ge1 (- rho * s h)).
        assert (0 <= p h) by (apply Rmult_le_pos; [apply W0; auto|left; apply exp_pos]). nra. }
      rewrite rsum_plus, rsum_scal, P1, P2 in L. assert (0 < rho) by (apply Rdiv_lt_0_compat; auto). nra. }
    assert (Qv : forall h, (h < H)%nat -> w h * (v j h * KTU u j h) = q j * p h).
    { intros h Hh. unfold KTU, K. rewrite (g_v _ _ _ _ _ _ _ _ _ _ _ G) by auto. unfold p, rho. ring. }
    rewrite (rsum_ext H _ _ Qv). rewrite rsum_scal, P1.
    rewrite (rsum_ext H (fun h => w h * (v1 j h * KTU u j h)) (fun h => q j * (p h * exp (s h)))).
    2:{ intros h Hh. rewrite (E1 h Hh). transitivity (w h * (v j h * KTU u j h) * exp (s h)); [ring|]. rewrite Qv by auto. ring. }
    rewrite rsum_scal. pose proof (g_q _ _ _ _ _ _ _ _ _ _ _ G j Hj) as Qp. apply Rmult_le_compat_l; [lra|].
    assert (L : rsum H (fun h => p h + p h * s h) <= rsum H (fun h => p h * exp (s h))).
    { apply rsum_le. intros h Hh. pose proof (exp_ge1 (s h)).
      assert (0 <= p h) by (apply Rmult_le_pos; [apply W0; auto|left; apply exp_pos]). nra. }
    rewrite rsum_plus, P1 in L. lra. }
  assert (X : forall z, rsum H (fun h => w h * (reg * rsum n (fun j => INR n - z j h * KTU u j h) + rm * rsum n (fun i => A i h * (1 - Rpower (u i h) (- rho)))))
    = rsum H (fun h => w h * (reg * rsum n (fun j => INR n) + rm * rsum n (fun i => A i h * (1 - Rpower (u i h) (- rho))))) - reg * rsum H (fun h => w h * rsum n (fun j => z j h * KTU u j h))).
  { intros z. rewrite <- (rsum_scal H reg (fun h => w h * rsum n (fun j => z j h * KTU u j h))), <- rsum_minus. apply rsum_ext; intros h Hh. rewrite rsum_minus. ring. }
  rewrite (X v), (X v1). apply (Rmult_le_compat_l reg) in C; lra.
Qed.

(** the first half step, quantitatively *)
Definition delta (u u' v : mat) (i h : nat) : R := reg * (u i h * KV v i h - u' i h * KV v i h) + rm * (A i h * Rpower (u i h) (- rho) - A i h * Rpower (u' i h) (- rho)).
Lemma u_diff : forall u u' v, dual u' v - dual u v = rsum H (fun h => w h * rsum n (fun i => delta u u' v i h)).
Proof.
  intros. rewrite !dual_rows, <- rsum_minus. apply rsum_ext; intros h Hh. unfold delta.
  rewrite rsum_plus, !rsum_scal, !rsum_minus.
  rewrite (rsum_ext n (fun i => A i h * (1 - Rpower (u' i h) (- rho))) (fun i => A i h - A i h * Rpower (u' i h) (- rho))) by (intros; ring).
  rewrite (rsum_ext n (fun i => A i h * (1 - Rpower (u i h) (- rho))) (fun i => A i h - A i h * Rpower (u i h) (- rho))) by (intros; ring).
  rewrite !rsum_minus. ring.
Qed.
(** e^s form of both sides, at a point with mass *)
Lemma u_exp : forall v0 u v q u' v' q' i h, good v0 u v q -> good v u' v' q' -> (i < n)%nat -> (h < H)%nat -> 0 < A i h ->
  let y' := A i h * Rpower (u' i h) (- rho) in let s := ln (u i h) - ln (u' i h) in
  0 < y' /\ u' i h * KV v i h = y' /\ u i h * KV v i h = y' * exp s /\ A i h * Rpower (u i h) (- rho) = y' * exp (- rho * s).
Proof.
  intros v0 u v q u' v' q' i h G G' Hi Hh Ap y' s.
  pose proof (g_u1 _ _ _ _ _ _ _ _ _ _ _ G i h Hi Hh Ap) as U. pose proof (g_u1 _ _ _ _ _ _ _ _ _ _ _ G' i h Hi Hh Ap) as U'.
  assert (E1 : u i h = u' i h * exp s).
  { unfold s, Rminus. rewrite exp_plus, exp_Ropp, !exp_ln by auto. field. lra. }
  assert (E2 : u' i h * KV v i h = y') by (apply (g_u _ _ _ _ _ _ _ _ _ _ _ G'); auto).
  split; [apply Rmult_lt_0_compat; auto; apply exp_pos|]. split; auto. split.
  - rewrite E1, <- E2. ring.
  - unfold y', Rpower, s. rewrite Rmult_assoc, <- exp_plus. f_equal. f_equal. ring.
Qed.
Lemma delta_nonneg : forall v0 u v q u' v' q' i h, good v0 u v q -> good v u' v' q' -> (i < n)%nat -> (h < H)%nat -> 0 <= delta u u' v i h.
Proof.
  intros v0 u v q u' v' q' i h G G' Hi Hh. unfold delta. destruct (proj1 HA i h Hi Hh) as [Ap|Az].
  - destruct (u_exp _ _ _ _ _ _ _ i h G G' Hi Hh Ap) as (Y & E1 & E2 & E3). cbn zeta in *. rewrite E1, E2, E3.
    eapply Rle_trans; [|apply ascent_term; auto]. apply Rmult_le_pos; [|apply Rmult_le_pos; [lra|apply Rle_0_sqr]].
    apply Rmult_le_pos; [lra|]. apply Rmin_glb; [lra|]. left; apply Rdiv_lt_0_compat; auto.
  - rewrite (g_u0 _ _ _ _ _ _ _ _ _ _ _ G i h), (g_u0 _ _ _ _ _ _ _ _ _ _ _ G' i h), <- Az by auto. lra.
Qed.
Lemma ascent : forall v0 u v q u' v' q', good v0 u v q -> good v u' v' q' ->
  dual u v + rsum H (fun h => w h * rsum n (fun i => delta u u' v i h)) <= dual u' v'.
Proof.
  intros v0 u v q u' v' q' G G'. rewrite <- u_diff. pose proof (v_step v u' v' q' v G' (g_v1 _ _ _ _ _ _ _ _ _ _ _ G) (g_c _ _ _ _ _ _ _ _ _ _ _ G)). lra.
Qed.
Lemma ascent_mono : forall v0 u v q u' v' q', good v0 u v q -> good v u' v' q' -> dual u v <= dual u' v'.
Proof.
  intros v0 u v q u' v' q' G G'. pose proof (ascent _ _ _ _ _ _ _ G G').
  assert (0 <= rsum H (fun h => w h * rsum n (fun i => delta u u' v i h))); [|lra].
  apply rsum_nonneg; intros h Hh. apply Rmult_le_pos; [apply Hw; auto|]. apply rsum_nonneg; intros i Hi. eapply delta_nonneg; eauto.
Qed.

(** bounds *)
Lemma y_low : forall v0 u v q i h, good v0 u v q -> feas n H w reg rm v0 -> (i < n)%nat -> (h < H)%nat -> 0 < A i h -> 0 < w h ->
  exp ((ln (A i h) + rho * ln (K i 0 * Rpower (w h) (1 / rho))) / (1 + rho)) <= A i h * Rpower (u i h) (- rho).
Proof.
  intros v0 u v q i h G Hf Hi Hh Ap Wp. assert (Rp : 0 < rho) by (apply Rdiv_lt_0_compat; auto).
  pose proof (g_u1 _ _ _ _ _ _ _ _ _ _ _ G i h Hi Hh Ap) as U. pose proof (g_v0 _ _ _ _ _ _ _ _ _ _ _ G) as V0.
  set (y := A i h * Rpower (u i h) (- rho)).
  assert (Y : 0 < y) by (apply Rmult_lt_0_compat; auto; apply exp_pos).
  assert (KVp : 0 < KV v0 i h) by (apply (KV_pos n H); auto).
  assert (E1 : ln y = ln (u i h) + ln (KV v0 i h)).
  { rewrite <- ln_mult by auto. f_equal. symmetry. apply (g_u _ _ _ _ _ _ _ _ _ _ _ G); auto. }
  assert (E2 : ln y = ln (A i h) - rho * ln (u i h)).
  { unfold y. rewrite ln_mult by (auto; apply exp_pos). unfold Rpower. rewrite ln_exp. ring. }
  assert (V : Rpower (w h) (1 / rho) <= v0 0%nat h).
  { assert (V1 : w h * Rpower (v0 0%nat h) (- rho) <= 1).
    { unfold rho. rewrite <- (Hf 0%nat Hn). apply (rsum_le_one H (fun h => w h * Rpower (v0 0%nat h) (- (reg / rm)))); auto.
      intros. apply Rmult_le_pos; [apply Hw; auto|left; apply exp_pos]. }
    pose proof (V0 0%nat h Hn Hh) as Vp.
    assert (V2 : w h <= Rpower (v0 0%nat h) rho).
    { rewrite Rpower_Ropp in V1. assert (P : 0 < Rpower (v0 0%nat h) rho) by apply exp_pos.
      apply (Rmult_le_compat_r (Rpower (v0 0%nat h) rho)) in V1; [|lra]. rewrite Rmult_assoc, Rinv_l in V1 by lra. lra. }
    apply Rle_trans with (Rpower (Rpower (v0 0%nat h) rho) (1 / rho)).
    - apply Rle_Rpower_l; [|lra]. left; apply Rdiv_lt_0_compat; lra.
    - rewrite Rpower_mult. replace (rho * (1 / rho)) with 1 by (field; lra). rewrite Rpower_1 by auto. lra. }
  assert (L : ln (K i 0 * Rpower (w h) (1 / rho)) <= ln (KV v0 i h)).
  { assert (P : 0 < K i 0 * Rpower (w h) (1 / rho)) by (apply Rmult_lt_0_compat; apply exp_pos).
    assert (LE : K i 0 * Rpower (w h) (1 / rho) <= KV v0 i h).
    { apply Rle_trans with (K i 0%nat * v0 0%nat h); [apply Rmult_le_compat_l; auto; left; apply exp_pos|].
      apply (rsum_le_one n (fun j => K i j * v0 j h)); auto. intros; apply Rmult_le_pos; left; [apply exp_pos|apply V0; auto]. }
    destruct LE as [LE|LE]; [left; apply ln_increasing; auto|rewrite LE; lra]. }
  rewrite <- (exp_ln y Y). apply exp_mono.
  apply (Rmult_le_reg_r (1 + rho)); [lra|]. unfold Rdiv. rewrite Rmult_assoc, Rinv_l, Rmult_1_r by lra. nra.
Qed.
(** from a lower bound d of the dual value *)
Lemma xy_up : forall v0 u v q d i h, good v0 u v q -> d <= dual u v -> (i < n)%nat -> (h < H)%nat -> 0 < w h ->
  let C0 := reg * (INR n * INR n) + rm * rsum H (fun h => w h * rsum n (fun i => A i h)) - d in
  u i h * KV v i h <= C0 / (w h * reg) + C0 / (w h * rm) /\ A i h * Rpower (u i h) (- rho) <= C0 / (w h * reg) + C0 / (w h * rm).
Proof.
  intros v0 u v q d i h G Hd Hi Hh Wp C0. destruct Hw as [W0 W1].
  assert (X0 : forall i h, (i < n)%nat -> (h < H)%nat -> 0 <= u i h * KV v i h).
  { intros i' h' Hi' Hh'. apply Rmult_le_pos; [eapply u_nonneg; eauto|]. left; apply (KV_pos n H); auto. apply (g_v1 _ _ _ _ _ _ _ _ _ _ _ G). }
  assert (Y0 : forall i h, (i < n)%nat -> (h < H)%nat -> 0 <= A i h * Rpower (u i h) (- rho)).
  { intros i' h' Hi' Hh'. apply Rmult_le_pos; [apply HA; auto|left; apply exp_pos]. }
  assert (T : rsum H (fun h => w h * (reg * rsum n (fun i => u i h * KV v i h) + rm * rsum n (fun i => A i h * Rpower (u i h) (- rho)))) <= C0).
  { rewrite dual_rows in Hd. unfold C0.
    assert (X : rsum H (fun h => w h * (reg * rsum n (fun i => INR n - u i h * KV v i h) + rm * rsum n (fun i => A i h * (1 - Rpower (u i h) (- rho)))))
      = reg * (INR n * INR n) + rm * rsum H (fun h => w h * rsum n (fun i => A i h)) - rsum H (fun h => w h * (reg * rsum n (fun i => u i h * KV v i h) + rm * rsum n (fun i => A i h * Rpower (u i h) (- rho))))).
    { replace (reg * (INR n * INR n)) with (reg * (INR n * INR n) * rsum H w) by (rewrite W1; ring).
      rewrite <- !rsum_scal, <- rsum_plus, <- rsum_minus. apply rsum_ext; intros h' Hh'.
      rewrite rsum_minus, rsum_const. rewrite (rsum_ext n (fun i => A i h' * (1 - Rpower (u i h') (- rho))) (fun i => A i h' - A i h' * Rpower (u i h') (- rho))) by (intros; ring).
      rewrite rsum_minus. ring. }
    lra. }
  assert (T1 : w h * (reg * (u i h * KV v i h) + rm * (A i h * Rpower (u i h) (- rho))) <= C0).
  { eapply Rle_trans; [|apply T]. eapply Rle_trans; [|apply (rsum_le_one H (fun h => w h * (reg * rsum n (fun i => u i h * KV v i h) + rm * rsum n (fun i => A i h * Rpower (u i h) (- rho)))) h); auto].
    - apply Rmult_le_compat_l; [lra|]. apply Rplus_le_compat; apply Rmult_le_compat_l; try lra.
      + apply (rsum_le_one n (fun i => u i h * KV v i h)); auto.
      + apply (rsum_le_one n (fun i => A i h * Rpower (u i h) (- rho))); auto.
    - intros h' Hh'. apply Rmult_le_pos; [apply W0; auto|]. apply Rplus_le_le_0_compat; apply Rmult_le_pos; try lra; apply rsum_nonneg; auto. }
  pose proof (X0 i h Hi Hh) as x0. pose proof (Y0 i h Hi Hh) as y0. set (x := u i h * KV v i h) in *. set (y := A i h * Rpower (u i h) (- rho)) in *.
  assert (Cp : 0 <= C0) by (eapply Rle_trans; [|apply T1]; apply Rmult_le_pos; [lra|]; apply Rplus_le_le_0_compat; apply Rmult_le_pos; lra).
  assert (D1 : 0 <= C0 / (w h * reg)) by (apply Rle_mult_inv_pos; auto; apply Rmult_lt_0_compat; auto).
  assert (D2 : 0 <= C0 / (w h * rm)) by (apply Rle_mult_inv_pos; auto; apply Rmult_lt_0_compat; auto).
  assert (0 < w h * reg) by (apply Rmult_lt_0_compat; auto). assert (0 < w h * rm) by (apply Rmult_lt_0_compat; auto).
  assert (0 <= w h * rm * y) by (apply Rmult_le_pos; lra). assert (0 <= w h * reg * x) by (apply Rmult_le_pos; lra).
  split.
  - assert (x <= C0 / (w h * reg)); [|lra]. apply (Rmult_le_reg_r (w h * reg)); auto. unfold Rdiv. rewrite Rmult_assoc, Rinv_l by lra. lra.
  - assert (y <= C0 / (w h * rm)); [|lra]. apply (Rmult_le_reg_r (w h * rm)); auto. unfold Rdiv. rewrite Rmult_assoc, Rinv_l by lra. lra.
Qed.

(** the gap is at most a constant times the ascent *)
Lemma gap_ascent : forall d, exists B, 0 <= B /\ forall v0 u v q u' v' q', good v0 u v q -> good v u' v' q' -> feas n H w reg rm v0 -> d <= dual u v ->
  gap u v <= B * (dual u' v' - dual u v).
Proof.
  intros d.
  set (Q := fun h i B => forall v0 u v q u' v' q', good v0 u v q -> good v u' v' q' -> feas n H w reg rm v0 -> d <= dual u v ->
     w h * gkl (u i h * KV v i h) (A i h * Rpower (u i h) (- rho)) <= B * (w h * delta u u' v i h)).
  assert (X : exists B, 0 <= B /\ forall h, (h < H)%nat -> forall i, (i < n)%nat -> Q h i B).
  { assert (Mono : forall h i B B', (h < H)%nat -> (i < n)%nat -> B <= B' -> Q h i B -> Q h i B').
    { intros h i B B' Hh Hi HB HQ v0 u v q u' v' q' G G' F D. eapply Rle_trans; [eapply HQ; eauto|]. apply Rmult_le_compat_r; auto.
      apply Rmult_le_pos; [apply Hw; auto|eapply delta_nonneg; eauto]. }
    assert (Y : forall h, (h < H)%nat -> exists B, 0 <= B /\ forall i, (i < n)%nat -> Q h i B).
    { intros h Hh. destruct (common_bound n (fun i B => (i < n)%nat -> Q h i B)) as (B & B0 & HB).
      { intros i B B' HB HQ Hi. eapply Mono; eauto. }
      2:{ exists B; split; auto. }
      intros i Hi. destruct (proj1 Hw h Hh) as [Wp|Wz].
      2:{ exists 0. split; [lra|]. intros _ v0 u v q u' v' q' G G' F D. rewrite <- Wz. lra. }
      destruct (proj1 HA i h Hi Hh) as [Ap|Az].
      2:{ exists 0. split; [lra|]. intros _ v0 u v q u' v' q' G G' F D. rewrite (g_u0 _ _ _ _ _ _ _ _ _ _ _ G i h), <- Az by auto. unfold gkl. lra. }
      set (c := exp ((ln (A i h) + rho * ln (K i 0 * Rpower (w h) (1 / rho))) / (1 + rho))).
      set (C0 := reg * (INR n * INR n) + rm * rsum H (fun h => w h * rsum n (fun i => A i h)) - d).
      set (C := C0 / (w h * reg) + C0 / (w h * rm)).
      set (c0 := reg / 2 * Rmin 1 (reg / rm)).
      assert (cp : 0 < c) by apply exp_pos.
      assert (c0p : 0 < c0). { unfold c0. apply Rmult_lt_0_compat; [lra|]. apply Rmin_glb_lt; [lra|]. apply Rdiv_lt_0_compat; auto. }
      set (B := C * (1 + reg / rm) * (C * (1 + reg / rm)) / c / (c0 * c)).
      exists B. split.
      { unfold B. apply Rle_mult_inv_pos; [apply Rle_mult_inv_pos; auto; apply Rle_0_sqr|apply Rmult_lt_0_compat; auto]. }
      intros _ v0 u v q u' v' q' G G' F D. rewrite <- Rmult_assoc, (Rmult_comm B), Rmult_assoc. apply Rmult_le_compat_l; [lra|].
      destruct (u_exp _ _ _ _ _ _ _ i h G G' Hi Hh Ap) as (Y & E1 & E2 & E3). cbn zeta in *.
      pose proof (y_low _ _ _ _ i h G F Hi Hh Ap Wp) as L1. fold c in L1.
      pose proof (y_low _ _ _ _ i h G' (g_c _ _ _ _ _ _ _ _ _ _ _ G) Hi Hh Ap Wp) as L2. fold c in L2.
      destruct (xy_up _ _ _ _ d i h G D Hi Hh Wp) as [U1 U2]. cbn zeta in *. fold C0 in U1, U2. fold C in U1, U2.
      assert (D' : d <= dual u' v') by (pose proof (ascent_mono _ _ _ _ _ _ _ G G'); lra).
      destruct (xy_up _ _ _ _ d i h G' D' Hi Hh Wp) as [_ U3]. cbn zeta in *. fold C0 in U3. fold C in U3.
      unfold delta. rewrite E1, E2, E3 in *.
      set (y' := A i h * Rpower (u' i h) (- rho)) in *. set (s := ln (u i h) - ln (u' i h)) in *.
      eapply Rle_trans; [apply (gap_term reg rm s y' c C); auto|].
      pose proof (ascent_term reg rm s y' Hreg Hrm Y) as T. fold c0 in T. fold rho in T.
      apply Rle_trans with (B * (c0 * (y' * (s * s)))).
      - unfold B. replace (C * (1 + reg / rm) * (C * (1 + reg / rm)) / c / (c0 * c) * (c0 * (y' * (s * s))))
          with (C * (1 + reg / rm) * (C * (1 + reg / rm)) / c * (s * s) * (y' / c)) by (field; repeat split; lra).
        rewrite <- (Rmult_1_r (_ * (s * s))) at 1. apply Rmult_le_compat_l.
        + apply Rmult_le_pos; [apply Rle_mult_inv_pos; auto; apply Rle_0_sqr|apply Rle_0_sqr].
        + apply (Rmult_le_reg_r c); auto. unfold Rdiv. rewrite Rmult_assoc, Rinv_l by lra. lra.
      - apply Rmult_le_compat_l; auto. unfold B. apply Rle_mult_inv_pos; [apply Rle_mult_inv_pos; auto; apply Rle_0_sqr|apply Rmult_lt_0_compat; auto]. }
    destruct (common_bound H (fun h B => (h < H)%nat -> forall i, (i < n)%nat -> Q h i B)) as (B & B0 & HB).
    { intros h B B' HB HQ Hh i Hi. eapply Mono; eauto. }
    { intros h Hh. destruct (Y h Hh) as (B & B0 & HB). exists B; split; auto. }
    exists B; split; auto. }
  destruct X as (B & B0 & HB). exists (rm * B). split; [apply Rmult_le_pos; lra|].
  intros v0 u v q u' v' q' G G' F D. unfold gap, ub_gap. rewrite Rmult_assoc. apply Rmult_le_compat_l; [lra|].
  pose proof (ascent _ _ _ _ _ _ _ G G') as As. apply Rle_trans with (B * rsum H (fun h => w h * rsum n (fun i => delta u u' v i h))).
  2:{ apply Rmult_le_compat_l; lra. }
  rewrite <- rsum_scal. apply rsum_le; intros h Hh. rewrite <- !rsum_scal. apply rsum_le; intros i Hi.
  rewrite row_plan. apply (HB h Hh i Hi v0 u v q u' v' q' G G' F D).
Qed.
End Conv.
