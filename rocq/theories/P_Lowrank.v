(** C116-C120: low rank transport (ot/lowrank.py), over the exact reals: [cbrt] is x ** (1/3),
    [tiny] is the 1e-16 the code adds, [no_nan] / [no_inf] say that no real is NaN or infinite. *)
From Coq Require Import List Arith Bool Reals Lra Lia.
From Verif Require Import Num Sums Spec Duals_proofs Entropy Emd1d_model Emd1d_perm_proofs Optim_model Optim_proofs Circle_proofs Dmmot_proofs
  Sinkhorn_model Sinkhorn_proofs P_Sinkhorn Lowrank_model Lowrank_proofs Lowrank_more.
Import ListNotations.
Local Open Scope R_scope.

Definition pos_mat (n m : nat) (P : mat) : Prop := forall i j, (i < n)%nat -> (j < m)%nat -> 0 < P i j.
(** the l1 distance between the row sums of a matrix and a target *)
Definition row_gap (n m : nat) (P : mat) (a : vec) : R := rsum n (fun i => Rabs (row_sum m P i - a i)).
Definition tpose (P : mat) : mat := fun i j => P j i.

(** C116: whatever the number of inner iterations, the factors returned by the inner (Dykstra) solver are
    positive and share their column sums with g exactly; if it stopped without the warning, their row
    sums are within stopThr of the two targets. *)
Theorem C116_factors : forall n m r e1 e2 e3 p1 p2 (alpha thr : R) it o,
  (0 < n)%nat -> (0 < m)%nat -> (0 < r)%nat -> pos_mat n r e1 -> pos_mat m r e2 -> pos_vec r e3 -> pos_vec n p1 -> pos_vec m p2 ->
  lr_dykstra (N:=RNum) cbrt n m r e1 e2 e3 p1 p2 alpha thr it = Some o ->
  pos_mat n r (l_Q o) /\ pos_mat m r (l_R o) /\ pos_vec r (l_g o) /\
  (forall k, (k < r)%nat -> col_sum n (l_Q o) k = l_g o k /\ col_sum m (l_R o) k = l_g o k) /\
  (l_conv o = true -> row_gap n r (l_Q o) p1 + row_gap m r (l_R o) p2 <= thr).
Proof.
  intros n m r e1 e2 e3 p1 p2 alpha thr it o Hn Hm Hr H1 H2 H3 P1 P2 E.
  destruct (lr_dykstra_spec n m r e1 e2 e3 p1 p2 alpha thr it o Hn Hm Hr H1 H2 H3 P1 P2 E). unfold row_gap. repeat split; auto.
Qed.
Print Assumptions C116_factors.
(** any arithmetic: without an iteration (numItermax = 0, or stopThr >= 1 so that the initial err = 1 passes)
    the variables it returns are unbound ... *)
Theorem C116_unbound : forall (N : NumOps) cb n m r e1 e2 e3 p1 p2 (alpha thr : N) it,
  (it = 0%nat \/ nltb thr n1 = false) -> lr_dykstra (N:=N) cb n m r e1 e2 e3 p1 p2 alpha thr it = None.
Proof.
  intros N cb n m r e1 e2 e3 p1 p2 alpha thr it [-> |H]; [reflexivity|]. unfold lr_dykstra. destruct it; [reflexivity|].
  cbn [dyk_loop dyk_init d_err]. rewrite H. reflexivity.
Qed.
Print Assumptions C116_unbound.
(** ... and otherwise it returns. *)
Theorem C116_returns : forall n m r e1 e2 e3 p1 p2 (alpha thr : R) it,
  (0 < n)%nat -> (0 < m)%nat -> (0 < r)%nat -> pos_mat n r e1 -> pos_mat m r e2 -> pos_vec r e3 -> pos_vec n p1 -> pos_vec m p2 ->
  (0 < it)%nat -> thr < 1 -> exists o, lr_dykstra (N:=RNum) cbrt n m r e1 e2 e3 p1 p2 alpha thr it = Some o.
Proof. intros. apply lr_dykstra_ran; auto. Qed.
Print Assumptions C116_returns.

(** alpha, documented as a lower bound for g, is not one: the averaging after the clamp goes below it, even
    when the solver reports convergence. *)
Lemma cbrt_le : forall x y, 0 < x -> 0 <= y -> x <= y * y * y -> cbrt x <= y.
Proof.
  intros x y Hx Hy H. assert (C := cbrt_cube x Hx). assert (P := cbrt_pos x). destruct (Rle_lt_dec (cbrt x) y) as [|L]; auto.
  assert (y * y * y < cbrt x * cbrt x * cbrt x); [|lra].
  assert (y * y < cbrt x * cbrt x) by nra. nra.
Qed.
Lemma cbrt_ge : forall x y, 0 < x -> 0 <= y -> y * y * y <= x -> y <= cbrt x.
Proof.
  intros x y Hx Hy H. assert (C := cbrt_cube x Hx). assert (P := cbrt_pos x). destruct (Rle_lt_dec y (cbrt x)) as [|L]; auto.
  assert (cbrt x * cbrt x * cbrt x < y * y * y); [|lra].
  assert (cbrt x * cbrt x < y * y) by nra. nra.
Qed.
Definition e1x : mat := fun _ k => match k with O => 24 / 25 | _ => 1 / 25 end.
Definition e2x : mat := fun _ k => match k with O => 4 / 5 | _ => 1 / 5 end.
Definition e3x : vec := fun _ => 1 / 8.
Definition onex : vec := fun _ => 1.
Theorem C116_lower_bound_refuted : exists n m r e1 e2 e3 p1 p2 (alpha thr : R) it o,
  pos_mat n r e1 /\ pos_mat m r e2 /\ pos_vec r e3 /\ pos_vec n p1 /\ pos_vec m p2 /\ alpha < 1 / INR r /\
  lr_dykstra (N:=RNum) cbrt n m r e1 e2 e3 p1 p2 alpha thr it = Some o /\ l_conv o = true /\
  exists k, (k < r)%nat /\ l_g o k < alpha.
Proof.
  exists 1%nat, 1%nat, 2%nat, e1x, e2x, e3x, onex, onex, (1/8), (9/10), 2%nat.
  assert (H1 : pos_mat 1 2 e1x) by (intros i [|k] _ _; unfold e1x; lra).
  assert (H2 : pos_mat 1 2 e2x) by (intros i [|k] _ _; unfold e2x; lra).
  assert (H3 : pos_vec 2 e3x) by (intros k _; unfold e3x; lra).
  assert (HP : pos_vec 1 onex) by (intros k _; unfold onex; lra).
  set (s0 := dyk_init (N:=RNum) e3x).
  set (t := dyk_step (N:=RNum) cbrt 1 1 2 e1x e2x onex onex (1 / 8) s0).
  destruct (dyk_step_inv 1 1 2 e1x e2x e3x onex onex (1/8) ltac:(lia) ltac:(lia) ltac:(lia) H1 H2 HP HP s0 (dpre_init 2 e3x H3))
    as (_ & u1 & u2 & Eu & _ & _ & K & Er). fold t in Eu, K, Er.
  assert (G : forall k, d_g t k = cbrt (1/8 * e1x 0%nat k * e2x 0%nat k)).
  { intros k. unfold t, dyk_step, s0, dyk_init, ones. cbn [d_g d_q31 d_q32 d_v1 d_v2 d_q1 d_q2 d_err d_u]. f_equal.
    rewrite nmax_R. unfold mtv, mvr. rewrite !nsum_R. cbn [rsum n0 n1 nadd nmul ndiv RNum]. rewrite !nsum_R. cbn [rsum].
    unfold e3x, onex, e1x, e2x. cbn [n0 n1 nadd nmul ndiv RNum]. rewrite Rmax_left by lra. match goal with |- ?x = ?y => change (@eq R x y) end. field. }
  assert (G0 : 9/20 <= d_g t 0%nat <= 1/2).
  { rewrite G. unfold e1x, e2x. split; [apply cbrt_ge; lra|apply cbrt_le; lra]. }
  assert (G1 : d_g t 1%nat = 1 / 10).
  { rewrite G. unfold e1x, e2x. apply Rle_antisym; [apply cbrt_le; lra|apply cbrt_ge; lra]. }
  assert (Ee : d_err t <= 9 / 10).
  { rewrite Er. cbn [rsum].
    destruct (K 0%nat ltac:(lia)) as (A0 & B0 & _). destruct (K 1%nat ltac:(lia)) as (A1 & B1 & _).
    unfold MT in A0, A1, B0, B1. cbn [rsum] in A0, A1, B0, B1. unfold MV. cbn [rsum].
    replace (u1 0%nat * (0 + e1x 0%nat 0%nat * d_v1 t 0%nat + e1x 0%nat 1%nat * d_v1 t 1%nat)) with (d_g t 0%nat + d_g t 1%nat) by (rewrite <- A0, <- A1; ring).
    replace (u2 0%nat * (0 + e2x 0%nat 0%nat * d_v2 t 0%nat + e2x 0%nat 1%nat * d_v2 t 1%nat)) with (d_g t 0%nat + d_g t 1%nat) by (rewrite <- B0, <- B1; ring).
    rewrite G1. unfold onex. change (carrier RNum) with R in *. rewrite Rabs_left by lra. lra. }
  eexists. repeat (split; [first [exact H1|exact H2|exact H3|exact HP|cbn; lra]|]).
  split.
  { unfold lr_dykstra. cbn [dyk_loop]. fold s0.
    assert (C0 : nltb (n:=RNum) (9/10) (d_err s0) = true) by (apply Rltb_true; cbn; lra).
    rewrite C0. fold t. assert (C1 : nltb (n:=RNum) (9/10) (d_err t) = false) by (apply Rltb_false; exact Ee). rewrite C1, Eu. reflexivity. }
  split; [reflexivity|]. exists 1%nat. split; [lia|]. cbn [l_g]. rewrite G1. lra.
Qed.
Print Assumptions C116_lower_bound_refuted.

(** C117: the inner solver's output is the KL projection up to its residuals: multipliers ln u1, ln u2 and
    mu >= 0 exist such that no feasible point beats it by more than the row violations weighted by the
    multipliers plus mu.(g - alpha); in particular it is exactly optimal without lower bound when its
    rows are exact. *)
Definition lr_feasible (n m r : nat) (p1 p2 : vec) (alpha : R) (Q S : mat) (g : vec) : Prop :=
  nonneg_mat n r Q /\ nonneg_mat m r S /\ (forall i, (i < n)%nat -> row_sum r Q i = p1 i) /\ (forall j, (j < m)%nat -> row_sum r S j = p2 j) /\
  (forall k, (k < r)%nat -> col_sum n Q k = g k /\ col_sum m S k = g k /\ alpha <= g k).
Definition lr_kl (n m r : nat) (e1 e2 : mat) (e3 : vec) (Q S : mat) (g : vec) : R := klm n r Q e1 + klm m r S e2 + kl r g e3.
Theorem C117_certificate : forall n m r e1 e2 e3 p1 p2 (alpha thr : R) it o,
  (0 < n)%nat -> (0 < m)%nat -> (0 < r)%nat -> pos_mat n r e1 -> pos_mat m r e2 -> pos_vec r e3 -> pos_vec n p1 -> pos_vec m p2 ->
  lr_dykstra (N:=RNum) cbrt n m r e1 e2 e3 p1 p2 alpha thr it = Some o ->
  exists f h mu, nonneg_vec r mu /\ (alpha <= 0 -> forall k, (k < r)%nat -> mu k = 0) /\
  forall Q S g, lr_feasible n m r p1 p2 alpha Q S g ->
    lr_kl n m r e1 e2 e3 (l_Q o) (l_R o) (l_g o) <= lr_kl n m r e1 e2 e3 Q S g
      + (rsum n (fun i => f i * (row_sum r (l_Q o) i - p1 i)) + rsum m (fun j => h j * (row_sum r (l_R o) j - p2 j)) + rsum r (fun k => mu k * (l_g o k - alpha))).
Proof.
  intros n m r e1 e2 e3 p1 p2 alpha thr it o Hn Hm Hr H1 H2 H3 P1 P2 E.
  destruct (lr_dykstra_spec n m r e1 e2 e3 p1 p2 alpha thr it o Hn Hm Hr H1 H2 H3 P1 P2 E) as [HQ HR Hg CQ CR _ (u1 & u2 & v1 & v2 & mu & U1 & U2 & V1 & V2 & Mu & Mu0 & K1 & K2 & K3)].
  exists (fun i => ln (u1 i)), (fun j => ln (u2 j)), mu. split; auto. split; auto.
  intros Q S g (NQ & NS & RQ & RS & CG).
  assert (T1 := klm_tangent n r Q (l_Q o) e1 NQ HQ H1). assert (T2 := klm_tangent m r S (l_R o) e2 NS HR H2).
  assert (Ng : nonneg_vec r g).
  { intros k Hk. destruct (CG k Hk) as (<- & _). apply rsum_nonneg; intros; auto. }
  assert (T3 := klv_tangent r g (l_g o) e3 Ng Hg H3).
  rewrite (dsum_ext n r _ (fun i k => (ln (u1 i) + ln (v1 k)) * (Q i k - l_Q o i k))) in T1 by (intros; rewrite K1; auto).
  rewrite (dsum_ext m r _ (fun i k => (ln (u2 i) + ln (v2 k)) * (S i k - l_R o i k))) in T2 by (intros; rewrite K2; auto).
  rewrite dsum_split_uv in T1, T2.
  rewrite (rsum_ext n (fun i => ln (u1 i) * (row_sum r Q i - row_sum r (l_Q o) i)) (fun i => - (ln (u1 i) * (row_sum r (l_Q o) i - p1 i)))) in T1 by (intros; rewrite RQ by auto; ring).
  rewrite (rsum_ext m (fun i => ln (u2 i) * (row_sum r S i - row_sum r (l_R o) i)) (fun i => - (ln (u2 i) * (row_sum r (l_R o) i - p2 i)))) in T2 by (intros; rewrite RS by auto; ring).
  rewrite (rsum_ext r (fun k => ln (v1 k) * (col_sum n Q k - col_sum n (l_Q o) k)) (fun k => ln (v1 k) * (g k - l_g o k))) in T1
    by (intros k Hk; destruct (CG k Hk) as (-> & _); rewrite CQ by auto; reflexivity).
  rewrite (rsum_ext r (fun k => ln (v2 k) * (col_sum m S k - col_sum m (l_R o) k)) (fun k => ln (v2 k) * (g k - l_g o k))) in T2
    by (intros k Hk; destruct (CG k Hk) as (_ & -> & _); rewrite CR by auto; reflexivity).
  assert (T4 : - (rsum r (fun k => ln (v1 k) * (g k - l_g o k)) + rsum r (fun k => ln (v2 k) * (g k - l_g o k))) - rsum r (fun k => mu k * (l_g o k - alpha)) <= rsum r (fun k => ln (l_g o k / e3 k) * (g k - l_g o k))).
  { rewrite <- rsum_plus, <- rsum_opp, <- rsum_minus. apply rsum_le; intros k Hk. rewrite K3 by auto. destruct (CG k Hk) as (_ & _ & A).
    specialize (Mu k Hk). nra. }
  rewrite rsum_opp in T1, T2. unfold lr_kl. lra.
Qed.
Print Assumptions C117_certificate.
Theorem C117_exact : forall n m r e1 e2 e3 p1 p2 (alpha thr : R) it o,
  (0 < n)%nat -> (0 < m)%nat -> (0 < r)%nat -> pos_mat n r e1 -> pos_mat m r e2 -> pos_vec r e3 -> pos_vec n p1 -> pos_vec m p2 ->
  lr_dykstra (N:=RNum) cbrt n m r e1 e2 e3 p1 p2 alpha thr it = Some o -> alpha <= 0 -> l_conv o = true -> thr <= 0 ->
  lr_feasible n m r p1 p2 alpha (l_Q o) (l_R o) (l_g o) /\
  forall Q S g, lr_feasible n m r p1 p2 alpha Q S g -> lr_kl n m r e1 e2 e3 (l_Q o) (l_R o) (l_g o) <= lr_kl n m r e1 e2 e3 Q S g.
Proof.
  intros n m r e1 e2 e3 p1 p2 alpha thr it o Hn Hm Hr H1 H2 H3 P1 P2 E Ha Hc Ht.
  destruct (C116_factors n m r e1 e2 e3 p1 p2 alpha thr it o Hn Hm Hr H1 H2 H3 P1 P2 E) as (HQ & HR & Hg & CC & Hv). specialize (Hv Hc).
  unfold row_gap in Hv.
  assert (N1 : forall i, (i < n)%nat -> 0 <= Rabs (row_sum r (l_Q o) i - p1 i)) by (intros; apply Rabs_pos).
  assert (N2 : forall i, (i < m)%nat -> 0 <= Rabs (row_sum r (l_R o) i - p2 i)) by (intros; apply Rabs_pos).
  assert (S1 := rsum_nonneg n _ N1). assert (S2 := rsum_nonneg m _ N2).
  assert (R1 : forall i, (i < n)%nat -> row_sum r (l_Q o) i = p1 i).
  { intros i Hi. assert (Z := rsum_nonneg_zero n (fun i => Rabs (row_sum r (l_Q o) i - p1 i)) N1 ltac:(lra) i Hi). cbn beta in Z.
    destruct (Req_dec (row_sum r (l_Q o) i - p1 i) 0) as [|Hne]; [lra|]. apply Rabs_no_R0 in Hne. contradiction. }
  assert (R2 : forall i, (i < m)%nat -> row_sum r (l_R o) i = p2 i).
  { intros i Hi. assert (Z := rsum_nonneg_zero m (fun i => Rabs (row_sum r (l_R o) i - p2 i)) N2 ltac:(lra) i Hi). cbn beta in Z.
    destruct (Req_dec (row_sum r (l_R o) i - p2 i) 0) as [|Hne]; [lra|]. apply Rabs_no_R0 in Hne. contradiction. }
  split.
  - repeat split; auto.
    + intros i k Hi Hk. left. auto.
    + intros i k Hi Hk. left. auto.
    + apply CC; auto.
    + apply CC; auto.
    + specialize (Hg k H). change (carrier RNum) with R in *. lra.
  - intros Q S g F. destruct (C117_certificate n m r e1 e2 e3 p1 p2 alpha thr it o Hn Hm Hr H1 H2 H3 P1 P2 E) as (f & h & mu & _ & M0 & T).
    specialize (T Q S g F). specialize (M0 Ha).
    rewrite (rsum_ext n (fun i => f i * (row_sum r (l_Q o) i - p1 i)) (fun _ => 0)) in T by (intros; rewrite R1 by auto; ring).
    rewrite (rsum_ext m (fun j => h j * (row_sum r (l_R o) j - p2 j)) (fun _ => 0)) in T by (intros; rewrite R2 by auto; ring).
    rewrite (rsum_ext r (fun k => mu k * (l_g o k - alpha)) (fun _ => 0)) in T by (intros; rewrite M0 by auto; ring).
    rewrite !rsum_0 in T by auto. lra.
Qed.
Print Assumptions C117_exact.

(** The kernels built by one outer iteration make that projection a mirror descent step: up to a constant
    it minimises gamma <grad F, x> + KL(x | x_previous), where grad F is the derivative of
    <C, Q diag(1/g) R^T> + reg (sum Q ln Q + sum R ln R + sum g ln g) along mass preserving directions. *)
Theorem C117_mirror_step : forall n m c r M1 M2 (reg gm : R) Q S g, pos_mat n r Q -> pos_mat m r S -> pos_vec r g ->
  let C := fun i j => rsum c (fun t => M1 i t * M2 j t) in
  exists const, forall Q' S' g', nonneg_mat n r Q' -> nonneg_mat m r S' -> nonneg_vec r g' ->
  lr_kl n m r (lr_eps1 (N:=RNum) exp ln m c M1 M2 reg gm Q S g) (lr_eps2 (N:=RNum) exp ln n c M1 M2 reg gm Q S g)
     (lr_eps3 (N:=RNum) exp ln n m c M1 M2 reg gm Q S g) Q' S' g' =
  gm * (inner_m n r (gradQ m reg Q S g C) Q' + inner_m m r (gradR n reg Q S g C) S' + dot r (gradg n m reg Q S g C) g')
  + lr_kl n m r Q S g Q' S' g' + const.
Proof.
  intros n m c r M1 M2 reg gm Q S g HQ HS Hg C. eexists. intros Q' S' g' NQ NS Ng. unfold lr_kl.
  rewrite (klm_shift r gm n Q' Q (gradQ m reg Q S g C)) by (auto; intros; apply (eps1_R m c r); auto).
  rewrite (klm_shift r gm m S' S (gradR n reg Q S g C)) by (auto; intros; apply (eps2_R n c r); auto).
  rewrite (klv_shift r gm g' g (gradg n m reg Q S g C)) by (auto; intros; apply (eps3_R n m c r); auto).
  match goal with |- _ = _ + ?k => instantiate (1 := dsum n r (fun i t => exp (ln (Q i t) - gm * gradQ m reg Q S g C i t) - Q i t)
    + dsum m r (fun i t => exp (ln (S i t) - gm * gradR n reg Q S g C i t) - S i t) + rsum r (fun t => exp (ln (g t) - gm * gradg n m reg Q S g C t) - g t)) end.
  ring.
Qed.
Print Assumptions C117_mirror_step.
Theorem C117_gradient : forall n m r C reg Q S g DQ DS Dg, pos_mat n r Q -> pos_mat m r S -> pos_vec r g ->
  dsum n r DQ = 0 -> dsum m r DS = 0 -> rsum r Dg = 0 ->
  derivable_pt_lim (fun t => let Q' := fun i k => Q i k + t * DQ i k in let S' := fun j k => S j k + t * DS j k in let g' := fun k => g k + t * Dg k in
      rsum r (fun k => dsum n m (fun i j => C i j * (Q' i k * S' j k)) / g' k)
      + reg * (dsum n r (fun i k => Q' i k * ln (Q' i k)) + dsum m r (fun j k => S' j k * ln (S' j k)) + rsum r (fun k => g' k * ln (g' k)))) 0
    (inner_m n r (gradQ m reg Q S g C) DQ + inner_m m r (gradR n reg Q S g C) DS + dot r (gradg n m reg Q S g C) Dg).
Proof.
  intros n m r C reg Q S g DQ DS Dg HQ HS Hg Z1 Z2 Z3. cbv zeta.
  eapply deriv_eq.
  { apply (derivable_pt_lim_plus (fun t => lr_lin n m r C (fun i k => Q i k + t * DQ i k) (fun j k => S j k + t * DS j k) (fun k => g k + t * Dg k))
       (fun t => reg * lr_ent n m r (fun i k => Q i k + t * DQ i k) (fun j k => S j k + t * DS j k) (fun k => g k + t * Dg k))).
    - apply lr_lin_deriv; auto.
    - apply (derivable_pt_lim_scal (fun t => lr_ent n m r (fun i k => Q i k + t * DQ i k) (fun j k => S j k + t * DS j k) (fun k => g k + t * Dg k))).
      apply lr_ent_deriv; auto. }
  rewrite Z1, Z2, Z3. unfold inner_m, dot, gradQ, gradR, gradg.
  rewrite (dsum_ext n r (fun i j => (rsum m (fun j0 => C i j0 * S j0 j) / g j + reg * ln (Q i j)) * DQ i j) (fun i k => rsum m (fun j => C i j * S j k) / g k * DQ i k + reg * (ln (Q i k) * DQ i k))) by (intros; ring).
  rewrite (dsum_ext m r (fun i j => (rsum n (fun i0 => C i0 i * Q i0 j) / g j + reg * ln (S i j)) * DS i j) (fun j k => rsum n (fun i => C i j * Q i k) / g k * DS j k + reg * (ln (S j k) * DS j k))) by (intros; ring).
  rewrite (rsum_ext r (fun k => (- dsum n m (fun i j => C i j * (Q i k * S j k)) / (g k * g k) + reg * ln (g k)) * Dg k) (fun k => - dsum n m (fun i j => C i j * (Q i k * S j k)) / (g k * g k) * Dg k + reg * (ln (g k) * Dg k))) by (intros; ring).
  rewrite !dsum_plus, !dsum_scal, rsum_plus, rsum_scal. ring.
Qed.
Print Assumptions C117_gradient.

(** ** the whole solver *)
Definition weights (n : nat) (a : option vec) : vec := match a with Some a => a | None => fun _ => 1 / INR n end.
Definition eff_rank (n m : nat) (rank : option nat) : nat := match rank with None => Nat.min n m | Some k => Nat.min (Nat.min n m) k end.
Definition low_rank_plan (r : nat) (Q S : mat) (g : vec) : mat := fun i j => rsum r (fun k => Q i k * (1 / g k) * S j k).
(** the run, opened: the state p after 99 iterations and one more mirror step *)
Lemma run_open : forall tiny n m d X Y a b reg rank alpha rescale init gi it thr o P v vl,
  lowrank_sinkhorn (N:=RNum) exp ln sqrt cbrt tiny n m d X Y a b reg rank alpha rescale init gi it thr = LrOk o P v vl ->
  let r := eff_rank n m rank in
  let M1 := fst (lr_cost_factors (N:=RNum) sqrt n m d X Y rescale) in let M2 := snd (lr_cost_factors (N:=RNum) sqrt n m d X Y rescale) in
  exists a' b' p dgp, (forall i, a' i = weights n a i) /\ (forall i, b' i = weights m b i) /\ (0 < r)%nat /\
  lr_loop (N:=RNum) exp ln cbrt tiny n m (d + 2) r a' b' M1 M2 reg alpha thr gi it 99
    (mkLr (fst (fst (init r a' b'))) (snd (fst (init r a' b'))) (snd (init r a' b')) false) (fun _ => 0) = Some (p, dgp) /\
  lr_step (N:=RNum) exp ln cbrt tiny n m (d + 2) r a' b' M1 M2 reg alpha thr gi it (l_Q p) (l_R p) (l_g p) = Some o /\
  P = lr_plan (N:=RNum) r (l_Q o) (l_R o) (fun k => ndiv (n:=RNum) n1 (l_g o k)) /\
  vl = lr_value_linear (N:=RNum) n m (d + 2) r M1 M2 (l_Q o) (l_R o) (fun k => ndiv (n:=RNum) n1 (l_g p k)) /\
  v = lr_value (N:=RNum) ln tiny n m (d + 2) r M1 M2 reg (l_Q o) (l_R o) (l_g o) (fun k => ndiv (n:=RNum) n1 (l_g p k)).
Proof.
  intros tiny n m d X Y a b reg rank alpha rescale init gi it thr o P v vl. unfold lowrank_sinkhorn. cbv zeta. fold (eff_rank n m rank).
  set (r := eff_rank n m rank).
  destruct (Nat.eqb r 0) eqn:Er; [discriminate|]. apply Nat.eqb_neq in Er.
  destruct (nltb (n:=RNum) _ alpha); [destruct rank; discriminate|].
  destruct (lr_cost_factors (N:=RNum) sqrt n m d X Y rescale) as [M1 M2]. cbn [fst snd].
  set (a' := match a with Some a => a | None => _ end). set (b' := match b with Some b => b | None => _ end).
  destruct (init r a' b') as [[Q S] g] eqn:Ei. cbn [fst snd].
  match goal with |- context [lr_loop ?e ?l ?c ?t ?a1 ?a2 ?a3 ?a4 ?a5 ?a6 ?a7 ?a8 ?a9 ?b1 ?b2 ?b3 ?b4 100 ?s ?dg] =>
    destruct (lr_loop (N:=RNum) e l c t a1 a2 a3 a4 a5 a6 a7 a8 a9 b1 b2 b3 b4 100 s dg) as [[o' dg']|] eqn:E end; [|discriminate].
  intros [= <- <- <- <-]. apply (lr_loop_last RNum) in E. destruct E as (p & dgp & E1 & E2 & ->).
  exists a', b', p, dgp. repeat split; auto; try lia.
  - intros i. unfold a', weights. destruct a; auto. cbn [ndiv n1 RNum]. rewrite nofnat_INR. reflexivity.
  - intros i. unfold b', weights. destruct b; auto. cbn [ndiv n1 RNum]. rewrite nofnat_INR. reflexivity.
  - rewrite Ei. exact E1.
Qed.
Lemma fmul_ext : forall n m C P P', (forall i j, (i < n)%nat -> (j < m)%nat -> P i j = P' i j) -> cost n m C P = cost n m C P'.
Proof. intros. unfold cost. apply rsum_ext; intros; apply rsum_ext; intros. rewrite H; auto. Qed.

(** C118: value_linear is the transport cost of Q diag(1/g') R^T, g' being the weights before the last
    iteration (p is the state after 99 iterations), for the squared euclidean cost - exactly so with
    rescale_cost = False, divided by sqrt(max M1) sqrt(max M2) with the default rescale_cost = True; value adds reg
    times the entropies. *)
Definition scale (n m d : nat) (X Y : mat) (rescale : bool) : R :=
  if rescale then sqrt (max2 (N:=RNum) n (d + 2) (lr_M1 (N:=RNum) d X)) * sqrt (max2 (N:=RNum) m (d + 2) (lr_M2 (N:=RNum) d Y)) else 1.
Theorem C118_value : forall tiny n m d X Y a b reg rank alpha rescale init gi it thr o P v vl,
  (0 < n)%nat -> (0 < m)%nat ->
  lowrank_sinkhorn (N:=RNum) exp ln sqrt cbrt tiny n m d X Y a b reg rank alpha rescale init gi it thr = LrOk o P v vl ->
  let r := eff_rank n m rank in
  (forall i j, P i j = low_rank_plan r (l_Q o) (l_R o) (l_g o) i j) /\
  v = vl + reg * (dsum n r (fun i k => l_Q o i k * ln (l_Q o i k + tiny)) + rsum r (fun k => l_g o k * ln (l_g o k + tiny)) + dsum m r (fun j k => l_R o j k * ln (l_R o j k + tiny))) /\
  exists p dgp a' b', (forall i, a' i = weights n a i) /\ (forall i, b' i = weights m b i) /\
   lr_loop (N:=RNum) exp ln cbrt tiny n m (d + 2) r a' b' (fst (lr_cost_factors (N:=RNum) sqrt n m d X Y rescale)) (snd (lr_cost_factors (N:=RNum) sqrt n m d X Y rescale))
     reg alpha thr gi it 99 (mkLr (fst (fst (init r a' b'))) (snd (fst (init r a' b'))) (snd (init r a' b')) false) (fun _ => 0) = Some (p, dgp) /\
   vl * scale n m d X Y rescale = cost n m (fun i j => rsum d (fun k => (X i k - Y j k) * (X i k - Y j k))) (low_rank_plan r (l_Q o) (l_R o) (l_g p)).
Proof.
  intros tiny n m d X Y a b reg rank alpha rescale init gi it thr o P v vl Hn Hm E r.
  destruct (run_open _ _ _ _ _ _ _ _ _ _ _ _ _ _ _ _ _ _ _ _ E) as (a' & b' & p & dgp & Ea & Eb & Hr & L & _ & -> & -> & ->). fold r in Hr, L |- *.
  split; [intros; apply lr_plan_R|]. split.
  { unfold lr_value. cbv zeta. rewrite !nsum_R. cbn [nadd nmul RNum]. f_equal. f_equal. unfold dsum. f_equal; [f_equal|].
    - apply rsum_ext; intros; apply nsum_R.
    - apply rsum_ext; intros; apply nsum_R. }
  exists p, dgp, a', b'. split; auto. split; auto. split; auto.
  rewrite value_linear_R. rewrite (fmul_ext n m _ _ (low_rank_plan r (l_Q o) (l_R o) (l_g p))) by (intros; apply lr_plan_R).
  unfold cost. rewrite <- rsum_scal_r. apply rsum_ext; intros i Hi. rewrite <- rsum_scal_r. apply rsum_ext; intros j Hj.
  unfold scale. destruct rescale.
  - assert (F := factors_rescaled n m d X Y i j Hn Hm). destruct (lr_cost_factors (N:=RNum) sqrt n m d X Y true) as [M1 M2]. cbn [fst snd].
    fold (sqdist d X Y i j). rewrite <- F. ring.
  - cbn [lr_cost_factors fst snd]. rewrite factors_exact. unfold sqdist. ring.
Qed.
Print Assumptions C118_value.
(** With the default setting the reported value_linear is therefore not the cost of a plan: two points at
    squared distance 4 always give half the cost, whatever the weights, step sizes and tolerances. *)
Theorem C118_rescaled_refuted : exists n m d X Y, (0 < n)%nat /\ (0 < m)%nat /\ forall tiny a b reg rank alpha init gi it thr o P v vl,
  0 <= tiny -> pos_vec n (weights n a) -> pos_vec m (weights m b) ->
  lowrank_sinkhorn (N:=RNum) exp ln sqrt cbrt tiny n m d X Y a b reg rank alpha true init gi it thr = LrOk o P v vl ->
  exists g', pos_vec (eff_rank n m rank) g' /\
    vl = 1 / 2 * cost n m (fun i j => rsum d (fun k => (X i k - Y j k) * (X i k - Y j k))) (low_rank_plan (eff_rank n m rank) (l_Q o) (l_R o) g') /\ 0 < vl.
Proof.
  exists 1%nat, 1%nat, 1%nat, (fun _ _ => 2), (fun _ _ => 0). split; [lia|]. split; [lia|].
  intros tiny a b reg rank alpha init gi it thr o P v vl Ht Ha Hb E.
  destruct (C118_value _ _ _ _ _ _ _ _ _ _ _ _ _ _ _ _ _ _ _ _ Nat.lt_0_1 Nat.lt_0_1 E) as (_ & _ & p & dgp & a' & b' & Ea & Eb & L & V).
  destruct (run_open _ _ _ _ _ _ _ _ _ _ _ _ _ _ _ _ _ _ _ _ E) as (a2 & b2 & p2 & dgp2 & Ea2 & Eb2 & Hr & L2 & St & _).
  set (r := eff_rank 1 1 rank) in *.
  assert (Pa : pos_vec 1 a') by (intros i Hi; rewrite Ea; auto). assert (Pb : pos_vec 1 b') by (intros i Hi; rewrite Eb; auto).
  assert (Pa2 : pos_vec 1 a2) by (intros i Hi; rewrite Ea2; auto). assert (Pb2 : pos_vec 1 b2) by (intros i Hi; rewrite Eb2; auto).
  apply (lr_loop_last RNum) in L. destruct L as (q & dgq & _ & Sq & _).
  apply lr_step_ok in Sq; auto. apply lr_step_ok in St; auto.
  destruct Sq as (Q1 & S1 & g1 & _ & _ & G1 & _). destruct St as (Q2 & S2 & g2 & A2 & B2 & G2 & _).
  assert (Hg : pos_vec r (l_g p)).
  { intros k Hk. destruct (G1 k Hk) as (X1 & X2 & _). change (carrier RNum) with R in *. rewrite X2. lra. }
  exists (l_g p). split; auto.
  assert (Sc : scale 1 1 1 (fun _ _ => 2) (fun _ _ => 0) true = 2).
  { unfold scale, max2, lr_M1, lr_M2, sqn, nopp, two. cbn [Nat.sub Nat.add nmaxk]. rewrite !nmax_R. rewrite !nsum_R. cbn [rsum n0 n1 nadd nsub nmul RNum].
    rewrite (Rmax_left (0 + 2 * 2) 1) by lra. rewrite (Rmax_left (0 + 2 * 2)) by lra. rewrite (Rmax_left 1 (0 + 0 * 0)) by lra. rewrite (Rmax_left 1 0) by lra.
    rewrite sqrt_1. replace (0 + 2 * 2) with (2 * 2) by ring. rewrite sqrt_square by lra. lra. }
  rewrite Sc in V. split; [change (carrier RNum) with R in *; lra|].
  assert (0 < cost 1 1 (fun _ _ : nat => rsum 1 (fun _ : nat => (2 - 0) * (2 - 0))) (low_rank_plan r (l_Q o) (l_R o) (l_g p))); [|change (carrier RNum) with R in *; lra].
  unfold cost. cbn [rsum]. unfold low_rank_plan. assert (0 < rsum r (fun k => l_Q o 0%nat k * (1 / l_g p k) * l_R o 0%nat k)); [|lra].
  apply rsum_pos; auto. intros k Hk. destruct (A2 0%nat k ltac:(lia) Hk) as (Y1 & Y2). destruct (B2 0%nat k ltac:(lia) Hk) as (Z1 & Z2).
  specialize (Hg k Hk). change (carrier RNum) with R in *. rewrite Y2, Z2. apply Rmult_lt_0_compat; [|lra]. apply Rmult_lt_0_compat; [lra|].
  apply Rdiv_lt_0_compat; lra.
Qed.
Print Assumptions C118_rescaled_refuted.

(** C119: with positive weights, at least one inner iteration and stopThr < 1 (and alpha <= 1/rank) the solver
    returns; the lazy plan is positive and, if the last inner solve did not warn, its two marginals are within
    stopThr + 2 rank n m tiny of the weights. *)
Theorem C119_returns : forall tiny n m d X Y a b reg rank (alpha : R) rescale init gi it thr,
  (0 < n)%nat -> (0 < m)%nat -> (0 < eff_rank n m rank)%nat -> pos_vec n (weights n a) -> pos_vec m (weights m b) ->
  alpha <= 1 / INR (eff_rank n m rank) -> (0 < it)%nat -> thr < 1 ->
  exists o P v vl, lowrank_sinkhorn (N:=RNum) exp ln sqrt cbrt tiny n m d X Y a b reg rank alpha rescale init gi it thr = LrOk o P v vl.
Proof.
  intros tiny n m d X Y a b reg rank alpha rescale init gi it thr Hn Hm Hr Ha Hb Hal Hi Ht. unfold lowrank_sinkhorn. cbv zeta. fold (eff_rank n m rank).
  set (r := eff_rank n m rank) in *. destruct (Nat.eqb r 0) eqn:Er; [apply Nat.eqb_eq in Er; lia|].
  assert (C : nltb (n:=RNum) (ndiv n1 (nofnat r)) alpha = false) by (apply Rltb_false; rewrite nofnat_INR; exact Hal).
  rewrite C. destruct (lr_cost_factors (N:=RNum) sqrt n m d X Y rescale) as [M1 M2].
  match goal with |- context [init r ?x ?y] => set (a' := x); set (b' := y) end.
  assert (Pa : pos_vec n a').
  { intros i Hi'. specialize (Ha i Hi'). unfold a', weights in *. destruct a; auto. rewrite nofnat_INR. exact Ha. }
  assert (Pb : pos_vec m b').
  { intros i Hi'. specialize (Hb i Hi'). unfold b', weights in *. destruct b; auto. rewrite nofnat_INR. exact Hb. }
  destruct (init r a' b') as [[Q S] g].
  match goal with |- context [lr_loop ?e ?l ?c ?t ?a1 ?a2 ?a3 ?a4 ?a5 ?a6 ?a7 ?a8 ?a9 ?b1 ?b2 ?b3 ?b4 100 ?s ?dg] =>
    destruct (lr_loop_some t a1 a2 a3 a4 a5 a6 a7 a8 a9 b1 b2 b3 b4 100 s dg Hn Hm Hr Pa Pb Hi Ht) as ([o dg'] & ->) end.
  do 4 eexists. reflexivity.
Qed.
Print Assumptions C119_returns.
Theorem C119_marginals : forall tiny n m d X Y a b reg rank alpha rescale init gi it thr o P v vl,
  (0 < n)%nat -> (0 < m)%nat -> 0 <= tiny -> pos_vec n (weights n a) -> pos_vec m (weights m b) ->
  lowrank_sinkhorn (N:=RNum) exp ln sqrt cbrt tiny n m d X Y a b reg rank alpha rescale init gi it thr = LrOk o P v vl ->
  pos_mat n m P /\
  (l_conv o = true -> row_gap n m P (weights n a) + row_gap m n (tpose P) (weights m b) <= thr + 2 * INR (eff_rank n m rank) * INR n * INR m * tiny).
Proof.
  intros tiny n m d X Y a b reg rank alpha rescale init gi it thr o P v vl Hn Hm Ht Ha Hb E.
  destruct (run_open _ _ _ _ _ _ _ _ _ _ _ _ _ _ _ _ _ _ _ _ E) as (a' & b' & p & dgp & Ea & Eb & Hr & _ & St & -> & _).
  set (r := eff_rank n m rank) in *.
  assert (Pa : pos_vec n a') by (intros i Hi; rewrite Ea; auto). assert (Pb : pos_vec m b') by (intros i Hi; rewrite Eb; auto).
  apply lr_step_ok in St; auto. destruct St as (Q & S & g & A & B & G & C). split.
  - intros i j Hi Hj. rewrite lr_plan_R. apply rsum_pos; auto. intros k Hk. destruct (A i k Hi Hk) as (A1 & A2). destruct (B j k Hj Hk) as (B1 & B2).
    destruct (G k Hk) as (G1 & G2 & _). cbn [ndiv n1 RNum]. change (carrier RNum) with R in *. rewrite A2, B2, G2. apply Rmult_lt_0_compat; [|lra]. apply Rmult_lt_0_compat; [lra|].
    apply Rdiv_lt_0_compat; lra.
  - intros Hc. specialize (C Hc).
    assert (L1 := row_bound n m r Q S g (weights n a) tiny Hn Hm Ht (fun i k Hi Hk => proj1 (A i k Hi Hk)) (fun k Hk => proj1 (G k Hk))
       (fun k Hk => proj1 (proj2 (proj2 (G k Hk)))) (fun k Hk => proj2 (proj2 (proj2 (G k Hk))))).
    assert (L2 := row_bound m n r S Q g (weights m b) tiny Hm Hn Ht (fun i k Hi Hk => proj1 (B i k Hi Hk)) (fun k Hk => proj1 (G k Hk))
       (fun k Hk => proj2 (proj2 (proj2 (G k Hk)))) (fun k Hk => proj1 (proj2 (proj2 (G k Hk))))).
    unfold row_gap.
    rewrite (rsum_ext n (fun i => Rabs (row_sum m (lr_plan (N:=RNum) r (l_Q o) (l_R o) (fun k => ndiv (n:=RNum) n1 (l_g o k))) i - weights n a i))
      (fun i => Rabs (rsum m (fun j => rsum r (fun k => (Q i k + tiny) * (1 / (g k + tiny)) * (S j k + tiny))) - weights n a i))).
    2:{ intros i Hi. f_equal. f_equal. apply rsum_ext; intros j Hj. rewrite lr_plan_R. apply rsum_ext; intros k Hk.
        destruct (A i k Hi Hk) as (_ & A2). destruct (B j k Hj Hk) as (_ & B2). destruct (G k Hk) as (_ & G2 & _). cbn [ndiv n1 RNum].
        change (carrier RNum) with R in *. rewrite A2, B2, G2. reflexivity. }
    rewrite (rsum_ext m (fun i => Rabs (row_sum n (tpose (lr_plan (N:=RNum) r (l_Q o) (l_R o) (fun k => ndiv (n:=RNum) n1 (l_g o k)))) i - weights m b i))
      (fun i => Rabs (rsum n (fun j => rsum r (fun k => (S i k + tiny) * (1 / (g k + tiny)) * (Q j k + tiny))) - weights m b i))).
    2:{ intros i Hi. f_equal. f_equal. apply rsum_ext; intros j Hj. unfold tpose. rewrite lr_plan_R. apply rsum_ext; intros k Hk.
        destruct (A j k Hj Hk) as (_ & A2). destruct (B i k Hi Hk) as (_ & B2). destruct (G k Hk) as (_ & G2 & _). cbn [ndiv n1 RNum].
        change (carrier RNum) with R in *. rewrite A2, B2, G2. ring. }
    rewrite (rsum_ext n (fun i => Rabs (row_sum r Q i - a' i)) (fun i => Rabs (row_sum r Q i - weights n a i))) in C by (intros; rewrite Ea; reflexivity).
    rewrite (rsum_ext m (fun i => Rabs (row_sum r S i - b' i)) (fun i => Rabs (row_sum r S i - weights m b i))) in C by (intros; rewrite Eb; reflexivity).
    replace (2 * INR r * INR n * INR m * tiny) with (INR r * INR n * INR m * tiny + INR r * INR m * INR n * tiny) by ring. lra.
Qed.
Print Assumptions C119_marginals.
(** The starting points: 'deterministic' gives positive couplings of (a, g) and (b, g), g uniform; 'random' gives
    positive factors with row sums a and b and a positive g summing to 1. *)
Theorem C119_init_deterministic : forall n m r a b, (0 < n)%nat -> (0 < m)%nat -> (0 < r)%nat -> pos_vec n a -> pos_vec m b -> rsum n a = 1 -> rsum m b = 1 ->
  let '(Q, W, g) := init_det (N:=RNum) n m r a b in
  pos_mat n r Q /\ pos_mat m r W /\ (forall k, g k = 1 / INR r) /\ coupling n r a g Q /\ coupling m r b g W.
Proof.
  intros n m r a b Hn Hm Hr Ha Hb Sa Sb. unfold init_det.
  set (g := fun _ : nat => ndiv (n:=RNum) n1 (nofnat r)). set (l := ndiv (n:=RNum) _ two).
  assert (Eg : forall k, g k = 1 / INR r) by (intros; unfold g; rewrite nofnat_INR; reflexivity).
  assert (Hr0 : 0 < INR r) by (apply lt_0_INR; auto).
  assert (Pg : pos_vec r g) by (intros k Hk; rewrite Eg; apply Rdiv_lt_0_compat; lra).
  assert (Sg : rsum r g = 1).
  { rewrite (rsum_ext r g (fun _ => 1 / INR r)) by (intros; apply Eg). rewrite rsum_const. field. lra. }
  destruct (Optim_proofs.nmink_R (n - 1) a) as (A1 & (ia & Ia & A2)). destruct (Optim_proofs.nmink_R (r - 1) g) as (G1 & (ig & Ig & G2)). destruct (Optim_proofs.nmink_R (m - 1) b) as (B1 & (ib & Ib & B2)).
  assert (Pa' := Ha ia ltac:(lia)). assert (Pg' := Pg ig ltac:(lia)). assert (Pb' := Hb ib ltac:(lia)).
  assert (El : l = Rmin (Rmin (nmink (N:=RNum) (n - 1) a) (nmink (N:=RNum) (r - 1) g)) (nmink (N:=RNum) (m - 1) b) / 2).
  { unfold l. rewrite !nmin_R. cbn [ndiv RNum]. f_equal. }
  set (mn := Rmin (Rmin (nmink (N:=RNum) (n - 1) a) (nmink (N:=RNum) (r - 1) g)) (nmink (N:=RNum) (m - 1) b)) in *.
  change (carrier RNum) with R in *. rewrite <- A2 in Pa'. rewrite <- G2 in Pg'. rewrite <- B2 in Pb'.
  assert (M1 : mn <= nmink (N:=RNum) (n - 1) a) by (eapply Rle_trans; [apply Rmin_l|apply Rmin_l]).
  assert (M2 : mn <= nmink (N:=RNum) (r - 1) g) by (eapply Rle_trans; [apply Rmin_l|apply Rmin_r]).
  assert (M3 : mn <= nmink (N:=RNum) (m - 1) b) by (apply Rmin_r).
  assert (M0 : 0 < mn) by (unfold mn; repeat apply Rmin_pos; auto).
  assert (Lg : forall k, (k < r)%nat -> l < g k) by (intros k Hk; specialize (G1 k ltac:(lia)); change (carrier RNum) with R in *; lra).
  assert (La : forall k, (k < n)%nat -> l < a k) by (intros k Hk; specialize (A1 k ltac:(lia)); change (carrier RNum) with R in *; lra).
  assert (Lb : forall k, (k < m)%nat -> l < b k) by (intros k Hk; specialize (B1 k ltac:(lia)); change (carrier RNum) with R in *; lra).
  assert (L1 : 0 < l < 1).
  { split; [lra|]. specialize (La 0%nat ltac:(lia)). assert (a 0%nat <= rsum n a); [|lra]. apply rsum_le_one; auto. intros; left; auto. }
  destruct (two_term_coupling n r l a g Hn Hr L1 La Lg Sa Sg) as (T1 & T2 & T3). destruct (two_term_coupling m r l b g Hm Hr L1 Lb Lg Sb Sg) as (U1 & U2 & U3).
  repeat split; auto; intros i j Hi Hj; left; auto.
Qed.
Print Assumptions C119_init_deterministic.
Theorem C119_init_random : forall n m r a b rg rQ rR, (0 < r)%nat -> pos_vec n a -> pos_vec m b ->
  nonneg_vec r rg -> nonneg_mat n r rQ -> nonneg_mat m r rR ->
  let '(Q, W, g) := init_random (N:=RNum) n m r a b rg rQ rR in
  pos_mat n r Q /\ pos_mat m r W /\ pos_vec r g /\ rsum r g = 1 /\
  (forall i, (i < n)%nat -> row_sum r Q i = a i) /\ (forall j, (j < m)%nat -> row_sum r W j = b j).
Proof.
  intros n m r a b rg rQ rR Hr Ha Hb Hg HQ HR. unfold init_random. rewrite nsum_R.
  assert (D : forall k (M : mat) i, nonneg_mat k r M -> (i < k)%nat -> 0 < rsum r (fun t => M i t + 1)).
  { intros k M i H Hi. apply rsum_pos; auto. intros t Ht. specialize (H i t Hi Ht). lra. }
  assert (Dg : 0 < rsum r (fun t => rg t + 1)) by (apply rsum_pos; auto; intros t Ht; specialize (Hg t Ht); lra).
  assert (F : forall k (M : mat) (c : vec), nonneg_mat k r M -> pos_vec k c ->
    pos_mat k r (fun i t => (M i t + 1) * (c i / nsum (N:=RNum) r (fun t => M i t + 1))) /\
    forall i, (i < k)%nat -> row_sum r (fun i t => (M i t + 1) * (c i / nsum (N:=RNum) r (fun t => M i t + 1))) i = c i).
  { intros k M c H Hc. split.
    - intros i t Hi Ht. rewrite nsum_R. specialize (D k M i H Hi). specialize (H i t Hi Ht). apply Rmult_lt_0_compat; [lra|]. apply Rdiv_lt_0_compat; auto.
    - intros i Hi. unfold row_sum. rewrite nsum_R, rsum_scal_r. specialize (D k M i H Hi). field. lra. }
  destruct (F n rQ a HQ Ha) as (F1 & F2). destruct (F m rR b HR Hb) as (F3 & F4).
  repeat split; auto.
  - intros k Hk. specialize (Hg k Hk). apply Rdiv_lt_0_compat; cbn; [lra|exact Dg].
  - rewrite (rsum_ext r _ (fun k => (rg k + 1) / rsum r (fun t => rg t + 1))) by reflexivity. rewrite rsum_div. field. lra.
Qed.
Print Assumptions C119_init_random.
(** any arithmetic: alpha above 1/rank is refused, with the intended ValueError only if rank was given *)
Theorem C119_alpha_error : forall (N : NumOps) ex lg sq cb tiny n m d X Y a b reg rank (alpha : N) rescale init gi it thr,
  eff_rank n m rank <> 0%nat -> nltb (ndiv n1 (nofnat (eff_rank n m rank))) alpha = true ->
  lowrank_sinkhorn (N:=N) ex lg sq cb tiny n m d X Y a b reg rank alpha rescale init gi it thr = match rank with None => LrTypeError | Some _ => LrValueError end.
Proof.
  intros N ex lg sq cb tiny n m d X Y a b reg rank alpha rescale init gi it thr Hr H. unfold lowrank_sinkhorn. cbv zeta. fold (eff_rank n m rank).
  apply Nat.eqb_neq in Hr. rewrite Hr, H. reflexivity.
Qed.
Print Assumptions C119_alpha_error.

(** C120: sinkhorn_low_rank_kernel(K1, K2) computes what sinkhorn_knopp computes on the kernel K1 K2^T: same
    scalings, same recorded errors, same way of stopping, provided K1 K2^T is positive; so its lazy plan is
    positive and has row sums exactly a. *)
Theorem C120_refines : forall n m r a b K1 K2 thr it warm, (0 < n)%nat -> (0 < m)%nat -> pos_vec n a -> pos_vec m b ->
  let K := fun i j => rsum r (fun k => K1 i k * K2 j k) in
  pos_mat n m K -> pos_warm n m warm ->
  sk_agree n m (sinkhorn_low_rank_kernel (N:=RNum) n m r a b norm2 no_nan no_inf thr K1 K2 it warm)
               (sinkhorn_knopp (N:=RNum) n m a b norm2 no_nan thr K it warm).
Proof.
  intros n m r a b K1 K2 thr it warm Hn Hm Ha Hb K HK W. destruct warm as [[u v]|]; cbn [sinkhorn_low_rank_kernel sinkhorn_knopp].
  - destruct W. apply lk_loop_agree; auto.
  - apply lk_loop_agree; auto; apply kp_init_pos; auto.
Qed.
Print Assumptions C120_refines.
Theorem C120_plan : forall n m r a b K1 K2 thr it warm, (0 < n)%nat -> (0 < m)%nat -> pos_vec n a -> pos_vec m b ->
  pos_mat n m (fun i j => rsum r (fun k => K1 i k * K2 j k)) -> pos_warm n m warm -> (0 < it)%nat ->
  let o := sinkhorn_low_rank_kernel (N:=RNum) n m r a b norm2 no_nan no_inf thr K1 K2 it warm in
  let P := lk_plan (N:=RNum) r K1 K2 (sk_u o) (sk_v o) in
  pos_mat n m P /\ (forall i, (i < n)%nat -> row_sum m P i = a i) /\ (forall k, sk_exit o <> NumErr k).
Proof.
  intros n m r a b K1 K2 thr it warm Hn Hm Ha Hb HK W Hit o P.
  destruct (C120_refines n m r a b K1 K2 thr it warm Hn Hm Ha Hb HK W) as (A & B & _ & X). fold o in A, B, X.
  destruct (C21_knopp_rows n m a b _ norm2 thr it warm Hn Hm Ha Hb HK W Hit) as (P1 & P2 & P3).
  set (o' := sinkhorn_knopp (N:=RNum) n m a b norm2 no_nan thr (fun i j => rsum r (fun k => K1 i k * K2 j k)) it warm) in *.
  assert (E : forall i j, (i < n)%nat -> (j < m)%nat -> P i j = diag_plan (fun i j => rsum r (fun k => K1 i k * K2 j k)) (sk_u o') (sk_v o') i j).
  { intros i j Hi Hj. unfold P, lk_plan, diag_plan. rewrite nsum_R. rewrite A, B by auto. rewrite <- rsum_scal, <- rsum_scal_r. apply rsum_ext; intros. cbn. ring. }
  split; [|split].
  - intros i j Hi Hj. rewrite E by auto. auto.
  - intros i Hi. rewrite <- (P2 i Hi). apply rsum_ext; intros; auto.
  - intros k. rewrite X. auto.
Qed.
Print Assumptions C120_plan.

(** Non-vacuity: the runs quantified over above exist - a 2x2 problem of rank 2, and a positive product of
    factors with a negative entry. *)
Example C119_ex : exists o P v vl, lowrank_sinkhorn (N:=RNum) exp ln sqrt cbrt (/ 10 ^ 16) 2 2 1 (fun i _ => INR i) (fun i _ => INR i) None None (1/10) None (/ 10 ^ 10) true
  (fun r a b => init_det (N:=RNum) 2 2 r a b) GRescale 2 (/ 10 ^ 7) = LrOk o P v vl.
Proof.
  apply C119_returns; unfold weights, eff_rank; cbn [Nat.min]; try lia; try (intros i Hi; cbn [INR]; lra); cbn [INR]; try lra.
Qed.
Example C120_ex : pos_mat 2 2 (fun i j => rsum 2 (fun k => (match i, k with O, S O => -1 | _, _ => 2 end) * (match j, k with O, S O => 1 | _, _ => 1 end))).
Proof. intros [|i] [|j] _ _; cbn [rsum]; lra. Qed.
