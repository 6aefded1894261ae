(** Entropic GW runs: couplings, gaps between plans, number of iterations. *)
From Coq Require Import List Arith Bool Reals Lra Lia FunctionalExtensionality.
From Verif Require Import Num Sums Spec Duals_proofs Entropy Optim_model Gw_model Gw_proofs Gw_more Egw_model Egw_proofs Egw_eucl Egw_crit Sinkhorn_proofs P_Sinkhorn Sink_exist P_Sinkexist.
Import ListNotations.
Local Open Scope R_scope.

(** *** relative entropy controls the Frobenius distance *)
Lemma kl_hell : forall x y, 0 < x -> 0 < y -> (sqrt x - sqrt y) ^ 2 <= x * (ln x - ln y) - x + y.
Proof.
  intros x y Hx Hy. assert (Sx := sqrt_lt_R0 x Hx). assert (Sy := sqrt_lt_R0 y Hy).
  assert (Ex : sqrt x * sqrt x = x) by (apply sqrt_sqrt; lra). assert (Ey : sqrt y * sqrt y = y) by (apply sqrt_sqrt; lra).
  assert (A := ln_le_sub1 (sqrt y / sqrt x) (Rdiv_lt_0_compat _ _ Sy Sx)). rewrite ln_div in A by auto.
  assert (Lx : ln x = 2 * ln (sqrt x)) by (rewrite <- Ex at 1; rewrite ln_mult by auto; ring).
  assert (Ly : ln y = 2 * ln (sqrt y)) by (rewrite <- Ey at 1; rewrite ln_mult by auto; ring).
  rewrite Lx, Ly. assert (B : sqrt x * sqrt x * (ln (sqrt y) - ln (sqrt x)) <= sqrt x * sqrt x * (sqrt y / sqrt x - 1)) by (apply Rmult_le_compat_l; [nra|exact A]).
  replace (sqrt x * sqrt x * (sqrt y / sqrt x - 1)) with (sqrt x * sqrt y - sqrt x * sqrt x) in B by (field; lra). rewrite Ex in B. nra.
Qed.
Lemma kl_quad : forall x y B, 0 <= x <= B -> 0 < y <= B -> (x - y) ^ 2 <= 4 * B * (x * (ln x - ln y) - x + y).
Proof.
  intros x y B (Hx & HxB) (Hy & HyB). destruct Hx as [Hx|<-].
  2:{ rewrite Rmult_0_l. nra. }
  assert (Q := kl_hell x y Hx Hy). assert (Ex : sqrt x * sqrt x = x) by (apply sqrt_sqrt; lra). assert (Ey : sqrt y * sqrt y = y) by (apply sqrt_sqrt; lra).
  assert (Sx := sqrt_pos x). assert (Sy := sqrt_pos y).
  apply Rle_trans with (4 * B * (sqrt x - sqrt y) ^ 2); [|apply Rmult_le_compat_l; lra].
  replace ((x - y) ^ 2) with ((sqrt x + sqrt y) ^ 2 * (sqrt x - sqrt y) ^ 2).
  2:{ rewrite <- Ex, <- Ey at 3. ring. }
  apply Rmult_le_compat_r; [apply pow2_ge_0|]. assert (0 <= (sqrt x - sqrt y) ^ 2) by apply pow2_ge_0. nra.
Qed.
Lemma entry_le_mass : forall n m p q T i j, coupling n m p q T -> (i < n)%nat -> (j < m)%nat -> 0 <= T i j <= mass n p.
Proof.
  intros n m p q T i j (P & RW & _) Hi Hj. split; [auto|].
  apply Rle_trans with (row_sum m T i); [apply (rsum_le_one m (fun j => T i j) j); auto|].
  unfold mass. rewrite (rsum_ext n p (fun i => row_sum m T i)) by (intros; symmetry; auto).
  apply (rsum_le_one n (fun i => row_sum m T i) i); auto. intros k Hk. apply rsum_nonneg; auto.
Qed.
Lemma kl_frob : forall n m p q T P, coupling n m p q T -> coupling n m p q P -> pos_mat n m P -> (frob n m (fun i j => P i j - T i j)) ^ 2 <= 4 * mass n p * kl_plan n m T P.
Proof.
  intros n m p q T P HT HP Hpos. unfold frob. rewrite pow2_sqrt by (apply dsum_nonneg; intros; apply pow2_ge_0).
  assert (E : dsum n m T = dsum n m P).
  { destruct HT as (_ & R1 & _), HP as (_ & R2 & _). apply rsum_ext; intros i Hi. change (row_sum m T i = row_sum m P i). rewrite R1, R2; auto. }
  assert (K : kl_plan n m T P = dsum n m (fun i j => T i j * (ln (T i j) - ln (P i j)) - T i j + P i j)).
  { unfold kl_plan. rewrite dsum_plus, dsum_minus. change (dsum n m (fun i j => T i j)) with (dsum n m T). change (dsum n m (fun i j => P i j)) with (dsum n m P). lra. }
  rewrite K, <- dsum_scal. apply dsum_le. intros i j Hi Hj. replace ((P i j - T i j) ^ 2) with ((T i j - P i j) ^ 2) by ring.
  apply kl_quad; [apply (entry_le_mass n m p q); auto|]. split; [auto|]. apply (entry_le_mass n m p q P i j); auto.
Qed.

(** *** the fused objective is bounded below on couplings *)
Lemma ent_lower : forall n m T, (forall i j, (i < n)%nat -> (j < m)%nat -> 0 <= T i j) -> dsum n m T - INR n * INR m <= ent n m T.
Proof.
  intros n m T H. change (ent n m T) with (dsum n m (fun i j => T i j * ln (T i j))).
  assert (E : INR n * INR m = dsum n m (fun _ _ => 1)) by (unfold dsum; rewrite (rsum_ext n _ (fun _ => INR m)) by (intros; rewrite rsum_const; ring); rewrite rsum_const; ring).
  rewrite E, <- dsum_minus. apply dsum_le. intros i j Hi Hj. assert (Q := xlnx_div_ge (T i j) 1 (H i j Hi Hj) Rlt_0_1). replace (T i j / 1) with (T i j) in Q by field. exact Q.
Qed.
Lemma quad_bounded : forall n m (L : R -> R -> R) C1 C2, exists B, forall i k j c, (i < n)%nat -> (k < n)%nat -> (j < m)%nat -> (c < m)%nat -> Rabs (L (C1 i k) (C2 j c)) <= B.
Proof.
  intros n m L C1 C2. exists (dsum n n (fun i k => dsum m m (fun j c => Rabs (L (C1 i k) (C2 j c))))). intros i k j c Hi Hk Hj Hc.
  assert (A : forall a b (f : mat) i j, (i < a)%nat -> (j < b)%nat -> (forall i j, 0 <= f i j) -> f i j <= dsum a b f).
  { intros a b f x y Hx Hy Hf. apply Rle_trans with (rsum b (f x)); [apply (rsum_le_one b (f x) y); auto|]. unfold dsum. apply (rsum_le_one a (fun i => rsum b (fun j => f i j)) x); auto. intros. apply rsum_nonneg; auto. }
  apply Rle_trans with (dsum m m (fun j c => Rabs (L (C1 i k) (C2 j c)))).
  - apply (A m m (fun j c => Rabs (L (C1 i k) (C2 j c)))); auto. intros; apply Rabs_pos.
  - apply (A n n (fun i k => dsum m m (fun j c => Rabs (L (C1 i k) (C2 j c))))); auto. intros; apply dsum_nonneg; intros; apply Rabs_pos.
Qed.
Lemma abs_total : forall n m p q T, coupling n m p q T -> dsum n m (fun i j => Rabs (T i j)) = mass n p.
Proof.
  intros n m p q T (P & RW & _). transitivity (dsum n m T); [apply dsum_ext; intros; apply Rabs_right, Rle_ge; auto|]. apply rsum_ext. exact RW.
Qed.
Lemma fgw_lower : forall n m L C1 C2 M alpha p q, exists B, forall T, coupling n m p q T -> B <= fgw_obj n m L C1 C2 M alpha T.
Proof.
  intros n m L C1 C2 M alpha p q. destruct (quad_bounded n m L C1 C2) as (B & HB). destruct (entries_bounded n m M) as (B' & HB').
  exists (- (Rabs (1 - alpha) * (B' * mass n p) + Rabs alpha * (B * mass n p * mass n p))). intros T HT.
  assert (E := abs_total n m p q T HT).
  assert (X1 : Rabs (cost n m M T) <= B' * mass n p).
  { rewrite cost_dsum, <- E. apply pair_bound. intros. apply Rabs_le. auto. }
  assert (X2 : Rabs (gw_obj n m L C1 C2 T) <= B * mass n p * mass n p).
  { unfold gw_obj. rewrite bil_tens. rewrite (dsum_ext n m _ (fun i j => tens n m L C1 C2 T i j * T i j)) by (intros; ring). rewrite <- E at 2. apply pair_bound.
    intros. rewrite <- E. apply tens_bound; auto. }
  assert (Y : Rabs (fgw_obj n m L C1 C2 M alpha T) <= Rabs (1 - alpha) * (B' * mass n p) + Rabs alpha * (B * mass n p * mass n p)).
  { unfold fgw_obj. eapply Rle_trans; [apply Rabs_triang|]. rewrite !Rabs_mult. apply Rplus_le_compat; apply Rmult_le_compat_l; auto; apply Rabs_pos. }
  assert (Z := Rle_abs (- fgw_obj n m L C1 C2 M alpha T)). rewrite Rabs_Ropp in Z. lra.
Qed.

(** *** a decreasing potential bounds the number of checked iterations *)
Section Count.
Variables (V g : nat -> R) (k : nat).
Hypothesis (Hstep : forall j, (j < k)%nat -> V (S j) + g j <= V j) (Hg : forall j, (j < k)%nat -> 0 <= g j).
Lemma V_dec : forall a b, (a <= b)%nat -> (b <= k)%nat -> V b <= V a.
Proof. intros a b H. induction H; intros Hb; [lra|]. assert (V m <= V a) by (apply IHle; lia). assert (X := Hstep m ltac:(lia)). assert (Y := Hg m ltac:(lia)). lra. Qed.
Lemma V_checks : forall c d, (forall j, (j < c)%nat -> d <= g (10 * j)%nat) -> (c = 0 \/ 10 * (c - 1) < k)%nat -> INR c * d + V (Nat.min k (10 * c)) <= V 0%nat.
Proof.
  induction c; intros d Hd Hk.
  - rewrite Nat.mul_0_r, Nat.min_0_r. cbn [INR]. lra.
  - assert (X := IHc d (fun j Hj => Hd j (Nat.lt_lt_succ_r _ _ Hj)) ltac:(lia)). replace (Nat.min k (10 * c)) with (10 * c)%nat in X by lia.
    assert (Y := Hstep (10 * c)%nat ltac:(lia)). assert (Z := Hd c ltac:(lia)). rewrite S_INR.
    assert (W := V_dec (S (10 * c)) (Nat.min k (10 * S c)) ltac:(lia) ltac:(lia)). lra.
Qed.
End Count.

(** *** runs with an exact inner solver *)
Lemma sinkhorn_plan_ext : forall n m a b M M' reg P, (forall i j, (i < n)%nat -> (j < m)%nat -> M i j = M' i j) -> sinkhorn_plan n m a b M reg P -> sinkhorn_plan n m a b M' reg P.
Proof. intros n m a b M M' reg P H (C & u & v & Hu & Hv & E). split; auto. exists u, v. split; auto. split; auto. intros. rewrite <- H by auto. auto. Qed.
(** the cost of the entropic problem solved at T *)
Definition step_cost (sv : egw_solver) (eps : R) (G T : mat) : mat := fun i j => match sv with PGD => G i j | PPA => G i j - eps * ln (T i j) end.

Section Runs.
Variables (n m : nat) (tiny : R) (l : gwl) (sym : bool) (C1 C2 M : mat) (p q : vec) (alpha eps : R) (norm : mat -> R) (tol : R) (sv : egw_solver).
Variable (sk : warm_t (N:=RNum) -> mat -> mat * ((nat -> R) * (nat -> R))).
Hypothesis (Hsym : sym = true -> symmetric n C1 /\ symmetric m C2) (Heps : 0 < eps).
Hypothesis Hsk : forall w M, sinkhorn_plan n m p q M eps (fst (sk w M)).
Notation gr := (fgw_grad (N:=RNum) n m ln tiny l sym C1 C2 p q alpha M).
Notation G := (gradF n m ln tiny l sym C1 C2 M alpha).
Notation rn := (run ln eps norm sv gr sk).
Lemma run_plan : forall (s : egw_st (N:=RNum)) (k : nat), coupling n m p q (e_T s) -> coupling n m p q (e_T (rn k 0 s)) /\ sinkhorn_plan n m p q (step_cost sv eps (G (e_T (rn k 0 s))) (e_T (rn k 0 s))) eps (e_T (rn (S k) 0 s)).
Proof.
  intros s k Hs.
  assert (X : forall k, coupling n m p q (e_T (rn k 0 s))). { intros [|j]; [exact Hs|]. rewrite run_T. apply Hsk. }
  split; [apply X|]. rewrite run_T. assert (GE := fun i j => fgw_grad_R n m ln tiny l sym C1 C2 M p q alpha Hsym (e_T (rn k 0 s)) i j (X k)).
  revert GE. generalize (e_T (rn k 0 s)). intros T GE. refine (sinkhorn_plan_ext n m p q _ _ eps _ _ (Hsk _ _)).
  intros i j Hi Hj. unfold egw_cost, step_cost. destruct sv; [apply GE|]. rewrite <- GE. reflexivity.
Qed.
Lemma fused_trace : forall (s : egw_st (N:=RNum)) max_iter, coupling n m p q (e_T s) -> e_err s = 1 ->
  exists (k : nat) (T : nat -> mat), (k <= max_iter)%nat /\ T 0%nat = e_T s /\ e_T (egw_loop (N:=RNum) ln eps norm tol sv gr sk max_iter 0 s) = T k /\
    (forall j, coupling n m p q (T j)) /\ (forall j, sinkhorn_plan n m p q (step_cost sv eps (G (T j)) (T j)) eps (T (S j))) /\
    (forall j, (10 * j + 1 < k)%nat -> tol < norm (fun a b => T (10 * j + 1)%nat a b - T (10 * j)%nat a b)) /\
    ((0 < k)%nat -> tol < 1) /\
    ((k < max_iter)%nat -> k = 0%nat /\ 1 <= tol \/ (0 < k)%nat /\ norm (fun a b => T k a b - T (k - 1)%nat a b) <= tol).
Proof.
  intros s max_iter Hs E1. destruct (loop_trace ln eps norm tol sv gr sk max_iter 0 s) as (k & Hk & E & B & A).
  exists k, (fun j => e_T (rn j 0 s)). split; [auto|]. split; [reflexivity|]. split; [rewrite E; reflexivity|].
  split; [intros j; apply (run_plan s j Hs)|]. split; [intros j; apply (run_plan s j Hs)|]. split; [|split].
  - intros j Hj. specialize (B _ Hj). replace (10 * j + 1)%nat with (S (10 * j)) in * by lia. cbn [run] in B |- *. unfold egw_step in B |- *.
    rewrite Nat.add_0_l in *. replace (Nat.modulo (10 * j) 10) with 0%nat in * by (rewrite Nat.mul_comm, Nat.mod_mul; lia). exact B.
  - intros Hp. specialize (B 0%nat Hp). cbn [run] in B. rewrite E1 in B. exact B.
  - intros HL. specialize (A HL). destruct k as [|k]; [left|right].
    + split; auto. cbn [run] in A. rewrite E1 in A. exact A.
    + split; [lia|]. apply (stop_err ln eps norm tol sv gr sk (S k) s); [lia| |exact A]. replace (S k - 1)%nat with k by lia. apply B. lia.
Qed.
End Runs.
