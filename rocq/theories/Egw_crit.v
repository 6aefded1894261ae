(** Critical points of (entropic) fused GW on the couplings. *)
From Coq Require Import List Arith Bool Reals Lra Lia.
From Verif Require Import Num Sums Spec Duals_proofs Entropy Optim_model Gw_model Gw_proofs Gw_more Egw_model Egw_proofs P_Sinkhorn P_Sinkexist.
Local Open Scope R_scope.

Definition delta (i k : nat) : R := if Nat.eqb k i then 1 else 0.
Lemma rsum_delta_at : forall d (f : vec) i, (i < d)%nat -> rsum d (fun k => f k * delta i k) = f i.
Proof.
  intros d f i Hi. rewrite (rsum_single d i); auto.
  - unfold delta. rewrite Nat.eqb_refl. ring.
  - intros k Hk Ne. unfold delta. destruct (Nat.eqb_spec k i); [contradiction|ring].
Qed.
Lemma rsum_delta1 : forall d i, (i < d)%nat -> rsum d (fun k => delta i k) = 1.
Proof. intros d i Hi. rewrite <- (rsum_delta_at d (fun _ => 1) i Hi). apply rsum_ext; intros; ring. Qed.
(** the exchange of mass t around the rectangle (0,0), (i,j) *)
Definition exch (t : R) (i j : nat) : mat := fun a b => t * (delta 0 a - delta i a) * (delta 0 b - delta j b).
Lemma exch_pair : forall n m c t i j, (i < n)%nat -> (j < m)%nat ->
  dsum n m (fun a b => c a b * exch t i j a b) = t * (c 0%nat 0%nat - c 0%nat j - c i 0%nat + c i j).
Proof.
  intros n m c t i j Hi Hj. unfold dsum, exch.
  rewrite (rsum_ext n _ (fun a => t * (c a 0%nat - c a j) * delta 0 a - t * (c a 0%nat - c a j) * delta i a)).
  2:{ intros a _. rewrite (rsum_ext m _ (fun b => t * (delta 0 a - delta i a) * (c a b * delta 0 b - c a b * delta j b))) by (intros; ring).
      rewrite rsum_scal, rsum_minus, !rsum_delta_at by lia. ring. }
  rewrite rsum_minus, (rsum_delta_at n (fun a => t * (c a 0%nat - c a j))), (rsum_delta_at n (fun a => t * (c a 0%nat - c a j))) by lia. ring.
Qed.
Lemma exch_coupling : forall n m p q T t i j, (i < n)%nat -> (j < m)%nat -> coupling n m p q T -> 0 <= t -> t <= T i 0%nat -> t <= T 0%nat j ->
  coupling n m p q (fun a b => T a b + exch t i j a b).
Proof.
  intros n m p q T t i j Hi Hj (P & RW & CL) Ht H1 H2. split; [|split].
  - intros a b Ha Hb. specialize (P a b Ha Hb). unfold exch, delta.
    destruct (Nat.eqb_spec a 0) as [->|Na], (Nat.eqb_spec b 0) as [->|Nb].
    + destruct (Nat.eqb_spec 0 i), (Nat.eqb_spec 0 j); lra.
    + destruct (Nat.eqb_spec b j) as [->|]; destruct (Nat.eqb_spec 0 i); lra.
    + destruct (Nat.eqb_spec a i) as [->|]; destruct (Nat.eqb_spec 0 j); lra.
    + destruct (Nat.eqb_spec a i), (Nat.eqb_spec b j); lra.
  - intros a Ha. rewrite <- (RW a Ha). unfold row_sum. rewrite rsum_plus. unfold exch. rewrite rsum_scal, rsum_minus, !rsum_delta1 by lia. change (row_sum m T a + t * (delta 0 a - delta i a) * (1 - 1) = row_sum m T a). ring.
  - intros b Hb. rewrite <- (CL b Hb). unfold col_sum. rewrite rsum_plus. unfold exch.
    rewrite (rsum_ext n (fun a => t * (delta 0 a - delta i a) * (delta 0 b - delta j b)) (fun a => t * (delta 0 b - delta j b) * (delta 0 a - delta i a))) by (intros; ring). rewrite rsum_scal, rsum_minus, !rsum_delta1 by lia. change (col_sum n T b + t * (delta 0 b - delta j b) * (1 - 1) = col_sum n T b). ring.
Qed.
(** at a positive coupling, a linear form vanishes in all directions to couplings iff it is a sum of potentials *)
Lemma stationary_iff : forall n m p q T c, (0 < n)%nat -> (0 < m)%nat -> coupling n m p q T -> pos_mat n m T ->
  (forall S, coupling n m p q S -> dsum n m (fun i j => c i j * (S i j - T i j)) = 0) <->
  (exists f g : vec, forall i j, (i < n)%nat -> (j < m)%nat -> c i j = f i + g j).
Proof.
  intros n m p q T c Hn Hm CT PT. split.
  - intros H. exists (fun i => c i 0%nat), (fun j => c 0%nat j - c 0%nat 0%nat). intros i j Hi Hj.
    set (t := Rmin (T i 0%nat) (T 0%nat j)). assert (0 < t) by (apply Rmin_glb_lt; auto).
    assert (Q := H _ (exch_coupling n m p q T t i j Hi Hj CT ltac:(lra) (Rmin_l _ _) (Rmin_r _ _))).
    rewrite (dsum_ext n m _ (fun a b => c a b * exch t i j a b)) in Q by (intros; ring). rewrite exch_pair in Q by auto.
    apply Rmult_integral in Q. destruct Q; lra.
  - intros (f & g & E) S CS. destruct (coupling_diff n m p q T S CT CS) as (Z1 & Z2). rewrite <- (zero_pair n m _ f g Z1 Z2).
    apply dsum_ext; intros. rewrite E; auto.
Qed.
(** being the Sinkhorn plan of a cost, by potentials *)
Lemma plan_iff : forall n m p q M eps T, 0 < eps -> coupling n m p q T -> pos_mat n m T ->
  (sinkhorn_plan n m p q M eps T <-> exists f g : vec, forall i j, (i < n)%nat -> (j < m)%nat -> M i j + eps * ln (T i j) = f i + g j).
Proof.
  intros n m p q M eps T He CT PT. split; [apply plan_pot; auto|]. intros (f & g & E). split; auto.
  exists (fun i => exp (f i / eps)), (fun j => exp (g j / eps)). split; [intros i _; apply exp_pos|]. split; [intros i _; apply exp_pos|].
  intros i j Hi Hj. rewrite <- !exp_plus. rewrite <- (exp_ln (T i j)) at 1 by auto. f_equal. specialize (E i j Hi Hj).
  apply (Rmult_eq_reg_l eps); [|lra]. replace (eps * (f i / eps + - M i j / eps + g j / eps)) with (f i + g j - M i j) by (field; lra). lra.
Qed.
(** the entropy part: constants do not matter between couplings *)
Lemma ent_dir : forall n m p q T S, coupling n m p q T -> coupling n m p q S ->
  dsum n m (fun i j => (S i j - T i j) * (ln (T i j) + 1)) = dsum n m (fun i j => ln (T i j) * (S i j - T i j)).
Proof.
  intros n m p q T S CT CS. destruct (coupling_diff n m p q T S CT CS) as (Z1 & Z2). assert (Z := zero_pair n m _ (fun _ => 1) (fun _ => 0) Z1 Z2). cbn beta in Z.
  rewrite <- (Rplus_0_r (dsum n m (fun i j => ln (T i j) * _))), <- Z, <- dsum_plus. apply dsum_ext; intros; ring.
Qed.

(** bounds used by the stopping certificate *)
Definition frob (n m : nat) (D : mat) : R := sqrt (dsum n m (fun i j => D i j ^ 2)).
Lemma dsum_rsum : forall n m f, dsum n m f = rsum n (fun i => rsum m (f i)). Proof. reflexivity. Qed.
Lemma sq_le_sqrt : forall x y, 0 <= x -> x ^ 2 <= y -> x <= sqrt y.
Proof. intros x y Hx H. rewrite <- (sqrt_pow2 x Hx). apply sqrt_le_1_alt. exact H. Qed.
Lemma l1_frob : forall n m D, dsum n m (fun i j => Rabs (D i j)) <= sqrt (INR (n * m)) * frob n m D.
Proof.
  intros n m D. unfold frob. rewrite <- sqrt_mult_alt by apply pos_INR. apply sq_le_sqrt; [apply dsum_nonneg; intros; apply Rabs_pos|].
  assert (A : forall i, rsum m (fun j => Rabs (D i j)) ^ 2 <= INR m * rsum m (fun j => D i j ^ 2)).
  { intros i. assert (Q := rsum_CS m (fun _ => 1) (fun j => Rabs (D i j))). cbn beta in Q.
    rewrite (rsum_ext m (fun j => 1 * Rabs (D i j)) (fun j => Rabs (D i j))) in Q by (intros; ring).
    rewrite (rsum_ext m (fun j => Rabs (D i j) ^ 2) (fun j => D i j ^ 2)) in Q by (intros; apply pow2_abs).
    rewrite (rsum_ext m (fun _ => 1 ^ 2) (fun _ => 1)) in Q by (intros; ring). rewrite rsum_const, Rmult_1_r in Q. exact Q. }
  assert (Q := rsum_CS n (fun _ => 1) (fun i => rsum m (fun j => Rabs (D i j)))). cbn beta in Q.
  rewrite (rsum_ext n (fun i => 1 * rsum m (fun j => Rabs (D i j))) (fun i => rsum m (fun j => Rabs (D i j)))) in Q by (intros; ring).
  rewrite (rsum_ext n (fun _ => 1 ^ 2) (fun _ => 1)) in Q by (intros; ring). rewrite rsum_const, Rmult_1_r in Q.
  eapply Rle_trans; [exact Q|]. rewrite mult_INR, Rmult_assoc. apply Rmult_le_compat_l; [apply pos_INR|]. unfold dsum. rewrite <- rsum_scal. apply rsum_le. intros i _. apply A.
Qed.
Lemma tens_bound : forall n m (L : R -> R -> R) C1 C2 D Lm, (forall i k j c, (i < n)%nat -> (k < n)%nat -> (j < m)%nat -> (c < m)%nat -> Rabs (L (C1 i k) (C2 j c)) <= Lm) ->
  forall i j, (i < n)%nat -> (j < m)%nat -> Rabs (tens n m L C1 C2 D i j) <= Lm * dsum n m (fun k c => Rabs (D k c)).
Proof.
  intros n m L C1 C2 D Lm H i j Hi Hj. unfold tens, dsum. eapply Rle_trans; [apply rsum_abs|]. rewrite <- rsum_scal. apply rsum_le. intros k Hk.
  eapply Rle_trans; [apply rsum_abs|]. rewrite <- rsum_scal. apply rsum_le. intros c Hc. rewrite Rabs_mult. apply Rmult_le_compat_r; [apply Rabs_pos|auto].
Qed.
Lemma pair_bound : forall n m c (D : mat) B, (forall i j, (i < n)%nat -> (j < m)%nat -> Rabs (c i j) <= B) ->
  Rabs (dsum n m (fun i j => c i j * D i j)) <= B * dsum n m (fun i j => Rabs (D i j)).
Proof.
  intros n m c D B H. unfold dsum. eapply Rle_trans; [apply rsum_abs|]. rewrite <- rsum_scal. apply rsum_le. intros k Hk.
  eapply Rle_trans; [apply rsum_abs|]. rewrite <- rsum_scal. apply rsum_le. intros d Hd. rewrite Rabs_mult. apply Rmult_le_compat_r; [apply Rabs_pos|auto].
Qed.
Lemma l1_couplings : forall n m p q T S, coupling n m p q T -> coupling n m p q S -> dsum n m (fun i j => Rabs (S i j - T i j)) <= 2 * mass n p.
Proof.
  intros n m p q T S (P1 & R1 & _) (P2 & R2 & _).
  apply Rle_trans with (dsum n m (fun i j => S i j + T i j)).
  - apply dsum_le. intros i j Hi Hj. specialize (P1 i j Hi Hj). specialize (P2 i j Hi Hj). apply Rabs_le. lra.
  - right. rewrite dsum_plus. assert (A : dsum n m S = mass n p) by (apply rsum_ext; exact R2). assert (B : dsum n m T = mass n p) by (apply rsum_ext; exact R1).
    change (dsum n m S + dsum n m T = 2 * mass n p). rewrite A, B. ring.
Qed.
