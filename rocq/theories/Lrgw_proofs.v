(** Proofs about Lrgw_model. *)
From Coq Require Import List Arith Bool Reals Lra Lia.
From Verif Require Import Num Sums Spec NS_dense Duals_proofs Entropy Emd1d_model Emd1d_perm_proofs Optim_model Optim_proofs Circle_proofs Dmmot_proofs
  Sinkhorn_model Sinkhorn_proofs P_Sinkhorn Lowrank_model Lowrank_proofs Lowrank_more P_Lowrank Lrgw_model.
Import ListNotations.
Local Open Scope R_scope.

(** sum over quadruples of A i i' B j j' P i j P' i' j' *)
Definition bil (n m : nat) (A B P P' : mat) : R := dsum n m (fun i j => dsum n m (fun i' j' => A i i' * B j j' * P i j * P' i' j')).
Definition gw (n m : nat) (A B P : mat) : R := dsum n m (fun i j => dsum n m (fun i' j' => (A i i' - B j j') * (A i i' - B j j') * P i j * P i' j')).
Definition selfsq (n : nat) (A : mat) (a : vec) : R := rsum n (fun i => rsum n (fun i' => A i i' * A i i' * a i * a i')).
(** -4 A P B *)
Definition lincost (n m : nat) (A B P : mat) : mat := fun i j => -4 * dsum n m (fun i' j' => A i i' * B j' j * P i' j').

Lemma four_R : four (N:=RNum) = 4. Proof. unfold four, two. cbn. ring. Qed.
Lemma C1_R : forall n cA A1 A2 Q g i k, gl_C1 (N:=RNum) n cA A1 A2 Q g i k = -4 * rsum n (fun i' => fprod cA A1 A2 i i' * (Q i' k * (1 / g k))).
Proof.
  intros. unfold gl_C1, nopp. rewrite four_R, nsum_R. cbn [nsub nmul ndiv n0 n1 RNum]. replace (0 - 4) with (-4) by ring. f_equal. unfold fprod.
  rewrite (rsum_ext cA _ (fun t => rsum n (fun i' => A1 i t * (A2 i' t * (Q i' k * (1 / g k)))))) by (intros; rewrite nsum_R, <- rsum_scal; reflexivity).
  rewrite rsum_swap. apply rsum_ext; intros i' _. rewrite <- rsum_scal_r. apply rsum_ext; intros; ring.
Qed.
Lemma C2_R : forall m cB B1 B2 S j k, gl_C2 (N:=RNum) m cB B1 B2 S j k = rsum m (fun j' => fprod cB B1 B2 j' j * S j' k).
Proof.
  intros. unfold gl_C2. rewrite nsum_R. cbn [nmul RNum]. unfold fprod.
  rewrite (rsum_ext cB _ (fun t => rsum m (fun j' => S j' k * B1 j' t * B2 j t))) by (intros; rewrite nsum_R, <- rsum_scal_r; reflexivity).
  rewrite rsum_swap. apply rsum_ext; intros j' _. rewrite <- rsum_scal_r. apply rsum_ext; intros; ring.
Qed.
Lemma cost_C : forall n m cA cB r A1 A2 B1 B2 Q S g i j,
  fprod r (gl_C1 (N:=RNum) n cA A1 A2 Q g) (gl_C2 (N:=RNum) m cB B1 B2 S) i j = lincost n m (fprod cA A1 A2) (fprod cB B1 B2) (low_rank_plan r Q S g) i j.
Proof.
  intros. unfold fprod at 1. unfold lincost, low_rank_plan, dsum.
  rewrite (rsum_ext r _ (fun k => rsum n (fun i' => rsum m (fun j' => -4 * (fprod cA A1 A2 i i' * fprod cB B1 B2 j' j * (Q i' k * (1 / g k) * S j' k)))))).
  2:{ intros k _. rewrite C1_R, C2_R. rewrite Rmult_assoc, <- rsum_scal_r. rewrite <- rsum_scal. apply rsum_ext; intros i' _. rewrite <- rsum_scal. rewrite <- rsum_scal. apply rsum_ext; intros; ring. }
  rewrite rsum_swap. rewrite <- rsum_scal. apply rsum_ext; intros i' _. rewrite rsum_swap, <- rsum_scal. apply rsum_ext; intros j' _. rewrite <- !rsum_scal. reflexivity.
Qed.
Lemma lin_bil : forall n m A B P P', (forall i j, (i < m)%nat -> (j < m)%nat -> B i j = B j i) -> cost n m (lincost n m A B P) P' = -4 * bil n m A B P' P.
Proof.
  intros n m A B P P' HB. unfold bil. rewrite <- dsum_scal. unfold cost. apply (dsum_ext n m). intros i j Hi Hj. unfold lincost. rewrite <- !dsum_scal, Rmult_comm, <- dsum_scal.
  apply dsum_ext. intros i' j' Hi' Hj'. rewrite (HB j j') by auto. ring.
Qed.
Lemma gw_expand : forall n m A B P a b, (forall i, (i < n)%nat -> row_sum m P i = a i) -> (forall j, (j < m)%nat -> col_sum n P j = b j) ->
  gw n m A B P = selfsq n A a + selfsq m B b - 2 * bil n m A B P P.
Proof.
  intros n m A B P a b Ra Cb. unfold gw.
  rewrite (dsum_ext n m _ (fun i j => (dsum n m (fun i' j' => A i i' * A i i' * P i' j') * P i j + dsum n m (fun i' j' => B j j' * B j j' * P i' j') * P i j) - 2 * dsum n m (fun i' j' => A i i' * B j j' * P i j * P i' j'))).
  2:{ intros i j Hi Hj. rewrite <- !dsum_scal. rewrite !(Rmult_comm _ (P i j)), <- !dsum_scal, <- dsum_plus, <- dsum_minus. apply dsum_ext; intros; ring. }
  rewrite dsum_minus, dsum_plus, dsum_scal. fold (bil n m A B P P). f_equal. f_equal.
  - rewrite (dsum_row n m (fun i => dsum n m (fun i' j' => A i i' * A i i' * P i' j'))). unfold selfsq. apply rsum_ext; intros i Hi. rewrite Ra by auto. rewrite (dsum_row n m (fun i' => A i i' * A i i')). rewrite <- rsum_scal_r. apply rsum_ext; intros i' Hi'. rewrite Ra by auto. ring.
  - rewrite (dsum_col n m (fun j => dsum n m (fun i' j' => B j j' * B j j' * P i' j'))). unfold selfsq. apply rsum_ext; intros j Hj. rewrite Cb by auto. rewrite (dsum_col n m (fun j' => B j j' * B j j')). rewrite <- rsum_scal_r. apply rsum_ext; intros j' Hj'. rewrite Cb by auto. ring.
Qed.
Lemma flat_sum : forall c (x y : vec), rsum (c * c) (fun s => (x (s / c)%nat * x (s mod c)%nat) * (y (s / c)%nat * y (s mod c)%nat)) = rsum c (fun t => x t * y t) * rsum c (fun t => x t * y t).
Proof.
  intros c x y. rewrite rsum_grid. rewrite <- rsum_scal_r. apply rsum_ext; intros u Hu. rewrite <- rsum_scal. apply rsum_ext; intros v Hv.
  replace ((u * c + v) / c)%nat with u by (symmetry; rewrite Nat.div_add_l by lia; rewrite Nat.div_small by lia; lia).
  replace ((u * c + v) mod c)%nat with v by (symmetry; rewrite Nat.add_comm, Nat.mod_add by lia; apply Nat.mod_small; lia). ring.
Qed.
Lemma const_R : forall l c X1 X2 w, gl_const (N:=RNum) l c X1 X2 w = selfsq l (fprod c X1 X2) w.
Proof.
  intros. unfold gl_const, selfsq. rewrite nsum_R. apply rsum_ext; intros i Hi. cbn [nmul RNum]. rewrite nsum_R.
  rewrite (rsum_ext (c * c) _ (fun s => rsum l (fun i' => flat_product (N:=RNum) c X1 i s * flat_product (N:=RNum) c X2 i' s * w i'))) by (intros; rewrite nsum_R; cbn [nmul RNum]; rewrite <- rsum_scal; apply rsum_ext; intros; cbn [nmul RNum]; ring).
  rewrite rsum_swap, <- rsum_scal_r. apply rsum_ext; intros i' Hi'. rewrite rsum_scal_r. unfold flat_product. cbn [nmul RNum].
  rewrite (flat_sum c (fun t => X1 i t) (fun t => X2 i' t)). unfold fprod. ring.
Qed.
Lemma value_quad_R : forall n m cA cB r a b A1 A2 B1 B2 Q S g d,
  let A := fprod cA A1 A2 in let B := fprod cB B1 B2 in
  gl_value_quad (N:=RNum) n m cA cB r a b A1 A2 B1 B2 Q S g (fun k => 1 / d k) = selfsq n A a + selfsq m B b + / 2 * cost n m (lincost n m A B (low_rank_plan r Q S g)) (low_rank_plan r Q S d).
Proof.
  intros. unfold gl_value_quad. cbv zeta. rewrite !const_R. cbn [nadd ndiv RNum]. fold A B. f_equal.
  rewrite nsum_R. replace (two (N:=RNum)) with 2 by (unfold two; cbn; ring). unfold Rdiv at 1. rewrite Rmult_comm. f_equal. unfold cost, low_rank_plan at 2.
  rewrite (rsum_ext r _ (fun k => rsum n (fun i => rsum m (fun j => lincost n m A B (low_rank_plan r Q S g) i j * (Q i k * (1 / d k) * S j k))))).
  2:{ intros k _. rewrite nsum_R. apply rsum_ext; intros i _. rewrite fac_mul_R. cbn [nmul RNum]. rewrite <- rsum_scal_r, <- rsum_scal. apply rsum_ext; intros j _. rewrite cost_C. fold A B. ring. }
  rewrite rsum_swap. apply rsum_ext; intros i _. rewrite rsum_swap. apply rsum_ext; intros j _. rewrite rsum_scal. reflexivity.
Qed.

(** ** the derivative of the energy along the factors *)
Lemma deriv_local : forall f h x l d0, 0 < d0 -> (forall t, Rabs (t - x) < d0 -> f t = h t) -> derivable_pt_lim f x l -> derivable_pt_lim h x l.
Proof.
  intros f h x l d0 Hd E D eps He. destruct (D eps He) as (del & Hdel). assert (Hm : 0 < Rmin del d0) by (apply Rmin_pos; auto; apply cond_pos). exists (mkposreal _ Hm). intros y Hy Hlt. cbn in Hlt.
  rewrite <- !E.
  - apply Hdel; auto. eapply Rlt_le_trans; [exact Hlt|apply Rmin_l].
  - rewrite Rminus_diag_eq by auto. rewrite Rabs_R0. auto.
  - replace (x + y - x) with y by ring. eapply Rlt_le_trans; [exact Hlt|apply Rmin_r].
Qed.
Lemma pos_near : forall r (g Dg : vec), pos_vec r g -> exists d0, 0 < d0 /\ forall t, Rabs t < d0 -> forall k, (k < r)%nat -> 0 < g k + t * Dg k.
Proof.
  induction r as [|r IH]; intros g Dg Hg; [exists 1; split; [lra|intros; lia]|]. destruct (IH g Dg) as (d0 & H0 & H1); [intros k Hk; apply Hg; lia|].
  assert (Gr := Hg r ltac:(lia)). set (d1 := g r / (Rabs (Dg r) + 1)). assert (Ha := Rabs_pos (Dg r)). assert (H2 : 0 < d1) by (apply Rdiv_lt_0_compat; lra).
  exists (Rmin d0 d1). split; [apply Rmin_pos; auto|]. intros t Ht k Hk. destruct (Nat.eq_dec k r) as [->|Hne]; [|apply H1; [eapply Rlt_le_trans; [exact Ht|apply Rmin_l]|lia]].
  assert (Rabs t < d1) by (eapply Rlt_le_trans; [exact Ht|apply Rmin_r]). assert (Rabs (t * Dg r) < g r).
  { rewrite Rabs_mult. apply Rle_lt_trans with (Rabs t * (Rabs (Dg r) + 1)); [apply Rmult_le_compat_l; [apply Rabs_pos|lra]|].
    replace (g r) with (d1 * (Rabs (Dg r) + 1)) by (unfold d1; field; lra). apply Rmult_lt_compat_r; lra. }
  apply Rabs_def2 in H3. lra.
Qed.
Section Deriv.
Variables (n m r : nat) (Q S : mat) (g : vec) (DQ DS : mat) (Dg : vec).
Hypothesis Hg : pos_vec r g.
Definition Qt (t : R) : mat := fun i k => Q i k + t * DQ i k.
Definition St (t : R) : mat := fun j k => S j k + t * DS j k.
Definition gt_ (t : R) : vec := fun k => g k + t * Dg k.
Definition Pt (t : R) : mat := low_rank_plan r (Qt t) (St t) (gt_ t).
Definition unit2 (i j : nat) : mat := fun p q => if Nat.eqb p i then (if Nat.eqb q j then 1 else 0) else 0.
Lemma lr_lin_cost : forall C t, lr_lin n m r C (Qt t) (St t) (gt_ t) = cost n m C (Pt t).
Proof.
  intros. unfold lr_lin, cost, Pt, low_rank_plan. rewrite (rsum_ext r _ (fun k => rsum n (fun i => rsum m (fun j => C i j * (Qt t i k * (1 / gt_ t k) * St t j k))))).
  2:{ intros k _. unfold dsum, Rdiv. rewrite <- rsum_scal_r. apply rsum_ext; intros i _. rewrite <- rsum_scal_r. apply rsum_ext; intros; ring. }
  rewrite rsum_swap. apply rsum_ext; intros i _. rewrite rsum_swap. apply rsum_ext; intros j _. rewrite rsum_scal. reflexivity.
Qed.
Lemma Pt_deriv : forall i j, (i < n)%nat -> (j < m)%nat -> exists l, derivable_pt_lim (fun t => Pt t i j) 0 l.
Proof.
  intros i j Hi Hj. eexists. eapply (deriv_ext (fun t => lr_lin n m r (unit2 i j) (Qt t) (St t) (gt_ t))); [|apply lr_lin_deriv; auto]. intros t. rewrite lr_lin_cost. unfold cost.
  rewrite (rsum_single n i); [rewrite (rsum_single m j)| |]; auto; unfold unit2.
  - rewrite !Nat.eqb_refl. ring.
  - intros q Hq Hne. rewrite Nat.eqb_refl. apply Nat.eqb_neq in Hne. rewrite Hne. ring.
  - intros p Hp Hne. apply Nat.eqb_neq in Hne. rewrite rsum_0; auto. intros. rewrite Hne. ring.
Qed.
(** the energy equals its value, plus the linearised cost, plus a term of second order *)
Lemma bil_split : forall A B P P', (forall i j, (i < n)%nat -> (j < n)%nat -> A i j = A j i) -> (forall i j, (i < m)%nat -> (j < m)%nat -> B i j = B j i) ->
  bil n m A B P' P' = bil n m A B P P + 2 * (bil n m A B P' P - bil n m A B P P) + bil n m A B (fun i j => P' i j - P i j) (fun i j => P' i j - P i j).
Proof.
  intros A B P P' HA HB. assert (Sy : bil n m A B P P' = bil n m A B P' P).
  { unfold bil, dsum. rewrite (rsum_ext n _ (fun i => rsum n (fun i' => rsum m (fun j => rsum m (fun j' => A i i' * B j j' * P i j * P' i' j'))))) by (intros; apply rsum_swap).
    symmetry. rewrite (rsum_ext n _ (fun i => rsum n (fun i' => rsum m (fun j => rsum m (fun j' => A i i' * B j j' * P' i j * P i' j'))))) by (intros; apply rsum_swap).
    rewrite rsum_swap. apply rsum_ext; intros i Hi. apply rsum_ext; intros i' Hi'. rewrite rsum_swap. apply rsum_ext; intros j Hj. apply rsum_ext; intros j' Hj'. rewrite (HA i' i), (HB j' j) by auto. ring. }
  assert (E : bil n m A B (fun i j => P' i j - P i j) (fun i j => P' i j - P i j) = bil n m A B P' P' - bil n m A B P' P - bil n m A B P P' + bil n m A B P P).
  { unfold bil. rewrite <- !dsum_minus, <- dsum_plus. apply dsum_ext; intros. rewrite <- !dsum_minus, <- dsum_plus. apply dsum_ext; intros; ring. }
  rewrite E, Sy. ring.
Qed.
Lemma bil_deriv : forall A B, (forall i j, (i < n)%nat -> (j < n)%nat -> A i j = A j i) -> (forall i j, (i < m)%nat -> (j < m)%nat -> B i j = B j i) ->
  let C := lincost n m A B (low_rank_plan r Q S g) in
  derivable_pt_lim (fun t => -2 * bil n m A B (Pt t) (Pt t)) 0
    (dsum n r (fun i k => rsum m (fun j => C i j * S j k) / g k * DQ i k) + dsum m r (fun j k => rsum n (fun i => C i j * Q i k) / g k * DS j k)
     + rsum r (fun k => - dsum n m (fun i j => C i j * (Q i k * S j k)) / (g k * g k) * Dg k)).
Proof.
  intros A B HA HB C. set (P0 := low_rank_plan r Q S g) in *. set (P1 := fun t i j => Pt t i j - P0 i j).
  apply (deriv_ext (fun t => (2 * bil n m A B P0 P0 + lr_lin n m r C (Qt t) (St t) (gt_ t)) + dsum n m (fun i j => dsum n m (fun i' j' => (-2 * (A i i' * B j j')) * (P1 t i j * P1 t i' j'))))).
  { intros t. rewrite lr_lin_cost. unfold C. rewrite lin_bil by auto. rewrite (bil_split A B P0 (Pt t)) by auto.
    replace (dsum n m (fun i j => dsum n m (fun i' j' => -2 * (A i i' * B j j') * (P1 t i j * P1 t i' j')))) with (-2 * bil n m A B (P1 t) (P1 t)); [unfold P1; ring|].
    unfold bil. rewrite <- dsum_scal. apply dsum_ext; intros. rewrite <- dsum_scal. apply dsum_ext; intros; ring. }
  eapply deriv_eq; [apply derivable_pt_lim_plus; [apply derivable_pt_lim_plus; [apply derivable_pt_lim_const|apply lr_lin_deriv; auto]|]|].
  - apply (deriv_dsum n m (fun i j t => dsum n m (fun i' j' => (-2 * (A i i' * B j j')) * (P1 t i j * P1 t i' j'))) (fun _ _ => 0)). intros i j Hi Hj.
    eapply deriv_eq; [apply (deriv_dsum n m (fun i' j' t => (-2 * (A i i' * B j j')) * (P1 t i j * P1 t i' j')) (fun _ _ => 0))|unfold dsum; rewrite rsum_0; auto; intros; apply rsum_0; auto].
    intros i' j' Hi' Hj'. destruct (Pt_deriv i j Hi Hj) as (l1 & D1). destruct (Pt_deriv i' j' Hi' Hj') as (l2 & D2).
    assert (Z : forall p q, Pt 0 p q = P0 p q). { intros p q. unfold Pt, P0, low_rank_plan, Qt, St, gt_. apply rsum_ext; intros. rewrite !Rmult_0_l, !Rplus_0_r. reflexivity. }
    eapply deriv_eq; [apply (derivable_pt_lim_scal (fun t => P1 t i j * P1 t i' j')); apply (derivable_pt_lim_mult (fun t => P1 t i j) (fun t => P1 t i' j')); apply (derivable_pt_lim_minus (fun t => Pt t _ _) (fun _ => P0 _ _)); [exact D1|apply derivable_pt_lim_const|exact D2|apply derivable_pt_lim_const]|].
    unfold P1. rewrite !Z. ring.
  - assert (Zd : dsum n m (fun _ _ => 0) = 0) by (unfold dsum; apply rsum_0; intros; apply rsum_0; auto). rewrite Zd. ring.
Qed.
(** along feasible directions the marginals of the plan do not change *)
Hypothesis CQ : forall k, (k < r)%nat -> col_sum n Q k = g k.
Hypothesis CS : forall k, (k < r)%nat -> col_sum m S k = g k.
Hypothesis CDQ : forall k, (k < r)%nat -> col_sum n DQ k = Dg k.
Hypothesis CDS : forall k, (k < r)%nat -> col_sum m DS k = Dg k.
Hypothesis RDQ : forall i, (i < n)%nat -> row_sum r DQ i = 0.
Hypothesis RDS : forall j, (j < m)%nat -> row_sum r DS j = 0.
Lemma Pt_row : forall t i, (i < n)%nat -> (forall k, (k < r)%nat -> 0 < gt_ t k) -> row_sum m (Pt t) i = row_sum r Q i.
Proof.
  intros t i Hi Hp. unfold row_sum, Pt, low_rank_plan. rewrite rsum_swap. transitivity (rsum r (fun k => Q i k + t * DQ i k)).
  - apply rsum_ext; intros k Hk. rewrite rsum_scal. replace (rsum m (fun j => St t j k)) with (gt_ t k); [unfold Qt; field; specialize (Hp k Hk); lra|].
    unfold gt_, St. rewrite rsum_plus, rsum_scal. rewrite <- CS, <- CDS by auto. reflexivity.
  - rewrite rsum_plus. replace (rsum r (fun k => t * DQ i k)) with (t * row_sum r DQ i) by (unfold row_sum; rewrite rsum_scal; reflexivity). rewrite RDQ by auto. rewrite Rmult_0_r, Rplus_0_r. reflexivity.
Qed.
Lemma Pt_col : forall t j, (j < m)%nat -> (forall k, (k < r)%nat -> 0 < gt_ t k) -> col_sum n (Pt t) j = row_sum r S j.
Proof.
  intros t j Hj Hp. unfold col_sum, Pt, low_rank_plan. rewrite rsum_swap. transitivity (rsum r (fun k => S j k + t * DS j k)).
  - apply rsum_ext; intros k Hk. rewrite (rsum_ext n _ (fun i => ((1 / gt_ t k) * St t j k) * Qt t i k)) by (intros; ring). rewrite rsum_scal. replace (rsum n (fun i => Qt t i k)) with (gt_ t k); [unfold St; field; specialize (Hp k Hk); lra|].
    unfold gt_, Qt. rewrite rsum_plus, rsum_scal. rewrite <- CQ, <- CDQ by auto. reflexivity.
  - rewrite rsum_plus. replace (rsum r (fun k => t * DS j k)) with (t * row_sum r DS j) by (unfold row_sum; rewrite rsum_scal; reflexivity). rewrite RDS by auto. rewrite Rmult_0_r, Rplus_0_r. reflexivity.
Qed.
Lemma gw_deriv : forall A B, (forall i j, (i < n)%nat -> (j < n)%nat -> A i j = A j i) -> (forall i j, (i < m)%nat -> (j < m)%nat -> B i j = B j i) ->
  let C := lincost n m A B (low_rank_plan r Q S g) in
  derivable_pt_lim (fun t => gw n m A B (Pt t)) 0
    (dsum n r (fun i k => rsum m (fun j => C i j * S j k) / g k * DQ i k) + dsum m r (fun j k => rsum n (fun i => C i j * Q i k) / g k * DS j k)
     + rsum r (fun k => - dsum n m (fun i j => C i j * (Q i k * S j k)) / (g k * g k) * Dg k)).
Proof.
  intros A B HA HB C. destruct (pos_near r g Dg Hg) as (d0 & H0 & H1).
  apply (deriv_local (fun t => (selfsq n A (row_sum r Q) + selfsq m B (row_sum r S)) + -2 * bil n m A B (Pt t) (Pt t)) _ 0 _ d0 H0).
  - intros t Ht. rewrite Rminus_0_r in Ht. rewrite (gw_expand n m A B (Pt t) (row_sum r Q) (row_sum r S)); [ring| |]; intros; [apply Pt_row|apply Pt_col]; auto; intros k Hk; apply H1; auto.
  - eapply deriv_eq; [apply derivable_pt_lim_plus; [apply derivable_pt_lim_const|apply bil_deriv; auto]|]. fold C. ring.
Qed.
End Deriv.
