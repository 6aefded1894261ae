(** Structure matrices of Euclidean type: GW is concave between couplings, and barycenters of such
    matrices are again such. *)
From Coq Require Import List Arith Bool Reals Lra Lia.
From Verif Require Import Num Sums Spec Duals_proofs Entropy Optim_model Gw_model Gw_proofs Gw_more Gwbar_model Gwbar_proofs Egw_model Egw_proofs.
Local Open Scope R_scope.

(** C_ik = u_i + u_k - <x_i, x_k> on the first n indices; squared Euclidean distances are of this
    form (eucl_sqdist) *)
Definition eucl (n : nat) (C : mat) : Prop := exists (u : vec) (d : nat) (x : nat -> vec), forall i k, (i < n)%nat -> (k < n)%nat -> C i k = u i + u k - rsum d (fun e => x i e * x k e).
Lemma eucl_sym : forall n C, eucl n C -> symmetric n C.
Proof. intros n C (u & d & x & E) i k Hi Hk. rewrite !E by auto. rewrite (rsum_ext d (fun e => x i e * x k e) (fun e => x k e * x i e)) by (intros; ring). ring. Qed.
Lemma eucl_sqdist : forall n d (x : nat -> vec), eucl n (fun i k => rsum d (fun e => (x i e - x k e) ^ 2)).
Proof.
  intros n d x. exists (fun i => rsum d (fun e => x i e ^ 2)), d, (fun i e => sqrt 2 * x i e). intros i k _ _.
  rewrite <- rsum_plus, <- rsum_minus. apply rsum_ext; intros e _. replace (sqrt 2 * x i e * (sqrt 2 * x k e)) with ((sqrt 2 * sqrt 2) * (x i e * x k e)) by ring.
  rewrite sqrt_sqrt by lra. ring.
Qed.
Lemma eucl_ext : forall n C C', (forall i k, (i < n)%nat -> (k < n)%nat -> C i k = C' i k) -> eucl n C -> eucl n C'.
Proof. intros n C C' H (u & d & x & E). exists u, d, x. intros. rewrite <- H; auto. Qed.
Lemma eucl_zero : forall n, eucl n (fun _ _ => 0).
Proof. intros n. exists (fun _ => 0), 0%nat, (fun _ _ => 0). intros. cbn [rsum]. ring. Qed.
Lemma eucl_scal : forall n c C, 0 <= c -> eucl n C -> eucl n (fun i k => c * C i k).
Proof.
  intros n c C Hc (u & d & x & E). exists (fun i => c * u i), d, (fun i e => sqrt c * x i e). intros i k Hi Hk. rewrite E by auto.
  rewrite (rsum_ext d (fun e => sqrt c * x i e * (sqrt c * x k e)) (fun e => c * (x i e * x k e))).
  - rewrite rsum_scal. ring.
  - intros e _. replace (sqrt c * x i e * (sqrt c * x k e)) with ((sqrt c * sqrt c) * (x i e * x k e)) by ring. rewrite sqrt_sqrt; auto.
Qed.
Lemma eucl_add : forall n C C', eucl n C -> eucl n C' -> eucl n (fun i k => C i k + C' i k).
Proof.
  intros n C C' (u & d & x & E) (u' & d' & x' & E'). exists (fun i => u i + u' i), (d + d')%nat, (fun i e => if Nat.ltb e d then x i e else x' i (e - d)%nat).
  intros i k Hi Hk. rewrite E, E' by auto. rewrite rsum_split.
  rewrite (rsum_ext d (fun e => (if Nat.ltb e d then x i e else x' i (e - d)%nat) * (if Nat.ltb e d then x k e else x' k (e - d)%nat)) (fun e => x i e * x k e)).
  2:{ intros e He. rewrite (proj2 (Nat.ltb_lt e d) He). reflexivity. }
  rewrite (rsum_ext d' (fun e => (if Nat.ltb (d + e) d then x i (d + e)%nat else x' i (d + e - d)%nat) * (if Nat.ltb (d + e) d then x k (d + e)%nat else x' k (d + e - d)%nat)) (fun e => x' i e * x' k e)).
  2:{ intros e He. rewrite (proj2 (Nat.ltb_ge (d + e) d)) by lia. replace (d + e - d)%nat with e by lia. reflexivity. }
  ring.
Qed.
Lemma eucl_rsum : forall S n (C : nat -> mat), (forall s, (s < S)%nat -> eucl n (C s)) -> eucl n (fun i k => rsum S (fun s => C s i k)).
Proof.
  induction S; intros n C H; [apply eucl_zero|]. apply (eucl_add n (fun i k => rsum S (fun s => C s i k)) (C S)); [apply IHS; intros; apply H; lia|apply H; lia].
Qed.
Lemma rsum_dsum_swap : forall n a b (F : nat -> nat -> nat -> R), rsum n (fun i => dsum a b (F i)) = dsum a b (fun e f => rsum n (fun i => F i e f)).
Proof. intros. unfold dsum. rewrite rsum_swap. apply rsum_ext; intros e _. apply rsum_swap. Qed.
Lemma dsum_dsum_swap : forall n m a b (F : nat -> nat -> nat -> nat -> R),
  dsum n m (fun i j => dsum a b (F i j)) = dsum a b (fun e f => dsum n m (fun i j => F i j e f)).
Proof.
  intros. unfold dsum at 1. rewrite (rsum_ext n _ (fun i => dsum a b (fun e f => rsum m (fun j => F i j e f)))) by (intros; apply rsum_dsum_swap).
  apply rsum_dsum_swap.
Qed.
(** averages with weights summing to 1 *)
Lemma eucl_pull : forall n k (A : mat) C, eucl k C -> (forall i, (i < n)%nat -> rsum k (A i) = 1) -> eucl n (fun i j => dsum k k (fun c d => A i c * A j d * C c d)).
Proof.
  intros n k A C (u & d & x & E) H. exists (fun i => rsum k (fun c => A i c * u c)), d, (fun i e => rsum k (fun c => A i c * x c e)). intros i j Hi Hj.
  rewrite (dsum_ext k k _ (fun c f => (A i c * u c * A j f + A i c * (A j f * u f)) - rsum d (fun e => (A i c * x c e) * (A j f * x f e)))).
  2:{ intros c f Hc Hf. rewrite E by auto. rewrite (rsum_ext d (fun e => A i c * x c e * (A j f * x f e)) (fun e => (A i c * A j f) * (x c e * x f e))) by (intros; ring). rewrite rsum_scal. ring. }
  rewrite dsum_minus, dsum_plus. f_equal; [f_equal|].
  - unfold dsum. rewrite <- rsum_mult, H by auto. ring.
  - unfold dsum. rewrite <- rsum_mult, H by auto. ring.
  - unfold dsum at 1. rewrite (rsum_ext d (fun e => rsum k (fun c => A i c * x c e) * rsum k (fun c => A j c * x c e)) (fun e => dsum k k (fun c f => A i c * x c e * (A j f * x f e)))) by (intros; apply rsum_mult).
    symmetry. apply rsum_dsum_swap.
Qed.

Section Conc.
Variables (n m : nat) (H1 H2 : mat).
Lemma eucl_bil : forall D, eucl n H1 -> eucl m H2 -> zero_rows n m D -> zero_cols n m D ->
  0 <= dsum n m (fun i j => dsum n m (fun k c => H1 i k * H2 j c * D k c) * D i j).
Proof.
  intros D (u & d & x & E) (v & d' & y & E') Zr Zc.
  set (w := fun e f => dsum n m (fun k c => x k e * y c f * D k c)).
  assert (S : forall i j, (i < n)%nat -> (j < m)%nat -> dsum n m (fun k c => H1 i k * H2 j c * D k c) =
     dsum d d' (fun e f => x i e * y j f * w e f) +
     (dsum n m (fun k c => (u i - rsum d (fun e => x i e * x k e)) * v c * D k c) + dsum n m (fun k c => u k * (v c - rsum d' (fun f => y j f * y c f)) * D k c))).
  { intros i j Hi Hj.
    assert (Z := zero_pair n m D (fun k => u k * v j - rsum d (fun e => x i e * x k e) * v j) (fun c => u i * v j - u i * rsum d' (fun f => y j f * y c f)) Zr Zc).
    rewrite <- (Rplus_0_r (dsum d d' _ + _)), <- Z.
    assert (G : dsum d d' (fun e f => x i e * y j f * w e f) = dsum n m (fun k c => rsum d (fun e => x i e * x k e) * rsum d' (fun f => y j f * y c f) * D k c)).
    { unfold w. rewrite (dsum_ext d d' _ (fun e f => dsum n m (fun k c => (x i e * x k e) * (y j f * y c f) * D k c))).
      2:{ intros. rewrite <- dsum_scal. apply dsum_ext; intros; ring. }
      rewrite <- dsum_dsum_swap. apply dsum_ext; intros k c _ _. rewrite rsum_mult. unfold dsum.
      rewrite <- rsum_scal_r. apply rsum_ext; intros e _. rewrite <- rsum_scal_r. reflexivity. }
    rewrite G, <- !dsum_plus. apply dsum_ext; intros k c Hk Hc. rewrite E, E' by auto. ring. }
  rewrite (dsum_ext n m _ (fun i j => dsum d d' (fun e f => x i e * y j f * w e f) * D i j +
     (dsum n m (fun k c => (u i - rsum d (fun e => x i e * x k e)) * v c * D k c) + dsum n m (fun k c => u k * (v c - rsum d' (fun f => y j f * y c f)) * D k c)) * D i j)).
  2:{ intros i j Hi Hj. rewrite S by auto. ring. }
  rewrite dsum_plus.
  rewrite (zero_pair n m D (fun i => dsum n m (fun k c => (u i - rsum d (fun e => x i e * x k e)) * v c * D k c)) (fun j => dsum n m (fun k c => u k * (v c - rsum d' (fun f => y j f * y c f)) * D k c)) Zr Zc).
  rewrite Rplus_0_r. rewrite (dsum_ext n m _ (fun i j => dsum d d' (fun e f => w e f * (x i e * y j f * D i j)))).
  2:{ intros i j _ _. unfold dsum. rewrite <- rsum_scal_r. apply rsum_ext; intros e _. rewrite <- rsum_scal_r. apply rsum_ext; intros; ring. }
  rewrite dsum_dsum_swap. apply dsum_nonneg. intros e f _ _. rewrite dsum_scal. fold (w e f). apply Rle_0_sqr.
Qed.
End Conc.
Lemma eucl_concave : forall n m lg tiny l C1 C2, eucl n (hC1 (N:=RNum) l C1) -> eucl m (hC2 (N:=RNum) lg tiny l C2) -> concave_gw n m lg tiny l C1 C2.
Proof.
  intros n m lg tiny l C1 C2 E1 E2 D Zr Zc. rewrite (bil_D_G n m lg tiny l C1 C2 D D Zr Zc).
  assert (Q := eucl_bil n m _ _ D E1 E2 Zr Zc). rewrite (dsum_ext n m _ (fun i j => dsum n m (fun k c => hC1 (N:=RNum) l C1 i k * hC2 (N:=RNum) lg tiny l C2 j c * D k c) * D i j)).
  - apply Ropp_le_cancel. rewrite Ropp_0, Ropp_involutive. exact Q.
  - intros. rewrite bil_R. reflexivity.
Qed.
Lemma eucl_square : forall n m lg tiny C1 C2, eucl n C1 -> eucl m C2 -> concave_gw n m lg tiny SquareLoss C1 C2.
Proof.
  intros. apply eucl_concave; [exact H|]. apply (eucl_ext m (fun i k => 2 * C2 i k)); [intros; cbn; match goal with |- @eq _ ?x ?y => change (@eq R x y) end; ring|].
  apply eucl_scal; [lra|auto].
Qed.
