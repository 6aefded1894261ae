(** Facts about entropies shared by the entropic solvers: the tangent inequality of x ln x, the
    Kullback-Leibler divergence, and the optimality gap of plans given by potentials.  Nothing
    here refers to a model of the code. *)
From Coq Require Import Reals Lra Lia.
From Verif Require Import Sums Spec.
Local Open Scope R_scope.

(** Coq's ln is 0 on non-positive numbers, so x ln x is 0 at 0 as it should be. *)
Definition xlnx (x : R) : R := x * ln x.

Lemma ln_mono : forall x y, 0 < x -> x <= y -> ln x <= ln y.
Proof. intros x y Hx [H| ->]; [left; apply ln_increasing; auto|lra]. Qed.
Lemma ln_ge0 : forall x, 1 <= x -> 0 <= ln x.
Proof. intros x H. rewrite <- ln_1. apply ln_mono; lra. Qed.
Lemma ln_le_sub1 : forall x, 0 < x -> ln x <= x - 1.
Proof.
  intros x Hx. destruct (Rle_lt_dec (ln x) (x - 1)) as [|H]; auto. exfalso.
  assert (A := exp_ineq1_le (ln x)). rewrite exp_ln in A; lra.
Qed.
Lemma ln_lt_sub1 : forall x, 0 < x -> x <> 1 -> ln x < x - 1.
Proof.
  intros x Hx Hn. assert (ln x <> 0) by (intros E; apply Hn; rewrite <- ln_1 in E; apply ln_inv in E; lra).
  assert (A := exp_ineq1 (ln x) H). rewrite exp_ln in A; lra.
Qed.
Lemma xlnx_div_ge : forall x y, 0 <= x -> 0 < y -> x - y <= x * ln (x / y).
Proof.
  intros x y [Hx|<-] Hy; [|rewrite Rmult_0_l; lra].
  assert (A : ln (y / x) <= y / x - 1) by (apply ln_le_sub1; apply Rdiv_lt_0_compat; auto).
  assert (B : ln (x / y) = - ln (y / x)).
  { rewrite <- ln_Rinv by (apply Rdiv_lt_0_compat; auto). f_equal. field. lra. }
  rewrite B. apply (Rmult_le_compat_l x) in A; [|lra].
  replace (x * (y / x - 1)) with (y - x) in A by (field; lra). lra.
Qed.
Lemma xlnx_div_gt : forall x y, 0 <= x -> 0 < y -> x <> y -> x - y < x * ln (x / y).
Proof.
  intros x y [Hx|<-] Hy Hn; [|rewrite Rmult_0_l; lra].
  assert (A : ln (y / x) < y / x - 1).
  { apply ln_lt_sub1; [apply Rdiv_lt_0_compat; auto|]. intros E. apply Hn. apply (Rmult_eq_compat_r x) in E. field_simplify in E; lra. }
  assert (B : ln (x / y) = - ln (y / x)).
  { rewrite <- ln_Rinv by (apply Rdiv_lt_0_compat; auto). f_equal. field. lra. }
  rewrite B. apply (Rmult_lt_compat_l x) in A; [|lra].
  replace (x * (y / x - 1)) with (y - x) in A by (field; lra). lra.
Qed.
Lemma ln_div : forall x y, 0 < x -> 0 < y -> ln (x / y) = ln x - ln y.
Proof. intros. unfold Rdiv. rewrite ln_mult, ln_Rinv; auto. apply Rinv_0_lt_compat; auto. Qed.
Lemma xlnx_split : forall x y, 0 <= x -> 0 < y -> x * ln (x / y) = xlnx x - x * ln y.
Proof.
  intros x y [Hx|<-] Hy; unfold xlnx; [|ring]. rewrite ln_div by auto. ring.
Qed.
(** x ln x is above its tangents *)
Lemma xlnx_tangent : forall x y, 0 <= x -> 0 < y -> (x - y) * (1 + ln y) <= xlnx x - xlnx y.
Proof. intros x y Hx Hy. assert (A := xlnx_div_ge x y Hx Hy). rewrite xlnx_split in A by auto. unfold xlnx in *. lra. Qed.
Lemma xlnx_tangent_lt : forall x y, 0 <= x -> 0 < y -> x <> y -> (x - y) * (1 + ln y) < xlnx x - xlnx y.
Proof. intros x y Hx Hy Hn. assert (A := xlnx_div_gt x y Hx Hy Hn). rewrite xlnx_split in A by auto. unfold xlnx in *. lra. Qed.

(** ** the entropic transport objective <M, P> + reg * sum P ln P *)
Definition ent (n m : nat) (P : mat) : R := rsum n (fun i => rsum m (fun j => P i j * ln (P i j))).
Definition ent_obj (n m : nat) (M : mat) (reg : R) (P : mat) : R := cost n m M P + reg * ent n m P.

(** double sums *)
Definition dsum (n m : nat) (f : nat -> nat -> R) : R := rsum n (fun i => rsum m (fun j => f i j)).
Lemma dsum_ext : forall n m f g, (forall i j, (i < n)%nat -> (j < m)%nat -> f i j = g i j) -> dsum n m f = dsum n m g.
Proof. intros; apply rsum_ext; intros; apply rsum_ext; intros; auto. Qed.
Lemma dsum_le : forall n m f g, (forall i j, (i < n)%nat -> (j < m)%nat -> f i j <= g i j) -> dsum n m f <= dsum n m g.
Proof. intros; apply rsum_le; intros; apply rsum_le; intros; auto. Qed.
Lemma dsum_nonneg : forall n m f, (forall i j, (i < n)%nat -> (j < m)%nat -> 0 <= f i j) -> 0 <= dsum n m f.
Proof. intros; apply rsum_nonneg; intros; apply rsum_nonneg; intros; auto. Qed.
Lemma dsum_plus : forall n m f g, dsum n m (fun i j => f i j + g i j) = dsum n m f + dsum n m g.
Proof. intros; unfold dsum. rewrite <- rsum_plus. apply rsum_ext; intros; apply rsum_plus. Qed.
Lemma dsum_minus : forall n m f g, dsum n m (fun i j => f i j - g i j) = dsum n m f - dsum n m g.
Proof. intros; unfold dsum. rewrite <- rsum_minus. apply rsum_ext; intros; apply rsum_minus. Qed.
Lemma dsum_scal : forall n m c f, dsum n m (fun i j => c * f i j) = c * dsum n m f.
Proof. intros; unfold dsum. rewrite <- rsum_scal. apply rsum_ext; intros; apply rsum_scal. Qed.
Lemma dsum_row : forall n m f P, dsum n m (fun i j => f i * P i j) = rsum n (fun i => f i * row_sum m P i).
Proof. intros; apply rsum_ext; intros; apply rsum_scal. Qed.
Lemma dsum_col : forall n m g P, dsum n m (fun i j => g j * P i j) = rsum m (fun j => g j * col_sum n P j).
Proof. intros; unfold dsum. rewrite rsum_swap. apply rsum_ext; intros; apply rsum_scal. Qed.
Lemma dsum_total : forall n m P, dsum n m P = total n m P. Proof. reflexivity. Qed.
Lemma dsum_zero : forall n m f, (forall i j, (i < n)%nat -> (j < m)%nat -> 0 <= f i j) -> dsum n m f = 0 ->
  forall i j, (i < n)%nat -> (j < m)%nat -> f i j = 0.
Proof.
  intros n m f H Z i j Hi Hj.
  assert (A : rsum m (fun j => f i j) = 0) by (apply (rsum_nonneg_zero n (fun i => rsum m (fun j => f i j))); auto; intros; apply rsum_nonneg; auto).
  exact (rsum_nonneg_zero m (fun j => f i j) (fun j => H i j Hi) A j Hj).
Qed.

Lemma ent_tangent : forall n m M reg P K, 0 <= reg -> nonneg_mat n m P ->
  (forall i j, (i < n)%nat -> (j < m)%nat -> 0 < K i j) ->
  dsum n m (fun i j => (P i j - K i j) * (M i j + reg * (1 + ln (K i j)))) <= ent_obj n m M reg P - ent_obj n m M reg K.
Proof.
  intros n m M reg P K Hr HP HK. unfold ent_obj, cost, ent.
  fold (dsum n m (fun i j => M i j * P i j)) (dsum n m (fun i j => M i j * K i j)).
  fold (dsum n m (fun i j => P i j * ln (P i j))) (dsum n m (fun i j => K i j * ln (K i j))).
  rewrite <- !dsum_scal, <- !dsum_plus, <- dsum_minus. apply dsum_le. intros i j Hi Hj.
  assert (A := xlnx_tangent (P i j) (K i j) (HP i j Hi Hj) (HK i j Hi Hj)). unfold xlnx in A.
  apply (Rmult_le_compat_l reg) in A; auto. lra.
Qed.
(** a plan whose cost-plus-log-density splits into potentials f_i + g_j + c *)
Lemma ent_gap : forall n m M reg P K f g c, 0 <= reg -> nonneg_mat n m P ->
  (forall i j, (i < n)%nat -> (j < m)%nat -> 0 < K i j) ->
  (forall i j, (i < n)%nat -> (j < m)%nat -> M i j + reg * ln (K i j) = f i + g j + c) ->
  rsum n (fun i => f i * (row_sum m P i - row_sum m K i)) + rsum m (fun j => g j * (col_sum n P j - col_sum n K j))
    + (c + reg) * (total n m P - total n m K) <= ent_obj n m M reg P - ent_obj n m M reg K.
Proof.
  intros n m M reg P K f g c Hr HP HK HE. eapply Rle_trans; [|apply ent_tangent; auto]. right. symmetry.
  rewrite (dsum_ext n m _ (fun i j => (f i * P i j - f i * K i j) + (g j * P i j - g j * K i j) + ((c + reg) * P i j - (c + reg) * K i j))).
  2:{ intros i j Hi Hj. replace (M i j + reg * (1 + ln (K i j))) with (f i + g j + c + reg) by (specialize (HE i j Hi Hj); lra). ring. }
  rewrite !dsum_plus, !dsum_minus, !dsum_scal, !dsum_row, !dsum_col, (dsum_total n m P), (dsum_total n m K).
  rewrite (rsum_ext n (fun i => f i * (row_sum m P i - row_sum m K i)) (fun i => f i * row_sum m P i - f i * row_sum m K i)) by (intros; ring). rewrite rsum_minus.
  rewrite (rsum_ext m (fun j => g j * (col_sum n P j - col_sum n K j)) (fun j => g j * col_sum n P j - g j * col_sum n K j)) by (intros; ring). rewrite rsum_minus. ring.
Qed.

(** the strict form: two different plans with the same margins *)
Lemma ent_gap_strict : forall n m M reg P K f g c i0 j0, 0 < reg -> nonneg_mat n m P ->
  (forall i j, (i < n)%nat -> (j < m)%nat -> 0 < K i j) ->
  (forall i j, (i < n)%nat -> (j < m)%nat -> M i j + reg * ln (K i j) = f i + g j + c) ->
  (i0 < n)%nat -> (j0 < m)%nat -> P i0 j0 <> K i0 j0 ->
  rsum n (fun i => f i * (row_sum m P i - row_sum m K i)) + rsum m (fun j => g j * (col_sum n P j - col_sum n K j))
    + (c + reg) * (total n m P - total n m K) < ent_obj n m M reg P - ent_obj n m M reg K.
Proof.
  intros n m M reg P K f g c i0 j0 Hr HP HK HE Hi0 Hj0 Hne.
  assert (A := ent_gap n m M reg P K f g c ltac:(lra) HP HK HE).
  destruct A as [A|A]; auto. exfalso.
  set (D := fun i j => xlnx (P i j) - xlnx (K i j) - (P i j - K i j) * (1 + ln (K i j))).
  assert (D0 : forall i j, (i < n)%nat -> (j < m)%nat -> 0 <= D i j)
    by (intros i j Hi Hj; unfold D; assert (T := xlnx_tangent (P i j) (K i j) (HP i j Hi Hj) (HK i j Hi Hj)); lra).
  assert (Z : dsum n m D = 0).
  { apply (Rmult_eq_reg_l reg); [|lra]. rewrite Rmult_0_r, <- dsum_scal.
    rewrite (dsum_ext n m _ (fun i j => ((M i j * P i j + reg * (P i j * ln (P i j))) - (M i j * K i j + reg * (K i j * ln (K i j))))
       - (((f i * P i j - f i * K i j) + (g j * P i j - g j * K i j)) + ((c + reg) * P i j - (c + reg) * K i j)))).
    2:{ intros i j Hi Hj. unfold D, xlnx. specialize (HE i j Hi Hj).
        replace (f i * P i j - f i * K i j + (g j * P i j - g j * K i j) + ((c + reg) * P i j - (c + reg) * K i j))
          with ((f i + g j + c + reg) * (P i j - K i j)) by ring. rewrite <- HE. ring. }
    rewrite !dsum_minus, !dsum_plus, !dsum_minus, !dsum_scal, !dsum_row, !dsum_col, (dsum_total n m P), (dsum_total n m K).
    rewrite (rsum_ext n (fun i => f i * (row_sum m P i - row_sum m K i)) (fun i => f i * row_sum m P i - f i * row_sum m K i)) in A by (intros; ring).
    rewrite (rsum_ext m (fun i => g i * (col_sum n P i - col_sum n K i)) (fun j => g j * col_sum n P j - g j * col_sum n K j)) in A by (intros; ring).
    rewrite !rsum_minus in A. unfold ent_obj, cost, ent in A.
    fold (dsum n m (fun i j => M i j * P i j)) (dsum n m (fun i j => M i j * K i j)) in A.
    fold (dsum n m (fun i j => P i j * ln (P i j))) (dsum n m (fun i j => K i j * ln (K i j))) in A. lra. }
  assert (B := dsum_zero n m D D0 Z i0 j0 Hi0 Hj0). unfold D in B.
  assert (T := xlnx_tangent_lt (P i0 j0) (K i0 j0) (HP i0 j0 Hi0 Hj0) (HK i0 j0 Hi0 Hj0) Hne). lra.
Qed.

(** ** Kullback-Leibler divergence sum x ln(x/y) - x + y *)
Definition kl (n : nat) (x y : vec) : R := rsum n (fun i => x i * ln (x i / y i) - x i + y i).
Lemma kl_nonneg : forall n x y, nonneg_vec n x -> pos_vec n y -> 0 <= kl n x y.
Proof. intros n x y Hx Hy. apply rsum_nonneg; intros i Hi. assert (A := xlnx_div_ge (x i) (y i) (Hx i Hi) (Hy i Hi)). lra. Qed.
Lemma kl_zero : forall n x y, nonneg_vec n x -> pos_vec n y -> kl n x y = 0 -> forall i, (i < n)%nat -> x i = y i.
Proof.
  intros n x y Hx Hy Z i Hi.
  assert (A := rsum_nonneg_zero n (fun i => x i * ln (x i / y i) - x i + y i)). cbn beta in A.
  assert (B : x i * ln (x i / y i) - x i + y i = 0).
  { apply A; auto. intros k Hk. assert (T := xlnx_div_ge (x k) (y k) (Hx k Hk) (Hy k Hk)). lra. }
  destruct (Req_dec (x i) (y i)) as [|Hn]; auto. assert (T := xlnx_div_gt (x i) (y i) (Hx i Hi) (Hy i Hi) Hn). lra.
Qed.
