(** How far the gradient of lbfgsb_unbalanced is from the derivative of the
    value it is returned with. *)
From Coq Require Import List Arith Reals Lra Lia Bool.
From Verif Require Import Num Sums Spec Entropy Sinkhorn_model Duals_proofs Sinkhorn_more Gw_more Lbfgs_model Lbfgs_proofs.
Local Open Scope R_scope.

Section G.
Variable eps : R.
Notation grad := (uot_grad (N:=RNum) ln eps).

(** excess of the gradient used over the derivative *)
Definition excess (md : mdiv) (p q : R) : R := match md with MKl => eps / (p / q + eps) | _ => 0 end.
Definition rexcess (c : rmat) (rd : rdiv (N:=RNum)) (G : rmat) : rmat :=
  match rd with
  | RKl => fun i j => eps / (G i j / c i j + eps)
  | REntropy => fun i j => eps / (G i j + eps)
  | _ => fun _ _ => 0
  end.

Lemma div_1 : forall x, x / 1 = x.
Proof. intros. field. Qed.

Lemma d_affine : forall p E, derivable_pt_lim (fun t => p + t * E) 0 E.
Proof.
  intros. apply deriv_eq with (0 + (1 * E + 0 * 0)); [|ring]. apply (derivable_pt_lim_plus (fct_cte p) (fun t => t * E)); [apply derivable_pt_lim_const|].
  apply (derivable_pt_lim_mult (fun t => t) (fct_cte E)); [apply derivable_pt_lim_id|apply derivable_pt_lim_const].
Qed.
Lemma d_scal : forall k f x d, derivable_pt_lim f x d -> derivable_pt_lim (fun t => k * f t) x (k * d).
Proof. intros. apply (derivable_pt_lim_scal f k x d H). Qed.

Lemma d_kl : forall p q E, q <> 0 -> 0 < p / q + eps ->
  derivable_pt_lim (fun t => (p + t * E) * ln ((p + t * E) / q + eps) - (p + t * E) + q) 0 ((ln (p / q + eps) - eps / (p / q + eps)) * E).
Proof.
  intros p q E Hq Hu. set (u := p / q + eps) in *.
  assert (D1 : derivable_pt_lim (fun t => ln ((p + t * E) / q + eps)) 0 (/ u * (E / q))).
  { apply deriv_ext with (fun t => ln (u + t * (E / q))). { intros. unfold u. f_equal. field. auto. }
    apply (derivable_pt_lim_comp (fun t => u + t * (E / q)) ln); [apply d_affine|]. replace (u + 0 * (E / q)) with u by ring. apply derivable_pt_lim_ln; auto. }
  apply deriv_eq with (((E * ln ((p + 0 * E) / q + eps) + (p + 0 * E) * (/ u * (E / q))) - E) + 0).
  2:{ replace (p + 0 * E) with p by ring. fold u. assert (Ep : p = (u - eps) * q) by (unfold u; field; auto). rewrite Ep. field. lra. }
  apply (derivable_pt_lim_plus (fun t => (p + t * E) * ln ((p + t * E) / q + eps) - (p + t * E)) (fct_cte q)); [|apply derivable_pt_lim_const].
  apply (derivable_pt_lim_minus (fun t => (p + t * E) * ln ((p + t * E) / q + eps)) (fun t => p + t * E)); [|apply d_affine].
  apply (derivable_pt_lim_mult (fun t => p + t * E) (fun t => ln ((p + t * E) / q + eps))); [apply d_affine|exact D1].
Qed.

Lemma d_l2 : forall p q E, derivable_pt_lim (fun t => (p + t * E - q) ^ 2 / 2) 0 ((p - q) * E).
Proof.
  intros. apply deriv_ext with (fun t => / 2 * ((p - q + t * E) * (p - q + t * E))). { intros. field. }
  apply deriv_eq with (/ 2 * (E * (p - q + 0 * E) + (p - q + 0 * E) * E)); [|field].
  apply d_scal. apply (derivable_pt_lim_mult (fun t => p - q + t * E) (fun t => p - q + t * E)); apply d_affine.
Qed.

Lemma d_abs : forall x E, x <> 0 -> derivable_pt_lim (fun t => Rabs (x + t * E)) 0 (sgn (N:=RNum) x * E).
Proof.
  intros x E Hx. assert (A : derivable_pt_lim Rabs x (sgn (N:=RNum) x)).
  { unfold sgn. cbn [nltb nsub RNum]. change (@n0 RNum) with 0. change (@n1 RNum) with 1. destruct (Rltb x 0) eqn:L.
    - apply Rltb_true in L. replace (0 - 1) with (-1) by ring. apply Rabs_derive_2; auto.
    - apply Rltb_false in L. assert (P : 0 < x) by lra. rewrite (proj2 (Rltb_true 0 x) P). apply Rabs_derive_1; auto. }
  apply (derivable_pt_lim_comp (fun t => x + t * E) Rabs); [apply d_affine|]. replace (x + 0 * E) with x by ring. exact A.
Qed.

(** where the marginal term is differentiable *)
Definition m_smooth (md : mdiv) (p q : R) : Prop :=
  match md with MKl => q <> 0 /\ 0 < p / q + eps | ML2 => True | MTv => p <> q end.
Definition r_smooth (m n : nat) (c : rmat) (rd : rdiv (N:=RNum)) (G : rmat) : Prop :=
  match rd with
  | RKl => forall i j, (i < m)%nat -> (j < n)%nat -> c i j <> 0 /\ 0 < G i j / c i j + eps
  | REntropy => forall i j, (i < m)%nat -> (j < n)%nat -> 0 < G i j + eps
  | RL2 => True
  | RCustom f df => forall D, derivable_pt_lim (fun t => f (fun i j => G i j + t * D i j)) 0 (dsum m n (fun i j => df G i j * D i j))
  end.

Lemma d_marg : forall md p q E, m_smooth md p q ->
  derivable_pt_lim (fun t => dmarg eps md (p + t * E) q) 0 ((gm eps md p q - excess md p q) * E).
Proof.
  intros md p q E H. destruct md; unfold dmarg, gm, excess; cbn [m_smooth] in H.
  - destruct H. apply d_kl; auto.
  - rewrite Rminus_0_r. apply d_l2.
  - rewrite Rminus_0_r. apply deriv_ext with (fun t => Rabs (p - q + t * E)). { intros. f_equal. ring. }
    apply d_abs. lra.
Qed.

Lemma d_reg : forall m n c rd G D, r_smooth m n c rd G ->
  derivable_pt_lim (fun t => dreg eps m n c rd (fun i j => G i j + t * D i j)) 0
    (dsum m n (fun i j => (gr eps c rd G i j - rexcess c rd G i j) * D i j)).
Proof.
  intros m n c rd G D H. destruct rd; unfold dreg, gr, rexcess; cbn [r_smooth] in H.
  - apply (deriv_dsum m n (fun i j t => (G i j + t * D i j) * ln ((G i j + t * D i j) / c i j + eps) - (G i j + t * D i j) + c i j)).
    intros i j Hi Hj. destruct (H i j Hi Hj). apply d_kl; auto.
  - apply (deriv_dsum m n (fun i j t => (G i j + t * D i j) * ln (G i j + t * D i j + eps) - (G i j + t * D i j))).
    intros i j Hi Hj. specialize (H i j Hi Hj).
    apply deriv_ext with (fun t => ((G i j + t * D i j) * ln ((G i j + t * D i j) / 1 + eps) - (G i j + t * D i j) + 1) - 1).
    { intros. rewrite div_1. ring. }
    apply deriv_eq with ((ln (G i j / 1 + eps) - eps / (G i j / 1 + eps)) * D i j - 0). 2:{ rewrite div_1. ring. }
    apply (derivable_pt_lim_minus (fun t => (G i j + t * D i j) * ln ((G i j + t * D i j) / 1 + eps) - (G i j + t * D i j) + 1) (fct_cte 1)); [|apply derivable_pt_lim_const].
    apply d_kl; [lra|]. rewrite div_1. exact H.
  - apply (deriv_dsum m n (fun i j t => (G i j + t * D i j - c i j) ^ 2 / 2)). intros. rewrite Rminus_0_r. apply d_l2.
  - apply deriv_eq with (dsum m n (fun i j => df G i j * D i j)); [apply H|]. apply dsum_ext; intros. ring.
Qed.

(** directional derivative of the objective at [G]: the gradient used minus
    the excess *)
Lemma d_objective : forall m n (a b : rvec) (c M : rmat) reg r1 r2 rd md (G D : rmat), 0 <= reg ->
  (forall i, (i < m)%nat -> m_smooth md (row_sum n G i) (a i)) ->
  (forall j, (j < n)%nat -> m_smooth md (col_sum m G j) (b j)) -> r_smooth m n c rd G ->
  derivable_pt_lim (fun t => objective eps m n a b c M reg r1 r2 rd md (fun i j => G i j + t * D i j)) 0
    (dsum m n (fun i j => (grad m n a b c M reg r1 r2 rd md G i j
       - (reg * rexcess c rd G i j + r1 * excess md (row_sum n G i) (a i) + r2 * excess md (col_sum m G j) (b j))) * D i j)).
Proof.
  intros m n a b c M reg r1 r2 rd md G D Hr Ha Hb Hk. unfold objective.
  set (R1 := rsum m (fun i => (gm eps md (row_sum n G i) (a i) - excess md (row_sum n G i) (a i)) * row_sum n D i)).
  set (R2 := rsum n (fun j => (gm eps md (col_sum m G j) (b j) - excess md (col_sum m G j) (b j)) * col_sum m D j)).
  apply deriv_eq with (dsum m n (fun i j => D i j * M i j) + reg * dsum m n (fun i j => (gr eps c rd G i j - rexcess c rd G i j) * D i j) + r1 * R1 + r2 * R2).
  2:{ rewrite (dsum_ext m n (fun i j => (grad m n a b c M reg r1 r2 rd md G i j - _) * D i j) (fun i j => (D i j * M i j + reg * ((gr eps c rd G i j - rexcess c rd G i j) * D i j))
        + (r1 * (gm eps md (row_sum n G i) (a i) - excess md (row_sum n G i) (a i))) * D i j
        + (r2 * (gm eps md (col_sum m G j) (b j) - excess md (col_sum m G j) (b j))) * D i j)) by (intros; rewrite grad_R by auto; ring).
      rewrite !dsum_plus, dsum_scal. rewrite (dsum_row m n (fun i => r1 * (gm eps md (row_sum n G i) (a i) - excess md (row_sum n G i) (a i))) D).
      rewrite (dsum_col m n (fun j => r2 * (gm eps md (col_sum m G j) (b j) - excess md (col_sum m G j) (b j))) D).
      unfold R1, R2. rewrite <- !rsum_scal. f_equal; [f_equal|]; apply rsum_ext; intros; ring. }
  assert (ER : forall t i, row_sum n (fun i j => G i j + t * D i j) i = row_sum n G i + t * row_sum n D i).
  { intros. unfold row_sum. rewrite rsum_plus, rsum_scal. reflexivity. }
  assert (EC : forall t j, col_sum m (fun i j => G i j + t * D i j) j = col_sum m G j + t * col_sum m D j).
  { intros. unfold col_sum. rewrite rsum_plus, rsum_scal. reflexivity. }
  apply (derivable_pt_lim_plus (fun t => dsum m n (fun i j => (G i j + t * D i j) * M i j) + reg * dreg eps m n c rd (fun i j => G i j + t * D i j)
     + r1 * rsum m (fun i => dmarg eps md (row_sum n (fun i j => G i j + t * D i j) i) (a i)))
     (fun t => r2 * rsum n (fun j => dmarg eps md (col_sum m (fun i j => G i j + t * D i j) j) (b j)))).
  apply (derivable_pt_lim_plus (fun t => dsum m n (fun i j => (G i j + t * D i j) * M i j) + reg * dreg eps m n c rd (fun i j => G i j + t * D i j))
     (fun t => r1 * rsum m (fun i => dmarg eps md (row_sum n (fun i j => G i j + t * D i j) i) (a i)))).
  apply (derivable_pt_lim_plus (fun t => dsum m n (fun i j => (G i j + t * D i j) * M i j)) (fun t => reg * dreg eps m n c rd (fun i j => G i j + t * D i j))).
  - apply (deriv_dsum m n (fun i j t => (G i j + t * D i j) * M i j)). intros. apply deriv_ext with (fun t => G i j * M i j + t * (D i j * M i j)). { intros; ring. } apply d_affine.
  - apply d_scal. apply d_reg. exact Hk.
  - apply d_scal. apply deriv_ext with (fun t => rsum m (fun i => dmarg eps md (row_sum n G i + t * row_sum n D i) (a i))).
    { intros. apply rsum_ext; intros. rewrite ER. reflexivity. }
    apply (deriv_rsum m (fun i t => dmarg eps md (row_sum n G i + t * row_sum n D i) (a i))). intros. apply d_marg; auto.
  - apply d_scal. apply deriv_ext with (fun t => rsum n (fun j => dmarg eps md (col_sum m G j + t * col_sum m D j) (b j))).
    { intros. apply rsum_ext; intros. rewrite EC. reflexivity. }
    apply (deriv_rsum n (fun j t => dmarg eps md (col_sum m G j + t * col_sum m D j) (b j))). intros. apply d_marg; auto.
Qed.

End G.
