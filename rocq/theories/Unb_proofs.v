(** Proofs about the unbalanced Sinkhorn loop at the exact reals. *)
From Coq Require Import List Arith Bool Reals Lra Lia.
From Verif Require Import Num Sums Spec Duals_proofs Entropy Sinkhorn_model Sinkhorn_proofs Sinkhorn_more Unb_model.
Import ListNotations.
Local Open Scope R_scope.

(** ** the unbalanced objective *)
Definition gkl (x y : R) : R := x * ln (x / y) - x + y.
Definition penalty (rm : option R) (k : nat) (r a : vec) : R :=
  match rm with Some rho => rho * rsum k (fun i => gkl (r i) (a i)) | None => 0 end.
Definition hard (rm : option R) (k : nat) (r a : vec) : Prop :=
  match rm with Some _ => True | None => forall i, (i < k)%nat -> r i = a i end.
Definition pos_rm (rm : option R) : Prop := match rm with Some r => 0 < r | None => True end.
(** <P, M> + reg KL(P|c) + reg_m1 KL(P1|a) + reg_m2 KL(P^T 1|b), KL(x|y) = sum x ln(x/y) - x + y *)
Definition uot_obj (n m : nat) (a b : vec) (M c : mat) (reg : R) (rm1 rm2 : option R) (P : mat) : R :=
  cost n m M P + reg * rsum n (fun i => rsum m (fun j => gkl (P i j) (c i j)))
  + penalty rm1 n (row_sum m P) a + penalty rm2 m (col_sum n P) b.
(** admissible plans: non-negative, with the marginals of infinite penalty met *)
Definition uot_plan (n m : nat) (a b : vec) (rm1 rm2 : option R) (P : mat) : Prop :=
  nonneg_mat n m P /\ hard rm1 n (row_sum m P) a /\ hard rm2 m (col_sum n P) b.

Lemma gkl_tan : forall q p y, 0 <= q -> 0 < p -> 0 < y -> ln (p / y) * (q - p) <= gkl q y - gkl p y.
Proof.
  intros q p y Hq Hp Hy. unfold gkl. rewrite !xlnx_split by lra. rewrite ln_div by auto.
  assert (A := xlnx_tangent q p Hq Hp). unfold xlnx in *. lra.
Qed.
Lemma gkl_tan_lt : forall q p y, 0 <= q -> 0 < p -> 0 < y -> q <> p -> ln (p / y) * (q - p) < gkl q y - gkl p y.
Proof.
  intros q p y Hq Hp Hy Hn. unfold gkl. rewrite !xlnx_split by lra. rewrite ln_div by auto.
  assert (A := xlnx_tangent_lt q p Hq Hp Hn). unfold xlnx in *. lra.
Qed.
Definition slope (rm : option R) (r a : vec) (i : nat) : R := match rm with Some rho => rho * ln (r i / a i) | None => 0 end.
Lemma penalty_tan : forall rm k q p a, pos_rm rm -> nonneg_vec k q -> pos_vec k p -> pos_vec k a ->
  rsum k (fun i => slope rm p a i * (q i - p i)) <= penalty rm k q a - penalty rm k p a.
Proof.
  intros [r|] k q p a Hr Hq Hp Ha; unfold slope, penalty.
  - rewrite <- Rmult_minus_distr_l, <- rsum_minus, <- rsum_scal. apply rsum_le; intros i Hi.
    rewrite Rmult_assoc. apply Rmult_le_compat_l; [cbn in Hr; lra|]. apply gkl_tan; auto.
  - rewrite rsum_0 by (intros; ring). lra.
Qed.
Lemma row_sum_nonneg : forall n m P, nonneg_mat n m P -> nonneg_vec n (row_sum m P).
Proof. intros n m P H i Hi. apply rsum_nonneg; intros; apply H; auto. Qed.
Lemma col_sum_nonneg : forall n m P, nonneg_mat n m P -> nonneg_vec m (col_sum n P).
Proof. intros n m P H i Hi. apply rsum_nonneg; intros; apply H; auto. Qed.

(** the convexity gap, with potentials f, g of the plan P *)
Section Gap.
Variables (n m : nat) (a b : vec) (M c : mat) (reg : R) (rm1 rm2 : option R) (P : mat) (f g : vec).
Hypotheses (Hn : (0 < n)%nat) (Hm : (0 < m)%nat) (Ha : pos_vec n a) (Hb : pos_vec m b) (Hreg : 0 < reg)
  (Hr1 : pos_rm rm1) (Hr2 : pos_rm rm2).
Hypothesis Hc : forall i j, (i < n)%nat -> (j < m)%nat -> 0 < c i j.
Hypothesis HP : forall i j, (i < n)%nat -> (j < m)%nat -> 0 < P i j.
Hypothesis Hfg : forall i j, (i < n)%nat -> (j < m)%nat -> M i j + reg * ln (P i j / c i j) = f i + g j.
Let J := uot_obj n m a b M c reg rm1 rm2.
Definition uot_lin (Q : mat) : R :=
  rsum n (fun i => (f i + slope rm1 (row_sum m P) a i) * (row_sum m Q i - row_sum m P i))
  + rsum m (fun j => (g j + slope rm2 (col_sum n P) b j) * (col_sum n Q j - col_sum n P j)).
Lemma uot_gap_core : forall Q, nonneg_mat n m Q ->
  J Q - J P - uot_lin Q >= dsum n m (fun i j => reg * (gkl (Q i j) (c i j) - gkl (P i j) (c i j) - ln (P i j / c i j) * (Q i j - P i j))).
Proof.
  intros Q HQ. unfold J, uot_obj, uot_lin.
  assert (RP : pos_vec n (row_sum m P)) by (intros i Hi; apply rsum_pos; auto).
  assert (CP : pos_vec m (col_sum n P)) by (intros j Hj; apply rsum_pos; auto).
  assert (T1 := penalty_tan rm1 n (row_sum m Q) (row_sum m P) a Hr1 (row_sum_nonneg n m Q HQ) RP Ha).
  assert (T2 := penalty_tan rm2 m (col_sum n Q) (col_sum n P) b Hr2 (col_sum_nonneg n m Q HQ) CP Hb).
  assert (E1 : rsum n (fun i => (f i + slope rm1 (row_sum m P) a i) * (row_sum m Q i - row_sum m P i)) =
    rsum n (fun i => f i * (row_sum m Q i - row_sum m P i)) + rsum n (fun i => slope rm1 (row_sum m P) a i * (row_sum m Q i - row_sum m P i)))
    by (rewrite <- rsum_plus; apply rsum_ext; intros; ring).
  assert (E2 : rsum m (fun j => (g j + slope rm2 (col_sum n P) b j) * (col_sum n Q j - col_sum n P j)) =
    rsum m (fun j => g j * (col_sum n Q j - col_sum n P j)) + rsum m (fun j => slope rm2 (col_sum n P) b j * (col_sum n Q j - col_sum n P j)))
    by (rewrite <- rsum_plus; apply rsum_ext; intros; ring).
  rewrite E1, E2. clear E1 E2.
  assert (F1 : rsum n (fun i => f i * (row_sum m Q i - row_sum m P i)) = dsum n m (fun i j => f i * (Q i j - P i j))).
  { unfold dsum. apply rsum_ext; intros i Hi. rewrite rsum_scal. f_equal. unfold row_sum. rewrite <- rsum_minus. reflexivity. }
  assert (F2 : rsum m (fun j => g j * (col_sum n Q j - col_sum n P j)) = dsum n m (fun i j => g j * (Q i j - P i j))).
  { unfold dsum. rewrite rsum_swap. apply rsum_ext; intros j Hj. rewrite rsum_scal. f_equal. unfold col_sum. rewrite <- rsum_minus. reflexivity. }
  rewrite F1, F2.
  assert (C : dsum n m (fun i j => reg * (gkl (Q i j) (c i j) - gkl (P i j) (c i j) - ln (P i j / c i j) * (Q i j - P i j)))
    = cost n m M Q + reg * rsum n (fun i => rsum m (fun j => gkl (Q i j) (c i j)))
      - (cost n m M P + reg * rsum n (fun i => rsum m (fun j => gkl (P i j) (c i j))))
      - dsum n m (fun i j => f i * (Q i j - P i j)) - dsum n m (fun i j => g j * (Q i j - P i j))).
  { unfold cost. change (rsum n (fun i => rsum m (fun j => gkl (Q i j) (c i j)))) with (dsum n m (fun i j => gkl (Q i j) (c i j))).
    change (rsum n (fun i => rsum m (fun j => gkl (P i j) (c i j)))) with (dsum n m (fun i j => gkl (P i j) (c i j))).
    rewrite <- !dsum_scal. change (rsum n (fun i => rsum m (fun j => M i j * Q i j))) with (dsum n m (fun i j => M i j * Q i j)).
    change (rsum n (fun i => rsum m (fun j => M i j * P i j))) with (dsum n m (fun i j => M i j * P i j)).
    rewrite <- !dsum_plus, <- !dsum_minus. apply dsum_ext; intros i j Hi Hj.
    assert (H := Hfg i j Hi Hj). replace (reg * (gkl (Q i j) (c i j) - gkl (P i j) (c i j) - ln (P i j / c i j) * (Q i j - P i j)))
      with (reg * (gkl (Q i j) (c i j) - gkl (P i j) (c i j)) - (f i + g j - M i j) * (Q i j - P i j)) by (rewrite <- H; ring). ring. }
  rewrite C. lra.
Qed.
Lemma uot_gap : forall Q, nonneg_mat n m Q -> J P + uot_lin Q <= J Q.
Proof.
  intros Q HQ. assert (A := uot_gap_core Q HQ).
  assert (B : 0 <= dsum n m (fun i j => reg * (gkl (Q i j) (c i j) - gkl (P i j) (c i j) - ln (P i j / c i j) * (Q i j - P i j)))).
  { apply dsum_nonneg; intros i j Hi Hj. apply Rmult_le_pos; [lra|]. assert (T := gkl_tan (Q i j) (P i j) (c i j) (HQ i j Hi Hj) (HP i j Hi Hj) (Hc i j Hi Hj)). lra. }
  lra.
Qed.
Lemma uot_gap_strict : forall Q i0 j0, nonneg_mat n m Q -> (i0 < n)%nat -> (j0 < m)%nat -> Q i0 j0 <> P i0 j0 -> J P + uot_lin Q < J Q.
Proof.
  intros Q i0 j0 HQ Hi0 Hj0 Hne. assert (A := uot_gap_core Q HQ).
  set (h := fun i j => reg * (gkl (Q i j) (c i j) - gkl (P i j) (c i j) - ln (P i j / c i j) * (Q i j - P i j))) in *.
  assert (N : forall i j, (i < n)%nat -> (j < m)%nat -> 0 <= h i j).
  { intros i j Hi Hj. apply Rmult_le_pos; [lra|]. assert (T := gkl_tan (Q i j) (P i j) (c i j) (HQ i j Hi Hj) (HP i j Hi Hj) (Hc i j Hi Hj)). lra. }
  assert (B := dsum_nonneg n m h N).
  destruct (Req_dec (dsum n m h) 0) as [Z|Z]; [|lra].
  assert (Z0 := dsum_zero n m h N Z i0 j0 Hi0 Hj0).
  assert (T := gkl_tan_lt (Q i0 j0) (P i0 j0) (c i0 j0) (HQ _ _ Hi0 Hj0) (HP _ _ Hi0 Hj0) (Hc _ _ Hi0 Hj0) Hne).
  unfold h in Z0. apply Rmult_integral in Z0. destruct Z0; lra.
Qed.
End Gap.

(** ** the scaling maps *)
Section Scal.
Variables (n m : nat) (a b : vec) (K : mat) (f1 f2 : R).
Hypotheses (Hn : (0 < n)%nat) (Hm : (0 < m)%nat) (Ha : pos_vec n a) (Hb : pos_vec m b).
Hypothesis HK : forall i j, (i < n)%nat -> (j < m)%nat -> 0 < K i j.
Definition rkv (v : vec) (i : nat) : R := rsum m (fun j => K i j * v j).
Definition rktu (u : vec) (j : nat) : R := rsum n (fun i => K i j * u i).
Notation U := (un_u (N:=RNum) m a Rpower K f1).
Notation V := (un_v (N:=RNum) n b Rpower K f2).
Lemma un_Kv_R : forall v i, un_Kv (N:=RNum) m K v i = rkv v i.
Proof. intros. unfold un_Kv. rewrite nsum_R. reflexivity. Qed.
Lemma un_Ktu_R : forall u j, un_Ktu (N:=RNum) n K u j = rktu u j.
Proof. intros. unfold un_Ktu. rewrite nsum_R. reflexivity. Qed.
Lemma U_R : forall v i, U v i = Rpower (a i / rkv v i) f1.
Proof. intros. unfold un_u. rewrite un_Kv_R. reflexivity. Qed.
Lemma V_R : forall u j, V u j = Rpower (b j / rktu u j) f2.
Proof. intros. unfold un_v. rewrite un_Ktu_R. reflexivity. Qed.
Lemma rkv_pos : forall v i, pos_vec m v -> (i < n)%nat -> 0 < rkv v i.
Proof. intros v i Hv Hi. apply rsum_pos; auto. intros j Hj. apply Rmult_lt_0_compat; auto. Qed.
Lemma rktu_pos : forall u j, pos_vec n u -> (j < m)%nat -> 0 < rktu u j.
Proof. intros u j Hu Hj. apply rsum_pos; auto. intros i Hi. apply Rmult_lt_0_compat; auto. Qed.
Lemma U_pos : forall v i, 0 < U v i. Proof. intros. rewrite U_R. apply exp_pos. Qed.
Lemma V_pos : forall u j, 0 < V u j. Proof. intros. rewrite V_R. apply exp_pos. Qed.
Lemma ln_U : forall v i, pos_vec m v -> (i < n)%nat -> ln (U v i) = f1 * (ln (a i) - ln (rkv v i)).
Proof. intros v i Hv Hi. rewrite U_R. unfold Rpower. rewrite ln_exp, ln_div; auto. apply rkv_pos; auto. Qed.
Lemma ln_V : forall u j, pos_vec n u -> (j < m)%nat -> ln (V u j) = f2 * (ln (b j) - ln (rktu u j)).
Proof. intros u j Hu Hj. rewrite V_R. unfold Rpower. rewrite ln_exp, ln_div; auto. apply rktu_pos; auto. Qed.

(** sup distance of logarithms *)
Definition lnear (k : nat) (x y : vec) (D : R) : Prop := forall i, (i < k)%nat -> Rabs (ln (x i) - ln (y i)) <= D.
Lemma lnear_sym : forall k x y D, lnear k x y D -> lnear k y x D.
Proof. intros k x y D H i Hi. rewrite Rabs_minus_sym. auto. Qed.
Lemma lnear_le : forall k x y D D', lnear k x y D -> D <= D' -> lnear k x y D'.
Proof. intros k x y D D' H L i Hi. specialize (H i Hi). lra. Qed.
Lemma sum_ln_le : forall k (w x y : vec) D, (0 < k)%nat -> pos_vec k w -> pos_vec k x -> pos_vec k y -> lnear k x y D ->
  ln (rsum k (fun j => w j * x j)) - ln (rsum k (fun j => w j * y j)) <= D.
Proof.
  intros k w x y D Hk Hw Hx Hy H.
  assert (Py : 0 < rsum k (fun j => w j * y j)) by (apply rsum_pos; auto; intros; apply Rmult_lt_0_compat; auto).
  assert (Px : 0 < rsum k (fun j => w j * x j)) by (apply rsum_pos; auto; intros; apply Rmult_lt_0_compat; auto).
  assert (L : rsum k (fun j => w j * x j) <= exp D * rsum k (fun j => w j * y j)).
  { rewrite <- rsum_scal. apply rsum_le; intros j Hj. replace (exp D * (w j * y j)) with (w j * (exp D * y j)) by ring.
    apply Rmult_le_compat_l; [left; auto|]. specialize (H j Hj).
    assert (ln (x j) <= D + ln (y j)) by (assert (A := Rle_abs (ln (x j) - ln (y j))); lra).
    rewrite <- (exp_ln (x j)) by auto. rewrite <- (exp_ln (y j)) at 1 by auto. rewrite <- exp_plus.
    destruct H0 as [H0|H0]; [left; apply exp_increasing; auto|right; rewrite H0; auto]. }
  assert (ln (rsum k (fun j => w j * x j)) <= D + ln (rsum k (fun j => w j * y j))).
  { rewrite <- (ln_exp D) at 1. rewrite <- ln_mult by (auto; apply exp_pos). apply ln_mono; auto. }
  lra.
Qed.
Lemma sum_ln_near : forall k (w x y : vec) D, (0 < k)%nat -> pos_vec k w -> pos_vec k x -> pos_vec k y -> lnear k x y D ->
  Rabs (ln (rsum k (fun j => w j * x j)) - ln (rsum k (fun j => w j * y j))) <= D.
Proof.
  intros k w x y D Hk Hw Hx Hy H. apply Rabs_le. split.
  - assert (A := sum_ln_le k w y x D Hk Hw Hy Hx (lnear_sym _ _ _ _ H)). lra.
  - apply sum_ln_le; auto.
Qed.
Lemma U_near : forall v v' D, 0 <= f1 -> pos_vec m v -> pos_vec m v' -> lnear m v v' D -> lnear n (U v) (U v') (f1 * D).
Proof.
  intros v v' D Hf Hv Hv' H i Hi. rewrite !ln_U by auto.
  replace (f1 * (ln (a i) - ln (rkv v i)) - f1 * (ln (a i) - ln (rkv v' i))) with (f1 * (ln (rkv v' i) - ln (rkv v i))) by ring.
  rewrite Rabs_mult, (Rabs_pos_eq f1) by auto. apply Rmult_le_compat_l; auto. rewrite Rabs_minus_sym. apply sum_ln_near; auto. intros j Hj; auto.
Qed.
Lemma V_near : forall u u' D, 0 <= f2 -> pos_vec n u -> pos_vec n u' -> lnear n u u' D -> lnear m (V u) (V u') (f2 * D).
Proof.
  intros v v' D Hf Hv Hv' H i Hi. rewrite !ln_V by auto.
  replace (f2 * (ln (b i) - ln (rktu v i)) - f2 * (ln (b i) - ln (rktu v' i))) with (f2 * (ln (rktu v' i) - ln (rktu v i))) by ring.
  rewrite Rabs_mult, (Rabs_pos_eq f2) by auto. apply Rmult_le_compat_l; auto. rewrite Rabs_minus_sym.
  unfold rktu. apply (sum_ln_near n (fun i0 => K i0 i)); auto. intros j Hj; auto.
Qed.

(** iterates of the loop *)
Fixpoint vit (k : nat) (v : vec) : vec := match k with O => v | S k' => V (U (vit k' v)) end.
Definition uit (k : nat) (u v : vec) : vec := match k with O => u | S k' => U (vit k' v) end.
Lemma vit_pos : forall k v, pos_vec m v -> pos_vec m (vit k v).
Proof. intros [|k] v Hv; auto. intros j Hj. apply V_pos. Qed.
Lemma uit_pos : forall k u v, pos_vec n u -> pos_vec n (uit k u v).
Proof. intros [|k] u v Hv; auto. intros j Hj. apply U_pos. Qed.
Lemma vit_S : forall k v, vit (S k) v = vit k (V (U v)).
Proof. induction k; intros v; auto. change (vit (S (S k)) v) with (V (U (vit (S k) v))). rewrite IHk. reflexivity. Qed.
Hypotheses (F1 : 0 <= f1) (F2 : 0 <= f2).
Let rho := f1 * f2.
Lemma vit_step : forall k v D, pos_vec m v -> lnear m (V (U v)) v D -> lnear m (vit (S k) v) (vit k v) (rho ^ k * D).
Proof.
  induction k; intros v D Hv H; [rewrite Rmult_1_l; exact H|].
  change (vit (S (S k)) v) with (V (U (vit (S k) v))). change (vit (S k) v) with (V (U (vit k v))) at 2.
  replace (rho ^ S k * D) with (f2 * (f1 * (rho ^ k * D))) by (unfold rho; simpl; ring).
  apply V_near; auto; try (intros i Hi; apply U_pos). apply U_near; auto using vit_pos.
Qed.
Lemma uit_step : forall k u v D, pos_vec m v -> lnear m (V (U v)) v D -> lnear n (uit (S (S k)) u v) (uit (S k) u v) (f1 * (rho ^ k * D)).
Proof. intros k u v D Hv H. apply U_near; auto using vit_pos. apply vit_step; auto. Qed.
End Scal.
