(** The majorisation-minimisation updates of mm_unbalanced decrease their objective (1e-16 guard
    taken as 0), and the loop stops. *)
From Coq Require Import List Arith Bool Reals Lra Lia.
From Verif Require Import Num Sums Spec Duals_proofs Entropy Sinkhorn_model Sinkhorn_proofs Sinkhorn_more Unb_model Unb_proofs Unb_conv Unb_opt.
Import ListNotations.
Local Open Scope R_scope.

Lemma gkl_nonneg : forall x y, 0 <= x -> 0 < y -> 0 <= gkl x y.
Proof. intros x y Hx Hy. assert (A := xlnx_div_ge x y Hx Hy). unfold gkl. lra. Qed.
(** log-sum inequality *)
Lemma log_sum : forall k (x y : vec), (0 < k)%nat -> pos_vec k x -> pos_vec k y ->
  rsum k x * ln (rsum k x / rsum k y) <= rsum k (fun i => x i * ln (x i / y i)).
Proof.
  intros k x y Hk Hx Hy. assert (X := rsum_pos k x Hk Hx). assert (Y := rsum_pos k y Hk Hy).
  set (l := rsum k x / rsum k y). assert (Pl : 0 < l) by (apply Rdiv_lt_0_compat; auto).
  assert (A : 0 <= rsum k (fun i => gkl (x i) (l * y i))).
  { apply rsum_nonneg; intros i Hi. apply gkl_nonneg; [left; auto|apply Rmult_lt_0_compat; auto]. }
  assert (B : rsum k (fun i => gkl (x i) (l * y i)) = rsum k (fun i => x i * ln (x i / y i)) - rsum k x * ln l - rsum k x + l * rsum k y).
  { unfold gkl. rewrite <- rsum_scal_r, <- rsum_scal. rewrite <- !rsum_minus, <- rsum_plus. apply rsum_ext; intros i Hi.
    assert (Hxi := Hx i Hi). assert (Hyi := Hy i Hi). rewrite !ln_div by (auto; apply Rmult_lt_0_compat; auto). rewrite ln_mult by auto. ring. }
  assert (C : l * rsum k y = rsum k x) by (unfold l; field; lra). lra.
Qed.

Definition fro2 (n m : nat) (G : mat) : R := rsum n (fun i => rsum m (fun j => G i j * G i j)).
Definition frob (n m : nat) (G : mat) : R := sqrt (fro2 n m G).
Lemma fro2_nonneg : forall n m G, 0 <= fro2 n m G.
Proof. intros. apply rsum_nonneg; intros; apply rsum_nonneg; intros; apply Rle_0_sqr. Qed.

Section MM.
Variables (n m : nat) (a b : vec) (M c : mat) (reg r1 r2 : R).
Hypotheses (Hn : (0 < n)%nat) (Hm : (0 < m)%nat) (Ha : pos_vec n a) (Hb : pos_vec m b).
Hypotheses (Hreg : 0 <= reg) (Hr1 : 0 <= r1) (Hr2 : 0 <= r2) (HS : 0 < reg + r1 + r2).
Notation S := (reg + r1 + r2).

(** ** Kullback-Leibler *)
Section KLd.
Hypothesis Hc : 0 < reg -> forall i j, (i < n)%nat -> (j < m)%nat -> 0 < c i j.
Notation stepk := (mm_kl (N:=RNum) n m a b exp Rpower M c reg r1 r2 0).
Definition J_kl : mat -> R := uot_obj n m a b M c reg (Some r1) (Some r2).
Definition posm (G : mat) : Prop := forall i j, (i < n)%nat -> (j < m)%nat -> 0 < G i j.
Lemma mm_kl_pos : forall G, (forall i j, 0 < stepk G i j).
Proof.
  intros G i j. unfold mm_kl. cbn [ndiv nmul nadd RNum n0]. rewrite Rplus_0_r. unfold mm_Kkl. cbn [nmul RNum].
  apply Rdiv_lt_0_compat; repeat apply Rmult_lt_0_compat; apply exp_pos.
Qed.
Lemma S_R : mm_S (N:=RNum) reg r1 r2 = S. Proof. reflexivity. Qed.
Lemma ln_step : forall G i j, posm G -> (i < n)%nat -> (j < m)%nat ->
  S * ln (stepk G i j) = - M i j + r1 * (ln (a i) + ln (G i j) - ln (row_sum m G i)) + r2 * (ln (b j) + ln (G i j) - ln (col_sum n G j)) + reg * ln (c i j).
Proof.
  intros G i j HG Hi Hj. unfold mm_kl. unfold mm_Kkl, mm_R, mm_C. rewrite S_R. rewrite !nsum_R. cbn [ndiv nmul nadd RNum]. rewrite Rplus_0_r.
  rewrite ln_div by (repeat apply Rmult_lt_0_compat; apply exp_pos). rewrite !ln_mult by (repeat apply Rmult_lt_0_compat; apply exp_pos).
  rewrite !ln_pw, ln_exp. unfold nopp. cbn [nsub RNum n0].
  change (rsum m (fun j0 => G i j0)) with (row_sum m G i). change (rsum n (fun i0 => G i0 j)) with (col_sum n G j). field. lra.
Qed.
(** per-entry majoriser *)
Definition qent (G : mat) (i j : nat) (x : R) : R :=
  M i j * x + r1 * (x * (ln x - (ln (G i j) + ln (a i) - ln (row_sum m G i))) - x)
  + r2 * (x * (ln x - (ln (G i j) + ln (b j) - ln (col_sum n G j))) - x) + reg * (x * (ln x - ln (c i j)) - x + c i j).
Lemma qent_min : forall G i j x, posm G -> (i < n)%nat -> (j < m)%nat -> 0 < x ->
  qent G i j x = S * (gkl x (stepk G i j) - stepk G i j) + reg * c i j.
Proof.
  intros G i j x HG Hi Hj Hx. unfold gkl, qent. rewrite ln_div by (auto; apply mm_kl_pos).
  assert (E := ln_step G i j HG Hi Hj). set (y := stepk G i j) in *.
  replace (S * (x * (ln x - ln y) - x + y - y) + reg * c i j) with (S * (x * ln x - x) - x * (S * ln y) + reg * c i j) by ring.
  rewrite E. ring.
Qed.
Definition Qmaj (G X : mat) : R := dsum n m (fun i j => qent G i j (X i j)) + r1 * rsum n a + r2 * rsum m b.
Lemma gkl_vec : forall k (x y : vec), pos_vec k x -> pos_vec k y ->
  rsum k (fun i => gkl (x i) (y i)) = rsum k (fun i => x i * (ln (x i) - ln (y i))) - rsum k x + rsum k y.
Proof. intros k x y Hx Hy. rewrite <- rsum_minus, <- rsum_plus. apply rsum_ext; intros i Hi. unfold gkl. rewrite ln_div; auto. Qed.
Lemma Q_expand : forall G X, posm G -> posm X -> Qmaj G X =
  cost n m M X + reg * rsum n (fun i => rsum m (fun j => gkl (X i j) (c i j)))
  + r1 * (dsum n m (fun i j => X i j * (ln (X i j) - ln (G i j))) + rsum n (fun i => row_sum m X i * (ln (row_sum m G i) - ln (a i))) - total n m X + rsum n a)
  + r2 * (dsum n m (fun i j => X i j * (ln (X i j) - ln (G i j))) + rsum m (fun j => col_sum n X j * (ln (col_sum n G j) - ln (b j))) - total n m X + rsum m b).
Proof.
  intros G X HG HX. unfold Qmaj, qent. unfold cost. change (total n m X) with (dsum n m X).
  change (rsum n (fun i => rsum m (fun j => M i j * X i j))) with (dsum n m (fun i j => M i j * X i j)).
  change (rsum n (fun i => rsum m (fun j => gkl (X i j) (c i j)))) with (dsum n m (fun i j => gkl (X i j) (c i j))).
  rewrite (rsum_ext n (fun i => row_sum m X i * (ln (row_sum m G i) - ln (a i))) (fun i => (ln (row_sum m G i) - ln (a i)) * row_sum m X i)) by (intros; ring).
  rewrite (rsum_ext m (fun j => col_sum n X j * (ln (col_sum n G j) - ln (b j))) (fun j => (ln (col_sum n G j) - ln (b j)) * col_sum n X j)) by (intros; ring).
  rewrite <- (dsum_row n m (fun i => ln (row_sum m G i) - ln (a i)) X), <- (dsum_col n m (fun j => ln (col_sum n G j) - ln (b j)) X).
  rewrite !Rmult_plus_distr_l. rewrite <- !dsum_scal.
  replace (dsum n m (fun i j => M i j * X i j + r1 * (X i j * (ln (X i j) - (ln (G i j) + ln (a i) - ln (row_sum m G i))) - X i j)
    + r2 * (X i j * (ln (X i j) - (ln (G i j) + ln (b j) - ln (col_sum n G j))) - X i j) + reg * (X i j * (ln (X i j) - ln (c i j)) - X i j + c i j)))
  with (dsum n m (fun i j => M i j * X i j) + dsum n m (fun i j => reg * gkl (X i j) (c i j))
    + (r1 * (dsum n m (fun i j => X i j * (ln (X i j) - ln (G i j))) + dsum n m (fun i j => (ln (row_sum m G i) - ln (a i)) * X i j) - dsum n m X))
    + (r2 * (dsum n m (fun i j => X i j * (ln (X i j) - ln (G i j))) + dsum n m (fun i j => (ln (col_sum n G j) - ln (b j)) * X i j) - dsum n m X))).
  { rewrite !Rmult_minus_distr_l, !Rmult_plus_distr_l, <- !dsum_scal. ring. }
  rewrite <- !dsum_plus, <- !dsum_minus, <- !dsum_scal, <- !dsum_plus. apply dsum_ext; intros i j Hi Hj.
  unfold gkl. destruct (Rle_lt_or_eq_dec 0 reg Hreg) as [Hp|<-]; [|ring]. rewrite (ln_div (X i j)) by (auto; apply Hc; auto). ring.
Qed.
Lemma J_eq_Q : forall G, posm G -> J_kl G = Qmaj G G.
Proof.
  intros G HG. rewrite Q_expand by auto. unfold J_kl, uot_obj, penalty.
  assert (PR : pos_vec n (row_sum m G)) by (intros i Hi; apply rsum_pos; auto).
  assert (PC : pos_vec m (col_sum n G)) by (intros j Hj; apply rsum_pos; auto).
  rewrite !gkl_vec by auto.
  assert (Z : dsum n m (fun i j => G i j * (ln (G i j) - ln (G i j))) = 0) by (unfold dsum; apply rsum_0; intros; apply rsum_0; intros; ring).
  rewrite Z. change (rsum n (row_sum m G)) with (total n m G).
  assert (T : rsum m (col_sum n G) = total n m G) by (unfold total, col_sum, row_sum; symmetry; apply rsum_swap). rewrite T. ring.
Qed.
Lemma J_le_Q : forall G X, posm G -> posm X -> J_kl X <= Qmaj G X.
Proof.
  intros G X HG HX. rewrite Q_expand by auto. unfold J_kl, uot_obj, penalty.
  assert (PR : pos_vec n (row_sum m X)) by (intros i Hi; apply rsum_pos; auto).
  assert (PC : pos_vec m (col_sum n X)) by (intros j Hj; apply rsum_pos; auto).
  assert (GR : pos_vec n (row_sum m G)) by (intros i Hi; apply rsum_pos; auto).
  assert (GC : pos_vec m (col_sum n G)) by (intros j Hj; apply rsum_pos; auto).
  rewrite !gkl_vec by auto.
  change (rsum n (row_sum m X)) with (total n m X).
  assert (T : rsum m (col_sum n X) = total n m X) by (unfold total, col_sum, row_sum; symmetry; apply rsum_swap). rewrite T.
  assert (L1 : rsum n (fun i => row_sum m X i * (ln (row_sum m X i) - ln (a i))) <=
    dsum n m (fun i j => X i j * (ln (X i j) - ln (G i j))) + rsum n (fun i => row_sum m X i * (ln (row_sum m G i) - ln (a i)))).
  { unfold dsum. rewrite <- rsum_plus. apply rsum_le; intros i Hi.
    assert (A := log_sum m (X i) (G i) Hm (fun j Hj => HX i j Hi Hj) (fun j Hj => HG i j Hi Hj)).
    fold (row_sum m X i) in A. change (rsum m (X i)) with (row_sum m X i) in A. change (rsum m (G i)) with (row_sum m G i) in A. rewrite ln_div in A by auto.
    rewrite (rsum_ext m _ (fun j => X i j * (ln (X i j) - ln (G i j)))) in A by (intros j Hj; rewrite ln_div; auto). lra. }
  assert (L2 : rsum m (fun j => col_sum n X j * (ln (col_sum n X j) - ln (b j))) <=
    dsum n m (fun i j => X i j * (ln (X i j) - ln (G i j))) + rsum m (fun j => col_sum n X j * (ln (col_sum n G j) - ln (b j)))).
  { unfold dsum. rewrite rsum_swap, <- rsum_plus. apply rsum_le; intros j Hj.
    assert (A := log_sum n (fun i => X i j) (fun i => G i j) Hn (fun i Hi => HX i j Hi Hj) (fun i Hi => HG i j Hi Hj)).
    change (rsum n (fun i => X i j)) with (col_sum n X j) in A. change (rsum n (fun i => G i j)) with (col_sum n G j) in A. rewrite ln_div in A by auto.
    rewrite (rsum_ext n _ (fun i => X i j * (ln (X i j) - ln (G i j)))) in A by (intros i Hi; rewrite ln_div; auto). lra. }
  assert (B1 := Rmult_le_compat_l r1 _ _ Hr1 L1). assert (B2 := Rmult_le_compat_l r2 _ _ Hr2 L2). lra.
Qed.
Lemma mm_kl_decrease : forall G, posm G -> S * dsum n m (fun i j => gkl (G i j) (stepk G i j)) <= J_kl G - J_kl (stepk G).
Proof.
  intros G HG. assert (HX : posm (stepk G)) by (intros i j _ _; apply mm_kl_pos).
  rewrite (J_eq_Q G HG). assert (B := J_le_Q G (stepk G) HG HX).
  assert (D : Qmaj G G - Qmaj G (stepk G) = S * dsum n m (fun i j => gkl (G i j) (stepk G i j))).
  { unfold Qmaj. rewrite <- dsum_scal.
    replace (dsum n m (fun i j => qent G i j (G i j)) + r1 * rsum n a + r2 * rsum m b - (dsum n m (fun i j => qent G i j (stepk G i j)) + r1 * rsum n a + r2 * rsum m b))
      with (dsum n m (fun i j => qent G i j (G i j)) - dsum n m (fun i j => qent G i j (stepk G i j))) by ring.
    rewrite <- dsum_minus. apply dsum_ext; intros i j Hi Hj. rewrite !qent_min by auto.
    replace (gkl (stepk G i j) (stepk G i j)) with 0; [ring|].
    unfold gkl. rewrite ln_div by apply mm_kl_pos. ring. }
  lra.
Qed.
(** mass bound *)
Lemma gkl_lin : forall x y, 0 <= x -> 0 < y -> x - 2 * y <= gkl x y.
Proof.
  intros x y Hx Hy. assert (E := exp_pos 1).
  assert (A := gkl_tan x (y * exp 1) y Hx (Rmult_lt_0_compat _ _ Hy E) Hy).
  assert (E1 : y * exp 1 / y = exp 1) by (field; lra). unfold gkl in A at 2. rewrite E1, ln_exp in A. assert (L := exp_le_3). nra.
Qed.
Hypothesis HM : forall i j, (i < n)%nat -> (j < m)%nat -> 0 <= M i j.
Lemma J_kl_parts : forall G, posm G -> 0 <= cost n m M G /\ 0 <= reg * rsum n (fun i => rsum m (fun j => gkl (G i j) (c i j))) /\
  0 <= rsum n (fun i => gkl (row_sum m G i) (a i)) /\ 0 <= rsum m (fun j => gkl (col_sum n G j) (b j)).
Proof.
  intros G HG. split; [|split; [|split]].
  - apply rsum_nonneg; intros; apply rsum_nonneg; intros. apply Rmult_le_pos; auto. left; auto.
  - destruct (Rle_lt_or_eq_dec 0 reg Hreg) as [Hp|<-]; [|lra]. apply Rmult_le_pos; auto. apply rsum_nonneg; intros; apply rsum_nonneg; intros. apply gkl_nonneg; [left; auto|apply Hc; auto].
  - apply rsum_nonneg; intros. apply gkl_nonneg; auto. apply rsum_nonneg; intros; left; auto.
  - apply rsum_nonneg; intros. apply gkl_nonneg; auto. apply rsum_nonneg; intros; left; auto.
Qed.
Lemma J_kl_nonneg : forall G, posm G -> 0 <= J_kl G.
Proof.
  intros G HG. destruct (J_kl_parts G HG) as (A & B & C & D). unfold J_kl, uot_obj, penalty.
  assert (X1 := Rmult_le_pos _ _ Hr1 C). assert (X2 := Rmult_le_pos _ _ Hr2 D). lra.
Qed.
Lemma mass_bound : forall G, posm G -> r1 * (total n m G - 2 * rsum n a) <= J_kl G.
Proof.
  intros G HG. destruct (J_kl_parts G HG) as (A & B & C & D). unfold J_kl, uot_obj, penalty. assert (X2 := Rmult_le_pos _ _ Hr2 D).
  assert (E : total n m G - 2 * rsum n a <= rsum n (fun i => gkl (row_sum m G i) (a i))).
  { unfold total. rewrite <- rsum_scal, <- rsum_minus. apply rsum_le; intros i Hi. apply gkl_lin; auto. apply rsum_nonneg; intros; left; auto. }
  assert (X1 := Rmult_le_compat_l r1 _ _ Hr1 E). lra.
Qed.
Lemma entry_le_total : forall G i j, posm G -> (i < n)%nat -> (j < m)%nat -> G i j <= total n m G.
Proof.
  intros G i j HG Hi Hj. apply Rle_trans with (row_sum m G i).
  - apply (rsum_le_one m (fun j => G i j)); auto. intros; left; auto.
  - apply (rsum_le_one n (row_sum m G)); auto. intros; apply rsum_nonneg; intros; left; auto.
Qed.
Lemma mm_kl_move : forall G B, posm G -> total n m G <= B -> total n m (stepk G) <= B ->
  S * fro2 n m (fun i j => stepk G i j - G i j) <= 4 * B * (J_kl G - J_kl (stepk G)).
Proof.
  intros G B HG H1 H2. assert (HX : posm (stepk G)) by (intros i j _ _; apply mm_kl_pos).
  assert (PB : 0 <= B). { apply Rle_trans with (2 := H1). unfold total. apply rsum_nonneg; intros; apply rsum_nonneg; intros; left; auto. }
  assert (D := mm_kl_decrease G HG).
  assert (E : fro2 n m (fun i j => stepk G i j - G i j) <= 4 * B * dsum n m (fun i j => gkl (G i j) (stepk G i j))).
  { rewrite <- dsum_scal. unfold fro2, dsum. apply rsum_le; intros i Hi; apply rsum_le; intros j Hj. unfold gkl. apply err_kl1; auto.
    - eapply Rle_trans; [apply (entry_le_total G); auto|auto].
    - eapply Rle_trans; [apply (entry_le_total (stepk G)); auto|auto]. }
  apply Rle_trans with (4 * B * (S * dsum n m (fun i j => gkl (G i j) (stepk G i j)))).
  - replace (4 * B * (S * dsum n m (fun i j => gkl (G i j) (stepk G i j)))) with (S * (4 * B * dsum n m (fun i j => gkl (G i j) (stepk G i j)))) by ring.
    apply Rmult_le_compat_l; lra.
  - apply Rmult_le_compat_l; [lra|auto].
Qed.
End KLd.

(** ** squared l2 *)
Notation stepl := (mm_l2 (N:=RNum) n m a b M c reg r1 r2 0).
Definition J_l2 (G : mat) : R := cost n m M G + reg * (/ 2 * fro2 n m (fun i j => G i j - c i j))
  + r1 * (/ 2 * rsum n (fun i => (row_sum m G i - a i) * (row_sum m G i - a i)))
  + r2 * (/ 2 * rsum m (fun j => (col_sum n G j - b j) * (col_sum n G j - b j))).
Definition kraw (i j : nat) : R := r1 * a i + r2 * b j + reg * c i j - M i j.
Definition den (G : mat) (i j : nat) : R := r1 * row_sum m G i + r2 * col_sum n G j + reg * G i j.
Definition wfac (G : mat) (i j : nat) : R := Rmax (kraw i j) 0 / den G i j.
Lemma stepl_R : forall G i j, stepl G i j = wfac G i j * G i j.
Proof.
  intros. unfold mm_l2, mm_Kl2, mm_R, mm_C. rewrite nmax_R, !nsum_R. cbn [nadd nsub nmul ndiv RNum n0]. rewrite Rplus_0_r. unfold wfac, den, kraw, row_sum, col_sum. unfold Rdiv. match goal with |- @eq _ ?x ?y => change (@eq R x y) end. ring.
Qed.
Lemma weighted_CS : forall k (w x : vec), nonneg_vec k x -> (rsum k (fun j => w j * x j)) * (rsum k (fun j => w j * x j)) <= rsum k (fun j => w j * w j * x j) * rsum k x.
Proof.
  intros k w x Hx. assert (X0 := rsum_nonneg k x Hx).
  destruct (Req_dec (rsum k x) 0) as [Z|Z].
  - assert (A : forall j, (j < k)%nat -> x j = 0) by (apply rsum_nonneg_zero; auto).
    rewrite (rsum_0 k (fun j => w j * x j)) by (intros j Hj; rewrite A by auto; ring). rewrite Z. lra.
  - set (l := rsum k (fun j => w j * x j) / rsum k x).
    assert (A : 0 <= rsum k (fun j => x j * ((w j - l) * (w j - l)))) by (apply rsum_nonneg; intros j Hj; apply Rmult_le_pos; [auto|apply Rle_0_sqr]).
    assert (B : rsum k (fun j => x j * ((w j - l) * (w j - l))) = rsum k (fun j => w j * w j * x j) - 2 * l * rsum k (fun j => w j * x j) + l * l * rsum k x).
    { rewrite <- !rsum_scal, <- rsum_minus, <- rsum_plus. apply rsum_ext; intros; ring. }
    assert (C : l * rsum k x = rsum k (fun j => w j * x j)) by (unfold l; field; auto).
    set (s := rsum k (fun j => w j * x j)) in *. set (q := rsum k (fun j => w j * w j * x j)) in *. set (t := rsum k x) in *.
    assert (0 <= q - l * s) by nra. assert (l * s * t = s * s) by (rewrite <- C; ring). assert (0 < t) by lra. nra.
Qed.
Definition psi (G : mat) (i j : nat) (w : R) : R := G i j * (- kraw i j * w + / 2 * (den G i j * (w * w))).
Definition Jconst : R := reg * (/ 2 * fro2 n m c) + r1 * (/ 2 * rsum n (fun i => a i * a i)) + r2 * (/ 2 * rsum m (fun j => b j * b j)).
Lemma J_l2_expand : forall X, J_l2 X = dsum n m (fun i j => - kraw i j * X i j) + / 2 * (r1 * rsum n (fun i => row_sum m X i * row_sum m X i)
   + r2 * rsum m (fun j => col_sum n X j * col_sum n X j) + reg * fro2 n m X) + Jconst.
Proof.
  intros X. unfold J_l2, Jconst, kraw, cost, fro2.
  assert (E1 : rsum n (fun i => (row_sum m X i - a i) * (row_sum m X i - a i)) =
    rsum n (fun i => row_sum m X i * row_sum m X i) - 2 * dsum n m (fun i j => a i * X i j) + rsum n (fun i => a i * a i)).
  { rewrite dsum_row. rewrite <- rsum_scal, <- rsum_minus, <- rsum_plus. apply rsum_ext; intros; ring. }
  assert (E2 : rsum m (fun j => (col_sum n X j - b j) * (col_sum n X j - b j)) =
    rsum m (fun j => col_sum n X j * col_sum n X j) - 2 * dsum n m (fun i j => b j * X i j) + rsum m (fun j => b j * b j)).
  { rewrite dsum_col. rewrite <- rsum_scal, <- rsum_minus, <- rsum_plus. apply rsum_ext; intros; ring. }
  assert (E3 : dsum n m (fun i j => (X i j - c i j) * (X i j - c i j)) =
    dsum n m (fun i j => X i j * X i j) - 2 * dsum n m (fun i j => c i j * X i j) + dsum n m (fun i j => c i j * c i j)).
  { rewrite <- dsum_scal, <- dsum_minus, <- dsum_plus. apply dsum_ext; intros; ring. }
  assert (E4 : dsum n m (fun i j => - (r1 * a i + r2 * b j + reg * c i j - M i j) * X i j) =
    dsum n m (fun i j => M i j * X i j) - r1 * dsum n m (fun i j => a i * X i j) - r2 * dsum n m (fun i j => b j * X i j) - reg * dsum n m (fun i j => c i j * X i j)).
  { rewrite <- !dsum_scal, <- !dsum_minus. apply dsum_ext; intros; ring. }
  fold (dsum n m (fun i j => M i j * X i j)). fold (dsum n m (fun i j => (X i j - c i j) * (X i j - c i j))). fold (dsum n m (fun i j => X i j * X i j)). fold (dsum n m (fun i j => c i j * c i j)).
  rewrite E1, E2, E3, E4. field.
Qed.
Lemma psi_sum : forall G w, dsum n m (fun i j => psi G i j (w i j)) =
  dsum n m (fun i j => - kraw i j * (w i j * G i j)) + / 2 * (r1 * rsum n (fun i => rsum m (fun j => w i j * w i j * G i j) * row_sum m G i)
   + r2 * rsum m (fun j => rsum n (fun i => w i j * w i j * G i j) * col_sum n G j) + reg * fro2 n m (fun i j => w i j * G i j)).
Proof.
  intros G w.
  assert (E1 : rsum n (fun i => rsum m (fun j => w i j * w i j * G i j) * row_sum m G i) = dsum n m (fun i j => w i j * w i j * G i j * row_sum m G i)).
  { unfold dsum. apply rsum_ext; intros i Hi. rewrite <- rsum_scal_r. reflexivity. }
  assert (E2 : rsum m (fun j => rsum n (fun i => w i j * w i j * G i j) * col_sum n G j) = dsum n m (fun i j => w i j * w i j * G i j * col_sum n G j)).
  { unfold dsum. rewrite rsum_swap. apply rsum_ext; intros i Hi. rewrite <- rsum_scal_r. reflexivity. }
  rewrite E1, E2. unfold fro2. fold (dsum n m (fun i j => w i j * G i j * (w i j * G i j))).
  rewrite <- !dsum_scal, <- !dsum_plus, <- dsum_scal, <- dsum_plus. apply dsum_ext; intros i j Hi Hj. unfold psi, den. ring.
Qed.
Lemma J_l2_at : forall G, J_l2 G = dsum n m (fun i j => psi G i j 1) + Jconst.
Proof.
  intros G. rewrite J_l2_expand. rewrite (psi_sum G (fun _ _ => 1)). f_equal.
  f_equal; [apply dsum_ext; intros; ring|]. f_equal. f_equal; [f_equal|].
  - f_equal. apply rsum_ext; intros. f_equal. apply rsum_ext; intros; ring.
  - f_equal. apply rsum_ext; intros. f_equal. apply rsum_ext; intros; ring.
  - f_equal. unfold fro2. apply rsum_ext; intros; apply rsum_ext; intros; ring.
Qed.
Lemma J_l2_le : forall G w, nonneg_mat n m G -> J_l2 (fun i j => w i j * G i j) <= dsum n m (fun i j => psi G i j (w i j)) + Jconst.
Proof.
  intros G w HG. rewrite J_l2_expand, psi_sum.
  assert (A1 : rsum n (fun i => row_sum m (fun i j => w i j * G i j) i * row_sum m (fun i j => w i j * G i j) i) <= rsum n (fun i => rsum m (fun j => w i j * w i j * G i j) * row_sum m G i)).
  { apply rsum_le; intros i Hi. apply (weighted_CS m (w i) (G i)). intros j Hj; auto. }
  assert (A2 : rsum m (fun j => col_sum n (fun i j => w i j * G i j) j * col_sum n (fun i j => w i j * G i j) j) <= rsum m (fun j => rsum n (fun i => w i j * w i j * G i j) * col_sum n G j)).
  { apply rsum_le; intros j Hj. apply (weighted_CS n (fun i => w i j) (fun i => G i j)). intros i Hi; auto. }
  assert (B1 := Rmult_le_compat_l r1 _ _ Hr1 A1). assert (B2 := Rmult_le_compat_l r2 _ _ Hr2 A2). lra.
Qed.
Lemma den_ge : forall G i j, nonneg_mat n m G -> (i < n)%nat -> (j < m)%nat -> S * G i j <= den G i j.
Proof.
  intros G i j HG Hi Hj. unfold den.
  assert (A1 : G i j <= row_sum m G i) by (apply (rsum_le_one m (fun j => G i j)); auto).
  assert (A2 : G i j <= col_sum n G j) by (apply (rsum_le_one n (fun i => G i j)); auto).
  assert (B1 := Rmult_le_compat_l r1 _ _ Hr1 A1). assert (B2 := Rmult_le_compat_l r2 _ _ Hr2 A2). lra.
Qed.
Lemma psi_min : forall G i j, nonneg_mat n m G -> (i < n)%nat -> (j < m)%nat ->
  S / 2 * ((stepl G i j - G i j) * (stepl G i j - G i j)) <= psi G i j 1 - psi G i j (wfac G i j).
Proof.
  intros G i j HG Hi Hj. assert (Hg := HG i j Hi Hj). assert (Dg := den_ge G i j HG Hi Hj). rewrite stepl_R.
  destruct Hg as [Hg|Hg].
  2: { unfold psi. rewrite <- Hg. lra. }
  assert (Pd : 0 < den G i j) by nra.
  unfold psi. set (g := G i j) in *. set (d := den G i j) in *. set (k := kraw i j). unfold wfac. fold d k.
  set (w := Rmax k 0 / d). assert (Ew : w * d = Rmax k 0) by (unfold w; field; lra).
  assert (X : - k * 1 + / 2 * (d * (1 * 1)) - (- k * w + / 2 * (d * (w * w))) - / 2 * (d * ((1 - w) * (1 - w))) = (1 - w) * (w * d - k)) by field.
  assert (Y : 0 <= (1 - w) * (w * d - k)).
  { rewrite Ew. unfold Rmax. destruct (Rle_dec k 0) as [H|H].
    - assert (W0 : w = 0) by (unfold w, Rmax; destruct (Rle_dec k 0); [field; lra|lra]). rewrite W0. lra.
    - replace (k - k) with 0 by ring. lra. }
  assert (Z : S / 2 * ((w * g - g) * (w * g - g)) <= g * (/ 2 * (d * ((1 - w) * (1 - w))))).
  { replace (S / 2 * ((w * g - g) * (w * g - g))) with (/ 2 * g * ((S * g) * ((1 - w) * (1 - w)))) by field.
    replace (g * (/ 2 * (d * ((1 - w) * (1 - w))))) with (/ 2 * g * (d * ((1 - w) * (1 - w)))) by ring.
    apply Rmult_le_compat_l; [lra|]. apply Rmult_le_compat_r; [apply Rle_0_sqr|auto]. }
  apply Rle_trans with (1 := Z). rewrite <- Rmult_minus_distr_l. apply Rmult_le_compat_l; lra.
Qed.
Lemma J_l2_ext : forall X Y, (forall i j, X i j = Y i j) -> J_l2 X = J_l2 Y.
Proof.
  intros X Y H. unfold J_l2, cost, fro2.
  assert (HR : forall i, row_sum m X i = row_sum m Y i) by (intros; apply rsum_ext; auto).
  assert (HC : forall j, col_sum n X j = col_sum n Y j) by (intros; apply rsum_ext; auto).
  f_equal; [f_equal; [f_equal|]|].
  - apply rsum_ext; intros; apply rsum_ext; intros. rewrite H; auto.
  - do 2 f_equal. apply rsum_ext; intros; apply rsum_ext; intros. rewrite H; auto.
  - do 2 f_equal. apply rsum_ext; intros. rewrite HR; auto.
  - do 2 f_equal. apply rsum_ext; intros. rewrite HC; auto.
Qed.
Lemma mm_l2_decrease : forall G, nonneg_mat n m G -> S / 2 * fro2 n m (fun i j => stepl G i j - G i j) <= J_l2 G - J_l2 (stepl G).
Proof.
  intros G HG. rewrite (J_l2_at G).
  assert (E : J_l2 (stepl G) = J_l2 (fun i j => wfac G i j * G i j)).
  { apply J_l2_ext; intros; apply stepl_R. }
  rewrite E. assert (B := J_l2_le G (wfac G) HG).
  assert (D : S / 2 * fro2 n m (fun i j => stepl G i j - G i j) <= dsum n m (fun i j => psi G i j 1) - dsum n m (fun i j => psi G i j (wfac G i j))).
  { rewrite <- dsum_minus. unfold fro2. fold (dsum n m (fun i j => (stepl G i j - G i j) * (stepl G i j - G i j))). rewrite <- dsum_scal.
    apply dsum_le; intros i j Hi Hj. apply psi_min; auto. }
  lra.
Qed.
Lemma mm_l2_nonneg : forall G, nonneg_mat n m G -> nonneg_mat n m (stepl G).
Proof.
  intros G HG i j Hi Hj. rewrite stepl_R. apply Rmult_le_pos; auto. unfold wfac.
  assert (D := den_ge G i j HG Hi Hj). assert (0 <= den G i j) by (specialize (HG i j Hi Hj); nra).
  destruct H as [H|H]; [apply Rmult_le_pos; [apply Rmax_r|left; apply Rinv_0_lt_compat; auto]|]. rewrite <- H. unfold Rdiv. rewrite Rinv_0. lra.
Qed.
Lemma J_l2_nonneg : forall G, (forall i j, (i < n)%nat -> (j < m)%nat -> 0 <= M i j) -> nonneg_mat n m G -> 0 <= J_l2 G.
Proof.
  intros G HM HG. unfold J_l2.
  assert (A : 0 <= cost n m M G) by (apply rsum_nonneg; intros; apply rsum_nonneg; intros; apply Rmult_le_pos; auto).
  assert (B := fro2_nonneg n m (fun i j => G i j - c i j)).
  assert (C : 0 <= rsum n (fun i => (row_sum m G i - a i) * (row_sum m G i - a i))) by (apply rsum_nonneg; intros; apply Rle_0_sqr).
  assert (D : 0 <= rsum m (fun j => (col_sum n G j - b j) * (col_sum n G j - b j))) by (apply rsum_nonneg; intros; apply Rle_0_sqr).
  assert (0 <= reg * (/ 2 * fro2 n m (fun i j => G i j - c i j))) by (apply Rmult_le_pos; auto; lra).
  assert (0 <= r1 * (/ 2 * rsum n (fun i => (row_sum m G i - a i) * (row_sum m G i - a i)))) by (apply Rmult_le_pos; auto; lra).
  assert (0 <= r2 * (/ 2 * rsum m (fun j => (col_sum n G j - b j) * (col_sum n G j - b j)))) by (apply Rmult_le_pos; auto; lra).
  lra.
Qed.
End MM.

(** ** the loop: generic descent argument *)
Section Loop.
Variables (n m : nat) (step : mat -> mat) (J : mat -> R) (inv : mat -> Prop) (kappa thr : R).
Hypotheses (Hk : 0 < kappa) (Ht : 0 < thr).
Hypothesis Hinv : forall G, inv G -> inv (step G).
Hypothesis Hdec : forall G, inv G -> J (step G) <= J G.
Hypothesis Hmov : forall G, inv G -> kappa * fro2 n m (fun i j => step G i j - G i j) <= J G - J (step G).
Fixpoint gloop (left : nat) (G : mat) : mat * bool :=
  match left with
  | O => (G, false)
  | S left' => let G' := step G in if Rltb (frob n m (fun i j => G' i j - G i j)) thr then (G', true) else gloop left' G'
  end.
Lemma gloop_inv : forall left G, inv G -> inv (fst (gloop left G)) /\ J (fst (gloop left G)) <= J G.
Proof.
  induction left; intros G HG; cbn; [split; auto; lra|]. destruct (Rltb _ _); cbn; [split; auto|].
  destruct (IHleft (step G) (Hinv G HG)) as [A B]. split; auto. eapply Rle_trans; [apply B|auto].
Qed.
Lemma gloop_stops : forall left G, inv G -> snd (gloop left G) = false -> kappa * (thr * thr) * INR left <= J G - J (fst (gloop left G)).
Proof.
  induction left; intros G HG E; [cbn; lra|]. cbn [gloop] in *. rewrite S_INR. cbn zeta in *. destruct (Rltb (frob n m (fun i j => step G i j - G i j)) thr) eqn:L; [discriminate|].
  apply Rltb_false in L. specialize (IHleft (step G) (Hinv G HG) E). assert (A := Hmov G HG).
  assert (B : thr * thr <= fro2 n m (fun i j => step G i j - G i j)).
  { rewrite <- (sqrt_sqrt (fro2 n m (fun i j => step G i j - G i j))) by apply fro2_nonneg. unfold frob in L. nra. }
  assert (C := Rmult_le_compat_l kappa _ _ (Rlt_le _ _ Hk) B). lra.
Qed.
End Loop.
