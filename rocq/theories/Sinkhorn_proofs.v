(** Properties of the Sinkhorn iterations over the reals: exact marginals, lockstep of the two
    implementations, optimality, and a convergence bound by the telescoping of the dual. *)
From Coq Require Import List Arith Bool Reals Lra Lia.
From Verif Require Import Num Sums Spec Duals_proofs Entropy Sinkhorn_model.
Import ListNotations.
Local Open Scope R_scope.

Definition no_nan (x : R) : bool := false.
(** nx.norm: the euclidean norm *)
Definition norm2 (k : nat) (f : nat -> R) : R := sqrt (rsum k (fun j => f j * f j)).
Lemma norm2_ext : forall k f g, (forall j, (j < k)%nat -> f j = g j) -> norm2 k f = norm2 k g.
Proof. intros k f g H. unfold norm2. f_equal. apply rsum_ext; intros; rewrite H; auto. Qed.

Lemma any_false : forall k p, any k p = false <-> forall i, (i < k)%nat -> p i = false.
Proof.
  intros k p. induction k; cbn; [split; auto; intros; lia|]. rewrite orb_false_iff, IHk. split.
  - intros [A B] i Hi. destruct (Nat.eq_dec i k) as [->|]; auto. apply A; lia.
  - intros H. split; auto.
Qed.

Section K.
Variables (n m : nat) (a b : vec) (K : mat).
Hypotheses (Hn : (0 < n)%nat) (Hm : (0 < m)%nat) (Ha : pos_vec n a) (Hb : pos_vec m b)
  (HK : forall i j, (i < n)%nat -> (j < m)%nat -> 0 < K i j).

Notation pl u v := (scaled (N:=RNum) K u v).
Notation kv := (kp_v (N:=RNum) n b K).
Notation ku := (kp_u (N:=RNum) m a K).

Definition ktu (u : vec) (j : nat) : R := rsum n (fun i => K i j * u i).
Definition kv_sum (v : vec) (i : nat) : R := rsum m (fun j => K i j * v j).
Lemma KtU_R : forall u j, KtU (N:=RNum) n K u j = ktu u j.
Proof. intros; unfold KtU; apply nsum_R. Qed.
Lemma kv_R : forall u j, kv u j = b j / ktu u j.
Proof. intros; unfold kp_v; rewrite KtU_R; reflexivity. Qed.
Lemma ku_R : forall v i, (i < n)%nat -> 0 < kv_sum v i -> ku v i = a i / kv_sum v i.
Proof.
  intros v i Hi Hp. unfold kp_u. rewrite nsum_R.
  assert (E : rsum m (fun j => nmul (n:=RNum) (nmul (n:=RNum) (ndiv (n:=RNum) n1 (a i)) (K i j)) (v j)) = / a i * kv_sum v i).
  { unfold kv_sum. rewrite <- rsum_scal. apply rsum_ext; intros. cbn. unfold Rdiv. ring. }
  rewrite E. specialize (Ha i Hi). cbn. field. lra.
Qed.
Lemma ktu_pos : forall u j, pos_vec n u -> (j < m)%nat -> 0 < ktu u j.
Proof. intros u j Hu Hj. apply rsum_pos; auto. intros i Hi. apply Rmult_lt_0_compat; auto. Qed.
Lemma kvs_pos : forall v i, pos_vec m v -> (i < n)%nat -> 0 < kv_sum v i.
Proof. intros v i Hv Hi. apply rsum_pos; auto. intros j Hj. apply Rmult_lt_0_compat; auto. Qed.
Lemma kv_pos : forall u, pos_vec n u -> pos_vec m (kv u).
Proof. intros u Hu j Hj. rewrite kv_R. apply Rdiv_lt_0_compat; auto. apply ktu_pos; auto. Qed.
Lemma ku_pos : forall v, pos_vec m v -> pos_vec n (ku v).
Proof. intros v Hv i Hi. assert (T := kvs_pos v i Hv Hi). rewrite ku_R by auto. apply Rdiv_lt_0_compat; auto. Qed.

Lemma pl_row : forall u v i, row_sum m (pl u v) i = u i * kv_sum v i.
Proof. intros. unfold row_sum, kv_sum. rewrite <- rsum_scal. apply rsum_ext; intros. unfold scaled; cbn. ring. Qed.
Lemma pl_col : forall u v j, col_sum n (pl u v) j = ktu u j * v j.
Proof. intros. unfold col_sum, ktu. rewrite <- rsum_scal_r. apply rsum_ext; intros. unfold scaled; cbn. ring. Qed.
Lemma ku_row : forall v i, pos_vec m v -> (i < n)%nat -> row_sum m (pl (ku v) v) i = a i.
Proof. intros v i Hv Hi. assert (T := kvs_pos v i Hv Hi). rewrite pl_row, ku_R by auto. field. lra. Qed.
Lemma kv_col : forall u j, pos_vec n u -> (j < m)%nat -> col_sum n (pl u (kv u)) j = b j.
Proof. intros u j Hu Hj. assert (T := ktu_pos u j Hu Hj). rewrite pl_col, kv_R. field. lra. Qed.
Lemma pl_pos : forall u v, pos_vec n u -> pos_vec m v -> forall i j, (i < n)%nat -> (j < m)%nat -> 0 < pl u v i j.
Proof. intros u v Hu Hv i j Hi Hj. unfold scaled. cbn. repeat apply Rmult_lt_0_compat; auto. Qed.
Lemma bad_false : forall u u' v', pos_vec n u -> kp_bad (N:=RNum) n m no_nan K u u' v' = false.
Proof.
  intros u u' v' Hu. unfold kp_bad. rewrite !orb_false_iff. repeat split; try (apply any_false; reflexivity).
  apply any_false. intros j Hj. rewrite KtU_R. apply Reqb_false. apply Rgt_not_eq. apply ktu_pos; auto.
Qed.

(** ** what a run ends with *)
Lemma kp_loop_post : forall norm thr left ii u v errs, pos_vec n u -> pos_vec m v ->
  let o := kp_loop (N:=RNum) n m a b norm no_nan thr K left ii u v errs in
  pos_vec n (sk_u o) /\ pos_vec m (sk_v o) /\ (forall k, sk_exit o <> NumErr k) /\
  ((0 < left)%nat -> sk_u o = ku (sk_v o)).
Proof.
  intros norm thr. induction left; intros ii u v errs Hu Hv; cbn [kp_loop].
  { cbn. repeat split; auto; try discriminate; intros; lia. }
  assert (Hv' := kv_pos u Hu). assert (Hu' := ku_pos _ Hv').
  rewrite bad_false by auto.
  destruct (Nat.eqb (ii mod 10) 0); [destruct (nltb _ thr)|].
  - cbn. repeat split; auto; discriminate.
  - destruct (IHleft (S ii) (ku (kv u)) (kv u) (errs ++ [kp_err (N:=RNum) n m b norm K (ku (kv u)) (kv u)]) Hu' Hv') as (A & B & C & D).
    repeat split; auto. intros _. destruct left; [reflexivity|apply D; lia].
  - destruct (IHleft (S ii) (ku (kv u)) (kv u) errs Hu' Hv') as (A & B & C & D).
    repeat split; auto. intros _. destruct left; [reflexivity|apply D; lia].
Qed.

(** ** convergence *)
Section Conv.
Hypothesis (Hmass : mass n a = mass m b).
Let A := mass n a.
Lemma A_pos : 0 < A.
Proof. apply rsum_pos; auto. Qed.
Definition prodm (i j : nat) : R := a i * b j / A.
Lemma prodm_pos : forall i j, (i < n)%nat -> (j < m)%nat -> 0 < prodm i j.
Proof. intros i j Hi Hj. assert (T := A_pos). unfold prodm. apply Rdiv_lt_0_compat; auto. apply Rmult_lt_0_compat; auto. Qed.
Lemma prodm_row : forall i, row_sum m prodm i = a i.
Proof.
  intros i. assert (T := A_pos). unfold row_sum, prodm. rewrite (rsum_ext m _ (fun j => a i / A * b j)) by (intros; field; lra).
  rewrite rsum_scal. fold (mass m b). rewrite <- Hmass. fold A. field. lra.
Qed.
Lemma prodm_col : forall j, col_sum n prodm j = b j.
Proof.
  intros j. assert (T := A_pos). unfold col_sum, prodm. rewrite (rsum_ext n _ (fun i => b j / A * a i)) by (intros; field; lra).
  rewrite rsum_scal. fold (mass n a). fold A. field. lra.
Qed.
(** distance of the dual value to the value of the product coupling *)
Definition gap (u v : vec) : R := dsum n m (fun i j => prodm i j * (ln (prodm i j) - ln (K i j) - ln (u i) - ln (v j))).

Lemma gap_nonneg : forall u v, pos_vec n u -> pos_vec m v -> total n m (pl u v) = A -> 0 <= gap u v.
Proof.
  intros u v Hu Hv HT. assert (B : dsum n m (fun i j => prodm i j - pl u v i j) <= gap u v).
  { apply dsum_le. intros i j Hi Hj. assert (P := prodm_pos i j Hi Hj). assert (Q := pl_pos u v Hu Hv i j Hi Hj).
    assert (L := xlnx_div_ge (prodm i j) (pl u v i j) (Rlt_le _ _ P) Q). rewrite ln_div in L by auto.
    replace (ln (pl u v i j)) with (ln (u i) + ln (K i j) + ln (v j)) in L.
    - eapply Rle_trans; [exact L|]. right. ring.
    - unfold scaled. cbn. rewrite !ln_mult; auto. apply Rmult_lt_0_compat; auto. }
  rewrite dsum_minus in B. rewrite (dsum_total n m (pl u v)), HT in B.
  replace (dsum n m prodm) with A in B; [lra|]. unfold A, mass, dsum. apply rsum_ext; intros; symmetry; apply prodm_row.
Qed.

(** F(u', v') - F(u, v) *)
Lemma gap_diff : forall u v u' v',
  gap u v - gap u' v' = rsum n (fun i => a i * (ln (u' i) - ln (u i))) + rsum m (fun j => b j * (ln (v' j) - ln (v j))).
Proof.
  intros u v u' v'. unfold gap. rewrite <- dsum_minus.
  rewrite (dsum_ext n m _ (fun i j => (ln (u' i) - ln (u i)) * prodm i j + (ln (v' j) - ln (v j)) * prodm i j)) by (intros; ring).
  rewrite dsum_plus, dsum_row, dsum_col. f_equal; apply rsum_ext; intros; rewrite ?prodm_row, ?prodm_col; ring.
Qed.

Lemma kl_rescale : forall k x y, pos_vec k x -> pos_vec k y -> rsum k x = rsum k y -> rsum k (fun i => x i * (ln (x i) - ln (y i))) = kl k x y.
Proof.
  intros k x y Hx Hy E. unfold kl. rewrite rsum_plus, rsum_minus.
  replace (rsum k (fun i => x i)) with (rsum k x) by reflexivity. replace (rsum k (fun i => y i)) with (rsum k y) by reflexivity. rewrite E.
  rewrite (rsum_ext k (fun i => x i * (ln (x i) - ln (y i))) (fun i => x i * ln (x i / y i))); [lra|].
  intros i Hi. rewrite ln_div; auto.
Qed.

Definition colm (u v : vec) (j : nat) : R := col_sum n (pl u v) j.
Lemma colm_pos : forall u v, pos_vec n u -> pos_vec m v -> pos_vec m (colm u v).
Proof. intros u v Hu Hv j Hj. apply rsum_pos; auto. intros; apply pl_pos; auto. Qed.
Lemma tot_rows : forall u v, (forall i, (i < n)%nat -> row_sum m (pl u v) i = a i) -> total n m (pl u v) = A.
Proof. intros u v H. apply rsum_ext; auto. Qed.
Lemma tot_cols : forall u v, total n m (pl u v) = rsum m (colm u v).
Proof. intros u v. unfold total. rewrite rsum_swap. reflexivity. Qed.

(** one iteration from a state with exact rows lowers the gap by at least kl(b | columns) *)
Lemma gap_step : forall u v, pos_vec n u -> pos_vec m v -> (forall i, (i < n)%nat -> row_sum m (pl u v) i = a i) ->
  kl m b (colm u v) <= gap u v - gap (ku (kv u)) (kv u).
Proof.
  intros u v Hu Hv HR. assert (Hv' := kv_pos u Hu). assert (Hu' := ku_pos _ Hv').
  rewrite gap_diff.
  assert (E1 : rsum m (fun j => b j * (ln (kv u j) - ln (v j))) = kl m b (colm u v)).
  { rewrite <- kl_rescale; auto using colm_pos.
    - apply rsum_ext; intros j Hj. assert (T := ktu_pos u j Hu Hj). unfold colm. rewrite pl_col, kv_R, ln_div, ln_mult by auto. ring.
    - rewrite <- tot_cols, tot_rows by auto. symmetry; exact Hmass. }
  assert (E2 : rsum n (fun i => a i * (ln (ku (kv u) i) - ln (u i))) = kl n a (fun i => row_sum m (pl u (kv u)) i)).
  { rewrite <- kl_rescale; auto.
    - apply rsum_ext; intros i Hi. assert (T := kvs_pos (kv u) i Hv' Hi). rewrite pl_row, ku_R, ln_div, ln_mult by auto. ring.
    - intros i Hi. apply rsum_pos; auto. intros; apply pl_pos; auto.
    - transitivity (total n m (pl u (kv u))); [|reflexivity]. rewrite tot_cols. transitivity (rsum m b); [exact Hmass|].
      apply rsum_ext; intros j Hj. symmetry. apply kv_col; auto. }
  rewrite E1, E2. assert (0 <= kl n a (fun i => row_sum m (pl u (kv u)) i)); [|lra].
  apply kl_nonneg; [intros i Hi; left; auto|]. intros i Hi. apply rsum_pos; auto. intros; apply pl_pos; auto.
Qed.

(** Hellinger: the euclidean error is controlled by the divergence *)
Lemma hellinger1 : forall x y, 0 < x -> 0 < y -> (sqrt x - sqrt y) * (sqrt x - sqrt y) <= x * ln (x / y) - x + y.
Proof.
  intros x y Hx Hy. assert (Sx := sqrt_lt_R0 x Hx). assert (Sy := sqrt_lt_R0 y Hy).
  assert (Ex := sqrt_sqrt x (Rlt_le _ _ Hx)). assert (Ey := sqrt_sqrt y (Rlt_le _ _ Hy)).
  set (p := sqrt x) in *. set (q := sqrt y) in *. rewrite <- Ex, <- Ey.
  assert (L := ln_le_sub1 (q / p) ltac:(apply Rdiv_lt_0_compat; auto)).
  assert (E : ln (p * p / (q * q)) = - 2 * ln (q / p)).
  { rewrite !ln_div, !ln_mult; auto; try (apply Rmult_lt_0_compat; auto). ring. }
  rewrite E. apply (Rmult_le_compat_l (2 * (p * p))) in L; [|apply Rmult_le_pos; [lra|apply Rle_0_sqr]].
  replace (2 * (p * p) * (q / p - 1)) with (2 * p * q - 2 * (p * p)) in L by (field; lra). lra.
Qed.
Lemma err_kl1 : forall x y B, 0 < x -> 0 < y -> x <= B -> y <= B -> (y - x) * (y - x) <= 4 * B * (x * ln (x / y) - x + y).
Proof.
  intros x y B Hx Hy Bx By. assert (H := hellinger1 x y Hx Hy).
  assert (Sx := sqrt_lt_R0 x Hx). assert (Sy := sqrt_lt_R0 y Hy).
  assert (Ex := sqrt_sqrt x (Rlt_le _ _ Hx)). assert (Ey := sqrt_sqrt y (Rlt_le _ _ Hy)).
  set (p := sqrt x) in *. set (q := sqrt y) in *. 
  apply (Rmult_le_compat_l (4 * B)) in H; [|lra]. eapply Rle_trans; [|exact H].
  rewrite <- Ex, <- Ey. replace ((q * q - p * p) * (q * q - p * p)) with ((p + q) * (p + q) * ((p - q) * (p - q))) by ring.
  apply Rmult_le_compat_r; [apply Rle_0_sqr|]. assert (0 <= (p - q) * (p - q)) by apply Rle_0_sqr. nra.
Qed.
Lemma err_kl : forall k x y B, pos_vec k x -> pos_vec k y -> rsum k x <= B -> rsum k y <= B ->
  rsum k (fun j => (y j - x j) * (y j - x j)) <= 4 * B * kl k x y.
Proof.
  intros k x y B Hx Hy Bx By. unfold kl. rewrite <- rsum_scal. apply rsum_le; intros j Hj.
  apply err_kl1; auto; eapply Rle_trans; [|exact Bx| |exact By]; apply rsum_le_one; auto; intros; left; auto.
Qed.
Lemma err_kl_plan : forall u v thr, pos_vec n u -> pos_vec m v -> (forall i, (i < n)%nat -> row_sum m (pl u v) i = a i) ->
  0 <= thr -> thr <= kp_err (N:=RNum) n m b norm2 K u v -> thr * thr / (4 * A) <= kl m b (colm u v).
Proof.
  intros u v thr Hu Hv HR Ht He.
  assert (T := A_pos).
  assert (E := err_kl m b (colm u v) A Hb (colm_pos u v Hu Hv) ltac:(rewrite <- (tot_rows u v HR), tot_cols, <- (tot_cols u v), (tot_rows u v HR); right; symmetry; exact Hmass)
     ltac:(rewrite <- tot_cols, tot_rows; auto; lra)).
  assert (S : kp_err (N:=RNum) n m b norm2 K u v = sqrt (rsum m (fun j => (colm u v j - b j) * (colm u v j - b j)))).
  { unfold kp_err. unfold norm2. f_equal. apply rsum_ext; intros j Hj. rewrite nsum_R. reflexivity. }
  rewrite S in He. set (q := rsum m (fun j => (colm u v j - b j) * (colm u v j - b j))) in *.
  assert (0 <= q) by (apply rsum_nonneg; intros; apply Rle_0_sqr).
  assert (thr * thr <= q). { rewrite <- (sqrt_sqrt q) by auto. apply Rmult_le_compat; auto. }
  apply (Rmult_le_reg_l (4 * A)); [lra|]. replace (4 * A * (thr * thr / (4 * A))) with (thr * thr) by (field; lra). lra.
Qed.

(** number of error checks among iterations ii .. ii+left-1 *)
Fixpoint checks (left ii : nat) : nat :=
  match left with O => 0 | S l => ((if Nat.eqb (ii mod 10) 0 then 1 else 0) + checks l (S ii))%nat end.
Lemma checks_ge : forall left ii q r, (ii + r = 10 * q)%nat -> (r <= 9)%nat -> (left <= 10 * checks left ii + r)%nat.
Proof.
  induction left; intros ii q r E Hr; cbn [checks]; [lia|].
  destruct (Nat.eqb_spec (ii mod 10) 0) as [H|H].
  - apply Nat.mod_divides in H; [|lia]. destruct H as [c H]. specialize (IHleft (S ii) (S c) 9%nat ltac:(lia) ltac:(lia)). lia.
  - destruct r as [|r]; [exfalso; apply H; replace ii with (q * 10)%nat by lia; apply Nat.mod_mul; lia|].
    specialize (IHleft (S ii) q r ltac:(lia) ltac:(lia)). lia.
Qed.
Lemma checks_0 : forall left, INR left <= 10 * INR (checks left 0).
Proof.
  intros left. assert (H := checks_ge left 0 0 0 ltac:(lia) ltac:(lia)).
  replace 10 with (INR 10) by (cbn; ring). rewrite <- mult_INR. apply le_INR. lia.
Qed.

(** a run that exhausts its budget had a large gap after its first iteration *)
Lemma kp_maxiter_gap : forall thr left ii u v errs, 0 <= thr -> pos_vec n u -> (0 < left)%nat ->
  sk_exit (kp_loop (N:=RNum) n m a b norm2 no_nan thr K left ii u v errs) = MaxIter ->
  INR (checks left ii) * (thr * thr / (4 * A)) <= gap (ku (kv u)) (kv u).
Proof.
  intros thr. induction left; intros ii u v errs Ht Hu Hl; [lia|]. cbn [kp_loop checks].
  rewrite bad_false by auto.
  assert (Hv' := kv_pos u Hu). assert (Hu' := ku_pos _ Hv').
  set (u' := ku (kv u)) in *. set (v' := kv u) in *.
  assert (R' : forall i, (i < n)%nat -> row_sum m (pl u' v') i = a i) by (intros; apply ku_row; auto).
  assert (Hv'' := kv_pos u' Hu'). assert (Hu'' := ku_pos _ Hv'').
  assert (R'' : forall i, (i < n)%nat -> row_sum m (pl (ku (kv u')) (kv u')) i = a i) by (intros; apply ku_row; auto).
  assert (G1 := gap_step u' v' Hu' Hv' R').
  assert (G2 : 0 <= gap (ku (kv u')) (kv u')) by (apply gap_nonneg; auto; apply tot_rows; auto).
  assert (G3 : 0 <= kl m b (colm u' v')) by (apply kl_nonneg; [intros j Hj; left; auto|apply colm_pos; auto]).
  destruct (Nat.eqb (ii mod 10) 0).
  - change (nltb (n:=RNum)) with Rltb. destruct (Rltb _ thr) eqn:E; [discriminate|]. apply Rltb_false in E.
    assert (G4 := err_kl_plan u' v' thr Hu' Hv' R' Ht E). intros HX.
    rewrite plus_INR, Rmult_plus_distr_r. change (INR 1) with 1. rewrite Rmult_1_l.
    destruct left as [|l]; [cbn [checks]; change (INR 0) with 0; lra|].
    specialize (IHleft _ _ _ _ Ht Hu' ltac:(lia) HX). lra.
  - intros HX. cbn [Nat.add]. destruct left as [|l]; [cbn [checks]; change (INR 0) with 0; lra|].
    specialize (IHleft _ _ _ _ Ht Hu' ltac:(lia) HX). lra.
Qed.

(** the gap after one iteration from anywhere *)
Lemma gap_first : forall k kk u, 0 < k -> (forall i j, (i < n)%nat -> (j < m)%nat -> k <= K i j <= kk) -> pos_vec n u ->
  gap (ku (kv u)) (kv u) <= 2 * A * ln (kk / k).
Proof.
  intros k kk u Hk HB Hu. assert (T := A_pos). assert (Hv' := kv_pos u Hu).
  assert (k <= kk) by (specialize (HB 0%nat 0%nat Hn Hm); lra).
  set (U := rsum n u). assert (HU : 0 < U) by (apply rsum_pos; auto).
  assert (V1 : forall j, (j < m)%nat -> k * U <= ktu u j <= kk * U).
  { intros j Hj. unfold U, ktu. rewrite <- !rsum_scal. split; apply rsum_le; intros i Hi; apply Rmult_le_compat_r; try (left; apply Hu; auto); apply HB; auto. }
  assert (V2 : forall j, (j < m)%nat -> kv u j <= b j / (k * U)).
  { intros j Hj. rewrite kv_R. unfold Rdiv. apply Rmult_le_compat_l; [left; auto|]. apply Rinv_le_contravar; [apply Rmult_lt_0_compat; auto|apply V1; auto]. }
  assert (V3 : forall j, (j < m)%nat -> b j / (kk * U) <= kv u j).
  { intros j Hj. rewrite kv_R. unfold Rdiv. apply Rmult_le_compat_l; [left; auto|]. apply Rinv_le_contravar; [apply ktu_pos; auto|apply V1; auto]. }
  assert (U1 : forall i, (i < n)%nat -> kv_sum (kv u) i <= kk * A / (k * U)).
  { intros i Hi. unfold kv_sum. eapply Rle_trans; [apply (rsum_le m _ (fun j => kk / (k * U) * b j))|].
    - intros j Hj. replace (kk / (k * U) * b j) with (kk * (b j / (k * U))) by (field; lra).
      apply Rmult_le_compat; [left; auto|left; apply Hv'; auto|apply HB; auto|apply V2; auto].
    - rewrite rsum_scal. fold (mass m b). rewrite <- Hmass. fold A. right. field. lra. }
  assert (U2 : forall i, (i < n)%nat -> a i * (k * U) / (kk * A) <= ku (kv u) i).
  { intros i Hi. assert (Q := kvs_pos (kv u) i Hv' Hi). rewrite ku_R by auto.
    replace (a i * (k * U) / (kk * A)) with (a i * / (kk * A / (k * U))) by (field; repeat split; lra).
    unfold Rdiv at 2. apply Rmult_le_compat_l; [left; auto|]. apply Rinv_le_contravar; auto. }
  assert (HL : forall i j, (i < n)%nat -> (j < m)%nat ->
     ln (prodm i j) - ln (K i j) - ln (ku (kv u) i) - ln (kv u j) <= 2 * ln (kk / k)).
  { intros i j Hi Hj. assert (P := prodm_pos i j Hi Hj). assert (PA := Ha i Hi). assert (PB := Hb j Hj).
    assert (W1 : ln k <= ln (K i j)) by (apply ln_mono; auto; apply HB; auto).
    assert (W2 : ln (a i * (k * U) / (kk * A)) <= ln (ku (kv u) i)).
    { apply ln_mono; auto. apply Rdiv_lt_0_compat; repeat apply Rmult_lt_0_compat; lra. }
    assert (W3 : ln (b j / (kk * U)) <= ln (kv u j)).
    { apply ln_mono; auto. apply Rdiv_lt_0_compat; repeat apply Rmult_lt_0_compat; lra. }
    rewrite ln_div, !ln_mult in W2 by (repeat apply Rmult_lt_0_compat; lra).
    rewrite ln_div, !ln_mult in W3 by (repeat apply Rmult_lt_0_compat; lra).
    unfold prodm. rewrite !ln_div, ln_mult by (repeat apply Rmult_lt_0_compat; lra). lra. }
  unfold gap. eapply Rle_trans; [apply (dsum_le n m _ (fun i j => 2 * ln (kk / k) * prodm i j))|].
  - intros i j Hi Hj. rewrite (Rmult_comm (2 * _)). apply Rmult_le_compat_l; [left; apply prodm_pos; auto|auto].
  - rewrite dsum_scal. right. replace (dsum n m prodm) with A; [ring|]. unfold A, mass, dsum. apply rsum_ext; intros; symmetry; apply prodm_row.
Qed.

Lemma kp_converges : forall thr k kk it u v, 0 < thr -> 0 < k -> (forall i j, (i < n)%nat -> (j < m)%nat -> k <= K i j <= kk) ->
  pos_vec n u -> pos_vec m v -> 80 * (A * A) * ln (kk / k) < INR it * (thr * thr) ->
  exists ii, sk_exit (kp_loop (N:=RNum) n m a b norm2 no_nan thr K it 0 u v []) = Converged ii.
Proof.
  intros thr k kk it u v Ht Hk HB Hu Hv Hit. assert (T := A_pos).
  assert (0 <= ln (kk / k)).
  { apply ln_ge0. apply (Rmult_le_reg_r k); auto. replace (kk / k * k) with kk by (field; lra). specialize (HB 0%nat 0%nat Hn Hm). lra. }
  assert (Hl : (0 < it)%nat).
  { destruct it; [|lia]. exfalso. change (INR 0) with 0 in Hit. assert (0 <= 80 * (A * A) * ln (kk / k)) by (repeat apply Rmult_le_pos; lra). lra. }
  destruct (kp_loop_post norm2 thr it 0 u v [] Hu Hv) as (_ & _ & X & _).
  destruct (sk_exit _) as [ii|ii|] eqn:E; [eauto|exfalso; apply (X ii); reflexivity|].
  assert (G := kp_maxiter_gap thr it 0 u v [] (Rlt_le _ _ Ht) Hu Hl E).
  assert (F := gap_first k kk u Hk HB Hu). assert (C := checks_0 it). exfalso.
  assert (G' : INR (checks it 0) * (thr * thr / (4 * A)) <= 2 * A * ln (kk / k)) by lra.
  apply (Rmult_le_compat_l (40 * A)) in G'; [|lra].
  replace (40 * A * (INR (checks it 0) * (thr * thr / (4 * A)))) with (10 * INR (checks it 0) * (thr * thr)) in G' by (field; lra).
  assert (INR it * (thr * thr) <= 10 * INR (checks it 0) * (thr * thr)) by (apply Rmult_le_compat_r; auto; apply Rle_0_sqr).
  lra.
Qed.
End Conv.

(** ** the log-domain loop in lockstep *)
Section Log.
Variables (Mr : mat) (norm : nat -> (nat -> R) -> R) (thr : R).
Hypotheses (HMr : forall i j, K i j = exp (Mr i j))
  (Hnorm : forall k f g, (forall j, (j < k)%nat -> f j = g j) -> norm k f = norm k g).
Notation lv := (lg_v (N:=RNum) n b exp ln Mr).
Notation lu := (lg_u (N:=RNum) m a exp ln Mr).
Notation lp := (lg_plan (N:=RNum) exp Mr).

(** kernel scalings equal the exponentials up to a common factor *)
Definition scal (c : R) (u ul : vec) (k : nat) := forall i, (i < k)%nat -> u i = c * exp (ul i).
Lemma lv_step : forall c u ul, 0 < c -> scal c u ul n -> scal (/ c) (kv u) (lv ul) m.
Proof.
  intros c u ul Hc H j Hj. rewrite kv_R. unfold lg_v, logsumexp. rewrite nsum_R.
  assert (P : 0 < rsum n (fun i => exp (Mr i j + ul i))) by (apply rsum_pos; auto; intros; apply exp_pos).
  assert (E : ktu u j = c * rsum n (fun i => exp (Mr i j + ul i))).
  { unfold ktu. rewrite <- rsum_scal. apply rsum_ext; intros i Hi. rewrite H, HMr, exp_plus by auto. ring. }
  rewrite E. change (nsub (n:=RNum)) with Rminus. unfold Rminus. rewrite exp_plus, exp_Ropp, !exp_ln; auto. unfold Rdiv. rewrite Rinv_mult. cbn. ring.
Qed.
Lemma lu_step : forall c v vl, 0 < c -> scal c v vl m -> scal (/ c) (ku v) (lu vl) n.
Proof.
  intros c v vl Hc H i Hi.
  assert (P : 0 < rsum m (fun j => exp (Mr i j + vl j))) by (apply rsum_pos; auto; intros; apply exp_pos).
  assert (E : kv_sum v i = c * rsum m (fun j => exp (Mr i j + vl j))).
  { unfold kv_sum. rewrite <- rsum_scal. apply rsum_ext; intros j Hj. rewrite H, HMr, exp_plus by auto. ring. }
  rewrite ku_R; auto; [|rewrite E; apply Rmult_lt_0_compat; auto].
  unfold lg_u, logsumexp. rewrite nsum_R.
  rewrite E. change (nsub (n:=RNum)) with Rminus. unfold Rminus. rewrite exp_plus, exp_Ropp, !exp_ln; auto. unfold Rdiv. rewrite Rinv_mult. cbn. ring.
Qed.
Lemma scal_plan : forall c u v ul vl, 0 < c -> scal c u ul n -> scal (/ c) v vl m ->
  forall i j, (i < n)%nat -> (j < m)%nat -> pl u v i j = lp ul vl i j.
Proof.
  intros c u v ul vl Hc Hu Hv i j Hi Hj. unfold scaled, lg_plan. rewrite Hu, Hv, HMr by auto.
  change (nadd (n:=RNum)) with Rplus. rewrite !exp_plus. cbn. field. lra.
Qed.
Lemma lockstep : forall left ii c u v ul vl errs, 0 < c -> scal c u ul n ->
  ((left = 0)%nat -> forall i j, (i < n)%nat -> (j < m)%nat -> pl u v i j = lp ul vl i j) ->
  let o := kp_loop (N:=RNum) n m a b norm no_nan thr K left ii u v errs in
  let l := lg_loop (N:=RNum) n m a b norm thr exp ln Mr left ii ul vl errs in
  sk_exit o = sk_exit l /\ sk_err o = sk_err l /\
  forall i j, (i < n)%nat -> (j < m)%nat -> pl (sk_u o) (sk_v o) i j = lp (sk_u l) (sk_v l) i j.
Proof.
  induction left; intros ii c u v ul vl errs Hc Hs H0; cbn [kp_loop lg_loop]; [split; [|split]; auto|].
  assert (Hu : pos_vec n u) by (intros i Hi; rewrite Hs by auto; apply Rmult_lt_0_compat; auto; apply exp_pos).
  rewrite bad_false by auto.
  assert (Hc' : 0 < / c) by (apply Rinv_0_lt_compat; auto).
  assert (S1 := lv_step c u ul Hc Hs). assert (S2 := lu_step (/ c) (kv u) (lv ul) Hc' S1). rewrite Rinv_inv in S2.
  assert (S3 := scal_plan c _ _ _ _ Hc S2 S1).
  assert (E : kp_err (N:=RNum) n m b norm K (ku (kv u)) (kv u) = lg_err (N:=RNum) n m b norm exp Mr (lu (lv ul)) (lv ul)).
  { unfold kp_err, lg_err. apply Hnorm. intros j Hj. rewrite !nsum_R. f_equal. apply rsum_ext; intros i Hi. apply S3; auto. }
  rewrite E. destruct (Nat.eqb (ii mod 10) 0); [destruct (nltb (n:=RNum) _ thr)|].
  - split; [|split]; auto.
  - apply (IHleft (S ii) c); auto.
  - apply (IHleft (S ii) c); auto.
Qed.
End Log.
End K.
