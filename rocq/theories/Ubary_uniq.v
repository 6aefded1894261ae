(** Unbalanced barycenters over R: a zero gap makes the minimiser unique. *)
From Coq Require Import Reals Lra Lia.
From Verif Require Import Sums Spec Entropy Monge Wp Unb_proofs Uot1d_uot Ubary_proofs.
Local Open Scope R_scope.

Lemma young_eq : forall r x y f, 0 < r -> 0 <= x -> 0 < y -> r * gkl x y <= r * y * (1 - exp (- f / r)) - f * x -> x = y * exp (- f / r).
Proof.
  intros r x y f Hr Hx Hy L. destruct (Req_dec x (y * exp (- f / r))) as [E|E]; auto. exfalso.
  assert (Hp : 0 < y * exp (- f / r)) by (apply Rmult_lt_0_compat; [auto|apply exp_pos]).
  pose proof (gkl_tan_lt x (y * exp (- f / r)) y Hx Hp Hy E) as T. unfold gkl in *.
  replace (y * exp (- f / r) / y) with (exp (- f / r)) in T by (field; lra). rewrite ln_exp in T.
  apply (Rmult_lt_compat_l r) in T; [|lra].
  replace (r * (- f / r * (x - y * exp (- f / r)))) with (- f * (x - y * exp (- f / r))) in T by (field; lra).
  replace (r * (x * ln (x / y) - x + y - (y * exp (- f / r) * (- f / r) - y * exp (- f / r) + y)))
    with (r * (x * ln (x / y) - x + y) + f * (y * exp (- f / r)) + r * (y * exp (- f / r)) - r * y) in T by (field; lra).
  lra.
Qed.
(** termwise: f <= g and sum g <= sum f make them equal *)
Lemma rsum_tight : forall k f g, (forall i, (i < k)%nat -> f i <= g i) -> rsum k g <= rsum k f -> forall i, (i < k)%nat -> g i <= f i.
Proof.
  intros k f g Hle Hs i Hi. destruct (Rle_dec (g i) (f i)) as [|Hc]; auto. exfalso.
  assert (rsum k f < rsum k g) by (apply rsum_lt; auto; exists i; split; auto; lra). lra.
Qed.

Section Uniq.
Variables (n H : nat) (A M : mat) (w : vec) (reg rm : R).
Hypotheses (Hn : (0 < n)%nat) (Hreg : 0 < reg) (Hrm : 0 < rm) (HA : ub_data n H A) (Hw : ub_simplex H w).
Let K (i j : nat) : R := exp (- M i j / reg).
Let rho := reg / rm.

Lemma weak_one_eq : forall h (u v : mat) (q' : vec) P, (h < H)%nat -> supp n H A u -> posm n H v -> nonneg_vec n q' ->
  nonneg_mat n n P -> (forall i j, (i < n)%nat -> (j < n)%nat -> A i h = 0 -> P i j = 0) ->
  (forall i j, (i < n)%nat -> (j < n)%nat -> q' j = 0 -> P i j = 0) ->
  uot_obj n n (fun i => A i h) q' M (fun _ _ => 1) reg (Some rm) (Some rm) P
    <= reg * rsum n (fun i => rsum n (fun j => 1 - u i h * K i j * v j h)) + rm * rsum n (fun i => A i h * (1 - Rpower (u i h) (- rho)))
       + rm * rsum n (fun j => q' j * (1 - Rpower (v j h) (- rho))) ->
  (forall i j, (i < n)%nat -> (j < n)%nat -> P i j = u i h * K i j * v j h) /\
  (forall j, (j < n)%nat -> col_sum n P j = q' j * Rpower (v j h) (- rho)).
Proof.
  intros h u v q' P Hh Hu Hv Hq HP P1 P2. rewrite (uot_shift n M reg rm Hreg) by auto. intros LE.
  set (lu := fun i => ln (u i h)). set (lv := fun j => ln (v j h)).
  assert (t1 : forall i j, (i < n)%nat -> (j < n)%nat -> 1 - u i h * K i j * v j h + (lu i + lv j) * P i j <= gkl (P i j) (K i j) + (1 - K i j)).
  { intros i j Hi Hj. destruct (Hu i h Hi Hh) as [Hu0 Hu1]. destruct HA as [A0 _]. destruct (Rle_lt_or_eq_dec 0 (A i h) (A0 i h Hi Hh)) as [Ap|Az].
    - pose proof (young 1 (P i j) (K i j) (- (lu i + lv j)) ltac:(lra) (HP i j Hi Hj) (exp_pos _)) as Y.
      replace (- - (lu i + lv j) / 1) with (lu i + lv j) in Y by field. rewrite exp_plus in Y. unfold lu, lv in *.
      rewrite !exp_ln in Y by auto. lra.
    - rewrite (P1 i j) by auto. rewrite Hu0 by auto. unfold gkl. lra. }
  assert (t2 : forall i, (i < n)%nat -> rm * (A i h * (1 - Rpower (u i h) (- rho))) - reg * (lu i * row_sum n P i) <= rm * gkl (row_sum n P i) (A i h)).
  { intros i Hi. destruct HA as [A0 _]. destruct (Rle_lt_or_eq_dec 0 (A i h) (A0 i h Hi Hh)) as [Ap|Az].
    - pose proof (young rm (row_sum n P i) (A i h) (reg * lu i) Hrm (row_sum_nonneg n n P HP i Hi) Ap) as Y.
      unfold Rpower. fold (lu i). replace (- rho * lu i) with (- (reg * lu i) / rm) by (unfold rho; field; lra). lra.
    - assert (E : row_sum n P i = 0) by (apply rsum_0; intros; apply P1; auto). rewrite E, <- Az. unfold gkl. lra. }
  assert (t3 : forall j, (j < n)%nat -> rm * (q' j * (1 - Rpower (v j h) (- rho))) - reg * (lv j * col_sum n P j) <= rm * gkl (col_sum n P j) (q' j)).
  { intros j Hj. destruct (Rle_lt_or_eq_dec 0 (q' j) (Hq j Hj)) as [Ap|Az].
    - pose proof (young rm (col_sum n P j) (q' j) (reg * lv j) Hrm (col_sum_nonneg n n P HP j Hj) Ap) as Y.
      unfold Rpower. fold (lv j). replace (- rho * lv j) with (- (reg * lv j) / rm) by (unfold rho; field; lra). lra.
    - assert (E : col_sum n P j = 0) by (apply rsum_0; intros; apply P2; auto). rewrite E, <- Az. unfold gkl. lra. }
  assert (E : rsum n (fun i => rsum n (fun j => (lu i + lv j) * P i j)) = rsum n (fun i => lu i * row_sum n P i) + rsum n (fun j => lv j * col_sum n P j)).
  { unfold row_sum, col_sum. rewrite (rsum_ext n (fun j => lv j * rsum n (fun i => P i j)) (fun j => rsum n (fun i => lv j * P i j))) by (intros; rewrite rsum_scal; auto).
    rewrite (rsum_swap n n (fun j i => lv j * P i j)). rewrite <- rsum_plus. apply rsum_ext; intros i Hi. rewrite <- rsum_scal, <- rsum_plus. apply rsum_ext; intros; ring. }
  assert (T1 : rsum n (fun i => rsum n (fun j => 1 - u i h * K i j * v j h + (lu i + lv j) * P i j)) <= rsum n (fun i => rsum n (fun j => gkl (P i j) (K i j) + (1 - K i j)))).
  { apply rsum_le; intros i Hi. apply rsum_le; intros j Hj. apply t1; auto. }
  assert (T2 : rsum n (fun i => rm * (A i h * (1 - Rpower (u i h) (- rho))) - reg * (lu i * row_sum n P i)) <= rsum n (fun i => rm * gkl (row_sum n P i) (A i h)))
    by (apply rsum_le; auto).
  assert (T3 : rsum n (fun j => rm * (q' j * (1 - Rpower (v j h) (- rho))) - reg * (lv j * col_sum n P j)) <= rsum n (fun j => rm * gkl (col_sum n P j) (q' j)))
    by (apply rsum_le; auto).
  assert (X1 : rsum n (fun i => rsum n (fun j => 1 - u i h * K i j * v j h + (lu i + lv j) * P i j))
     = rsum n (fun i => rsum n (fun j => 1 - u i h * K i j * v j h)) + (rsum n (fun i => lu i * row_sum n P i) + rsum n (fun j => lv j * col_sum n P j))).
  { rewrite <- E, <- rsum_plus. apply rsum_ext; intros i Hi. apply rsum_plus. }
  assert (X2 : rsum n (fun i => rm * (A i h * (1 - Rpower (u i h) (- rho))) - reg * (lu i * row_sum n P i))
     = rm * rsum n (fun i => A i h * (1 - Rpower (u i h) (- rho))) - reg * rsum n (fun i => lu i * row_sum n P i)) by (rewrite rsum_minus, !rsum_scal; auto).
  assert (X3 : rsum n (fun j => rm * (q' j * (1 - Rpower (v j h) (- rho))) - reg * (lv j * col_sum n P j))
     = rm * rsum n (fun j => q' j * (1 - Rpower (v j h) (- rho))) - reg * rsum n (fun j => lv j * col_sum n P j)) by (rewrite rsum_minus, !rsum_scal; auto).
  pose proof (rsum_scal n rm (fun i => gkl (row_sum n P i) (A i h))) as Y2. pose proof (rsum_scal n rm (fun j => gkl (col_sum n P j) (q' j))) as Y3.
  fold K in LE. set (G1 := rsum n (fun i => rsum n (fun j => gkl (P i j) (K i j) + (1 - K i j)))) in *.
  assert (LE' : reg * G1 + rsum n (fun i => rm * gkl (row_sum n P i) (A i h)) + rsum n (fun j => rm * gkl (col_sum n P j) (q' j))
    <= reg * rsum n (fun i => rsum n (fun j => 1 - u i h * K i j * v j h + (lu i + lv j) * P i j))
       + rsum n (fun i => rm * (A i h * (1 - Rpower (u i h) (- rho))) - reg * (lu i * row_sum n P i))
       + rsum n (fun j => rm * (q' j * (1 - Rpower (v j h) (- rho))) - reg * (lv j * col_sum n P j))).
  { rewrite X1, X2, X3, Y2, Y3. unfold G1, K in *. lra. }
  clear X1 X2 X3 Y2 Y3 LE.
  assert (Z1 : G1 <= rsum n (fun i => rsum n (fun j => 1 - u i h * K i j * v j h + (lu i + lv j) * P i j))) by (apply (Rmult_le_reg_l reg); lra).
  assert (Z3 : rsum n (fun j => rm * gkl (col_sum n P j) (q' j)) <= rsum n (fun j => rm * (q' j * (1 - Rpower (v j h) (- rho))) - reg * (lv j * col_sum n P j))).
  { apply (Rmult_le_compat_l reg) in T1; lra. }
  split.
  - intros i j Hi Hj.
    pose proof (rsum_tight n _ _ (fun i Hi => rsum_le n _ _ (fun j Hj => t1 i j Hi Hj)) Z1 i Hi) as Zi.
    pose proof (rsum_tight n _ _ (fun j Hj => t1 i j Hi Hj) Zi j Hj) as Zij. cbv beta in Zij.
    destruct (Hu i h Hi Hh) as [Hu0 Hu1]. destruct HA as [A0 _]. destruct (Rle_lt_or_eq_dec 0 (A i h) (A0 i h Hi Hh)) as [Ap|Az].
    + assert (X : exp (- - (lu i + lv j) / 1) = u i h * v j h).
      { replace (- - (lu i + lv j) / 1) with (lu i + lv j) by field. rewrite exp_plus. unfold lu, lv. rewrite !exp_ln by auto. auto. }
      rewrite (young_eq 1 (P i j) (K i j) (- (lu i + lv j)) ltac:(lra) (HP i j Hi Hj) (exp_pos _)).
      * rewrite X. ring.
      * rewrite X. lra.
    + rewrite (P1 i j) by auto. rewrite Hu0 by auto. ring.
  - intros j Hj. pose proof (rsum_tight n _ _ t3 Z3 j Hj) as Zj. cbv beta in Zj.
    destruct (Rle_lt_or_eq_dec 0 (q' j) (Hq j Hj)) as [Ap|Az].
    + unfold Rpower. fold (lv j). replace (- rho * lv j) with (- (reg * lv j) / rm) by (unfold rho; field; lra).
      apply (young_eq rm (col_sum n P j) (q' j) (reg * lv j) Hrm (col_sum_nonneg n n P HP j Hj) Ap).
      unfold Rpower in Zj. fold (lv j) in Zj. replace (- rho * lv j) with (- (reg * lv j) / rm) in Zj by (unfold rho; field; lra). lra.
    + rewrite <- Az, Rmult_0_l. apply rsum_0; intros; apply P2; auto.
Qed.

Lemma gap0_unique : forall v0 u v q q' P, good n H A M w reg rm v0 u v q -> ub_gap n H A M w reg rm u v = 0 -> ub_admissible n H A q' P ->
  ub_obj n H A M w reg rm q' P <= ub_obj n H A M w reg rm q (ub_plan M reg u v) ->
  (forall j, (j < n)%nat -> q' j = q j) /\
  (forall h i j, (h < H)%nat -> 0 < w h -> (i < n)%nat -> (j < n)%nat -> P h i j = ub_plan M reg u v h i j).
Proof.
  intros v0 u v q q' P G G0 [Hq HP] LE. destruct Hw as [W0 W1].
  rewrite (good_value n H A M w reg rm Hn Hreg Hrm HA Hw v0 u v q G), G0, Rplus_0_r in LE.
  assert (Z : rsum H (fun h => w h * (rm * rsum n (fun j => q' j * (1 - Rpower (v j h) (- rho))))) = 0).
  { rewrite (rsum_ext H _ (fun h => rsum n (fun j => rm * q' j * (w h - w h * Rpower (v j h) (- rho))))).
    2:{ intros h Hh. rewrite <- !rsum_scal. apply rsum_ext; intros; ring. }
    rewrite rsum_swap. apply rsum_0. intros j Hj. rewrite rsum_scal, rsum_minus. unfold rho. rewrite (g_c _ _ _ _ _ _ _ _ _ _ _ G j Hj), W1. ring. }
  pose proof (good_supp n H A M w reg rm v0 u v q G) as Su. pose proof (g_v1 _ _ _ _ _ _ _ _ _ _ _ G) as Pv.
  assert (LE2 : rsum H (fun h => w h * uot_obj n n (fun i => A i h) q' M (fun _ _ => 1) reg (Some rm) (Some rm) (P h))
    <= rsum H (fun h => w h * (reg * rsum n (fun i => rsum n (fun j => 1 - u i h * K i j * v j h)) + rm * rsum n (fun i => A i h * (1 - Rpower (u i h) (- rho)))
       + rm * rsum n (fun j => q' j * (1 - Rpower (v j h) (- rho)))))).
  { rewrite <- (Rplus_0_r (ub_dual n H A M w reg rm u v)), <- Z in LE. unfold ub_dual, ub_obj in LE. rewrite <- rsum_plus in LE.
    eapply Rle_trans; [apply LE|]. right. apply rsum_ext; intros h Hh. unfold K, rho. ring. }
  assert (X : forall h, (h < H)%nat -> 0 < w h ->
     (forall i j, (i < n)%nat -> (j < n)%nat -> P h i j = u i h * K i j * v j h) /\ (forall j, (j < n)%nat -> col_sum n (P h) j = q' j * Rpower (v j h) (- rho))).
  { intros h Hh Wp. destruct (HP h Hh) as (P0 & P1 & P2). apply weak_one_eq; auto.
    assert (T : forall h, (h < H)%nat -> w h * (reg * rsum n (fun i => rsum n (fun j => 1 - u i h * K i j * v j h)) + rm * rsum n (fun i => A i h * (1 - Rpower (u i h) (- rho)))
       + rm * rsum n (fun j => q' j * (1 - Rpower (v j h) (- rho)))) <= w h * uot_obj n n (fun i => A i h) q' M (fun _ _ => 1) reg (Some rm) (Some rm) (P h)).
    { intros h' Hh'. destruct (HP h' Hh') as (P0' & P1' & P2'). apply Rmult_le_compat_l; [apply W0; auto|]. apply (weak_one n H A M reg rm Hreg Hrm HA); auto. }
    pose proof (rsum_tight H _ _ T LE2 h Hh) as Th. cbv beta in Th. apply (Rmult_le_reg_l (w h)); auto. }
  split.
  - intros j Hj.
    assert (Y : rsum H (fun h => w h * col_sum n (ub_plan M reg u v h) j) = q' j).
    { rewrite (rsum_ext H _ (fun h => q' j * (w h * Rpower (v j h) (- (reg / rm))))).
      - rewrite rsum_scal, (g_c _ _ _ _ _ _ _ _ _ _ _ G) by auto. ring.
      - intros h Hh. destruct (W0 h Hh) as [Wp|Wz]; [|rewrite <- Wz; ring].
        destruct (X h Hh Wp) as [X1 X2]. replace (col_sum n (ub_plan M reg u v h) j) with (col_sum n (P h) j).
        + rewrite X2 by auto. unfold rho. ring.
        + apply rsum_ext; intros i Hi. unfold ub_plan. rewrite X1 by auto. reflexivity. }
    rewrite <- Y. apply (good_marginal n H A M w reg rm v0 u v q j G Hj).
  - intros h i j Hh Wp Hi Hj. destruct (X h Hh Wp) as [X1 _]. apply X1; auto.
Qed.
End Uniq.
