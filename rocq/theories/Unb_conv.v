(** Linear convergence and termination of the unbalanced Sinkhorn loop. *)
From Coq Require Import List Arith Bool Reals Lra Lia.
From Verif Require Import Num Sums Spec Duals_proofs Entropy Sinkhorn_model Sinkhorn_proofs Sinkhorn_more Unb_model Unb_proofs.
Import ListNotations.
Local Open Scope R_scope.

Lemma lnear_tri : forall k x y z D E, lnear k x y D -> lnear k y z E -> lnear k x z (D + E).
Proof.
  intros k x y z D E H1 H2 i Hi. specialize (H1 i Hi). specialize (H2 i Hi).
  replace (ln (x i) - ln (z i)) with ((ln (x i) - ln (y i)) + (ln (y i) - ln (z i))) by ring.
  assert (A := Rabs_triang (ln (x i) - ln (y i)) (ln (y i) - ln (z i))). lra.
Qed.
Fixpoint lmax (k : nat) (f : vec) : R := match k with O => 0 | S k' => Rmax (lmax k' f) (f k') end.
Lemma lmax_ge : forall k f i, (i < k)%nat -> f i <= lmax k f.
Proof.
  induction k; intros f i Hi; [lia|]. cbn. destruct (Nat.eq_dec i k) as [E|E]; [subst; apply Rmax_r|].
  eapply Rle_trans; [apply IHk; lia|apply Rmax_l].
Qed.
Lemma lmax_nonneg : forall k f, 0 <= lmax k f.
Proof. induction k; intros; cbn; [lra|]. eapply Rle_trans; [apply IHk|apply Rmax_l]. Qed.
(** the log distance between two positive vectors *)
Definition ldist (k : nat) (x y : vec) : R := lmax k (fun i => Rabs (ln (x i) - ln (y i))).
Lemma ldist_near : forall k x y, lnear k x y (ldist k x y).
Proof. intros k x y i Hi. apply (lmax_ge k (fun i => Rabs (ln (x i) - ln (y i)))); auto. Qed.

(** sequences contracting at rate rho converge *)
Lemma geo_tail : forall (x : nat -> R) rho D, 0 <= rho < 1 -> (forall k, Rabs (x (S k) - x k) <= rho ^ k * D) ->
  forall p k, Rabs (x (k + p)%nat - x k) <= rho ^ k * D * (1 - rho ^ p) / (1 - rho).
Proof.
  intros x rho D Hr H. induction p; intros k.
  - rewrite Nat.add_0_r. rewrite Rminus_diag_eq, Rabs_R0 by auto. simpl. replace (rho ^ k * D * (1 - 1) / (1 - rho)) with 0 by (field; lra). lra.
  - replace (k + S p)%nat with (S (k + p)) by lia.
    replace (x (S (k + p)) - x k) with ((x (S (k + p)) - x (k + p)%nat) + (x (k + p)%nat - x k)) by ring.
    eapply Rle_trans; [apply Rabs_triang|]. eapply Rle_trans; [apply Rplus_le_compat; [apply H|apply IHp]|].
    right. rewrite pow_add. simpl. field; lra.
Qed.
Lemma geo_lim : forall (x : nat -> R) rho D, 0 <= rho < 1 -> 0 <= D -> (forall k, Rabs (x (S k) - x k) <= rho ^ k * D) ->
  exists l, forall k, Rabs (x k - l) <= rho ^ k * D / (1 - rho).
Proof.
  intros x rho D Hr HD H. assert (T := geo_tail x rho D Hr H).
  assert (T' : forall p k, Rabs (x (k + p)%nat - x k) <= rho ^ k * (D / (1 - rho))).
  { intros p k. eapply Rle_trans; [apply T|]. assert (0 <= rho ^ k) by (apply pow_le; lra). assert (0 <= rho ^ p) by (apply pow_le; lra).
    assert (0 <= D / (1 - rho)) by (apply Rmult_le_pos; auto; left; apply Rinv_0_lt_compat; lra).
    replace (rho ^ k * D * (1 - rho ^ p) / (1 - rho)) with (rho ^ k * (D / (1 - rho)) * (1 - rho ^ p)) by (field; lra).
    assert (0 <= rho ^ k * (D / (1 - rho))) by (apply Rmult_le_pos; auto). nra. }
  assert (C : Cauchy_crit x).
  { intros eps He. destruct (pow_lt_1_zero rho (ltac:(rewrite Rabs_pos_eq; lra)) (eps / (2 * (D / (1 - rho) + 1)))) as [N0 HN].
    { apply Rdiv_lt_0_compat; auto. assert (0 <= D / (1 - rho)) by (apply Rmult_le_pos; auto; left; apply Rinv_0_lt_compat; lra). lra. }
    exists N0. assert (Q : forall p, (p >= N0)%nat -> Rabs (x p - x N0) < eps / 2).
    { intros p Hp. replace p with (N0 + (p - N0))%nat by lia. eapply Rle_lt_trans; [apply T'|].
      specialize (HN N0 (le_n _)). rewrite Rabs_pos_eq in HN by (apply pow_le; lra).
      assert (0 <= D / (1 - rho)) by (apply Rmult_le_pos; auto; left; apply Rinv_0_lt_compat; lra). set (E := D / (1 - rho)) in *.
      assert (rho ^ N0 * (E + 1) < eps / 2).
      { apply Rlt_le_trans with (eps / (2 * (E + 1)) * (E + 1)); [apply Rmult_lt_compat_r; lra|right; field; lra]. }
      assert (0 <= rho ^ N0) by (apply pow_le; lra). nra. }
    intros p q Hp Hq. unfold R_dist. replace (x p - x q) with ((x p - x N0) + - (x q - x N0)) by ring.
    eapply Rle_lt_trans; [apply Rabs_triang|]. rewrite Rabs_Ropp. specialize (Q p Hp) as Q1. specialize (Q q Hq) as Q2. lra. }
  destruct (R_complete x C) as [l Hl]. exists l. intros k.
  apply Rnot_lt_le. intros Hlt. unfold Un_cv in Hl.
  replace (rho ^ k * D / (1 - rho)) with (rho ^ k * (D / (1 - rho))) in Hlt by (field; lra).
  destruct (Hl (Rabs (x k - l) - rho ^ k * (D / (1 - rho)))) as [N0 HN]; [lra|].
  specialize (HN (k + N0)%nat ltac:(lia)). unfold R_dist in HN. specialize (T' N0 k).
  assert (A : Rabs (x k - l) <= Rabs (x (k + N0)%nat - x k) + Rabs (x (k + N0)%nat - l)).
  { replace (x k - l) with (- (x (k + N0)%nat - x k) + (x (k + N0)%nat - l)) by ring. eapply Rle_trans; [apply Rabs_triang|]. rewrite Rabs_Ropp. lra. }
  lra.
Qed.

(** the stopping criterion is below the log distance *)
Lemma vmax_le : forall k (f : vec) B, (0 < k)%nat -> (forall i, (i < k)%nat -> f i <= B) -> vmax (N:=RNum) k f <= B.
Proof.
  intros k f B Hk H. unfold vmax. destruct k; [lia|]. replace (S k - 1)%nat with k by lia. clear Hk.
  assert (Q : forall q, (q <= k)%nat -> nmaxk (N:=RNum) q f <= B).
  { induction q; intros Hq; [apply H; lia|]. cbn [nmaxk]. rewrite nmax_R. apply Rmax_lub; [apply IHq; lia|apply H; lia]. }
  apply Q; auto.
Qed.
Lemma vmax_ge : forall k (f : vec) i, (i < k)%nat -> f i <= vmax (N:=RNum) k f.
Proof. intros k f i Hi. unfold vmax. apply (nmaxk_ge (k - 1) f i). lia. Qed.
Lemma abs_diff_ln : forall x y, 0 < x -> 0 < y -> Rabs (x - y) <= Rmax x y * Rabs (ln x - ln y).
Proof.
  assert (Q : forall x y, 0 < x -> x <= y -> y - x <= y * (ln y - ln x)).
  { intros x y Hx Hxy. assert (A := xlnx_div_ge y x ltac:(lra) Hx). rewrite ln_div in A by lra. lra. }
  intros x y Hx Hy. destruct (Rle_dec x y) as [H|H].
  - rewrite Rmax_right by auto. rewrite (Rabs_minus_sym x), (Rabs_minus_sym (ln x)).
    rewrite (Rabs_pos_eq (y - x)), (Rabs_pos_eq (ln y - ln x)); [apply Q; auto| |lra]. assert (A := ln_mono x y Hx H). lra.
  - rewrite Rmax_left by lra. rewrite (Rabs_pos_eq (x - y)), (Rabs_pos_eq (ln x - ln y)); [apply Q; lra| |lra]. assert (A := ln_mono y x Hy ltac:(lra)). lra.
Qed.
Lemma rel_err_le : forall k (x y : vec) D, (0 < k)%nat -> 0 <= D -> pos_vec k x -> pos_vec k y -> lnear k x y D -> rel_err (N:=RNum) k x y <= D.
Proof.
  intros k x y D Hk HD Hx Hy H. unfold rel_err. rewrite !nmax_R. cbn [ndiv RNum n1].
  set (B := Rmax (Rmax (vmax (N:=RNum) k (fun i => nabs (N:=RNum) (x i))) (vmax (N:=RNum) k (fun i => nabs (N:=RNum) (y i)))) 1).
  assert (HB : 1 <= B) by apply Rmax_r.
  assert (HBx : forall i, (i < k)%nat -> x i <= B).
  { intros i Hi. apply Rle_trans with (2 := Rmax_l _ _). apply Rle_trans with (2 := Rmax_l _ _).
    apply Rle_trans with (nabs (N:=RNum) (x i)); [rewrite nabs_R; apply Rle_abs|]. apply (vmax_ge k (fun i => nabs (N:=RNum) (x i))); auto. }
  assert (HBy : forall i, (i < k)%nat -> y i <= B).
  { intros i Hi. apply Rle_trans with (2 := Rmax_l _ _). apply Rle_trans with (2 := Rmax_r _ _).
    apply Rle_trans with (nabs (N:=RNum) (y i)); [rewrite nabs_R; apply Rle_abs|]. apply (vmax_ge k (fun i => nabs (N:=RNum) (y i))); auto. }
  assert (vmax (N:=RNum) k (fun i => nabs (N:=RNum) (nsub (n:=RNum) (x i) (y i))) <= B * D).
  { apply vmax_le; auto. intros i Hi. rewrite nabs_R. cbn [nsub RNum]. eapply Rle_trans; [apply abs_diff_ln; auto|].
    apply Rmult_le_compat; [left; apply Rlt_le_trans with (x i); [auto|apply Rmax_l]|apply Rabs_pos|apply Rmax_lub; auto|apply H; auto]. }
  apply Rmult_le_reg_r with B; [lra|]. unfold Rdiv. rewrite Rmult_assoc, Rinv_l by lra. lra.
Qed.

Section Conv.
Variables (n m : nat) (a b : vec) (K : mat) (f1 f2 : R).
Hypotheses (Hn : (0 < n)%nat) (Hm : (0 < m)%nat) (Ha : pos_vec n a) (Hb : pos_vec m b).
Hypothesis HK : forall i j, (i < n)%nat -> (j < m)%nat -> 0 < K i j.
Hypotheses (F1 : 0 <= f1) (F2 : 0 <= f2) (F : f1 * f2 < 1).
Notation U := (un_u (N:=RNum) m a Rpower K f1).
Notation V := (un_v (N:=RNum) n b Rpower K f2).
Notation vit := (vit n m a b K f1 f2).
Notation uit := (uit n m a b K f1 f2).
Let rho := f1 * f2.
Lemma rho_range : 0 <= rho < 1. Proof. split; [apply Rmult_le_pos; auto|exact F]. Qed.

(** the first step from the start v *)
Definition first_step (v : vec) : R := ldist m (V (U v)) v.

Lemma fix_exists : forall v, pos_vec m v -> exists vs, pos_vec m vs /\ (forall j, (j < m)%nat -> V (U vs) j = vs j) /\
  forall k, lnear m (vit k v) vs (rho ^ k * first_step v / (1 - rho)).
Proof.
  intros v Hv. assert (R0 := rho_range). set (D := first_step v).
  assert (HD : 0 <= D) by apply lmax_nonneg.
  assert (S0 := fun k => vit_step n m a b K f1 f2 Hn Hm Ha Hb HK F1 F2 k v D Hv (ldist_near _ _ _)).
  assert (L : exists l : vec, forall j, (j < m)%nat -> forall k, Rabs (ln (vit k v j) - l j) <= rho ^ k * D / (1 - rho)).
  { clear - S0 R0 HD. assert (Q : forall p, (p <= m)%nat -> exists l : vec, forall j, (j < p)%nat -> forall k, Rabs (ln (vit k v j) - l j) <= rho ^ k * D / (1 - rho)).
    { induction p; intros Hp; [exists (fun _ => 0); intros; lia|]. destruct IHp as [l Hl]; [lia|].
      destruct (geo_lim (fun k => ln (vit k v p)) rho D R0 HD) as [x Hx]; [intros k; apply (S0 k); lia|].
      exists (fun j => if Nat.eqb j p then x else l j). intros j Hj k. destruct (Nat.eqb_spec j p) as [E|E]; [subst; apply Hx|apply Hl; lia]. }
    apply Q; auto. }
  destruct L as [l Hl]. exists (fun j => exp (l j)).
  assert (NS : forall k, lnear m (vit k v) (fun j => exp (l j)) (rho ^ k * D / (1 - rho))) by (intros k j Hj; rewrite ln_exp; auto).
  assert (PV : pos_vec m (fun j => exp (l j))) by (intros j Hj; apply exp_pos).
  split; [auto|]. split; [|auto].
  assert (B : forall k, lnear m (V (U (fun j => exp (l j)))) (fun j => exp (l j)) (2 * (rho ^ k * (D / (1 - rho))))).
  { intros k. assert (X1 : lnear m (V (U (fun j => exp (l j)))) (vit (S k) v) (rho * (rho ^ k * D / (1 - rho)))).
    { apply lnear_sym. replace (rho * (rho ^ k * D / (1 - rho))) with (f2 * (f1 * (rho ^ k * D / (1 - rho)))) by (unfold rho; ring).
      apply V_near; auto; try (intros i Hi; apply U_pos). apply U_near; auto. apply vit_pos; auto. }
    apply (lnear_le _ _ _ _ _ (lnear_tri _ _ _ _ _ _ X1 (NS (S k)))).
    assert (0 <= rho ^ k) by (apply pow_le; lra). assert (0 <= D / (1 - rho)) by (apply Rmult_le_pos; auto; left; apply Rinv_0_lt_compat; lra).
    assert (0 <= rho ^ k * (D / (1 - rho))) by (apply Rmult_le_pos; auto).
    replace (rho * (rho ^ k * D / (1 - rho)) + rho ^ S k * D / (1 - rho)) with (2 * (rho * (rho ^ k * (D / (1 - rho))))) by (simpl; field; lra).
    nra. }
  intros j Hj.
  assert (E : ln (V (U (fun j => exp (l j))) j) = ln (exp (l j))).
  { apply Rminus_diag_uniq.
    destruct (Req_dec (ln (V (U (fun j => exp (l j))) j) - ln (exp (l j))) 0) as [Z|Z]; auto. exfalso.
    set (z := ln (V (U (fun j => exp (l j))) j) - ln (exp (l j))) in *. assert (Pz := Rabs_pos_lt z Z).
    assert (HE : 0 <= D / (1 - rho)) by (apply Rmult_le_pos; auto; left; apply Rinv_0_lt_compat; lra). set (E := D / (1 - rho)) in *.
    destruct (pow_lt_1_zero rho (ltac:(rewrite Rabs_pos_eq; lra)) (Rabs z / (2 * (E + 1)))) as [N0 HN]; [apply Rdiv_lt_0_compat; lra|].
    specialize (HN N0 (le_n _)). rewrite Rabs_pos_eq in HN by (apply pow_le; lra).
    assert (X := B N0 j Hj). change (Rabs z <= 2 * (rho ^ N0 * E)) in X.
    assert (rho ^ N0 * (E + 1) < Rabs z / 2).
    { apply Rlt_le_trans with (Rabs z / (2 * (E + 1)) * (E + 1)); [apply Rmult_lt_compat_r; lra|right; field; lra]. }
    assert (0 <= rho ^ N0) by (apply pow_le; lra). nra. }
  apply ln_inv in E; auto; apply V_pos.
Qed.
Lemma uit_near : forall v vs u k, pos_vec m v -> pos_vec m vs -> forall D, lnear m (vit k v) vs D -> lnear n (uit (S k) u v) (U vs) (f1 * D).
Proof. intros v vs u k Hv Hvs D H. apply U_near; auto. apply vit_pos; auto. Qed.

(** ** the loop *)
Lemma half_R : half (N:=RNum) = 1 / 2. Proof. unfold half. cbn. field. Qed.
Lemma un_bad_false : forall u v, pos_vec n u -> un_bad (N:=RNum) n m no_nan K u v = false.
Proof.
  intros u v Hu. unfold un_bad. rewrite !orb_false_iff. repeat split; apply any_false; intros; auto.
  cbn [neqb RNum]. apply Reqb_false. rewrite un_Ktu_R. apply Rgt_not_eq. apply rktu_pos with (m := m); auto.
Qed.
Notation err := (un_err (N:=RNum) n m).
Lemma un_loop_spec : forall thr left ii u v errs, pos_vec m v ->
  exists k, (k <= left)%nat /\ let o := un_loop (N:=RNum) n m a b Rpower no_nan K f1 f2 thr left ii u v errs in
  sk_u o = uit k u v /\ sk_v o = vit k v /\ length (sk_err o) = (length errs + k)%nat /\
  (sk_exit o = MaxIter /\ k = left \/ exists k', k = S k' /\ sk_exit o = Converged (ii + k') /\ err (uit k' u v) (vit k' v) (uit k u v) (vit k v) < thr) /\
  (forall p, (S p < k)%nat \/ (S p = k /\ sk_exit o = MaxIter) -> thr <= err (uit p u v) (vit p v) (uit (S p) u v) (vit (S p) v)).
Proof.
  intros thr left. induction left; intros ii u v errs Hv.
  { exists 0%nat. cbn. repeat split; auto; intros; lia. }
  cbn [un_loop]. rewrite un_bad_false by (intros i Hi; apply U_pos).
  change (@nltb RNum) with Rltb.
  destruct (Rltb (un_err (N:=RNum) n m u v (U v) (V (U v))) thr) eqn:E.
  { apply Rltb_true in E. exists 1%nat. split; [lia|]. cbn [sk_u sk_v sk_err sk_exit]. rewrite app_length. repeat split; auto.
    - right. exists 0%nat. rewrite Nat.add_0_r. auto.
    - intros p [H|[_ H]]; [lia|discriminate]. }
  apply Rltb_false in E.
  destruct (IHleft (S ii) (U v) (V (U v)) (errs ++ [un_err (N:=RNum) n m u v (U v) (V (U v))])) as (k & Hk & E1 & E2 & E3 & E4 & E5).
  { intros j Hj. apply V_pos. }
  assert (VI : forall p, vit p (V (U v)) = vit (S p) v) by (intros; rewrite vit_S; auto).
  assert (UI : forall p, uit p (U v) (V (U v)) = uit (S p) u v) by (intros [|p]; auto; unfold Unb_proofs.uit; rewrite vit_S; auto).
  exists (S k). split; [lia|]. rewrite E1, E2, E3, app_length, UI, VI. cbn [length]. repeat split; auto; [lia| |].
  - destruct E4 as [[E4 E4']|(k' & E4 & E4' & E4'')]; [left; split; auto; lia|right].
    exists (S k'). split; [lia|]. split; [rewrite E4'; f_equal; lia|]. rewrite <- !UI, <- !VI. auto.
  - intros [|p] Hp; [exact E|]. rewrite <- !UI, <- !VI. apply E5. destruct Hp as [Hp|[Hp Hp']]; [left; lia|right; split; [lia|auto]].
Qed.

Lemma err_bound : forall k u v, pos_vec n u -> pos_vec m v -> f1 <= 1 ->
  err (uit (S k) u v) (vit (S k) v) (uit (S (S k)) u v) (vit (S (S k)) v) <= rho ^ k * first_step v.
Proof.
  intros k u v Hu Hv L1. set (D := first_step v). assert (HD : 0 <= D) by apply lmax_nonneg.
  assert (R0 := rho_range). assert (HR : 0 <= rho ^ k) by (apply pow_le; lra).
  assert (HRD : 0 <= rho ^ k * D) by (apply Rmult_le_pos; auto).
  assert (E1 := uit_step n m a b K f1 f2 Hn Hm Ha Hb HK F1 F2 k u v D Hv (ldist_near _ _ _)).
  assert (E2 := vit_step n m a b K f1 f2 Hn Hm Ha Hb HK F1 F2 (S k) v D Hv (ldist_near _ _ _)).
  fold rho in E1, E2.
  assert (B1 : rel_err (N:=RNum) n (uit (S (S k)) u v) (uit (S k) u v) <= rho ^ k * D).
  { apply rel_err_le; auto; try (apply uit_pos; auto). apply (lnear_le _ _ _ _ _ E1). nra. }
  assert (B2 : rel_err (N:=RNum) m (vit (S (S k)) v) (vit (S k) v) <= rho ^ k * D).
  { apply rel_err_le; auto; try (apply vit_pos; auto). apply (lnear_le _ _ _ _ _ E2). simpl. rewrite Rmult_assoc. nra. }
  unfold un_err. rewrite half_R. cbn [nmul nadd RNum]. lra.
Qed.
Lemma un_converges : forall thr it u v errs, pos_vec n u -> pos_vec m v -> f1 <= 1 -> (2 <= it)%nat ->
  rho ^ (it - 2) * first_step v < thr ->
  exists k, sk_exit (un_loop (N:=RNum) n m a b Rpower no_nan K f1 f2 thr it 0 u v errs) = Converged k.
Proof.
  intros thr it u v errs Hu Hv L1 Hit Hthr.
  destruct (un_loop_spec thr it 0 u v errs Hv) as (k & Hk & _ & _ & _ & E4 & E5).
  destruct E4 as [[E4 E4']|(k' & _ & E4 & _)]; [|exists k'; auto].
  exfalso. subst k. assert (SE : S (it - 1) = it) by lia. assert (X := E5 (it - 1)%nat (or_intror (conj SE E4))).
  assert (Y := err_bound (it - 2) u v Hu Hv L1). replace (S (it - 2)) with (it - 1)%nat in Y by lia. lra.
Qed.
End Conv.
