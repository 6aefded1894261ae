(** Unmixing: mass, the two ends of alpha, and what a fixed point optimises. *)
From Coq Require Import List Arith Reals Lra Lia Bool.
From Verif Require Import Num Sums Spec Entropy Duals_proofs Bary_model Unmix_model.
Import ListNotations.
Local Open Scope R_scope.

Ltac toR := match goal with |- @eq _ ?a ?b => change (@eq R a b) end.
Notation rmat := (nat -> nat -> R).
Notation rvec := (nat -> R).

Lemma ln_le : forall x y, 0 < x -> x <= y -> ln x <= ln y.
Proof. intros x y Hx [L|L]; [left; apply ln_increasing; auto|subst; right; reflexivity]. Qed.

(** w ln w - w lies above its tangent at u > 0 *)
Lemma ent_tangent : forall u w, 0 < u -> 0 <= w -> u * ln u - u + ln u * (w - u) <= w * ln w - w.
Proof.
  intros u w Hu [Hw|Hw].
  - assert (A : ln (u / w) <= u / w - 1).
    { rewrite <- (ln_exp (u / w - 1)). apply ln_le. apply Rdiv_lt_0_compat; auto.
      pose proof (exp_ineq1_le (u / w - 1)). lra. }
    unfold Rdiv in A at 1. rewrite ln_mult, ln_Rinv in A; auto using Rinv_0_lt_compat.
    assert (B : w * (ln u + - ln w) <= w * (u / w - 1)) by (apply Rmult_le_compat_l; lra).
    replace (w * (u / w - 1)) with (u - w) in B by (field; lra). lra.
  - subst w. lra.
Qed.

Lemma search_below : forall n (P : nat -> bool), (exists i, (i < n)%nat /\ P i = true) \/ (forall i, (i < n)%nat -> P i = false).
Proof.
  induction n as [|n IH]; intros P; [right; intros; lia|]. destruct (IH P) as [(i & Hi & E)|H]; [left; exists i; split; [lia|auto]|].
  destruct (P n) eqn:E; [left; exists n; split; [lia|auto]|right]. intros i Hi. destruct (Nat.eq_dec i n); [subst; auto|apply H; lia].
Qed.

(** weighted arithmetic and geometric means *)
Lemma agm : forall al x y, 0 <= al <= 1 -> 0 < x -> 0 < y -> exp (al * ln x + (1 - al) * ln y) <= al * x + (1 - al) * y.
Proof.
  intros al x y Ha Hx Hy. set (z := al * ln x + (1 - al) * ln y). set (e := exp z).
  assert (P : 0 < e) by apply exp_pos.
  assert (A : forall t, 0 < t -> e + e * (ln t - z) <= t).
  { intros t Ht. pose proof (exp_ineq1_le (ln t - z)) as E.
    assert (F : exp (ln t - z) = t / e) by (unfold Rminus; rewrite exp_plus, exp_Ropp, exp_ln; auto).
    rewrite F in E. apply (Rmult_le_compat_l e) in E; [|lra]. replace (e * (t / e)) with t in E by (field; lra). lra. }
  pose proof (A x Hx) as Ax. pose proof (A y Hy) as Ay.
  apply (Rmult_le_compat_l al) in Ax; [|lra]. apply (Rmult_le_compat_l (1 - al)) in Ay; [|lra].
  assert (E : al * (e + e * (ln x - z)) + (1 - al) * (e + e * (ln y - z)) = e) by (unfold z; ring). lra.
Qed.

Section U.
Variables (lo : R) (d k p : nat) (a : rvec) (D M M0 : rmat) (h0 : rvec) (reg reg0 alpha : R).
Hypothesis lo_pos : 0 < lo.

Notation step := (um_step (N:=RNum) exp ln lo d k p a D h0 alpha).
Notation pC := (um_C (N:=RNum) lo d a).
Notation pC0 := (um_C0 (N:=RNum) lo k h0).
Notation inv := (um_inv (N:=RNum) k D).
Notation delta := (um_delta (N:=RNum) exp ln alpha).
Notation K_ := (um_K (N:=RNum) exp M reg).
Notation K0_ := (um_K0 (N:=RNum) exp M0 reg0).

Definition posm (r c : nat) (G : rmat) : Prop := forall i j, (i < r)%nat -> (j < c)%nat -> 0 < G i j.
(** a dictionary of distributions covering every bin *)
Definition dictionary : Prop :=
  (forall i r, (i < d)%nat -> (r < k)%nat -> 0 <= D i r) /\
  (forall r, (r < k)%nat -> rsum d (fun i => D i r) = 1) /\
  (forall i, (i < d)%nat -> exists r, (r < k)%nat /\ 0 < D i r).

(** state after t iterations *)
Fixpoint iter (t : nat) : rmat * rmat :=
  match t with O => (K_, K0_) | S t' => let '(K, K0) := iter t' in let '(K', K0', _) := step K K0 in (K', K0') end.

Lemma rows_R : forall m (G : rmat) i, rows (N:=RNum) m G i = row_sum m G i.
Proof. intros. apply nsum_R. Qed.
Lemma projC_R : forall n (G : rmat) (q : rvec) i j, projC (N:=RNum) n lo G q i j = G i j * q j / Rmax (col_sum n G j) lo.
Proof. intros. unfold projC. rewrite nsum_R, nmax_R. reflexivity. Qed.
Lemma projR_R : forall m (G : rmat) (q : rvec) i j, projR (N:=RNum) m lo G q i j = G i j * q i / Rmax (row_sum m G i) lo.
Proof. intros. unfold projR. rewrite nsum_R, nmax_R. reflexivity. Qed.
Lemma inv_R : forall new i, inv new i = rsum k (fun r => D i r * new r).
Proof. intros. unfold um_inv. apply nsum_R. Qed.
Lemma delta_R : forall (o v : rvec) i, delta o v i = exp (alpha * ln (o i) + (1 - alpha) * ln (v i)).
Proof. reflexivity. Qed.
Lemma scale_R : forall (de v : rvec) (K0 : rmat) r c, um_scale (N:=RNum) d D de v K0 r c = rsum d (fun i => D i r * (de i / v i)) * K0 r c.
Proof. intros. unfold um_scale. rewrite nsum_R. reflexivity. Qed.

Lemma max_pos : forall x, 0 < Rmax x lo.
Proof. intros. apply Rlt_le_trans with lo; [auto|apply Rmax_r]. Qed.

Lemma projC_pos : forall r c (G : rmat) q, posm r c G -> (forall j, (j < c)%nat -> 0 < q j) -> posm r c (projC (N:=RNum) r lo G q).
Proof. intros r c G q HG Hq i j Hi Hj. rewrite projC_R. apply Rdiv_lt_0_compat; [apply Rmult_lt_0_compat; auto|apply max_pos]. Qed.

(** after projC the columns weigh at most q, and exactly q without the floor *)
Lemma projC_col : forall n (G : rmat) q j, col_sum n (projC (N:=RNum) n lo G q) j = col_sum n G j * q j / Rmax (col_sum n G j) lo.
Proof.
  intros. unfold col_sum at 1. rewrite (rsum_ext n _ (fun i => G i j * (q j / Rmax (col_sum n G j) lo))).
  - rewrite rsum_scal_r. unfold col_sum. unfold Rdiv. ring.
  - intros. rewrite projC_R. unfold Rdiv. ring.
Qed.
Lemma projC_col_le : forall n (G : rmat) q j, 0 <= q j -> col_sum n (projC (N:=RNum) n lo G q) j <= q j.
Proof.
  intros n G q j Hq. rewrite projC_col. pose proof (max_pos (col_sum n G j)) as P. pose proof (Rmax_l (col_sum n G j) lo) as L.
  apply Rmult_le_reg_r with (Rmax (col_sum n G j) lo); auto. unfold Rdiv. rewrite Rmult_assoc, Rinv_l by lra. nra.
Qed.
Lemma projC_col_eq : forall n (G : rmat) q j, lo <= col_sum n G j -> col_sum n (projC (N:=RNum) n lo G q) j = q j.
Proof. intros n G q j H. rewrite projC_col, Rmax_left by auto. field. lra. Qed.
Lemma projC_id : forall n (G : rmat) q i j, lo <= q j -> col_sum n G j = q j -> projC (N:=RNum) n lo G q i j = G i j.
Proof. intros n G q i j H E. rewrite projC_R, E, Rmax_left by auto. toR. field. lra. Qed.

Lemma total_swap : forall r c (G : rmat), rsum r (fun i => row_sum c G i) = rsum c (fun j => col_sum r G j).
Proof. intros. unfold row_sum, col_sum. apply rsum_swap. Qed.

Hypothesis Hd : dictionary.
Hypothesis a_pos : forall i, (i < d)%nat -> 0 < a i.
Hypothesis h_pos : forall j, (j < p)%nat -> 0 < h0 j.
Hypothesis dp : (0 < d)%nat.
Hypothesis pp : (0 < p)%nat.
Hypothesis al01 : 0 <= alpha <= 1.

Lemma rows_pos : forall r c (G : rmat) i, (0 < c)%nat -> posm r c G -> (i < r)%nat -> 0 < row_sum c G i.
Proof. intros r c G i Hc HG Hi. apply rsum_pos; auto. Qed.

Lemma inv_pos : forall new i, (i < d)%nat -> (forall r, (r < k)%nat -> 0 < new r) -> 0 < inv new i.
Proof.
  intros new i Hi Hn. rewrite inv_R. destruct Hd as (D1 & D2 & D3). destruct (D3 i Hi) as (r & Hr & P).
  apply Rlt_le_trans with (D i r * new r); [apply Rmult_lt_0_compat; auto|].
  apply (rsum_le_one k (fun r => D i r * new r) r); [|auto]. intros. apply Rmult_le_pos; [auto|]. apply Rlt_le; auto.
Qed.

Lemma col_entry : forall r, (r < k)%nat -> exists i, (i < d)%nat /\ 0 < D i r.
Proof.
  intros r Hr. destruct Hd as (D1 & D2 & _).
  destruct (search_below d (fun i => Rltb 0 (D i r))) as [(i & Hi & E)|N].
  - exists i. split; auto. apply Rltb_true; auto.
  - exfalso. specialize (D2 r Hr). rewrite rsum_0 in D2; [lra|]. intros i Hi. specialize (N i Hi). apply Rltb_false in N. specialize (D1 i r Hi Hr). lra.
Qed.

Record step_ok (K K0 K' K0' : rmat) (new : rvec) : Prop := {
  so_K : posm d d K';
  so_K0 : posm k p K0';
  so_new : forall r, new r = row_sum p (pC0 K0) r;
  so_newpos : forall r, (r < k)%nat -> 0 < new r;
  so_inv : forall i, (i < d)%nat -> 0 < inv new i;
  so_other : forall i, (i < d)%nat -> 0 < row_sum d (pC K) i;
  so_Keq : forall i j, K' i j = pC K i j * exp (alpha * ln (row_sum d (pC K) i) + (1 - alpha) * ln (inv new i)) / Rmax (row_sum d (pC K) i) lo;
  so_K0eq : forall r c, K0' r c = rsum d (fun i => D i r * (exp (alpha * ln (row_sum d (pC K) i) + (1 - alpha) * ln (inv new i)) / inv new i)) * pC0 K0 r c
}.

Lemma step_spec : forall K K0 K' K0' new, posm d d K -> posm k p K0 -> step K K0 = (K', K0', new) -> step_ok K K0 K' K0' new.
Proof.
  intros K K0 K' K0' new HK HK0 E. unfold um_step in E. injection E as E1 E2 E3.
  assert (PC : posm d d (pC K)) by (apply projC_pos; auto).
  assert (PC0 : posm k p (pC0 K0)) by (apply projC_pos; auto).
  assert (Nn : forall r, new r = row_sum p (pC0 K0) r) by (intros; subst new; apply rows_R).
  assert (Np : forall r, (r < k)%nat -> 0 < new r) by (intros; rewrite Nn; apply (rows_pos k p); auto).
  assert (Ip : forall i, (i < d)%nat -> 0 < inv new i) by (intros; apply inv_pos; auto).
  assert (Op : forall i, (i < d)%nat -> 0 < row_sum d (pC K) i) by (intros; apply (rows_pos d d); auto).
  assert (KE : forall i j, K' i j = pC K i j * exp (alpha * ln (row_sum d (pC K) i) + (1 - alpha) * ln (inv new i)) / Rmax (row_sum d (pC K) i) lo).
  { intros i j. rewrite <- E1, projR_R, delta_R, E3. rewrite rows_R. reflexivity. }
  assert (K0E : forall r c, K0' r c = rsum d (fun i => D i r * (exp (alpha * ln (row_sum d (pC K) i) + (1 - alpha) * ln (inv new i)) / inv new i)) * pC0 K0 r c).
  { intros r c. rewrite <- E2, scale_R, E3. f_equal. apply rsum_ext; intros. rewrite delta_R, rows_R. reflexivity. }
  constructor; auto.
  - intros i j Hi Hj. rewrite KE. apply Rdiv_lt_0_compat; [apply Rmult_lt_0_compat; [auto|apply exp_pos]|apply max_pos].
  - intros r c Hr Hc. rewrite K0E. apply Rmult_lt_0_compat; [|auto]. destruct Hd as (D1 & D2 & D3). destruct (col_entry r Hr) as (i & Hi & P).
    set (f := fun i => D i r * (exp (alpha * ln (row_sum d (pC K) i) + (1 - alpha) * ln (inv new i)) / inv new i)).
    apply Rlt_le_trans with (f i). { unfold f. apply Rmult_lt_0_compat; auto. apply Rdiv_lt_0_compat; [apply exp_pos|auto]. }
    apply (rsum_le_one d f i); [|auto]. intros. unfold f. apply Rmult_le_pos; auto. apply Rlt_le, Rdiv_lt_0_compat; [apply exp_pos|auto].
Qed.

Lemma iter_pos : forall t, posm d d (fst (iter t)) /\ posm k p (snd (iter t)).
Proof.
  induction t as [|t [IH1 IH2]].
  - split; intros i j _ _; apply exp_pos.
  - cbn [iter]. destruct (iter t) as [K K0]. cbn [fst snd] in *. destruct (step K K0) as [[K' K0'] new] eqn:E.
    pose proof (step_spec _ _ _ _ _ IH1 IH2 E) as S. split; apply S.
Qed.

(** ** the mass of h *)
Lemma step_mass : forall K K0 K' K0' new, posm d d K -> posm k p K0 -> step K K0 = (K', K0', new) ->
  rsum k (fun r => row_sum p K0' r) <= alpha * rsum d a + (1 - alpha) * rsum p h0.
Proof.
  intros K K0 K' K0' new HK HK0 E. pose proof (step_spec _ _ _ _ _ HK HK0 E) as S. destruct S as [SK SK0 Sn Snp Si So SKe SK0e].
  set (de := fun i => exp (alpha * ln (row_sum d (pC K) i) + (1 - alpha) * ln (inv new i))) in *.
  assert (A : rsum k (fun r => row_sum p K0' r) = rsum d de).
  { rewrite (rsum_ext k _ (fun r => rsum d (fun i => D i r * (de i / inv new i) * new r))).
    - rewrite rsum_swap. apply rsum_ext; intros i Hi. rewrite (rsum_ext k _ (fun r => de i / inv new i * (D i r * new r))) by (intros; ring).
      rewrite rsum_scal, <- inv_R. field. pose proof (Si i Hi). lra.
    - intros r Hr. rewrite rsum_scal_r, Sn. unfold row_sum at 1. rewrite (rsum_ext p _ (fun c => rsum d (fun i => D i r * (de i / inv new i)) * pC0 K0 r c)) by (intros; rewrite SK0e; reflexivity).
      rewrite rsum_scal. reflexivity. }
  rewrite A.
  assert (B : rsum d de <= rsum d (fun i => alpha * row_sum d (pC K) i + (1 - alpha) * inv new i)).
  { apply rsum_le; intros. apply agm; auto. }
  rewrite rsum_plus, !rsum_scal in B.
  assert (C1 : rsum d (fun i => row_sum d (pC K) i) <= rsum d a).
  { rewrite total_swap. apply rsum_le; intros. apply projC_col_le. apply Rlt_le; auto. }
  assert (C2 : rsum d (inv new) <= rsum p h0).
  { rewrite (rsum_ext d (inv new) (fun i => rsum k (fun r => D i r * new r))) by (intros; apply inv_R).
    rewrite rsum_swap. rewrite (rsum_ext k _ new).
    - rewrite (rsum_ext k new (fun r => row_sum p (pC0 K0) r)) by (intros; apply Sn). rewrite total_swap. apply rsum_le; intros. apply projC_col_le. apply Rlt_le; auto.
    - intros r Hr. rewrite rsum_scal_r. destruct Hd as (_ & D2 & _). rewrite D2 by auto. ring. }
  assert (alpha * rsum d (fun i => row_sum d (pC K) i) <= alpha * rsum d a) by (apply Rmult_le_compat_l; lra).
  assert ((1 - alpha) * rsum d (inv new) <= (1 - alpha) * rsum p h0) by (apply Rmult_le_compat_l; lra). 
  change (rsum d (fun i => inv new i)) with (rsum d (inv new)) in B. eapply Rle_trans; [exact B|]. apply Rplus_le_compat; assumption.
Qed.

(** ** alpha = 0: the prior alone *)
Definition prior_row (r : nat) : R := row_sum p (fun i j => exp (- M0 i j / reg0) * h0 j / col_sum k (fun l c => exp (- M0 l c / reg0)) j) r.

Lemma pC0_ext : forall (A B : rmat), (forall r c, (r < k)%nat -> (c < p)%nat -> A r c = B r c) -> forall r c, (r < k)%nat -> (c < p)%nat -> pC0 A r c = pC0 B r c.
Proof.
  intros A B E r c Hr Hc. unfold um_C0. rewrite !projC_R, E by auto. replace (col_sum k A c) with (col_sum k B c); [reflexivity|].
  unfold col_sum. apply rsum_ext; intros. rewrite E; auto.
Qed.

Lemma step_zero : forall K K0 K' K0' new, alpha = 0 -> posm d d K -> posm k p K0 -> step K K0 = (K', K0', new) ->
  forall r c, (r < k)%nat -> (c < p)%nat -> K0' r c = pC0 K0 r c.
Proof.
  intros K K0 K' K0' new H0 HK HK0 E r c Hr Hc. pose proof (step_spec _ _ _ _ _ HK HK0 E) as S. destruct S as [SK SK0 Sn Snp Si So SKe SK0e].
  rewrite SK0e. rewrite (rsum_ext d _ (fun i => D i r)).
  - destruct Hd as (_ & D2 & _). rewrite D2 by auto. toR; ring.
  - intros i Hi. rewrite H0. replace (0 * ln (row_sum d (pC K) i) + (1 - 0) * ln (inv new i)) with (ln (inv new i)) by ring.
    rewrite exp_ln by auto. toR; field. pose proof (Si i Hi). change (inv new i <> 0). lra.
Qed.

Lemma iter_zero : alpha = 0 -> (forall j, (j < p)%nat -> lo <= h0 j) -> (forall j, (j < p)%nat -> lo <= col_sum k K0_ j) ->
  forall t r c, (r < k)%nat -> (c < p)%nat -> snd (iter (S t)) r c = pC0 K0_ r c.
Proof.
  intros H0 Hh Hc t. induction t as [|t IH]; intros r c Hr Hcc.
  - cbn [iter]. destruct (step K_ K0_) as [[K' K0'] new] eqn:E. cbn [snd]. eapply step_zero; eauto; apply (iter_pos 0).
  - pose proof (iter_pos (S t)) as [P1 P2]. remember (S t) as s. cbn [iter]. destruct (iter s) as [K K0]. cbn [fst snd] in *.
    destruct (step K K0) as [[K' K0'] new] eqn:E. cbn [snd]. rewrite (step_zero _ _ _ _ _ H0 P1 P2 E r c Hr Hcc).
    rewrite (pC0_ext K0 (pC0 K0_) IH r c Hr Hcc). apply projC_id; auto. apply projC_col_eq; auto.
Qed.

Lemma prior_rows : (forall j, (j < p)%nat -> lo <= col_sum k K0_ j) -> forall r, row_sum p (pC0 K0_) r = prior_row r.
Proof.
  intros Hc r. unfold prior_row, row_sum. apply rsum_ext; intros j Hj. unfold um_C0. rewrite projC_R.
  assert (E : forall l c, K0_ l c = exp (- M0 l c / reg0)). { intros. unfold um_K0, nopp. cbn [nsub ndiv RNum]. change (@n0 RNum) with 0. f_equal. unfold Rdiv. ring. }
  assert (F : col_sum k K0_ j = col_sum k (fun l c => exp (- M0 l c / reg0)) j) by (unfold col_sum; apply rsum_ext; intros; apply E).
  rewrite Rmax_left by (apply Hc; auto). rewrite F, E. reflexivity.
Qed.

(** ** identity dictionary *)
Definition identity : Prop := d = k /\ forall i r, (i < d)%nat -> (r < k)%nat -> D i r = if Nat.eqb i r then 1 else 0.

Lemma id_sum : identity -> forall r (f : rvec), (r < k)%nat -> rsum d (fun i => D i r * f i) = f r.
Proof.
  clear lo_pos Hd a_pos h_pos dp pp al01. intros [Ek HI] r f Hr. rewrite (rsum_single d r (fun i => D i r * f i)).
  - rewrite HI by lia. rewrite Nat.eqb_refl. ring.
  - lia.
  - intros i Hi Ne. rewrite HI by lia. rewrite (proj2 (Nat.eqb_neq i r) Ne). ring.
Qed.
Lemma id_inv : identity -> forall new i, (i < d)%nat -> inv new i = new i.
Proof.
  clear lo_pos Hd a_pos h_pos dp pp al01. intros [Ek HI] new i Hi. rewrite inv_R. rewrite (rsum_single k i (fun r => D i r * new r)).
  - rewrite HI by lia. rewrite Nat.eqb_refl. toR; ring.
  - lia.
  - intros r Hr Ne. rewrite HI by lia. rewrite (proj2 (Nat.eqb_neq i r)) by auto. toR; ring.
Qed.

Lemma step_id : identity -> forall K K0 K' K0' new, posm d d K -> posm k p K0 -> step K K0 = (K', K0', new) ->
  forall r c, (r < k)%nat -> (c < p)%nat -> K0' r c = exp (alpha * ln (row_sum d (pC K) r) + (1 - alpha) * ln (new r)) / new r * pC0 K0 r c.
Proof.
  intros HI K K0 K' K0' new HK HK0 E r c Hr Hc. pose proof (step_spec _ _ _ _ _ HK HK0 E) as S. rewrite (so_K0eq _ _ _ _ _ S).
  rewrite (id_sum HI r (fun i => exp (alpha * ln (row_sum d (pC K) i) + (1 - alpha) * ln (inv new i)) / inv new i) Hr).
  rewrite (id_inv HI) by (destruct HI; lia). reflexivity.
Qed.

(** alpha = 1: the data alone *)
Lemma step_one : alpha = 1 -> forall K K0 K' K0' new, posm d d K -> posm k p K0 -> step K K0 = (K', K0', new) ->
  (forall i, (i < d)%nat -> lo <= row_sum d (pC K) i) -> forall i j, (i < d)%nat -> (j < d)%nat -> K' i j = pC K i j.
Proof.
  intros H1 K K0 K' K0' new HK HK0 E Hl i j Hi Hj. pose proof (step_spec _ _ _ _ _ HK HK0 E) as S. rewrite (so_Keq _ _ _ _ _ S), H1.
  replace (1 * ln (row_sum d (pC K) i) + (1 - 1) * ln (inv new i)) with (ln (row_sum d (pC K) i)) by ring.
  pose proof (so_other _ _ _ _ _ S i Hi). rewrite exp_ln by auto. rewrite Rmax_left by auto. toR; field. lra.
Qed.

Lemma pC_ext : forall (A B : rmat), (forall r c, (r < d)%nat -> (c < d)%nat -> A r c = B r c) -> forall r c, (r < d)%nat -> (c < d)%nat -> pC A r c = pC B r c.
Proof.
  intros A B E r c Hr Hc. unfold um_C. rewrite !projC_R, E by auto. replace (col_sum d A c) with (col_sum d B c); [reflexivity|].
  unfold col_sum. apply rsum_ext; intros. rewrite E; auto.
Qed.

Lemma iter_one : alpha = 1 -> identity -> (forall i, (i < d)%nat -> lo <= a i) -> (forall j, (j < d)%nat -> lo <= col_sum d K_ j) ->
  (forall i, (i < d)%nat -> lo <= row_sum d (pC K_) i) ->
  forall t, (forall i j, (i < d)%nat -> (j < d)%nat -> pC (fst (iter t)) i j = pC K_ i j) /\
  forall r, (r < k)%nat -> row_sum p (snd (iter (S t))) r = row_sum d (pC K_) r.
Proof.
  intros H1 HI Ha Hc Hrow.
  assert (RS : forall K, (forall i j, (i < d)%nat -> (j < d)%nat -> pC K i j = pC K_ i j) -> forall i, (i < d)%nat -> row_sum d (pC K) i = row_sum d (pC K_) i).
  { intros K E i Hi. unfold row_sum. apply rsum_ext; auto. }
  assert (P : forall t, forall i j, (i < d)%nat -> (j < d)%nat -> pC (fst (iter t)) i j = pC K_ i j).
  { induction t as [|t IH]; [reflexivity|]. pose proof (iter_pos t) as [P1 P2]. cbn [iter]. destruct (iter t) as [K K0]. cbn [fst snd] in *.
    destruct (step K K0) as [[K' K0'] new] eqn:E. cbn [fst]. intros i j Hi Hj.
    assert (EK : forall i j, (i < d)%nat -> (j < d)%nat -> K' i j = pC K_ i j).
    { intros i' j' Hi' Hj'. rewrite (step_one H1 _ _ _ _ _ P1 P2 E); auto. intros. rewrite RS; auto. }
    rewrite (pC_ext K' (pC K_) EK i j Hi Hj). apply projC_id; auto. apply projC_col_eq; auto. }
  intros t. split; [apply P|]. intros r Hr. specialize (P t). pose proof (iter_pos t) as [P1 P2]. cbn [iter]. destruct (iter t) as [K K0]. cbn [fst snd] in *.
  destruct (step K K0) as [[K' K0'] new] eqn:E. cbn [snd]. pose proof (step_spec _ _ _ _ _ P1 P2 E) as S.
  assert (Hrd : (r < d)%nat) by (destruct HI; lia).
  unfold row_sum at 1. rewrite (rsum_ext p _ (fun c => row_sum d (pC K) r / new r * pC0 K0 r c)).
  - rewrite rsum_scal. assert (EN : rsum p (fun j => pC0 K0 r j) = new r) by (symmetry; apply (so_new _ _ _ _ _ S r)). setoid_rewrite EN. rewrite RS by auto. toR; field. pose proof (so_newpos _ _ _ _ _ S r Hr). lra.
  - intros c Hc'. rewrite (step_id HI _ _ _ _ _ P1 P2 E r c Hr Hc'), H1.
    replace (1 * ln (row_sum d (pC K) r) + (1 - 1) * ln (new r)) with (ln (row_sum d (pC K) r)) by ring.
    rewrite exp_ln; [reflexivity|]. apply (so_other _ _ _ _ _ S r Hrd).
Qed.

(** ** what a fixed point optimises: the scalings stay balanced *)
Definition scaled_by (u v w z : rvec) (K K0 : rmat) : Prop :=
  (forall i j, (i < d)%nat -> (j < d)%nat -> ln (K i j) = ln (K_ i j) + u i + v j) /\
  (forall r c, (r < k)%nat -> (c < p)%nat -> ln (K0 r c) = ln (K0_ r c) + w r + z c) /\
  (forall r, (r < k)%nat -> alpha * u r + (1 - alpha) * w r = 0).

Lemma ln_div : forall x y, 0 < x -> 0 < y -> ln (x / y) = ln x - ln y.
Proof. intros. unfold Rdiv. rewrite ln_mult, ln_Rinv; auto using Rinv_0_lt_compat. Qed.

Ltac posd := solve [auto | apply max_pos | apply exp_pos | apply Rmult_lt_0_compat; auto using exp_pos | apply Rdiv_lt_0_compat; auto using exp_pos].
Lemma iter_scaled : identity -> forall t, (forall s i, (s < t)%nat -> (i < d)%nat -> lo <= row_sum d (pC (fst (iter s))) i) ->
  exists u v w z, scaled_by u v w z (fst (iter t)) (snd (iter t)).
Proof.
  intros HI. induction t as [|t IH]; intros Hl.
  - exists (fun _ => 0), (fun _ => 0), (fun _ => 0), (fun _ => 0). split; [|split]; intros; cbn [iter fst snd]; ring.
  - destruct IH as (u & v & w & z & Su & Sw & Sb). { intros; apply Hl; auto. }
    pose proof (iter_pos t) as [P1 P2]. specialize (Hl t). cbn [iter]. destruct (iter t) as [K K0]. cbn [fst snd] in *.
    destruct (step K K0) as [[K' K0'] new] eqn:E. cbn [fst snd]. pose proof (step_spec _ _ _ _ _ P1 P2 E) as S.
    set (x := fun r => ln (row_sum d (pC K) r)). set (y := fun r => ln (new r)).
    exists (fun i => u i + (1 - alpha) * (y i - x i)), (fun j => v j + (ln (a j) - ln (Rmax (col_sum d K j) lo))),
      (fun r => w r + alpha * (x r - y r)), (fun c => z c + (ln (h0 c) - ln (Rmax (col_sum k K0 c) lo))).
    split; [|split].
    + intros i j Hi Hj. rewrite (so_Keq _ _ _ _ _ S). rewrite (id_inv HI) by auto.
      pose proof (so_other _ _ _ _ _ S i Hi) as Op. rewrite Rmax_left by auto.
      assert (PK : 0 < pC K i j) by (apply (projC_pos d d); auto).
      rewrite ln_div by posd. rewrite ln_mult by posd. rewrite ln_exp.
      assert (EC : ln (pC K i j) = ln (K i j) + (ln (a j) - ln (Rmax (col_sum d K j) lo))).
      { unfold um_C. rewrite projC_R. rewrite ln_div by posd. rewrite ln_mult by posd. ring. }
      rewrite EC, Su by auto. unfold x, y. ring.
    + intros r c Hr Hc. rewrite (step_id HI _ _ _ _ _ P1 P2 E r c Hr Hc).
      assert (PK : 0 < pC0 K0 r c) by (apply (projC_pos k p); auto).
      pose proof (so_newpos _ _ _ _ _ S r Hr) as Np.
      rewrite ln_mult by posd. rewrite ln_div by posd. rewrite ln_exp.
      assert (EC : ln (pC0 K0 r c) = ln (K0 r c) + (ln (h0 c) - ln (Rmax (col_sum k K0 c) lo))).
      { unfold um_C0. rewrite projC_R. rewrite ln_div by posd. rewrite ln_mult by posd. ring. }
      rewrite EC, Sw by auto. unfold x, y. ring.
    + intros r Hr. specialize (Sb r Hr). replace (alpha * (u r + (1 - alpha) * (y r - x r)) + (1 - alpha) * (w r + alpha * (x r - y r))) with (alpha * u r + (1 - alpha) * w r) by ring. exact Sb.
Qed.

(** entropic transport cost of a plan *)
Definition energy (m n : nat) (c : rmat) (e : R) (T : rmat) : R := dsum m n (fun i j => T i j * c i j + e * (T i j * ln (T i j) - T i j)).

Lemma energy_sub : forall m n (c : rmat) e (G T : rmat) u v, 0 < e -> posm m n G -> (forall i j, (i < m)%nat -> (j < n)%nat -> 0 <= T i j) ->
  (forall i j, (i < m)%nat -> (j < n)%nat -> ln (G i j) = - c i j / e + u i + v j) -> (forall j, (j < n)%nat -> col_sum m T j = col_sum m G j) ->
  energy m n c e G / e + rsum m (fun i => u i * (row_sum n T i - row_sum n G i)) <= energy m n c e T / e.
Proof.
  intros m n c e G T u v He HG HT Hl Hc.
  assert (A : dsum m n (fun i j => (G i j * c i j + e * (G i j * ln (G i j) - G i j)) + e * (u i + v j) * (T i j - G i j)) <= energy m n c e T).
  { unfold energy. apply dsum_le; intros i j Hi Hj. pose proof (ent_tangent (G i j) (T i j) (HG i j Hi Hj) (HT i j Hi Hj)) as E.
    apply (Rmult_le_compat_l e) in E; [|lra].
    assert (F : e * (ln (G i j) * (T i j - G i j)) = - c i j * (T i j - G i j) + e * (u i + v j) * (T i j - G i j)) by (rewrite (Hl i j Hi Hj); field; lra).
    lra. }
  rewrite dsum_plus in A. fold (energy m n c e G) in A.
  assert (B : dsum m n (fun i j => e * (u i + v j) * (T i j - G i j)) = e * rsum m (fun i => u i * (row_sum n T i - row_sum n G i))).
  { rewrite (dsum_ext m n _ (fun i j => e * (u i * (T i j - G i j) + v j * (T i j - G i j)))) by (intros; ring).
    rewrite dsum_scal, dsum_plus. f_equal. rewrite (dsum_row m n u (fun i j => T i j - G i j)), (dsum_col m n v (fun i j => T i j - G i j)).
    rewrite (rsum_0 n (fun j => v j * _)).
    - rewrite Rplus_0_r. apply rsum_ext; intros. unfold row_sum. rewrite rsum_minus. reflexivity.
    - intros j Hj. specialize (Hc j Hj). unfold col_sum in *. rewrite rsum_minus, Hc. ring. }
  rewrite B in A. apply Rmult_le_reg_l with e; auto. replace (e * (energy m n c e T / e)) with (energy m n c e T) by (field; lra).
  replace (e * (energy m n c e G / e + rsum m (fun i => u i * (row_sum n T i - row_sum n G i)))) with (energy m n c e G + e * rsum m (fun i => u i * (row_sum n T i - row_sum n G i))) by (field; lra). exact A.
Qed.

Lemma lnK : 0 < reg -> forall i j, ln (K_ i j) = - M i j / reg.
Proof. intros Hr i j. unfold um_K, nopp. cbn [nsub ndiv RNum]. change (@n0 RNum) with 0. rewrite ln_exp. unfold Rdiv. ring. Qed.
Lemma lnK0 : 0 < reg0 -> forall i j, ln (K0_ i j) = - M0 i j / reg0.
Proof. intros Hr i j. unfold um_K0, nopp. cbn [nsub ndiv RNum]. change (@n0 RNum) with 0. rewrite ln_exp. unfold Rdiv. ring. Qed.

Lemma fixed_opt : identity -> 0 < reg -> 0 < reg0 -> forall t,
  (forall s i, (s < t)%nat -> (i < d)%nat -> lo <= row_sum d (pC (fst (iter s))) i) ->
  let G := fst (iter t) in let G0 := snd (iter t) in
  (forall i, (i < d)%nat -> row_sum d G i = row_sum p G0 i) ->
  forall T T0 : rmat, (forall i j, (i < d)%nat -> (j < d)%nat -> 0 <= T i j) -> (forall i j, (i < k)%nat -> (j < p)%nat -> 0 <= T0 i j) ->
  (forall j, (j < d)%nat -> col_sum d T j = col_sum d G j) -> (forall j, (j < p)%nat -> col_sum k T0 j = col_sum k G0 j) ->
  (forall i, (i < d)%nat -> row_sum d T i = row_sum p T0 i) ->
  alpha / reg * energy d d M reg G + (1 - alpha) / reg0 * energy k p M0 reg0 G0
  <= alpha / reg * energy d d M reg T + (1 - alpha) / reg0 * energy k p M0 reg0 T0.
Proof.
  intros HI Hr Hr0 t Hl G G0 Heq T T0 HT HT0 Hc Hc0 HeqT. destruct (iter_scaled HI t Hl) as (u & v & w & z & Su & Sw & Sb).
  pose proof (iter_pos t) as [P1 P2]. fold G in Su, P1. fold G0 in Sw, P2.
  assert (A : energy d d M reg G / reg + rsum d (fun i => u i * (row_sum d T i - row_sum d G i)) <= energy d d M reg T / reg).
  { apply energy_sub with v; auto. intros. rewrite Su by auto. rewrite lnK by auto. ring. }
  assert (B : energy k p M0 reg0 G0 / reg0 + rsum k (fun i => w i * (row_sum p T0 i - row_sum p G0 i)) <= energy k p M0 reg0 T0 / reg0).
  { apply energy_sub with z; auto. intros. rewrite Sw by auto. rewrite lnK0 by auto. ring. }
  destruct HI as [Ek _].
  assert (C : alpha * rsum d (fun i => u i * (row_sum d T i - row_sum d G i)) + (1 - alpha) * rsum k (fun i => w i * (row_sum p T0 i - row_sum p G0 i)) = 0).
  { rewrite <- Ek in *. rewrite <- !rsum_scal, <- rsum_plus. apply rsum_0; intros i Hi. rewrite HeqT, Heq by auto.
    replace (alpha * (u i * (row_sum p T0 i - row_sum p G0 i)) + (1 - alpha) * (w i * (row_sum p T0 i - row_sum p G0 i))) with ((alpha * u i + (1 - alpha) * w i) * (row_sum p T0 i - row_sum p G0 i)) by ring.
    rewrite Sb by auto. ring. }
  apply (Rmult_le_compat_l alpha) in A; [|lra]. apply (Rmult_le_compat_l (1 - alpha)) in B; [|lra]. unfold Rdiv in *. lra.
Qed.

(** ** the loop *)
Notation loop := (um_loop (N:=RNum) exp ln).
Lemma loop_iter : forall norm thr left t q old errs r, loop norm lo d k p a D h0 alpha left t thr (fst (iter t)) (snd (iter t)) q old errs = UmOk r ->
  exists s, (t <= s <= t + left)%nat /\ ((0 < left)%nat -> (t < s)%nat) /\ um_h r = rows (N:=RNum) p (snd (iter s)) /\
    (um_end r = UmMaxIter -> s = (t + left)%nat) /\ (forall ii, um_end r = UmConverged ii -> s = S ii) /\ length (um_err r) = (length errs + (s - t))%nat.
Proof.
  clear lo_pos Hd a_pos h_pos dp pp al01. intros norm thr. induction left as [|left IH]; intros t q old errs r E.
  - cbn [um_loop] in E. injection E as <-. exists t. cbn [um_h um_end um_err]. repeat split; try lia; try discriminate.
  - cbn [um_loop] in E. pose proof (IH (S t)) as IH'. cbn [iter] in IH'. destruct (iter t) as [K K0] eqn:Et. cbn [fst snd] in E.
    destruct (step K K0) as [[K' K0'] new] eqn:Es. cbn [fst snd] in IH'. destruct (um_diff norm k (rows p K0') q old) as [err|]; [|discriminate].
    destruct (nltb err thr).
    + injection E as <-. exists (S t). cbn [um_h um_end um_err]. cbn [iter]. rewrite Et, Es. cbn [snd]. rewrite app_length. cbn [length].
      repeat split; try lia; try discriminate. 
      * intros ii X. injection X as ->. reflexivity.
      * replace (S t - t)%nat with 1%nat by lia. reflexivity.
    + destruct (IH' _ _ _ _ E) as (s & H1 & H2 & H3 & H4 & H5 & H6). exists s. rewrite app_length in H6. cbn [length] in H6.
      split; [lia|]. split; [lia|]. split; [auto|]. split; [intros X; rewrite (H4 X); lia|]. split; [auto|]. rewrite H6. rewrite <- Nat.add_assoc. f_equal. lia.
Qed.
End U.
