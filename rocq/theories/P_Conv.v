(** C155: barycenters of images by convolutions (ot/bregman/_convolutional.py), exact reals.
    Pixels of a w x h image are numbered row by row, q <-> (q / h, q mod h); [flat h A] has image s as
    its column s and [grid_cost w h q r] is the squared distance of the two pixels on the unit square.
    The objective, the feasible families and the geometric mean are those of C121-C124 (P_Bary). *)
From Coq Require Import Reals Lra Lia Arith Bool List.
Import ListNotations.
From Verif Require Import Num Sums Spec Duals_proofs Entropy Emd1d_model Emd1d_perm_proofs Sinkhorn_model Sinkhorn_proofs Bary_model Bary_proofs Bary_more Bary_loops Bary_deb P_Bary Conv_model Conv_proofs Conv_psd.
Local Open Scope R_scope.

(** The separable convolution is the product with the Gibbs kernel of the squared distance between
    pixels, and the log-domain one is its logarithm on exponentials; the kernel is symmetric and
    positive semi-definite for every image size. *)
Theorem C155_convolution : forall w h reg, (0 < w)%nat -> (0 < h)%nat -> 0 < reg ->
  (forall X k i j, (i < w)%nat -> (j < h)%nat -> convol (N:=RNum) exp w h reg X k i j =
     rsum w (fun m => rsum h (fun l => exp (- ((pix w i - pix w m) ^ 2 + (pix h j - pix h l) ^ 2) / reg) * X k m l))) /\
  (forall (X : nat -> nat -> R) i j, (i < w)%nat -> (j < h)%nat -> exp (convol_log (N:=RNum) exp ln w h reg X i j) =
     rsum w (fun m => rsum h (fun l => exp (- ((pix w i - pix w m) ^ 2 + (pix h j - pix h l) ^ 2) / reg) * exp (X m l)))) /\
  (forall q r, grid_cost w h q r = grid_cost w h r q) /\
  (forall z, 0 <= rsum (w * h) (fun q => rsum (w * h) (fun r => z q * exp (- grid_cost w h q r / reg) * z r))).
Proof.
  intros w h reg Hw Hh Hr.
  assert (Q : forall i j, (i < w)%nat -> (j < h)%nat -> (i * h + j < w * h)%nat) by (intros; nia).
  split; [|split; [|split]].
  - intros X k i j Hi Hj. pose proof (convol_R w h reg Hh Hr X k (i * h + j) (Q i j Hi Hj)) as E. unfold flat in E at 1.
    destruct (q_of h i j Hj) as [E1 E2]. rewrite E1, E2 in E. rewrite E.
    rewrite (flat_sum h w (fun m l => exp (- ((pix w i - pix w m) ^ 2 + (pix h j - pix h l) ^ 2) / reg) * X k m l) Hh).
    apply rsum_ext. intros r Hr'. unfold grid_cost. rewrite E1, E2. reflexivity.
  - intros X i j Hi Hj. pose proof (convol_log_R w h reg Hw Hh Hr X (i * h + j) (Q i j Hi Hj)) as E. unfold flat1 in E at 1.
    destruct (q_of h i j Hj) as [E1 E2]. rewrite E1, E2 in E. rewrite E. rewrite exp_ln.
    + rewrite (flat_sum h w (fun m l => exp (- ((pix w i - pix w m) ^ 2 + (pix h j - pix h l) ^ 2) / reg) * exp (X m l)) Hh).
      apply rsum_ext. intros r Hr'. rewrite exp_plus. unfold grid_cost. rewrite E1, E2. reflexivity.
    + apply rsum_pos; [nia|]. intros; apply exp_pos.
  - intros; apply grid_sym.
  - apply grid_psd; auto.
Qed.
Print Assumptions C155_convolution.

(** shift introduced by the stabilisation: sum_s wt_s log(1 + stab / KU_js) *)
Definition stab_shift (nh : nat) (wt : vec) (stab : R) (KU : mat) (j : nat) : R := rsum nh (fun s => wt s * ln (1 + stab / KU j s)).

Lemma obj_ext : forall n nh wt M reg (P Q : nat -> mat), (forall t i j, (t < nh)%nat -> (i < n)%nat -> (j < n)%nat -> P t i j = Q t i j) -> bary_obj n nh wt M reg P = bary_obj n nh wt M reg Q.
Proof.
  intros n nh wt M reg P Q H. unfold bary_obj. apply rsum_ext. intros t Ht. f_equal. unfold ent_obj, cost, ent. f_equal; [|f_equal]; apply rsum_ext; intros i Hi; apply rsum_ext; intros j Hj; rewrite H by auto; reflexivity.
Qed.

Section PC.
Variables (w h : nat) (reg : R) (nh : nat) (A : nat -> nat -> nat -> R) (wt : vec) (stab : R).
Notation n := (w * h)%nat.
Notation M := (grid_cost w h).
Notation K := (gibbsK (grid_cost w h) reg).
Notation A' := (flat h A).

Section Plain.
Hypotheses (Hw0 : (0 < w)%nat) (Hh0 : (0 < h)%nat) (Hreg : 0 < reg) (Hst : 0 <= stab).
Hypotheses (HA : histograms n nh A') (Hwt : bary_coords nh wt).

(** what two steps give *)
Lemma two_post : forall deb k, let st := stp w h reg nh A wt stab deb in let ci := citer w h reg nh A wt stab deb in
  let s := ci (S (S k)) in let V := flat h (cs_V s) in let Vp := flat h (cs_V (ci (S k))) in let b := flat1 h (cs_bar (ci (S k))) in
  let P := scal_plan n K A' V in
  pos_mat n nh V /\ pos_mat n nh Vp /\ pos_vec n b /\ pos_vec n (flat1 h (cs_bar s)) /\ pos_vec n (cfac h deb (ci k)) /\
  (forall j t, (j < n)%nat -> (t < nh)%nat -> V j t * ktv n M reg A' Vp j t = b j) /\
  (forall t i j, (t < nh)%nat -> (i < n)%nat -> (j < n)%nat -> P t i j = flat h (cs_U s) i t * K i j * flat h (cs_V s) j t) /\
  (forall t i, (t < nh)%nat -> (i < n)%nat -> row_sum n (P t) i = A' i t) /\
  (forall j, (j < n)%nat -> tilt nh wt V j = ln (cfac h deb (ci k) j) + stab_shift nh wt stab (ktv n M reg A' Vp) j) /\
  (forall j, (j < n)%nat -> flat1 h (cs_bar s) j * (cfac h deb (ci k) j * exp (stab_shift nh wt stab (ktv n M reg A' Vp) j)) =
     cfac h deb (ci (S k)) j * (gmean_w nh wt (fun j t => col_sum n (P t) j) j * exp (stab_shift nh wt stab (ktv n M reg A' V) j))) /\
  cv_err (N:=RNum) popstd w h nh s = rsum n (fun i => popstd nh (scal_col n K A' V i)).
Proof.
  intros deb k st ci s V Vp b P.
  pose proof (fun i => citer_pos w h reg Hw0 Hh0 Hreg nh A wt stab (proj1 HA) (proj2 HA) deb i) as CP. fold ci in CP.
  assert (H2 : half_ok w h reg nh A (ci (S k)) V (flat h (cs_U s)) (flat h (cs_KU s))).
  { unfold V, s. cbn [citer ci]. fold ci. unfold ci at 2 3 4. cbn [citer]. fold ci. rewrite stp_V, stp_U, stp_KU. apply (half_spec w h reg Hh0 Hreg nh A (proj1 HA) (proj2 HA)). apply (CP (S k)). }
  assert (H1 : half_ok w h reg nh A (ci k) Vp (flat h (cs_U (ci (S k)))) (flat h (cs_KU (ci (S k))))).
  { unfold Vp. unfold ci at 2 3 4. cbn [citer]. fold ci. rewrite stp_V, stp_U, stp_KU. apply (half_spec w h reg Hh0 Hreg nh A (proj1 HA) (proj2 HA)). apply (CP k). }
  assert (SH1 : forall j, (j < n)%nat -> stab_shift nh wt stab (ktv n M reg A' Vp) j = shift nh wt stab (flat h (cs_KU (ci (S k)))) j).
  { intros j Hj. unfold stab_shift, shift. apply rsum_ext. intros t Ht. rewrite (ho_KU _ _ _ _ _ _ _ _ _ H1) by auto. reflexivity. }
  assert (SH2 : forall j, (j < n)%nat -> stab_shift nh wt stab (ktv n M reg A' V) j = shift nh wt stab (flat h (cs_KU s)) j).
  { intros j Hj. unfold stab_shift, shift. apply rsum_ext. intros t Ht. rewrite (ho_KU _ _ _ _ _ _ _ _ _ H2) by auto. reflexivity. }
  assert (PV := ho_Vpos _ _ _ _ _ _ _ _ _ H2).
  split; [exact PV|]. split; [apply H1|]. split; [exact (proj1 (CP (S k)))|]. split; [exact (proj1 (CP (S (S k))))|].
  split; [intros j Hj; unfold cfac; destruct deb; [apply (proj2 (proj2 (CP k))); auto|lra]|]. split; [|split; [|split; [|split; [|split]]]].
  - intros j t Hj Ht. rewrite (ho_V _ _ _ _ _ _ _ _ _ H2) by auto. rewrite <- (ho_KU _ _ _ _ _ _ _ _ _ H1) by auto. unfold b. field. pose proof (ho_KUpos _ _ _ _ _ _ _ _ _ H1 j t Hj Ht). lra.
  - intros t i j Ht Hi Hj. unfold P, scal_plan. rewrite (ho_U _ _ _ _ _ _ _ _ _ H2) by auto. reflexivity.
  - intros t i Ht Hi. apply (plan_row n nh M reg A'); auto.
  - intros j Hj. rewrite SH1 by auto. unfold V, s, ci. cbn [citer]. apply (two_tilt w h reg Hw0 Hh0 Hreg nh A wt stab (proj1 HA) (proj2 HA) Hst deb); auto; try apply Hwt.
  - intros j Hj. rewrite SH1, SH2 by auto. unfold P, gibbsK. rewrite <- (gmean_cols n nh M reg A' wt). unfold V, s, ci. cbn [citer]. apply (two_bar w h reg Hw0 Hh0 Hreg nh A wt stab (proj1 HA) (proj2 HA) Hst deb); auto; try apply Hwt.
  - rewrite (err_R w h Hh0 nh). apply rsum_ext. intros q Hq.
    assert (E : forall t, (t < nh)%nat -> flat h (cs_V s) q t * flat h (cs_KU s) q t = scal_col n K A' V q t).
    { intros t Ht. unfold gibbsK. rewrite scal_col_ktv. rewrite (ho_KU _ _ _ _ _ _ _ _ _ H2) by auto. reflexivity. }
    unfold popstd. rewrite (rsum_ext nh (fun t => flat h (cs_V s) q t * flat h (cs_KU s) q t) (scal_col n K A' V q)) by auto. f_equal. f_equal. apply rsum_ext. intros t Ht. rewrite E by auto. reflexivity.
Qed.

Lemma ran : forall deb thr it late (run := cv_loop (N:=RNum) popstd w h nh (stp w h reg nh A wt stab deb) late thr it 0 (cv_start (N:=RNum) exp w h reg) []), (2 <= it)%nat ->
  (forall j, snd run <> NumErr j) /\ exists k, fst (fst run) = citer w h reg nh A wt stab deb (S (S k)) /\
  (forall j, snd run = Converged j -> Nat.modulo j 10 = 9%nat /\ late j = true /\ cv_err (N:=RNum) popstd w h nh (fst (fst run)) < thr).
Proof.
  clear Hreg Hst HA Hwt. intros deb thr it late run Hit. destruct (loop_post w h reg Hw0 Hh0 nh A wt stab deb popstd late thr it 0 []) as (k & K1 & K2 & K3 & K4 & K5).
  change (citer w h reg nh A wt stab deb 0) with (cv_start (N:=RNum) exp w h reg) in K2, K3, K4, K5. fold run in K2, K3, K4, K5.
  split; [exact K4|].
  assert (K6 : (2 <= k)%nat).
  { destruct (snd run) as [j|j|] eqn:EX; [destruct (K5 j eq_refl) as (X & Y & _)|exfalso; apply (K4 j); auto|rewrite K3; auto]. subst k. destruct j; [discriminate|lia]. }
  destruct k as [|[|k]]; [lia|lia|]. exists k. split; [exact K2|]. intros j Hj. destruct (K5 j Hj) as (_ & X & Y & Z). rewrite K2. auto.
Qed.
End Plain.
End PC.

(** convolutional_barycenter2d, method="sinkhorn", two or more iterations.  The U and V of the log are
    scalings of plans whose first marginals are exactly the images.  The returned image is the
    weighted geometric mean of their second marginals, up to the two factors the stabilisation
    introduces; on convergence all second marginals are within 2 sqrt(n_hists) stopThr of their
    geometric mean; and the plans minimise the objective up to the disagreement and a term
    proportional to the shift of the stabilisation.  With stabThr = 0, agreement means optimality.
    With exact arithmetic there is no other exit. *)
Theorem C155_sinkhorn : forall w h reg nh A wt stab thr it log, (0 < w)%nat -> (0 < h)%nat -> 0 < reg -> 0 <= stab ->
  histograms (w * h) nh (flat h A) -> bary_coords nh wt -> (2 <= it)%nat ->
  let n := (w * h)%nat in let M := grid_cost w h in let K := gibbsK M reg in let A' := flat h A in
  exists run, conv_barycenter2d (N:=RNum) exp ln popstd w h reg nh A wt stab it thr log = Some run /\ (forall k, snd run <> NumErr k) /\
  let s := fst (fst run) in let a := flat1 h (cs_bar s) in let V := flat h (cs_V s) in let U := flat h (cs_U s) in
  let P := fun t i j => U i t * K i j * V j t in let cols := fun j t => col_sum n (P t) j in
  exists Vp b, let shift0 := stab_shift nh wt stab (ktv n M reg A' Vp) in let shift1 := stab_shift nh wt stab (ktv n M reg A' V) in
  pos_mat n nh V /\ pos_mat n nh Vp /\ pos_vec n a /\
  (forall j t, (j < n)%nat -> (t < nh)%nat -> V j t * ktv n M reg A' Vp j t = b j) /\
  (forall t i, (t < nh)%nat -> (i < n)%nat -> row_sum n (P t) i = A' i t) /\
  (forall j, (j < n)%nat -> a j * exp (shift0 j) = gmean_w nh wt cols j * exp (shift1 j)) /\
  rsum n (gmean_w nh wt cols) <= rsum nh (fun t => wt t * rsum n (fun i => A' i t)) /\
  (forall k, snd run = Converged k -> Nat.modulo k 10 = 9%nat /\ forall j t, (j < n)%nat -> (t < nh)%nat -> Rabs (cols j t - gmean_w nh wt cols j) <= 2 * sqrt (INR nh) * thr) /\
  (forall P' a', bary_feasible n nh A' P' a' -> bary_obj n nh wt M reg P <= bary_obj n nh wt M reg P'
    + reg * rsum nh (fun t => wt t * rsum n (fun j => ln (V j t) * (cols j t - a j))) + reg * rsum n (fun j => shift0 j * (a j - a' j))) /\
  (stab = 0 -> (forall j, (j < n)%nat -> a j = gmean_w nh wt cols j) /\
     ((forall j t, (j < n)%nat -> (t < nh)%nat -> cols j t = a j) -> bary_optimal n nh A' wt M reg P a)).
Proof.
  intros w h reg nh A wt stab thr it log Hw0 Hh0 Hreg Hst HA Hwt Hit n M K A'.
  destruct (ran w h reg nh A wt stab Hw0 Hh0 false thr it (fun _ => true) Hit) as (R1 & k & R2 & R3).
  set (run := cv_loop (N:=RNum) popstd w h nh (stp w h reg nh A wt stab false) (fun _ => true) thr it 0 (cv_start (N:=RNum) exp w h reg) []) in *.
  exists run. split; [unfold conv_barycenter2d, guard_log; replace (Nat.eqb it 0) with false by (symmetry; apply Nat.eqb_neq; lia); rewrite andb_false_r; reflexivity|].
  split; [exact R1|]. intros s a V U P cols.
  destruct (two_post w h reg nh A wt stab Hw0 Hh0 Hreg Hst HA Hwt false k) as (B1 & B2 & B3 & B4 & B5 & B6 & B7 & B8 & B9 & B10 & B11).
  rewrite <- R2 in *. fold s in B1, B4, B6, B7, B8, B9, B10, B11. fold V in B1, B6, B7, B8, B9, B10, B11. fold a in B4, B10.
  set (Vp := flat h (cs_V (citer w h reg nh A wt stab false (S k)))) in *. set (b := flat1 h (cs_bar (citer w h reg nh A wt stab false (S k)))) in *.
  fold n M A' K in B1, B2, B3, B4, B6, B7, B8, B9, B10, B11. fold U in B7.
  assert (PE : forall t i j, (t < nh)%nat -> (i < n)%nat -> (j < n)%nat -> P t i j = scal_plan n K A' V t i j) by (intros; symmetry; apply B7; auto).
  assert (CE : forall j t, (j < n)%nat -> (t < nh)%nat -> cols j t = col_sum n (scal_plan n K A' V t) j) by (intros j t Hj Ht; unfold cols, col_sum; apply rsum_ext; intros; apply PE; auto).
  assert (GE : forall j, (j < n)%nat -> gmean_w nh wt cols j = gmean_w nh wt (fun j t => col_sum n (scal_plan n K A' V t) j) j).
  { intros j Hj. unfold gmean_w. f_equal. apply rsum_ext. intros t Ht. rewrite CE by auto. reflexivity. }
  assert (OE : bary_obj n nh wt M reg P = bary_obj n nh wt M reg (scal_plan n K A' V)).
  { apply obj_ext; auto. }
  assert (TV : forall j, (j < n)%nat -> tilt nh wt V j = stab_shift nh wt stab (ktv n M reg A' Vp) j) by (intros j Hj; rewrite (B9 j Hj); unfold cfac; rewrite ln_1; ring).
  assert (CERT : forall P' a', bary_feasible n nh A' P' a' -> bary_obj n nh wt M reg P <= bary_obj n nh wt M reg P'
    + reg * rsum nh (fun t => wt t * rsum n (fun j => ln (V j t) * (cols j t - a j))) + reg * rsum n (fun j => stab_shift nh wt stab (ktv n M reg A' Vp) j * (a j - a' j))).
  { intros P' a' HF. pose proof (post_cert n nh M reg A' wt Hreg HA Hwt V a (stab_shift nh wt stab (ktv n M reg A' Vp)) B1 TV P' a' HF) as C. fold (gibbsK M reg) in C. fold K in C. rewrite OE.
    rewrite (rsum_ext nh (fun t => wt t * rsum n (fun j => ln (V j t) * (cols j t - a j))) (fun t => wt t * rsum n (fun j => ln (V j t) * (col_sum n (scal_plan n K A' V t) j - a j)))); [exact C|].
    intros t Ht. f_equal. apply rsum_ext. intros j Hj. rewrite CE by auto. reflexivity. }
  assert (ROW : forall t i, (t < nh)%nat -> (i < n)%nat -> row_sum n (P t) i = A' i t).
  { intros t i Ht Hi. rewrite <- (B8 t i Ht Hi). unfold row_sum. apply rsum_ext. intros; apply PE; auto. }
  assert (GEQ : forall j, (j < n)%nat -> a j * exp (stab_shift nh wt stab (ktv n M reg A' Vp) j) = gmean_w nh wt cols j * exp (stab_shift nh wt stab (ktv n M reg A' V) j)).
  { intros j Hj. rewrite GE by auto. specialize (B10 j Hj). unfold cfac in B10. rewrite !Rmult_1_l in B10. exact B10. }
  exists Vp, b. cbv zeta. split; [exact B1|]. split; [exact B2|]. split; [exact B4|]. split; [exact B6|]. split; [exact ROW|]. split; [exact GEQ|].
  split; [|split; [|split; [exact CERT|]]].
  - rewrite (rsum_ext n (gmean_w nh wt cols) (gmean_w nh wt (scal_col n K A' V))) by (intros j Hj; rewrite GE by auto; symmetry; apply (gmean_cols n nh M reg A' wt)).
    apply (mass_le n nh M reg A' wt); auto; try apply HA; apply Hwt.
  - intros j Hj. destruct (R3 j Hj) as (X & _ & L). split; [exact X|]. intros q t Hq Ht. rewrite CE, GE by auto. unfold K, gibbsK. rewrite <- (gmean_cols n nh M reg A' wt).
    apply (dev_cols n nh M reg A' wt HA Hwt V thr B1); auto. fold s in L. rewrite B11 in L. exact L.
  - intros S0. assert (Z : forall X j, stab_shift nh wt stab X j = 0).
    { intros X j. unfold stab_shift. apply rsum_0. intros t Ht. rewrite S0. unfold Rdiv. rewrite Rmult_0_l, Rplus_0_r, ln_1. ring. }
    split.
    + intros j Hj. specialize (GEQ j Hj). rewrite !Z, exp_0 in GEQ. lra.
    + intros HC. split.
      * intros t Ht. split; [|split; [intros i Hi; apply ROW; auto|intros j Hj; apply (HC j t Hj Ht)]].
        intros i j Hi Hj. rewrite PE by auto. apply (plan_nonneg n nh M reg A'); auto. apply HA.
      * intros P' a' HF. eapply Rle_trans; [apply (CERT P' a' HF)|]. rewrite (rsum_0 n (fun j => stab_shift nh wt stab (ktv n M reg A' Vp) j * (a j - a' j))) by (intros; rewrite Z; ring).
        rewrite (rsum_0 nh); [lra|]. intros t Ht. rewrite (rsum_0 n); [ring|]. intros j Hj. rewrite HC by auto. ring.
Qed.
Print Assumptions C155_sinkhorn.

(** convolutional_barycenter2d_debiased, method="sinkhorn", two or more iterations: with c0 and c1 the
    debiasing terms of the two states before the last and g = c0 exp(shift), the plans and g minimise
    the debiased objective up to the disagreement of the second marginals with the returned image and
    the residual of g K g = (mean second marginal).  c1 is ten updates c <- sqrt(c b / (K c)) of c0, b
    the previous image.  When the marginals agree and g K g = a, they are
    optimal.  The kernel being positive semi-definite is proved, not assumed. *)
Theorem C155_debiased : forall w h reg nh A wt stab thr it log, (0 < w)%nat -> (0 < h)%nat -> 0 < reg -> 0 <= stab ->
  histograms (w * h) nh (flat h A) -> bary_coords nh wt -> (2 <= it)%nat ->
  let n := (w * h)%nat in let M := grid_cost w h in let K := gibbsK M reg in let A' := flat h A in
  exists run, conv_barycenter2d_debiased (N:=RNum) exp ln sqrt popstd w h reg nh A wt stab it thr log = Some run /\ (forall k, snd run <> NumErr k) /\
  let s := fst (fst run) in let a := flat1 h (cs_bar s) in let V := flat h (cs_V s) in let U := flat h (cs_U s) in
  let P := fun t i j => U i t * K i j * V j t in let cols := fun j t => col_sum n (P t) j in
  exists Vp b c0 c1, let g := fun j => c0 j * exp (stab_shift nh wt stab (ktv n M reg A' Vp) j) in
  pos_mat n nh V /\ pos_mat n nh Vp /\ pos_vec n a /\ pos_vec n b /\ pos_vec n c0 /\ pos_vec n c1 /\
  (forall j, (j < n)%nat -> c1 j = Nat.iter 10 (debias_update n M reg b) c0 j) /\
  (forall j t, (j < n)%nat -> (t < nh)%nat -> V j t * ktv n M reg A' Vp j t = b j) /\
  (forall t i, (t < nh)%nat -> (i < n)%nat -> row_sum n (P t) i = A' i t) /\
  (forall j, (j < n)%nat -> a j * g j = c1 j * (gmean_w nh wt cols j * exp (stab_shift nh wt stab (ktv n M reg A' V) j))) /\
  (forall k, snd run = Converged k -> (20 < k)%nat /\ Nat.modulo k 10 = 9%nat /\ forall j t, (j < n)%nat -> (t < nh)%nat -> Rabs (cols j t - gmean_w nh wt cols j) <= 2 * sqrt (INR nh) * thr) /\
  (forall P' a' d, bary_feasible n nh A' P' a' -> pos_vec n d -> deb_obj n nh wt M reg P a g <= deb_obj n nh wt M reg P' a' d
    + reg * rsum nh (fun t => wt t * rsum n (fun j => ln (V j t) * (cols j t - a j)))
    + reg * rsum n (fun j => (rsum nh (fun t => wt t * cols j t) / g j - rsum n (fun i => K j i * g i)) * (d j - g j))) /\
  ((forall j t, (j < n)%nat -> (t < nh)%nat -> cols j t = a j) -> (forall j, (j < n)%nat -> g j * rsum n (fun i => K j i * g i) = a j) ->
     bary_feasible n nh A' P a /\ forall P' a' d, bary_feasible n nh A' P' a' -> pos_vec n d -> deb_obj n nh wt M reg P a g <= deb_obj n nh wt M reg P' a' d).
Proof.
  intros w h reg nh A wt stab thr it log Hw0 Hh0 Hreg Hst HA Hwt Hit n M K A'.
  destruct (ran w h reg nh A wt stab Hw0 Hh0 true thr it (fun ii => Nat.ltb 20 ii) Hit) as (R1 & k & R2 & R3).
  set (run := cv_loop (N:=RNum) popstd w h nh (stp w h reg nh A wt stab true) (fun ii => Nat.ltb 20 ii) thr it 0 (cv_start (N:=RNum) exp w h reg) []) in *.
  exists run. split; [unfold conv_barycenter2d_debiased, guard_log; replace (Nat.eqb it 0) with false by (symmetry; apply Nat.eqb_neq; lia); rewrite andb_false_r; reflexivity|].
  split; [exact R1|]. intros s a V U P cols.
  destruct (two_post w h reg nh A wt stab Hw0 Hh0 Hreg Hst HA Hwt true k) as (B1 & B2 & B3 & B4 & B5 & B6 & B7 & B8 & B9 & B10 & B11).
  rewrite <- R2 in *. fold s in B1, B4, B6, B7, B8, B9, B10, B11. fold V in B1, B6, B7, B8, B9, B10, B11. fold a in B4, B10.
  set (Vp := flat h (cs_V (citer w h reg nh A wt stab true (S k)))) in *. set (b := flat1 h (cs_bar (citer w h reg nh A wt stab true (S k)))) in *.
  fold n M A' K in B1, B2, B3, B4, B5, B6, B7, B8, B9, B10, B11. fold U in B7.
  set (c0 := cfac h true (citer w h reg nh A wt stab true k)) in *. set (c1 := cfac h true (citer w h reg nh A wt stab true (S k))) in *.
  assert (C1 : pos_vec n c1) by exact (proj2 (proj2 (citer_pos w h reg Hw0 Hh0 Hreg nh A wt stab (proj1 HA) (proj2 HA) true (S k)))).
  assert (PE : forall t i j, (t < nh)%nat -> (i < n)%nat -> (j < n)%nat -> P t i j = scal_plan n K A' V t i j) by (intros; symmetry; apply B7; auto).
  assert (CE : forall j t, (j < n)%nat -> (t < nh)%nat -> cols j t = col_sum n (scal_plan n K A' V t) j) by (intros j t Hj Ht; unfold cols, col_sum; apply rsum_ext; intros; apply PE; auto).
  assert (CE' : forall j t, (j < n)%nat -> (t < nh)%nat -> cols j t = scal_col n K A' V j t) by (intros j t Hj Ht; rewrite CE by auto; apply (plan_col n M reg A')).
  assert (GE : forall j, (j < n)%nat -> gmean_w nh wt cols j = gmean_w nh wt (fun j t => col_sum n (scal_plan n K A' V t) j) j).
  { intros j Hj. unfold gmean_w. f_equal. apply rsum_ext. intros t Ht. rewrite CE by auto. reflexivity. }
  assert (OE : bary_obj n nh wt M reg P = bary_obj n nh wt M reg (scal_plan n K A' V)) by (apply obj_ext; auto).
  set (g := fun j => c0 j * exp (stab_shift nh wt stab (ktv n M reg A' Vp) j)).
  assert (GP : pos_vec n g) by (intros j Hj; apply Rmult_lt_0_compat; [apply B5; auto|apply exp_pos]).
  assert (TV : forall j, (j < n)%nat -> tilt nh wt V j = ln (g j)) by (intros j Hj; rewrite (B9 j Hj); unfold g; rewrite ln_mult, ln_exp by (auto using exp_pos); reflexivity).
  assert (ROW : forall t i, (t < nh)%nat -> (i < n)%nat -> row_sum n (P t) i = A' i t).
  { intros t i Ht Hi. rewrite <- (B8 t i Ht Hi). unfold row_sum. apply rsum_ext. intros; apply PE; auto. }
  assert (CERT : forall P' a' d, bary_feasible n nh A' P' a' -> pos_vec n d -> deb_obj n nh wt M reg P a g <= deb_obj n nh wt M reg P' a' d
    + reg * rsum nh (fun t => wt t * rsum n (fun j => ln (V j t) * (cols j t - a j)))
    + reg * rsum n (fun j => (rsum nh (fun t => wt t * cols j t) / g j - rsum n (fun i => K j i * g i)) * (d j - g j))).
  { intros P' a' d HF Hd. pose proof (deb_cert n nh M reg A' wt Hreg (proj1 HA) (proj1 Hwt) V P' a' a g d (grid_psd w h reg Hreg) (proj2 Hwt) B1 GP Hd HF TV) as C.
    replace (deb_obj n nh wt M reg P a g) with (deb_obj n nh wt M reg (scal_plan n K A' V) a g) by (unfold deb_obj; rewrite OE; reflexivity).
    rewrite (rsum_ext nh (fun t => wt t * rsum n (fun j => ln (V j t) * (cols j t - a j))) (fun t => wt t * rsum n (fun j => ln (V j t) * (scal_col n K A' V j t - a j)))) by (intros t Ht; f_equal; apply rsum_ext; intros j Hj; rewrite CE' by auto; reflexivity).
    rewrite (rsum_ext n (fun j => (rsum nh (fun t => wt t * cols j t) / g j - rsum n (fun i => K j i * g i)) * (d j - g j)) (fun j => (rsum nh (fun t => wt t * scal_col n K A' V j t) / g j - kmul n M reg g j) * (d j - g j))); [exact C|].
    intros j Hj. f_equal. f_equal. f_equal. apply rsum_ext. intros t Ht. rewrite CE' by auto. reflexivity. }
  exists Vp, b, c0, c1. cbv zeta. fold g. split; [exact B1|]. split; [exact B2|]. split; [exact B4|]. split; [exact B3|]. split; [exact B5|]. split; [exact C1|].
  split; [intros j Hj; exact (cd_c_flat w h reg Hh0 Hreg 10 (cs_bar (citer w h reg nh A wt stab true (S k))) (cs_c (citer w h reg nh A wt stab true k)) j Hj)|]. split; [exact B6|]. split; [exact ROW|].
  split; [intros j Hj; rewrite GE by auto; exact (B10 j Hj)|]. split; [|split; [exact CERT|]].
  - intros j Hj. destruct (R3 j Hj) as (X & Y & L). split; [apply Nat.ltb_lt; exact Y|]. split; [exact X|]. intros q t Hq Ht. rewrite CE, GE by auto. unfold K, gibbsK. rewrite <- (gmean_cols n nh M reg A' wt).
    apply (dev_cols n nh M reg A' wt HA Hwt V thr B1); auto. fold s in L. rewrite B11 in L. exact L.
  - intros HC HG. split.
    + intros t Ht. split; [|split; [intros i Hi; apply ROW; auto|intros j Hj; apply (HC j t Hj Ht)]].
      intros i j Hi Hj. rewrite PE by auto. apply (plan_nonneg n nh M reg A'); auto. apply HA.
    + intros P' a' d HF Hd. eapply Rle_trans; [apply (CERT P' a' d HF Hd)|].
      rewrite (rsum_0 nh) by (intros t Ht; rewrite (rsum_0 n); [ring|]; intros j Hj; rewrite HC by auto; ring).
      rewrite (rsum_0 n); [lra|]. intros j Hj. rewrite (rsum_ext nh _ (fun t => a j * wt t)) by (intros t Ht; rewrite HC by auto; ring). rewrite rsum_scal, (proj2 Hwt).
      rewrite <- (HG j Hj) at 1. pose proof (GP j Hj). field. lra.
Qed.
Print Assumptions C155_debiased.

(** the mass of the weights being one, there is at least one image *)
Lemma nh_pos : forall nh wt, bary_coords nh wt -> (0 < nh)%nat.
Proof. intros nh wt [_ H]. destruct nh; [cbn in H; lra|lia]. Qed.

(** method="sinkhorn_log", one or more iterations, stabThr > 0: the same guarantees for the images
    A + stabThr and without the shift, so agreement of the second marginals with the returned image
    means optimality.  With numItermax = 0 it raises (log_bar is unbound). *)
Theorem C155_log : forall w h reg nh A wt stab thr it, (0 < w)%nat -> (0 < h)%nat -> 0 < reg -> 0 < stab ->
  nonneg_mat (w * h) nh (flat h A) -> bary_coords nh wt ->
  let n := (w * h)%nat in let M := grid_cost w h in let K := gibbsK M reg in let A' := fun i t => flat h A i t + stab in
  conv_barycenter2d_log (N:=RNum) exp ln popstd w h reg nh A wt stab 0 thr = None /\
  ((0 < it)%nat -> exists run, conv_barycenter2d_log (N:=RNum) exp ln popstd w h reg nh A wt stab it thr = Some run /\
   let a := flat1 h (cl_result (N:=RNum) exp run) in
   exists V, let P := scal_plan n K A' V in pos_mat n nh V /\
   (forall t i, (t < nh)%nat -> (i < n)%nat -> row_sum n (P t) i = A' i t) /\
   (forall j, (j < n)%nat -> a j = gmean_w nh wt (fun j t => col_sum n (P t) j) j) /\
   rsum n a <= rsum nh (fun t => wt t * rsum n (fun i => A' i t)) /\
   (forall k, cl_exit run = Converged k -> Nat.modulo k 10 = 9%nat /\ forall j t, (j < n)%nat -> (t < nh)%nat -> Rabs (col_sum n (P t) j - a j) <= 2 * sqrt (INR nh) * thr) /\
   (forall P' a', bary_feasible n nh A' P' a' -> bary_obj n nh wt M reg P <= bary_obj n nh wt M reg P'
     + reg * rsum nh (fun t => wt t * rsum n (fun j => ln (V j t) * (col_sum n (P t) j - a j)))) /\
   ((forall j t, (j < n)%nat -> (t < nh)%nat -> col_sum n (P t) j = a j) -> bary_optimal n nh A' wt M reg P a)).
Proof.
  intros w h reg nh A wt stab thr it Hw0 Hh0 Hreg Ht HA Hw n M K A'. split; [reflexivity|]. intros Hit.
  assert (Hn : (0 < n)%nat) by (apply Nat.mul_pos_pos; auto).
  assert (HA' : histograms n nh A') by (split; [apply (Aeps_nonneg n nh (flat h A) stab HA Ht)|apply (Aeps_mass n nh (flat h A) stab HA Ht Hn)]).
  assert (W0 : wGi w h nh wt (fun _ _ _ => 0) (fun _ _ => 0)) by (intros j Hj; apply rsum_0; intros; unfold flat; ring).
  destruct (cl_post w h reg Hw0 Hh0 Hreg nh A wt stab (proj2 Hw) popstd thr it 0 (fun _ _ _ => 0) None [] W0 ltac:(auto) ltac:(discriminate)) as (o & B1 & B2 & B3 & B5).
  exists o. split; [exact B1|]. intros a.
  set (G := flat h (cl_G o)).
  assert (E : forall j, (j < n)%nat -> a j = gmean_w nh wt (scal_col n K A' (expm G)) j).
  { intros j Hj. unfold a, flat1, cl_result. rewrite B3. 
    pose proof (cl_bar_R w h reg Hw0 Hh0 Hreg nh A wt stab (cl_G o) j Hj) as X. unfold flat1 in X. rewrite X. apply (expbar n nh M reg (flat h A) wt stab HA Ht Hn); auto. }
  assert (PV := expm_pos n nh G).
  assert (TV : forall j, (j < n)%nat -> tilt nh wt (expm G) j = 0) by (intros j Hj; apply (wG_tilt n nh wt G (fun _ => 0)); auto).
  exists (expm G). cbv zeta. split; [exact PV|]. split; [intros t i Ht' Hi; apply (plan_row n nh M reg A'); auto|].
  split; [intros j Hj; rewrite E by auto; apply (gmean_cols n nh M reg A' wt)|]. split; [|split; [|split]].
  - rewrite (rsum_ext n a (gmean_w nh wt (scal_col n K A' (expm G)))) by auto. apply (mass_le n nh M reg A' wt); auto; try apply HA'; apply Hw.
  - intros k Hk. destruct (B5 k Hk) as (L0 & L). split; [exact L0|]. intros j t Hj Ht'. rewrite E by auto. apply (dev_cols n nh M reg A' wt HA' Hw _ thr PV); auto.
    rewrite (cl_err_R w h reg Hw0 Hh0 Hreg nh A stab (cl_G o) (nh_pos nh wt Hw)) in L. fold G in L. rewrite bl_err_R in L. refine (Rle_lt_trans _ _ _ _ L). right. apply rsum_ext. intros i Hi.
    assert (F : forall s, (s < nh)%nat -> scal_col n (fun i j => exp (- M i j / reg)) A' (expm G) i s = exp (G i s + bl_KU (N:=RNum) exp ln n (flat h A) (fun i j => - M i j / reg) stab G i s)) by (intros; symmetry; apply (exp_GKU n nh M reg (flat h A) stab HA Ht Hn); auto).
    unfold popstd. rewrite (rsum_ext nh (scal_col n (fun i j => exp (- M i j / reg)) A' (expm G) i) (fun s => exp (G i s + bl_KU (N:=RNum) exp ln n (flat h A) (fun i j => - M i j / reg) stab G i s))) by auto.
    f_equal. f_equal. apply rsum_ext. intros u Hu. rewrite F by auto. reflexivity.
  - intros P' a' HF. pose proof (post_cert n nh M reg A' wt Hreg HA' Hw (expm G) a (fun _ => 0) PV TV P' a' HF) as C. cbn beta in C.
    rewrite (rsum_0 n (fun j => 0 * (a j - a' j))) in C by (intros; ring). unfold K, gibbsK. lra.
  - intros HC. apply (post_opt n nh M reg A' wt Hreg HA' Hw); auto.
Qed.
Print Assumptions C155_log.

(** The debiased version in the log domain; half = 1/2.  The debiasing term c1 of the last image is ten
    updates of the c0 its scalings carry, or both are one (first iteration). *)
Theorem C155_debiased_log : forall w h reg nh A wt stab thr it log, (0 < w)%nat -> (0 < h)%nat -> 0 < reg -> 0 < stab ->
  nonneg_mat (w * h) nh (flat h A) -> bary_coords nh wt -> (0 < it)%nat ->
  let n := (w * h)%nat in let M := grid_cost w h in let K := gibbsK M reg in let A' := fun i t => flat h A i t + stab in
  exists run, conv_barycenter2d_debiased_log (N:=RNum) exp ln popstd w h reg nh A wt stab (1 / 2) it thr log = Some run /\
   let a := flat1 h (cl_result (N:=RNum) exp run) in
   exists V c0 c1, let P := scal_plan n K A' V in pos_mat n nh V /\ pos_vec n c0 /\ pos_vec n c1 /\ pos_vec n a /\
   ((exists b, pos_vec n b /\ forall j, (j < n)%nat -> c1 j = Nat.iter 10 (debias_update n M reg b) c0 j) \/ (forall j, (j < n)%nat -> c0 j = 1 /\ c1 j = 1)) /\
   (forall t i, (t < nh)%nat -> (i < n)%nat -> row_sum n (P t) i = A' i t) /\
   (forall j, (j < n)%nat -> a j = c1 j / c0 j * gmean_w nh wt (fun j t => col_sum n (P t) j) j) /\
   (forall k, cl_exit run = Converged k -> (20 < k)%nat /\ Nat.modulo k 10 = 9%nat /\
      forall j t, (j < n)%nat -> (t < nh)%nat -> Rabs (col_sum n (P t) j - gmean_w nh wt (fun j t => col_sum n (P t) j) j) <= 2 * sqrt (INR nh) * thr) /\
   (forall P' a' d, bary_feasible n nh A' P' a' -> pos_vec n d -> deb_obj n nh wt M reg P a c0 <= deb_obj n nh wt M reg P' a' d
    + reg * rsum nh (fun t => wt t * rsum n (fun j => ln (V j t) * (col_sum n (P t) j - a j)))
    + reg * rsum n (fun j => (rsum nh (fun t => wt t * col_sum n (P t) j) / c0 j - rsum n (fun i => K j i * c0 i)) * (d j - c0 j))).
Proof.
  intros w h reg nh A wt stab thr it log Hw0 Hh0 Hreg Ht HA Hw Hit n M K A'.
  assert (Hn : (0 < n)%nat) by (apply Nat.mul_pos_pos; auto).
  assert (HA' : histograms n nh A') by (split; [apply (Aeps_nonneg n nh (flat h A) stab HA Ht)|apply (Aeps_mass n nh (flat h A) stab HA Ht Hn)]).
  assert (W0 : wGi w h nh wt (fun _ _ _ => 0) (fun _ _ => 0)) by (intros j Hj; apply rsum_0; intros; unfold flat; ring).
  set (z := fun _ _ : nat => 0).
  destruct (cld_post w h reg Hw0 Hh0 Hreg nh A wt stab (proj2 Hw) (1 / 2) popstd thr it 0 (fun _ _ _ => 0) z (fun _ _ _ => 0, z, z) [] (ex_intro _ z (ex_intro _ z (conj W0 (or_intror (conj eq_refl eq_refl))))) (or_introl Hit)) as ((e0 & pb & B2 & B4) & B3 & B5).
  set (o := cld_loop (N:=RNum) exp ln popstd w h reg nh A wt stab (1 / 2) thr it 0 (fun _ _ _ => 0) z (fun _ _ _ => 0, z, z) []) in *.
  exists o. split; [unfold conv_barycenter2d_debiased_log, guard_log; replace (Nat.eqb it 0) with false by (symmetry; apply Nat.eqb_neq; lia); rewrite andb_false_r; reflexivity|]. intros a.
  set (G := flat h (cl_G o)) in *. set (e := flat1 h e0).
  assert (PV := expm_pos n nh G).
  assert (TV : forall j, (j < n)%nat -> tilt nh wt (expm G) j = ln (exp (e j))) by (intros j Hj; rewrite ln_exp; apply (wG_tilt n nh wt G e); auto).
  assert (Q : forall j t, col_sum n (scal_plan n K A' (expm G) t) j = scal_col n K A' (expm G) j t) by (intros; unfold K, gibbsK; rewrite (plan_col n M reg A'); auto).
  exists (expm G), (fun j => exp (e j)), (fun j => exp (flat1 h (cl_c0 o) j)). cbv zeta. split; [exact PV|]. split; [intros j _; apply exp_pos|]. split; [intros j _; apply exp_pos|]. split; [intros j _; apply exp_pos|].
  split.
  { destruct B4 as [B4|[B4 B4']].
    - left. exists (fun j => exp (flat1 h pb j)). split; [intros j _; apply exp_pos|]. intros j Hj. rewrite B4. exact (cl_c_flat w h reg Hw0 Hh0 Hreg 10 pb e0 j Hj).
    - right. intros j Hj. unfold e. rewrite B4, B4'. unfold flat1. rewrite exp_0. auto. }
  split; [intros t i Ht' Hi; apply (plan_row n nh M reg A'); auto|]. split; [|split].
  - intros j Hj. unfold a, flat1 at 1, cl_result. rewrite B3, exp_plus.
    pose proof (cl_bar_R w h reg Hw0 Hh0 Hreg nh A wt stab (cl_G o) j Hj) as X. unfold flat1 in X at 1. rewrite X.
    change (cl_c0 o (j / h)%nat (j mod h)%nat) with (flat1 h (cl_c0 o) j). pose proof (expbar_c n nh M reg (flat h A) wt stab HA Ht Hn G e j B2 Hj) as Y. fold n M G. rewrite Y. rewrite <- (gmean_cols n nh M reg A' wt). unfold K, gibbsK. change (Aeps (flat h A) stab) with A'. unfold Rdiv, flat1. match goal with |- ?x = ?y => change (@eq R x y) end. ring.
  - intros k Hk. destruct (B5 k Hk) as (L1 & L2 & L). split; [exact L1|]. split; [exact L2|]. intros j t Hj Ht'. rewrite <- (gmean_cols n nh M reg A' wt). apply (dev_cols n nh M reg A' wt HA' Hw _ thr PV); auto.
    rewrite (cl_err_R w h reg Hw0 Hh0 Hreg nh A stab (cl_G o) (nh_pos nh wt Hw)) in L. fold G in L. rewrite bl_err_R in L. refine (Rle_lt_trans _ _ _ _ L). right. apply rsum_ext. intros i Hi.
    assert (F : forall s, (s < nh)%nat -> scal_col n (fun i j => exp (- M i j / reg)) A' (expm G) i s = exp (G i s + bl_KU (N:=RNum) exp ln n (flat h A) (fun i j => - M i j / reg) stab G i s)) by (intros; symmetry; apply (exp_GKU n nh M reg (flat h A) stab HA Ht Hn); auto).
    unfold popstd. rewrite (rsum_ext nh (scal_col n (fun i j => exp (- M i j / reg)) A' (expm G) i) (fun s => exp (G i s + bl_KU (N:=RNum) exp ln n (flat h A) (fun i j => - M i j / reg) stab G i s))) by auto.
    f_equal. f_equal. apply rsum_ext. intros u Hu. rewrite F by auto. reflexivity.
  - intros P' a' d HF Hd. pose proof (deb_cert n nh M reg A' wt Hreg (proj1 HA') (proj1 Hw) (expm G) P' a' a (fun j => exp (e j)) d (grid_psd w h reg Hreg) (proj2 Hw) PV ltac:(intros j _; apply exp_pos) Hd HF TV) as C.
    rewrite (rsum_ext nh (fun t => wt t * rsum n (fun j => ln (expm G j t) * (col_sum n (scal_plan n K A' (expm G) t) j - a j))) (fun t => wt t * rsum n (fun j => ln (expm G j t) * (scal_col n K A' (expm G) j t - a j)))).
    2:{ intros t Ht'. f_equal. apply rsum_ext. intros j Hj. rewrite Q. auto. }
    rewrite (rsum_ext n (fun j => (rsum nh (fun t => wt t * col_sum n (scal_plan n K A' (expm G) t) j) / exp (e j) - rsum n (fun i => K j i * exp (e i))) * (d j - exp (e j)))
       (fun j => (rsum nh (fun t => wt t * scal_col n K A' (expm G) j t) / exp (e j) - kmul n M reg (fun j => exp (e j)) j) * (d j - exp (e j)))).
    2:{ intros j Hj. f_equal. f_equal. f_equal. apply rsum_ext. intros t Ht'. rewrite Q. auto. }
    exact C.
Qed.
Print Assumptions C155_debiased_log.

(** The debiasing update is c <- sqrt(c b / (K c)) in both versions; it leaves c unchanged exactly when
    diag(c) K diag(c) has marginal b. *)
Theorem C155_debias_term : forall w h reg (b c : nat -> nat -> R), (0 < w)%nat -> (0 < h)%nat -> 0 < reg ->
  let n := (w * h)%nat in let K := gibbsK (grid_cost w h) reg in
  (pos_vec n (flat1 h b) -> pos_vec n (flat1 h c) -> let c' := flat1 h (cd_c1 (N:=RNum) exp sqrt w h reg b c) in
    forall q, (q < n)%nat -> 0 < c' q /\ c' q * c' q * rsum n (fun r => K q r * flat1 h c r) = flat1 h c q * flat1 h b q /\
    (c' q = flat1 h c q <-> row_sum n (fun q r => flat1 h c q * K q r * flat1 h c r) q = flat1 h b q)) /\
  (forall q, (q < n)%nat -> exp (flat1 h (cl_c1 (N:=RNum) exp ln w h reg (1 / 2) b c) q) =
     flat1 h (cd_c1 (N:=RNum) exp sqrt w h reg (fun i j => exp (b i j)) (fun i j => exp (c i j))) q).
Proof.
  intros w h reg b c Hw0 Hh0 Hreg n K.
  assert (CV : forall (d : nat -> nat -> R) q, (q < n)%nat -> flat1 h (cd_c1 (N:=RNum) exp sqrt w h reg b d) q = sqrt (flat1 h d q * flat1 h b q / rsum n (fun r => K q r * flat1 h d r))).
  { intros d q Hq. unfold flat1 at 1, cd_c1. f_equal. cbn [ndiv nmul RNum]. f_equal. exact (convol_R w h reg Hh0 Hreg (fun _ => d) 0 q Hq). }
  split.
  - intros Hb Hc c' q Hq. unfold c'. rewrite CV by auto. pose proof (Hb q Hq) as B0. pose proof (Hc q Hq) as C0.
    assert (K0 : 0 < rsum n (fun r => K q r * flat1 h c r)) by (apply rsum_pos; [lia|]; intros r Hr; apply Rmult_lt_0_compat; [apply exp_pos|apply Hc; auto]).
    set (k := rsum n (fun r => K q r * flat1 h c r)) in *. set (x := flat1 h c q) in *. set (y := flat1 h b q) in *.
    assert (Z : 0 < x * y / k) by (apply Rdiv_lt_0_compat; auto; apply Rmult_lt_0_compat; auto).
    assert (S2 : sqrt (x * y / k) * sqrt (x * y / k) = x * y / k) by (apply sqrt_def; lra).
    split; [apply sqrt_lt_R0; auto|]. split; [rewrite S2; field; lra|].
    assert (RS : row_sum n (fun q r => flat1 h c q * K q r * flat1 h c r) q = x * k).
    { unfold row_sum, k. rewrite <- rsum_scal. apply rsum_ext. intros r Hr. fold x. ring. }
    rewrite RS. split; intros E.
    + rewrite E in S2. apply (Rmult_eq_reg_l x); [|lra]. replace (x * (x * k)) with (x * x * k) by ring. rewrite S2. field. lra.
    + replace (x * y / k) with (x * x) by (rewrite <- E; field; lra). apply sqrt_square. lra.
  - intros q Hq.
    assert (CV' : flat1 h (cd_c1 (N:=RNum) exp sqrt w h reg (fun i j => exp (b i j)) (fun i j => exp (c i j))) q = sqrt (exp (flat1 h c q) * exp (flat1 h b q) / rsum n (fun r => K q r * exp (flat1 h c r)))).
    { unfold flat1 at 1, cd_c1. f_equal. cbn [ndiv nmul RNum]. f_equal. exact (convol_R w h reg Hh0 Hreg (fun _ i j => exp (c i j)) 0 q Hq). }
    rewrite CV'. unfold flat1 at 1, cl_c1. cbn [nmul nsub nadd RNum].
    pose proof (convol_log_R w h reg Hw0 Hh0 Hreg c q Hq) as E. unfold flat1 in E at 1. rewrite E.
    assert (K0 : 0 < rsum n (fun r => K q r * exp (flat1 h c r))) by (apply rsum_pos; [lia|]; intros r Hr; apply Rmult_lt_0_compat; apply exp_pos).
    rewrite (rsum_ext (w * h) (fun r => exp (- grid_cost w h q r / reg + flat1 h c r)) (fun r => K q r * exp (flat1 h c r))) by (intros; rewrite exp_plus; reflexivity). fold n.
    match goal with |- exp ?u = _ => rewrite <- (sqrt_square (exp u)) by (left; apply exp_pos); rewrite <- exp_plus; replace (u + u) with (flat1 h c q + flat1 h b q + - ln (rsum n (fun r => K q r * exp (flat1 h c r)))) by (unfold flat1; field) end.
    rewrite !exp_plus, exp_Ropp, exp_ln by auto. reflexivity.
Qed.
Print Assumptions C155_debias_term.

(** No iteration, any arithmetic: both plain versions return the uniform image, the debiased log version the
    all-ones image (mass w h), and asking for the log raises; the plain log version always raises. *)
Theorem C155_zero : forall (N : NumOps) (ex lg sq : N -> N) std w h reg nh A wt stab half thr,
  (forall st, conv_barycenter2d ex lg std w h reg nh A wt stab 0 thr false = Some st -> forall i j, cs_bar (fst (fst st)) i j = ndiv n1 (nofnat (N:=N) (w * h))) /\
  conv_barycenter2d ex lg std w h reg nh A wt stab 0 thr false <> None /\
  (forall st, conv_barycenter2d_debiased ex lg sq std w h reg nh A wt stab 0 thr false = Some st -> forall i j, cs_bar (fst (fst st)) i j = ndiv n1 (nofnat (N:=N) (w * h))) /\
  conv_barycenter2d_debiased ex lg sq std w h reg nh A wt stab 0 thr false <> None /\
  conv_barycenter2d ex lg std w h reg nh A wt stab 0 thr true = None /\
  conv_barycenter2d_debiased ex lg sq std w h reg nh A wt stab 0 thr true = None /\
  conv_barycenter2d_log ex lg std w h reg nh A wt stab 0 thr = None /\
  conv_barycenter2d_debiased_log ex lg std w h reg nh A wt stab half 0 thr true = None /\
  (exists o, conv_barycenter2d_debiased_log ex lg std w h reg nh A wt stab half 0 thr false = Some o /\ forall i j, cl_result ex o i j = ex n0).
Proof.
  intros. split; [intros st E; injection E as <-; reflexivity|]. split; [discriminate|]. split; [intros st E; injection E as <-; reflexivity|]. split; [discriminate|].
  repeat (split; [reflexivity|]). eexists. split; reflexivity.
Qed.
Print Assumptions C155_zero.

(** The loops stop at the first multiple-of-ten check below the threshold (after iteration 20 for the debiased
    version), for any arithmetic; the errors returned are those of the checks made. *)
Theorem C155_stop : forall (N : NumOps) (std : nat -> (nat -> N) -> N) w h nh (step : cst (N:=N) -> cst) late thr it s0,
  let run := cv_loop std w h nh step late thr it 0 s0 [] in
  let state := fun k => Nat.iter k step s0 in
  let stop := fun k => (Nat.eqb (Nat.modulo k 10) 9 && nltb (cv_err std w h nh (state (S k))) thr && late k)%bool in
  let checks := fun m => map (fun k => cv_err std w h nh (state (S k))) (filter (fun k => Nat.eqb (Nat.modulo k 10) 9) (seq 0 m)) in
  match snd run with
  | Converged k => (k < it)%nat /\ stop k = true /\ (forall l, (l < k)%nat -> stop l = false) /\ fst (fst run) = state (S k) /\ snd (fst run) = checks (S k)
  | MaxIter => (forall l, (l < it)%nat -> stop l = false) /\ fst (fst run) = state it /\ snd (fst run) = checks it
  | NumErr _ => False
  end.
Proof.
  intros N std w h nh step late thr it s0.
  assert (G : forall left ii, (forall l, (l < ii)%nat -> (Nat.eqb (Nat.modulo l 10) 9 && nltb (cv_err std w h nh (Nat.iter (S l) step s0)) thr && late l)%bool = false) ->
    let checks := fun m => map (fun k => cv_err std w h nh (Nat.iter (S k) step s0)) (filter (fun k => Nat.eqb (Nat.modulo k 10) 9) (seq 0 m)) in
    let run := cv_loop std w h nh step late thr left ii (Nat.iter ii step s0) (checks ii) in
    match snd run with
    | Converged k => (k < ii + left)%nat /\ (Nat.eqb (Nat.modulo k 10) 9 && nltb (cv_err std w h nh (Nat.iter (S k) step s0)) thr && late k)%bool = true /\
        (forall l, (l < k)%nat -> (Nat.eqb (Nat.modulo l 10) 9 && nltb (cv_err std w h nh (Nat.iter (S l) step s0)) thr && late l)%bool = false) /\ fst (fst run) = Nat.iter (S k) step s0 /\ snd (fst run) = checks (S k)
    | MaxIter => (forall l, (l < ii + left)%nat -> (Nat.eqb (Nat.modulo l 10) 9 && nltb (cv_err std w h nh (Nat.iter (S l) step s0)) thr && late l)%bool = false) /\ fst (fst run) = Nat.iter (ii + left) step s0 /\ snd (fst run) = checks (ii + left)%nat
    | NumErr _ => False
    end).
  { induction left as [|left IH]; intros ii H checks run.
    - unfold run. cbn [cv_loop fst snd]. rewrite !Nat.add_0_r. auto.
    - unfold run. cbn [cv_loop]. cbv zeta.
      assert (CS : checks (S ii) = if Nat.eqb (Nat.modulo ii 10) 9 then checks ii ++ [cv_err std w h nh (step (Nat.iter ii step s0))] else checks ii).
      { unfold checks. rewrite seq_S, filter_app, map_app. cbn [filter Nat.add]. destruct (Nat.eqb (Nat.modulo ii 10) 9); cbn [map]; [reflexivity|apply app_nil_r]. }
      specialize (IH (S ii)). cbv zeta in IH. fold checks in IH. change (Nat.iter (S ii) step s0) with (step (Nat.iter ii step s0)) in IH. replace (S ii + left)%nat with (ii + S left)%nat in IH by lia.
      destruct (Nat.eqb (Nat.modulo ii 10) 9) eqn:E.
      + destruct (nltb (cv_err std w h nh (step (Nat.iter ii step s0))) thr && late ii)%bool eqn:B.
        * cbn [fst snd]. split; [lia|]. cbn [Nat.iter]. split; [rewrite E; exact B|]. split; [exact H|]. split; [reflexivity|]. rewrite CS. reflexivity.
        * rewrite CS in IH. apply IH. intros l Hl. destruct (Nat.eq_dec l ii) as [->|]; [rewrite E; exact B|apply H; lia].
      + rewrite CS in IH. apply IH. intros l Hl. destruct (Nat.eq_dec l ii) as [->|]; [rewrite E; reflexivity|apply H; lia]. }
  exact (G it 0%nat ltac:(intros; lia)).
Qed.
Print Assumptions C155_stop.

(** The default weights are barycentric coordinates. *)
Theorem C155_weights : forall nh, (0 < nh)%nat -> bary_coords nh (cv_weights (N:=RNum) nh None).
Proof.
  intros nh H. pose proof (lt_0_INR nh H). assert (E : forall s, cv_weights (N:=RNum) nh None s = / INR nh) by (intros; unfold cv_weights; rewrite nofnat_INR; apply Rmult_1_l).
  split; [intros s Hs; rewrite E; left; apply Rinv_0_lt_compat; auto|]. rewrite (rsum_ext nh _ (fun _ => / INR nh)) by auto. rewrite rsum_const. field. lra.
Qed.
Print Assumptions C155_weights.

(** A case: two 2 x 3 images, a Dirac in the first corner and a uniform one. *)
Definition Aex (s i j : nat) : R := match s with O => if (Nat.eqb i 0 && Nat.eqb j 0)%bool then 1 else 0 | S _ => 1 / 6 end.
Example C155_case : histograms 6 2 (flat 3 Aex) /\ bary_coords 2 (cv_weights (N:=RNum) 2 None) /\ flat 3 Aex 0%nat 0%nat = 1 /\ flat 3 Aex 4%nat 0%nat = 0 /\
  grid_cost 2 3 0 5 = 2 /\ grid_cost 2 3 0 1 = 1 / 4.
Proof.
  split; [split|split; [apply C155_weights; lia|]].
  - intros i s Hi Hs. unfold flat, Aex. destruct s; [destruct (_ && _)%bool; lra|lra].
  - intros s Hs. exists 0%nat. split; [lia|]. unfold flat, Aex. destruct s; [cbn; lra|lra].
  - unfold flat, Aex, grid_cost, pix. cbn. repeat split; lra.
Qed.
