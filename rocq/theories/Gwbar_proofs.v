(** Barycenter updates: weighted means, pointwise minimisation. *)
From Coq Require Import Reals Lra Lia Arith Bool List.
Import ListNotations.
From Verif Require Import Num Sums Spec Entropy Optim_model Duals_proofs Gw_model Gw_proofs Gw_more Gwbar_model.
Local Open Scope R_scope.

Section Bary.
Variables (S K : nat) (ns : nat -> nat) (target : bool) (lam : vec) (Ts Cs : nat -> mat) (p : bmass (N:=RNum)).
(** mass moved between point k of space s and point i of the barycenter *)
Definition tau (s k i : nat) : R := if target then Ts s k i else Ts s i k.
Definition marg (s i : nat) : R := rsum (ns s) (fun k => tau s k i).
Definition quot (i j : nat) : R := rsum S (fun s => lam s * (marg s i * marg s j)).
(** the masses handed over are those of the plans; with one shared vector the weights sum to 1 *)
Definition good_masses : Prop :=
  match p with
  | Shared q => rsum S lam = 1 /\ forall s i, (s < S)%nat -> (i < K)%nat -> marg s i = q i
  | PerSpace q => forall s i, (s < S)%nat -> (i < K)%nat -> marg s i = q s i
  | FromPlans => True
  end.
Hypothesis Hlam : forall s, (s < S)%nat -> 0 <= lam s.
Hypothesis HT : forall s k i, (s < S)%nat -> (k < ns s)%nat -> (i < K)%nat -> 0 <= tau s k i.
Hypothesis Hm : good_masses.

Definition Avg (phi : nat -> nat -> nat -> R) (i j : nat) : R :=
  rsum S (fun s => lam s * dsum (ns s) (ns s) (fun k c => phi s k c * (tau s k i * tau s c j))).
Lemma Avg_ext : forall phi psi i j, (forall s k c, (s < S)%nat -> (k < ns s)%nat -> (c < ns s)%nat -> phi s k c = psi s k c) -> Avg phi i j = Avg psi i j.
Proof. intros. unfold Avg. apply rsum_ext; intros s Hs. f_equal. apply dsum_ext; intros. rewrite H; auto. Qed.
Lemma Avg_plus : forall phi psi i j, Avg (fun s k c => phi s k c + psi s k c) i j = Avg phi i j + Avg psi i j.
Proof.
  intros. unfold Avg. rewrite <- rsum_plus. apply rsum_ext; intros s Hs. rewrite <- Rmult_plus_distr_l, <- dsum_plus. f_equal. apply dsum_ext; intros; ring.
Qed.
Lemma Avg_scal : forall x phi i j, Avg (fun s k c => x * phi s k c) i j = x * Avg phi i j.
Proof.
  intros. unfold Avg. rewrite <- rsum_scal. apply rsum_ext; intros s Hs.
  rewrite (dsum_ext (ns s) (ns s) _ (fun k c => x * (phi s k c * (tau s k i * tau s c j)))) by (intros; ring). rewrite dsum_scal. ring.
Qed.
Lemma Avg_1 : forall i j, Avg (fun _ _ _ => 1) i j = quot i j.
Proof.
  intros. unfold Avg, quot. apply rsum_ext; intros s Hs. f_equal. unfold marg. rewrite rsum_mult. apply dsum_ext; intros; ring.
Qed.
Lemma quot_nonneg : forall i j, (i < K)%nat -> (j < K)%nat -> 0 <= quot i j.
Proof. intros. unfold quot. apply rsum_nonneg; intros s Hs. apply Rmult_le_pos; auto. apply Rmult_le_pos; apply rsum_nonneg; intros; auto. Qed.
Lemma Avg_zero : forall phi i j, (i < K)%nat -> (j < K)%nat -> quot i j = 0 -> Avg phi i j = 0.
Proof.
  intros phi i j Hi Hj E. rewrite <- Avg_1 in E. unfold Avg in *. apply rsum_0; intros s Hs.
  assert (N0 : forall s, (s < S)%nat -> forall k c, (k < ns s)%nat -> (c < ns s)%nat -> 0 <= 1 * (tau s k i * tau s c j)) by (intros; rewrite Rmult_1_l; apply Rmult_le_pos; auto).
  pose proof (rsum_nonneg_zero S _ (fun s Hs => Rmult_le_pos _ _ (Hlam s Hs) (dsum_nonneg (ns s) (ns s) _ (N0 s Hs))) E s Hs) as Z. cbv beta in Z.
  apply Rmult_integral in Z. destruct Z as [Z|Z]; [rewrite Z; ring|].
  assert (dsum (ns s) (ns s) (fun k c => phi s k c * (tau s k i * tau s c j)) = 0) as ->; [|ring].
  unfold dsum. apply rsum_0; intros k Hk. apply rsum_0; intros c Hc.
  pose proof (dsum_zero (ns s) (ns s) _ (N0 s Hs) Z k c Hk Hc) as Y. cbv beta in Y. rewrite Rmult_1_l in Y. rewrite Y. ring.
Qed.
Lemma pulled_R : forall Cs' i j, pulled (N:=RNum) S ns target lam Ts Cs' i j = Avg Cs' i j.
Proof.
  intros. unfold pulled, Avg. rewrite nsum_R. apply rsum_ext; intros s Hs. cbn [nmul RNum]. f_equal. rewrite nsum_R. unfold dsum. rewrite rsum_swap.
  apply rsum_ext; intros c Hc. rewrite nsum_R, <- rsum_scal_r. apply rsum_ext; intros k Hk. unfold tau. cbn. ring.
Qed.
Lemma bmarg_R : forall s i, bary_marg (N:=RNum) ns target Ts s i = marg s i.
Proof. intros. unfold bary_marg, marg, tau. destruct target; apply nsum_R. Qed.
Lemma quotient_R : forall (q : nat -> nat -> R) i j, (forall s, (s < S)%nat -> q s i = marg s i /\ q s j = marg s j) -> quotient (N:=RNum) S lam q i j = quot i j.
Proof. intros q i j H. unfold quotient, quot. rewrite nsum_R. apply rsum_ext; intros s Hs. destruct (H s Hs) as [-> ->]. reflexivity. Qed.
Lemma inv_R : forall cz (x : R), x <> 0 -> inv_ (N:=RNum) cz x = / x.
Proof. intros cz x Hx. unfold inv_. cbn. rewrite (proj2 (Reqb_false x 0) Hx). rewrite Bool.andb_false_r. unfold Rdiv. ring. Qed.
Lemma prod_R : forall cz i j, (i < K)%nat -> (j < K)%nat -> quot i j <> 0 -> prod_ (N:=RNum) S ns target cz lam Ts p i j = / quot i j.
Proof.
  intros cz i j Hi Hj H. unfold prod_. unfold good_masses in Hm. destruct p as [q|q|].
  - destruct Hm as [HS Hq]. assert (E : quot i j = q i * q j).
    { unfold quot. rewrite (rsum_ext S _ (fun s => lam s * (q i * q j))) by (intros; rewrite !Hq by auto; reflexivity). rewrite rsum_scal_r. change (rsum S (fun i => lam i)) with (rsum S lam). rewrite HS. ring. }
    rewrite E in *. rewrite !inv_R by (intro Z; apply H; rewrite Z; ring). cbn. rewrite Rinv_mult. reflexivity.
  - assert (E : quotient (N:=RNum) S lam q i j = quot i j) by (apply quotient_R; intros; rewrite !Hm; auto). rewrite E. apply inv_R; auto.
  - assert (E : quotient (N:=RNum) S lam (bary_marg (N:=RNum) ns target Ts) i j = quot i j) by (apply quotient_R; intros; rewrite !bmarg_R; auto). rewrite E. apply inv_R; auto.
Qed.
(** the weighted objective, entry by entry *)
Definition bary_obj (L : R -> R -> R) (C : mat) : R :=
  rsum S (fun s => lam s * (if target then gw_obj (ns s) K L (Cs s) C (Ts s) else gw_obj K (ns s) L C (Cs s) (Ts s))).
Definition ell (L : R -> R -> R) (x y : R) : R := if target then L y x else L x y.   (* x: barycenter entry *)
Lemma bary_obj_R : forall L C, bary_obj L C = dsum K K (fun i j => Avg (fun s k c => ell L (C i j) (Cs s k c)) i j).
Proof.
  intros. unfold bary_obj, Avg, ell, dsum, tau. destruct target.
  - transitivity (rsum S (fun s => rsum K (fun i => rsum K (fun j => lam s * rsum (ns s) (fun k => rsum (ns s) (fun c => L (Cs s k c) (C i j) * (Ts s k i * Ts s c j))))))).
    + apply rsum_ext; intros s _. unfold gw_obj. rewrite bil_swap, bil_ik. unfold dsum, transp. rewrite <- rsum_scal. apply rsum_ext; intros i _. rewrite <- rsum_scal.
      apply rsum_ext; intros j _. f_equal. apply rsum_ext; intros; apply rsum_ext; intros; ring.
    + rewrite rsum_swap. apply rsum_ext; intros i _. rewrite rsum_swap. reflexivity.
  - transitivity (rsum S (fun s => rsum K (fun i => rsum K (fun j => lam s * rsum (ns s) (fun k => rsum (ns s) (fun c => L (C i j) (Cs s k c) * (Ts s i k * Ts s j c))))))).
    + apply rsum_ext; intros s _. unfold gw_obj. rewrite bil_ik. unfold dsum. rewrite <- rsum_scal. apply rsum_ext; intros i _. rewrite <- rsum_scal.
      apply rsum_ext; intros j _. f_equal. apply rsum_ext; intros; apply rsum_ext; intros; ring.
    + rewrite rsum_swap. apply rsum_ext; intros i _. rewrite rsum_swap. reflexivity.
Qed.

Lemma sq_diff : forall lg ex cz floor C,
  let U := update_barycenter_structure (N:=RNum) S ns lg ex SquareLoss target cz floor lam Ts Cs p in
  bary_obj sq_loss C = bary_obj sq_loss U + dsum K K (fun i j => quot i j * (C i j - U i j) ^ 2).
Proof.
  intros lg ex cz floor C U. rewrite !bary_obj_R, <- dsum_plus. apply dsum_ext; intros i j Hi Hj.
  assert (X : forall x, Avg (fun s k c => ell sq_loss x (Cs s k c)) i j = x ^ 2 * quot i j - 2 * x * Avg Cs i j + Avg (fun s k c => Cs s k c ^ 2) i j).
  { intro x. rewrite (Avg_ext _ (fun s k c => (x ^ 2 * 1 + - (2 * x) * Cs s k c) + Cs s k c ^ 2)).
    2:{ intros. unfold ell, sq_loss. destruct target; ring. }
    rewrite !Avg_plus, (Avg_scal (x ^ 2) (fun _ _ _ => 1)), Avg_1, (Avg_scal (- (2 * x)) Cs). ring. }
  rewrite !X. assert (EU : quot i j * U i j = Avg Cs i j).
  { destruct (Req_dec (quot i j) 0) as [Z|Z]; [rewrite (Avg_zero Cs i j Hi Hj Z), Z; ring|].
    unfold U, update_barycenter_structure. cbn [nmul RNum]. rewrite pulled_R, prod_R by auto. field; auto. }
  rewrite <- EU. ring.
Qed.
Lemma klt_diff : forall lg ex cz floor C, target = true ->
  (forall s k c, (s < S)%nat -> (k < ns s)%nat -> (c < ns s)%nat -> 0 < Cs s k c) -> (forall i j, (i < K)%nat -> (j < K)%nat -> 0 < C i j) ->
  let U := update_barycenter_structure (N:=RNum) S ns lg ex KlLoss target cz floor lam Ts Cs p in
  bary_obj (kl_loss ln 0) U <= bary_obj (kl_loss ln 0) C /\ forall i j, (i < K)%nat -> (j < K)%nat -> 0 < quot i j -> 0 < U i j.
Proof.
  intros lg ex cz floor C Et HCs HC U.
  assert (UP : forall i j, (i < K)%nat -> (j < K)%nat -> 0 < quot i j -> quot i j * U i j = Avg Cs i j /\ 0 < U i j).
  { intros i j Hi Hj Q. assert (EU : quot i j * U i j = Avg Cs i j).
    { unfold U, update_barycenter_structure. rewrite Et. rewrite <- Et. cbn [nmul RNum]. rewrite pulled_R, prod_R by (auto; lra). field; lra. }
    split; auto. assert (A0 : 0 <= Avg Cs i j).
    { unfold Avg. apply rsum_nonneg; intros s Hs. apply Rmult_le_pos; auto. apply dsum_nonneg; intros. apply Rmult_le_pos; [left; auto|]. apply Rmult_le_pos; auto. }
    destruct A0 as [A0|A0].
    - rewrite <- EU in A0. apply Rmult_lt_reg_l with (quot i j); lra.
    - exfalso. symmetry in A0. unfold Avg in A0.
      assert (N0 : forall s, (s < S)%nat -> forall k c, (k < ns s)%nat -> (c < ns s)%nat -> 0 <= Cs s k c * (tau s k i * tau s c j)) by (intros; apply Rmult_le_pos; [left; auto|apply Rmult_le_pos; auto]).
      assert (Q0 : quot i j = 0); [|lra]. rewrite <- Avg_1. unfold Avg. apply rsum_0; intros s Hs.
      pose proof (rsum_nonneg_zero S _ (fun s Hs => Rmult_le_pos _ _ (Hlam s Hs) (dsum_nonneg (ns s) (ns s) _ (N0 s Hs))) A0 s Hs) as Z. cbv beta in Z.
      apply Rmult_integral in Z. destruct Z as [Z|Z]; [rewrite Z; ring|].
      assert (dsum (ns s) (ns s) (fun k c => 1 * (tau s k i * tau s c j)) = 0) as ->; [|ring].
      unfold dsum. apply rsum_0; intros k Hk. apply rsum_0; intros c Hc.
      pose proof (dsum_zero (ns s) (ns s) _ (N0 s Hs) Z k c Hk Hc) as Y. cbv beta in Y. apply Rmult_integral in Y. specialize (HCs s k c Hs Hk Hc). destruct Y; [lra|]. rewrite H. ring. }
  split; [|intros; apply UP; auto].
  rewrite !bary_obj_R. apply dsum_le; intros i j Hi Hj.
  assert (X : forall x, Avg (fun s k c => ell (kl_loss ln 0) x (Cs s k c)) i j = x * quot i j - ln x * Avg Cs i j + Avg (fun s k c => Cs s k c * ln (Cs s k c) - Cs s k c) i j).
  { intro x. rewrite (Avg_ext _ (fun s k c => (x * 1 + - ln x * Cs s k c) + (Cs s k c * ln (Cs s k c) - Cs s k c))).
    2:{ intros. unfold ell, kl_loss. rewrite Et, !Rplus_0_r. ring. }
    rewrite !Avg_plus, (Avg_scal x (fun _ _ _ => 1)), Avg_1, (Avg_scal (- ln x) Cs). ring. }
  rewrite !X. specialize (HC i j Hi Hj). destruct (quot_nonneg i j Hi Hj) as [Q|Q].
  - destruct (UP i j Hi Hj Q) as [EU PU]. rewrite <- EU.
    assert (G : 0 <= U i j * ln (U i j / C i j) - U i j + C i j) by (pose proof (xlnx_div_ge (U i j) (C i j) (Rlt_le _ _ PU) HC); lra).
    rewrite ln_div in G by auto. assert (0 <= quot i j * (U i j * (ln (U i j) - ln (C i j)) - U i j + C i j)) by (apply Rmult_le_pos; lra). lra.
  - rewrite (Avg_zero Cs i j Hi Hj (eq_sym Q)), <- Q. lra.
Qed.
Lemma kls_diff : forall cz floor C, target = false -> 0 < floor ->
  (forall s k c, (s < S)%nat -> (k < ns s)%nat -> (c < ns s)%nat -> floor <= Cs s k c) -> (forall i j, (i < K)%nat -> (j < K)%nat -> 0 < C i j) ->
  let U := update_barycenter_structure (N:=RNum) S ns ln exp KlLoss target cz floor lam Ts Cs p in
  bary_obj (kl_loss ln 0) U <= bary_obj (kl_loss ln 0) C.
Proof.
  intros cz floor C Et Hf HCs HC U. rewrite !bary_obj_R. apply dsum_le; intros i j Hi Hj.
  set (lnC := fun s k c => ln (Cs s k c)).
  assert (X : forall x, Avg (fun s k c => ell (kl_loss ln 0) x (Cs s k c)) i j = (x * ln x - x) * quot i j - x * Avg lnC i j + Avg Cs i j).
  { intro x. rewrite (Avg_ext _ (fun s k c => ((x * ln x - x) * 1 + - x * lnC s k c) + Cs s k c)).
    2:{ intros. unfold ell, kl_loss, lnC. rewrite Et, !Rplus_0_r. ring. }
    rewrite !Avg_plus, (Avg_scal (x * ln x - x) (fun _ _ _ => 1)), Avg_1, (Avg_scal (- x) lnC). ring. }
  rewrite !X. specialize (HC i j Hi Hj). destruct (quot_nonneg i j Hi Hj) as [Q|Q].
  - assert (EU : U i j = exp (Avg lnC i j / quot i j)).
    { unfold U, update_barycenter_structure. rewrite Et. rewrite <- Et. cbn [nmul RNum]. rewrite pulled_R, prod_R by (auto; lra). f_equal. unfold Rdiv. f_equal.
      apply Avg_ext; intros. unfold lnC. f_equal. rewrite nmax_R. apply Rmax_left. auto. }
    assert (PU : 0 < U i j) by (rewrite EU; apply exp_pos). assert (LU : quot i j * ln (U i j) = Avg lnC i j) by (rewrite EU, ln_exp; field; lra). rewrite <- LU.
    assert (G : 0 <= C i j * ln (C i j / U i j) - C i j + U i j) by (pose proof (xlnx_div_ge (C i j) (U i j) (Rlt_le _ _ HC) PU); lra).
    rewrite ln_div in G by auto. assert (0 <= quot i j * (C i j * (ln (C i j) - ln (U i j)) - C i j + U i j)) by (apply Rmult_le_pos; lra). lra.
  - rewrite (Avg_zero lnC i j Hi Hj (eq_sym Q)), <- Q. lra.
Qed.

(** *** features *)
Variable (d : nat) (Ys : nat -> mat).
Definition wsum (i : nat) : R := rsum S (fun s => lam s * marg s i).
Definition feat_obj (X : mat) : R :=
  rsum S (fun s => lam s * rsum (ns s) (fun k => rsum K (fun i => tau s k i * rsum d (fun e => (Ys s k e - X i e) ^ 2)))).
Definition FAvg (phi : nat -> nat -> R) (i : nat) : R := rsum S (fun s => lam s * rsum (ns s) (fun k => tau s k i * phi s k)).
Lemma FAvg_plus : forall f g i, FAvg (fun s k => f s k + g s k) i = FAvg f i + FAvg g i.
Proof. intros. unfold FAvg. rewrite <- rsum_plus. apply rsum_ext; intros s _. rewrite <- Rmult_plus_distr_l, <- rsum_plus. f_equal. apply rsum_ext; intros; ring. Qed.
Lemma FAvg_scal : forall x f i, FAvg (fun s k => x * f s k) i = x * FAvg f i.
Proof. intros. unfold FAvg. rewrite <- rsum_scal. apply rsum_ext; intros s _. rewrite (rsum_ext (ns s) _ (fun k => x * (tau s k i * f s k))) by (intros; ring). rewrite rsum_scal. ring. Qed.
Lemma FAvg_ext : forall f g i, (forall s k, f s k = g s k) -> FAvg f i = FAvg g i.
Proof. intros. unfold FAvg. apply rsum_ext; intros s _. f_equal. apply rsum_ext; intros. rewrite H; auto. Qed.
Lemma FAvg_1 : forall i, FAvg (fun _ _ => 1) i = wsum i.
Proof. intros. unfold FAvg, wsum, marg. apply rsum_ext; intros s _. f_equal. apply rsum_ext; intros; ring. Qed.
Lemma FAvg_zero : forall f i, (i < K)%nat -> wsum i = 0 -> FAvg f i = 0.
Proof.
  intros f i Hi E. rewrite <- FAvg_1 in E. unfold FAvg in *. apply rsum_0; intros s Hs.
  assert (N0 : forall s, (s < S)%nat -> forall k, (k < ns s)%nat -> 0 <= tau s k i * 1) by (intros; rewrite Rmult_1_r; auto).
  pose proof (rsum_nonneg_zero S _ (fun s Hs => Rmult_le_pos _ _ (Hlam s Hs) (rsum_nonneg (ns s) _ (N0 s Hs))) E s Hs) as Z. cbv beta in Z.
  apply Rmult_integral in Z. destruct Z as [Z|Z]; [rewrite Z; ring|].
  assert (rsum (ns s) (fun k => tau s k i * f s k) = 0) as ->; [|ring]. apply rsum_0; intros k Hk.
  pose proof (rsum_nonneg_zero (ns s) _ (N0 s Hs) Z k Hk) as Y. cbv beta in Y. rewrite Rmult_1_r in Y. rewrite Y. ring.
Qed.
Lemma feat_obj_R : forall X, feat_obj X = dsum K d (fun i e => FAvg (fun s k => (Ys s k e - X i e) ^ 2) i).
Proof.
  intros. unfold feat_obj, FAvg, dsum.
  transitivity (rsum S (fun s => rsum K (fun i => rsum d (fun e => lam s * rsum (ns s) (fun k => tau s k i * (Ys s k e - X i e) ^ 2))))).
  - apply rsum_ext; intros s _. rewrite rsum_swap, <- rsum_scal. apply rsum_ext; intros i _. rewrite rsum_scal. f_equal. rewrite rsum_swap. apply rsum_ext; intros k _. symmetry; apply rsum_scal.
  - rewrite rsum_swap. apply rsum_ext; intros i _. rewrite rsum_swap. reflexivity.
Qed.
Lemma feat_diff : forall cz X,
  let U := update_barycenter_feature (N:=RNum) S ns target cz lam Ts Ys p in
  feat_obj X = feat_obj U + dsum K d (fun i e => wsum i * (X i e - U i e) ^ 2).
Proof.
  intros cz X U. rewrite !feat_obj_R, <- dsum_plus. apply dsum_ext; intros i e Hi He.
  assert (E : forall x, FAvg (fun s k => (Ys s k e - x) ^ 2) i = x ^ 2 * wsum i - 2 * x * FAvg (fun s k => Ys s k e) i + FAvg (fun s k => Ys s k e ^ 2) i).
  { intro x. rewrite (FAvg_ext _ (fun s k => (x ^ 2 * 1 + - (2 * x) * Ys s k e) + Ys s k e ^ 2)) by (intros; ring).
    rewrite !FAvg_plus, (FAvg_scal (x ^ 2) (fun _ _ => 1)), FAvg_1, (FAvg_scal (- (2 * x)) (fun s k => Ys s k e)). ring. }
  rewrite !E. assert (EU : wsum i * U i e = FAvg (fun s k => Ys s k e) i).
  { destruct (Req_dec (wsum i) 0) as [Z|Z]; [rewrite (FAvg_zero _ i Hi Z), Z; ring|].
    unfold U, update_barycenter_feature. cbn [nmul RNum].
    assert (EF : nsum (N:=RNum) S (fun s => lam s * nsum (N:=RNum) (ns s) (fun k => (if target then Ts s k i else Ts s i k) * Ys s k e)) = FAvg (fun s k => Ys s k e) i).
    { rewrite nsum_R. unfold FAvg, tau. apply rsum_ext; intros s _. f_equal. rewrite nsum_R. reflexivity. }
    assert (EI : (match p with Shared q => inv_ (N:=RNum) cz (q i) | PerSpace q => inv_ (N:=RNum) cz (nsum (N:=RNum) S (fun s => lam s * q s i))
      | FromPlans => inv_ (N:=RNum) cz (nsum (N:=RNum) S (fun s => lam s * bary_marg (N:=RNum) ns target Ts s i)) end : R) = / wsum i).
    { unfold good_masses in Hm. destruct p as [q|q|].
      - destruct Hm as [HS Hq]. assert (Ew : wsum i = q i).
        { unfold wsum. rewrite (rsum_ext S _ (fun s => lam s * q i)) by (intros; rewrite Hq by auto; reflexivity). rewrite rsum_scal_r. change (rsum S (fun i => lam i)) with (rsum S lam). rewrite HS. ring. }
        rewrite Ew in *. apply inv_R; auto.
      - assert (Ew : nsum (N:=RNum) S (fun s => lam s * q s i) = wsum i) by (rewrite nsum_R; unfold wsum; apply rsum_ext; intros; rewrite Hm; auto). rewrite Ew. apply inv_R; auto.
      - assert (Ew : nsum (N:=RNum) S (fun s => lam s * bary_marg (N:=RNum) ns target Ts s i) = wsum i) by (rewrite nsum_R; unfold wsum; apply rsum_ext; intros; rewrite bmarg_R; auto). rewrite Ew. apply inv_R; auto. }
    etransitivity; [apply f_equal; apply (f_equal2 Rmult EF EI)|]. field; auto. }
  rewrite <- EU. ring.
Qed.
End Bary.
