(** Gromov-Wasserstein: discrepancy properties, gradients in the structure matrices. *)
From Coq Require Import Reals Lra Lia Arith Bool List.
Import ListNotations.
From Verif Require Import Num Sums Spec Entropy Optim_model Duals_proofs Optim_proofs Gw_model Gw_proofs.
Local Open Scope R_scope.

Lemma bil_ik : forall n m L C1 C2 T S, gw_bil n m L C1 C2 T S = dsum n n (fun i k => dsum m m (fun j c => L (C1 i k) (C2 j c) * T i j * S k c)).
Proof. intros. unfold gw_bil, dsum. apply rsum_ext; intros i _. apply rsum_swap. Qed.
Lemma bil_swap : forall n m L C1 C2 T S, gw_bil n m L C1 C2 T S = gw_bil m n (fun x y => L y x) C2 C1 (transp T) (transp S).
Proof.
  intros. unfold gw_bil, transp. rewrite rsum_swap. apply rsum_ext; intros j _. apply rsum_ext; intros i _. rewrite rsum_swap. reflexivity.
Qed.
Lemma obj_nonneg : forall n m (L : R -> R -> R) C1 C2 T, nonneg_mat n m T ->
  (forall i k j c, (i < n)%nat -> (k < n)%nat -> (j < m)%nat -> (c < m)%nat -> 0 <= L (C1 i k) (C2 j c)) -> 0 <= gw_obj n m L C1 C2 T.
Proof.
  intros n m L C1 C2 T HT HL. unfold gw_obj, gw_bil. apply rsum_nonneg; intros i Hi. apply rsum_nonneg; intros j Hj. apply rsum_nonneg; intros k Hk. apply rsum_nonneg; intros c Hc.
  repeat apply Rmult_le_pos; auto.
Qed.
Lemma obj_zero : forall n m (L : R -> R -> R) C1 C2 T, nonneg_mat n m T ->
  (forall i k j c, (i < n)%nat -> (k < n)%nat -> (j < m)%nat -> (c < m)%nat -> 0 <= L (C1 i k) (C2 j c)) ->
  gw_obj n m L C1 C2 T = 0 <->
  (forall i j k c, (i < n)%nat -> (j < m)%nat -> (k < n)%nat -> (c < m)%nat -> 0 < T i j -> 0 < T k c -> L (C1 i k) (C2 j c) = 0).
Proof.
  intros n m L C1 C2 T HT HL. split.
  - intros E i j k c Hi Hj Hk Hc P1 P2. unfold gw_obj in E. rewrite bil_ik in E.
    assert (N0 : forall i k, (i < n)%nat -> (k < n)%nat -> forall j c, (j < m)%nat -> (c < m)%nat -> 0 <= L (C1 i k) (C2 j c) * T i j * T k c) by (intros; repeat apply Rmult_le_pos; auto).
    pose proof (dsum_zero n n _ (fun i k Hi Hk => dsum_nonneg m m _ (N0 i k Hi Hk)) E i k Hi Hk) as E2. cbv beta in E2.
    pose proof (dsum_zero m m _ (N0 i k Hi Hk) E2 j c Hj Hc) as E3. cbv beta in E3.
    apply Rmult_integral in E3. destruct E3 as [E3|E3]; [|lra]. apply Rmult_integral in E3. destruct E3; [auto|lra].
  - intro H. unfold gw_obj, gw_bil. apply rsum_0; intros i Hi. apply rsum_0; intros j Hj. apply rsum_0; intros k Hk. apply rsum_0; intros c Hc.
    destruct (HT i j Hi Hj) as [P1|P1]; [|rewrite <- P1; ring]. destruct (HT k c Hk Hc) as [P2|P2]; [|rewrite <- P2; ring]. rewrite H; auto. ring.
Qed.

(** *** gradients with respect to the structure matrices *)
Lemma TCT_R : forall (n m : nat) (C T : mat) i k, nsum (N:=RNum) m (fun j => nmul (n:=RNum) (T i j) (nsum (N:=RNum) m (fun c => nmul (n:=RNum) (C j c) (T k c))))
  = dsum m m (fun j c => C j c * (T i j * T k c)).
Proof. intros _ m C T i k. unfold dsum. rewrite nsum_R. apply rsum_ext; intros j _. rewrite nsum_R. cbn. rewrite <- rsum_scal. apply rsum_ext; intros; ring. Qed.
Lemma mass_pair : forall m (T : mat) i k, dsum m m (fun j c => T i j * T k c) = row_sum m T i * row_sum m T k.
Proof. intros. unfold dsum, row_sum. rewrite rsum_mult. reflexivity. Qed.
Lemma sq_C1_expand : forall n m (C1 C2 T E : mat) (p : vec) lg e t, (forall i, (i < n)%nat -> row_sum m T i = p i) ->
  gw_obj n m sq_loss (fun i k => C1 i k + t * E i k) C2 T
  = gw_obj n m sq_loss C1 C2 T + t * dsum n n (fun i k => gw2_gC1 (N:=RNum) m lg SquareLoss e C1 C2 p T i k * E i k)
    + t ^ 2 * dsum n n (fun i k => E i k ^ 2 * (p i * p k)).
Proof.
  intros n m C1 C2 T E p lg e t Hp. unfold gw_obj. rewrite !bil_ik, <- !dsum_scal, <- !dsum_plus. apply dsum_ext; intros i k Hi Hk.
  unfold gw2_gC1. rewrite (TCT_R n). unfold two. cbn [nsub nmul nadd n1 RNum].
  rewrite <- (Hp i), <- (Hp k) by auto. rewrite <- mass_pair.
  rewrite (dsum_ext m m (fun j c => sq_loss (C1 i k + t * E i k) (C2 j c) * T i j * T k c)
    (fun j c => sq_loss (C1 i k) (C2 j c) * T i j * T k c + ((2 * t * E i k * C1 i k + t ^ 2 * E i k ^ 2) * (T i j * T k c) - 2 * t * E i k * (C2 j c * (T i j * T k c))))).
  2:{ intros. unfold sq_loss. ring. }
  rewrite dsum_plus, dsum_minus, !dsum_scal. match goal with |- @eq _ ?x ?y => change (@eq R x y) end. ring.
Qed.
Lemma gC2_transp : forall (n m : nat) (C1 C2 T : mat) (q : vec) lg e j c,
  gw2_gC2 (N:=RNum) n SquareLoss e C1 C2 q T j c = gw2_gC1 (N:=RNum) n lg SquareLoss e C2 C1 q (transp T) j c.
Proof. reflexivity. Qed.
Lemma sq_C2_expand : forall n m (C1 C2 T E : mat) (q : vec) e t, (forall j, (j < m)%nat -> col_sum n T j = q j) ->
  gw_obj n m sq_loss C1 (fun i k => C2 i k + t * E i k) T
  = gw_obj n m sq_loss C1 C2 T + t * dsum m m (fun i k => gw2_gC2 (N:=RNum) n SquareLoss e C1 C2 q T i k * E i k)
    + t ^ 2 * dsum m m (fun i k => E i k ^ 2 * (q i * q k)).
Proof.
  intros n m C1 C2 T E q e t Hq.
  assert (X : forall C2', gw_obj n m sq_loss C1 C2' T = gw_obj m n sq_loss C2' C1 (transp T)).
  { intros. unfold gw_obj. rewrite bil_swap. unfold gw_bil, sq_loss. apply rsum_ext; intros; apply rsum_ext; intros; apply rsum_ext; intros; apply rsum_ext; intros; ring. }
  rewrite !X. rewrite (sq_C1_expand m n C2 C1 (transp T) E q (fun x => x) e t) by (intros; apply Hq; auto). reflexivity.
Qed.

(** derivative of a finite sum *)
Lemma deriv_rsum : forall n (f : nat -> R -> R) (d : nat -> R) x, (forall i, (i < n)%nat -> derivable_pt_lim (f i) x (d i)) ->
  derivable_pt_lim (fun t => rsum n (fun i => f i t)) x (rsum n d).
Proof.
  induction n as [|n IH]; intros f d x H; cbn [rsum].
  - apply derivable_pt_lim_const.
  - apply (derivable_pt_lim_plus (fun t => rsum n (fun i => f i t)) (f n)); [apply IH; auto|apply H; lia].
Qed.
Lemma deriv_dsum : forall n m (f : nat -> nat -> R -> R) (d : nat -> nat -> R) x, (forall i j, (i < n)%nat -> (j < m)%nat -> derivable_pt_lim (f i j) x (d i j)) ->
  derivable_pt_lim (fun t => dsum n m (fun i j => f i j t)) x (dsum n m d).
Proof. intros. unfold dsum. apply deriv_rsum. intros. apply deriv_rsum. auto. Qed.
Lemma deriv_eq : forall f x d d', derivable_pt_lim f x d -> d = d' -> derivable_pt_lim f x d'.
Proof. intros; subst; auto. Qed.
Lemma deriv_ext : forall f g x d, (forall t, f t = g t) -> derivable_pt_lim f x d -> derivable_pt_lim g x d.
Proof. intros f g x d H D e He. destruct (D e He) as [de Hd]. exists de. intros. rewrite <- !H. auto. Qed.

Lemma kl_dx : forall x y E, 0 < x -> 0 < y -> derivable_pt_lim (fun t => kl_loss ln 0 (x + t * E) y) 0 (E * (ln x - ln y)).
Proof.
  intros x y E Hx Hy. unfold kl_loss.
  assert (D0 : derivable_pt_lim (fun t => x + t * E) 0 E).
  { apply deriv_eq with (0 + (1 * E + 0 * 0)); [|ring]. apply (derivable_pt_lim_plus (fct_cte x) (fun t => t * E)); [apply derivable_pt_lim_const|].
    apply (derivable_pt_lim_mult (fun t => t) (fct_cte E)); [apply derivable_pt_lim_id|apply derivable_pt_lim_const]. }
  assert (D1 : derivable_pt_lim (fun t => ln (x + t * E)) 0 (/ x * E)).
  { apply (derivable_pt_lim_comp (fun t => x + t * E) ln); auto. replace (x + 0 * E) with x by ring. apply derivable_pt_lim_ln; auto. }
  apply deriv_ext with (fun t => (((x + t * E) * ln (x + t * E)) - ((x + t * E) * ln y)) - (x + t * E) + y).
  { intros. rewrite !Rplus_0_r. reflexivity. }
  apply deriv_eq with ((((E * ln (x + 0 * E) + (x + 0 * E) * (/ x * E)) - (E * ln y + (x + 0 * E) * 0)) - E) + 0).
  2:{ replace (x + 0 * E) with x by ring. field. lra. }
  apply (derivable_pt_lim_plus (fun t => (((x + t * E) * ln (x + t * E)) - ((x + t * E) * ln y)) - (x + t * E)) (fct_cte y)); [|apply derivable_pt_lim_const].
  apply (derivable_pt_lim_minus (fun t => ((x + t * E) * ln (x + t * E)) - ((x + t * E) * ln y)) (fun t => x + t * E)); auto.
  apply (derivable_pt_lim_minus (fun t => (x + t * E) * ln (x + t * E)) (fun t => (x + t * E) * ln y)).
  - apply (derivable_pt_lim_mult (fun t => x + t * E) (fun t => ln (x + t * E))); auto.
  - apply (derivable_pt_lim_mult (fun t => x + t * E) (fct_cte (ln y))); auto. apply derivable_pt_lim_const.
Qed.
Lemma kl_dy : forall x y E, 0 < y -> derivable_pt_lim (fun t => kl_loss ln 0 x (y + t * E)) 0 (E * (1 - x / y)).
Proof.
  intros x y E Hy. unfold kl_loss.
  assert (D0 : derivable_pt_lim (fun t => y + t * E) 0 E).
  { apply deriv_eq with (0 + (1 * E + 0 * 0)); [|ring]. apply (derivable_pt_lim_plus (fct_cte y) (fun t => t * E)); [apply derivable_pt_lim_const|].
    apply (derivable_pt_lim_mult (fun t => t) (fct_cte E)); [apply derivable_pt_lim_id|apply derivable_pt_lim_const]. }
  assert (D1 : derivable_pt_lim (fun t => ln (y + t * E)) 0 (/ y * E)).
  { apply (derivable_pt_lim_comp (fun t => y + t * E) ln); auto. replace (y + 0 * E) with y by ring. apply derivable_pt_lim_ln; auto. }
  apply deriv_ext with (fun t => (x * ln x - x) - x * ln (y + t * E) + (y + t * E)).
  { intros. rewrite !Rplus_0_r. ring. }
  apply deriv_eq with ((0 - (0 * ln (y + 0 * E) + x * (/ y * E))) + E).
  2:{ field. lra. }
  apply (derivable_pt_lim_plus (fun t => (x * ln x - x) - x * ln (y + t * E)) (fun t => y + t * E)); auto.
  apply (derivable_pt_lim_minus (fct_cte (x * ln x - x)) (fun t => x * ln (y + t * E))); [apply derivable_pt_lim_const|].
  apply (derivable_pt_lim_mult (fct_cte x) (fun t => ln (y + t * E))); auto. apply derivable_pt_lim_const.
Qed.
Lemma kl_C1_deriv : forall n m (C1 C2 T E : mat) (p : vec), (forall i, (i < n)%nat -> row_sum m T i = p i) ->
  (forall i k, (i < n)%nat -> (k < n)%nat -> 0 < C1 i k) -> (forall i k, (i < m)%nat -> (k < m)%nat -> 0 < C2 i k) ->
  derivable_pt_lim (fun t => gw_obj n m (kl_loss ln 0) (fun i k => C1 i k + t * E i k) C2 T) 0
    (dsum n n (fun i k => gw2_gC1 (N:=RNum) m ln KlLoss 0 C1 C2 p T i k * E i k)).
Proof.
  intros n m C1 C2 T E p Hp H1 H2. unfold gw_obj.
  apply deriv_ext with (fun t => dsum n n (fun i k => dsum m m (fun j c => kl_loss ln 0 (C1 i k + t * E i k) (C2 j c) * T i j * T k c))).
  { intros. rewrite bil_ik. reflexivity. }
  apply deriv_dsum. intros i k Hi Hk.
  apply deriv_eq with (dsum m m (fun j c => (E i k * (ln (C1 i k) - ln (C2 j c))) * (T i j * T k c) + kl_loss ln 0 (C1 i k + 0 * E i k) (C2 j c) * 0)).
  - apply deriv_dsum. intros j c Hj Hc.
    apply deriv_ext with (fun t => kl_loss ln 0 (C1 i k + t * E i k) (C2 j c) * (T i j * T k c)); [intros; ring|].
    apply (derivable_pt_lim_mult (fun t => kl_loss ln 0 (C1 i k + t * E i k) (C2 j c)) (fct_cte (T i j * T k c))); [apply kl_dx; auto|apply derivable_pt_lim_const].
  - unfold gw2_gC1. pose proof (TCT_R n m (fun j c => ln (C2 j c)) T i k) as X. cbn [nsub nmul nadd RNum] in *. rewrite Rplus_0_r.
    rewrite nsum_R. rewrite nsum_R in X. rewrite (rsum_ext m _ (fun j => T i j * nsum (N:=RNum) m (fun c => ln (C2 j c) * T k c))).
    2:{ intros. f_equal. rewrite !nsum_R. apply rsum_ext; intros. rewrite Rplus_0_r. reflexivity. }
    rewrite X. rewrite <- (Hp i), <- (Hp k) by auto. rewrite <- mass_pair.
    rewrite (dsum_ext m m _ (fun j c => E i k * ln (C1 i k) * (T i j * T k c) - E i k * (ln (C2 j c) * (T i j * T k c)))) by (intros; ring).
    rewrite dsum_minus, !dsum_scal. match goal with |- @eq _ ?x ?y => change (@eq R x y) end. ring.
Qed.
Lemma kl_C2_deriv : forall n m (C1 C2 T E : mat) (q : vec), (forall j, (j < m)%nat -> col_sum n T j = q j) ->
  (forall i k, (i < m)%nat -> (k < m)%nat -> 0 < C2 i k) ->
  derivable_pt_lim (fun t => gw_obj n m (kl_loss ln 0) C1 (fun i k => C2 i k + t * E i k) T) 0
    (dsum m m (fun i k => gw2_gC2 (N:=RNum) n KlLoss 0 C1 C2 q T i k * E i k)).
Proof.
  intros n m C1 C2 T E q Hq H2. unfold gw_obj.
  apply deriv_ext with (fun t => dsum m m (fun j c => dsum n n (fun i k => kl_loss ln 0 (C1 i k) (C2 j c + t * E j c) * T i j * T k c))).
  { intros. rewrite bil_swap, bil_ik. reflexivity. }
  apply deriv_dsum. intros j c Hj Hc.
  apply deriv_eq with (dsum n n (fun i k => (E j c * (1 - C1 i k / C2 j c)) * (T i j * T k c) + kl_loss ln 0 (C1 i k) (C2 j c + 0 * E j c) * 0)).
  - apply deriv_dsum. intros i k Hi Hk.
    apply deriv_ext with (fun t => kl_loss ln 0 (C1 i k) (C2 j c + t * E j c) * (T i j * T k c)); [intros; ring|].
    apply (derivable_pt_lim_mult (fun t => kl_loss ln 0 (C1 i k) (C2 j c + t * E j c)) (fct_cte (T i j * T k c))); [apply kl_dy; auto|apply derivable_pt_lim_const].
  - unfold gw2_gC2. pose proof (TCT_R m n C1 (transp T) j c) as X. unfold transp in X. cbn [nsub nmul nadd ndiv nopp RNum] in *. rewrite X. unfold nopp. cbn [nsub n0 RNum]. rewrite Rplus_0_r.
    specialize (H2 j c Hj Hc). rewrite <- (Hq j), <- (Hq c) by auto. pose proof (mass_pair n (transp T) j c) as Y. unfold transp in Y at 1 2. change (row_sum n (transp T)) with (col_sum n T) in Y. rewrite <- Y.
    rewrite (dsum_ext n n _ (fun i k => E j c * (T i j * T k c) - E j c / C2 j c * (C1 i k * (T i j * T k c)))) by (intros; field; lra).
    rewrite dsum_minus, !dsum_scal. match goal with |- @eq _ ?x ?y => change (@eq R x y) end. field. lra.
Qed.
