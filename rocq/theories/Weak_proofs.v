(** Facts about weak and factored transport, at R. *)
From Coq Require Import Reals List Lra Lia.
From Verif Require Import Num Sums Spec Perm Duals_proofs Emd1d_model Emd1d_perm_proofs Optim_model Optim_proofs Weak_model.
Import ListNotations.
Local Open Scope R_scope.

Ltac toR := match goal with |- @eq _ ?x ?y => change (@eq R x y) end.
(** ** vocabulary *)
(** conditional mean of y given x_i under the plan *)
Definition cond_mean (m : nat) (a : vec) (Xb T : mat) (i t : nat) : R := rsum m (fun j => T i j * Xb j t) / a i.
Definition weak_obj (n m d : nat) (a : vec) (Xa Xb T : mat) : R := rsum n (fun i => a i * rsum d (fun t => (Xa i t - cond_mean m a Xb T i t) ^ 2)).
Definition sqdist2 (d : nat) (X Y : mat) : mat := fun i j => rsum d (fun t => (X i t - Y j t) ^ 2).

Lemma weak_loss_R : forall n m d a Xa Xb T, weak_loss (N:=RNum) n m d a Xa Xb T = weak_obj n m d a Xa Xb T.
Proof.
  intros. unfold weak_loss, weak_obj. rewrite nsum_R. apply rsum_ext; intros i Hi. cbn [nmul RNum]. rewrite nsum_R. f_equal. apply rsum_ext; intros t Ht.
  unfold weak_res, cond_mean. rewrite nsum_R. cbn. ring.
Qed.
Lemma weak_grad_R : forall m d a Xa Xb T i j, weak_grad (N:=RNum) m d a Xa Xb T i j = - 2 * rsum d (fun t => (Xa i t - cond_mean m a Xb T i t) * Xb j t).
Proof.
  intros. unfold weak_grad. rewrite nsum_R. unfold nopp, two. cbn [nmul nsub nadd n0 n1 RNum]. f_equal; [ring|]. apply rsum_ext; intros t Ht. unfold weak_res, cond_mean. rewrite nsum_R. reflexivity.
Qed.

Section W.
Variables (n m d : nat) (a b : vec) (Xa Xb : mat).
Hypothesis Ha : pos_vec n a.
Notation f := (weak_obj n m d a Xa Xb).
Notation g := (weak_grad (N:=RNum) m d a Xa Xb).
Definition quad_part (D : mat) : R := rsum n (fun i => / a i * rsum d (fun t => rsum m (fun j => D i j * Xb j t) ^ 2)).
Lemma quad_part_nonneg : forall D, 0 <= quad_part D.
Proof. intros D. apply rsum_nonneg; intros i Hi. apply Rmult_le_pos; [left; apply Rinv_0_lt_compat; auto|]. apply rsum_nonneg; intros; apply pow2_ge_0. Qed.
Lemma weak_expand : forall T D s, f (fun i j => T i j + s * D i j) = f T + s * cost n m (g T) D + s ^ 2 * quad_part D.
Proof.
  intros T D s. unfold weak_obj, cost, quad_part. rewrite <- !rsum_scal, <- !rsum_plus. apply rsum_ext; intros i Hi. assert (P := Ha i Hi).
  rewrite (rsum_ext m (fun j => g T i j * D i j) (fun j => rsum d (fun t => - 2 * (Xa i t - cond_mean m a Xb T i t) * (D i j * Xb j t)))).
  2:{ intros j Hj. rewrite weak_grad_R, <- rsum_scal, <- rsum_scal_r. apply rsum_ext; intros; ring. }
  rewrite rsum_swap. rewrite <- !rsum_scal, <- !rsum_plus. apply rsum_ext; intros t Ht. rewrite rsum_scal.
  unfold cond_mean. rewrite (rsum_ext m (fun j => (T i j + s * D i j) * Xb j t) (fun j => T i j * Xb j t + s * (D i j * Xb j t))) by (intros; ring).
  rewrite rsum_plus, rsum_scal. field. lra.
Qed.
Lemma weak_convex_gap : forall T T', f T - f T' <= cost n m (g T) (fun i j => T i j - T' i j).
Proof.
  intros T T'. assert (E := weak_expand T (fun i j => T' i j - T i j) 1). assert (Q := quad_part_nonneg (fun i j => T' i j - T i j)).
  assert (X : f (fun i j => T i j + 1 * (T' i j - T i j)) = f T').
  { unfold weak_obj. apply rsum_ext; intros. f_equal. apply rsum_ext; intros. do 2 f_equal. unfold cond_mean. f_equal. apply rsum_ext; intros. ring. }
  cbv beta in E. rewrite X in E. assert (Y : cost n m (g T) (fun i j => T i j - T' i j) = - cost n m (g T) (fun i j => T' i j - T i j)).
  { unfold cost. rewrite <- rsum_opp. apply rsum_ext; intros. rewrite <- rsum_opp. apply rsum_ext; intros. ring. }
  rewrite Y. lra.
Qed.
(** Jensen: the weak cost is below the quadratic transport cost *)
Lemma weak_le_cost : forall T, coupling n m a b T -> f T <= cost n m (sqdist2 d Xa Xb) T.
Proof.
  intros T (P & R & _). unfold weak_obj, cost. apply rsum_le; intros i Hi. assert (Pa := Ha i Hi). specialize (R i Hi). unfold row_sum in R. change (rsum m (T i) = a i) in R.
  rewrite (rsum_ext m _ (fun j => rsum d (fun t => T i j * (Xa i t - Xb j t) ^ 2))) by (intros; unfold sqdist2; rewrite rsum_scal; ring).
  rewrite rsum_swap, <- rsum_scal. apply rsum_le; intros t Ht. unfold cond_mean.
  set (S := rsum m (fun j => T i j * Xb j t)). set (x := Xa i t).
  assert (E : rsum m (fun j => T i j * (x - Xb j t) ^ 2) = a i * (x - S / a i) ^ 2 + rsum m (fun j => T i j * (Xb j t - S / a i) ^ 2)).
  { rewrite (rsum_ext m _ (fun j => ((x ^ 2) * T i j - (2 * x) * (T i j * Xb j t)) + T i j * Xb j t ^ 2)) by (intros; ring).
    rewrite (rsum_ext m (fun j => T i j * (Xb j t - S / a i) ^ 2) (fun j => (T i j * Xb j t ^ 2 - (2 * (S / a i)) * (T i j * Xb j t)) + (S / a i) ^ 2 * T i j)) by (intros; ring).
    rewrite !rsum_plus, !rsum_minus, !rsum_scal, R. fold S. field. lra. }
  rewrite E. assert (0 <= rsum m (fun j => T i j * (Xb j t - S / a i) ^ 2)) by (apply rsum_nonneg; intros; apply Rmult_le_pos; [apply P; auto|apply pow2_ge_0]). lra.
Qed.
(** the barycenters bound it from below *)
Lemma weak_ge_means : forall T, coupling n m a b T -> mass n a = 1 ->
  rsum d (fun t => (rsum n (fun i => a i * Xa i t) - rsum m (fun j => b j * Xb j t)) ^ 2) <= f T.
Proof.
  intros T (P & R & C) M1. unfold weak_obj. rewrite (rsum_ext n _ (fun i => rsum d (fun t => a i * (Xa i t - cond_mean m a Xb T i t) ^ 2))) by (intros; rewrite rsum_scal; auto).
  rewrite rsum_swap. apply rsum_le; intros t Ht.
  assert (E : rsum n (fun i => a i * Xa i t) - rsum m (fun j => b j * Xb j t) = rsum n (fun i => a i * (Xa i t - cond_mean m a Xb T i t))).
  { rewrite (rsum_ext n (fun i => a i * (Xa i t - cond_mean m a Xb T i t)) (fun i => a i * Xa i t - rsum m (fun j => T i j * Xb j t))).
    - rewrite rsum_minus, rsum_swap. f_equal. apply rsum_ext; intros j Hj. rewrite rsum_scal_r. f_equal. symmetry. apply C; auto.
    - intros i Hi. unfold cond_mean. assert (P' := Ha i Hi). field. lra. }
  rewrite E. set (z := fun i => Xa i t - cond_mean m a Xb T i t).
  assert (CS := rsum_CS n (fun i => sqrt (a i)) (fun i => sqrt (a i) * z i)). cbv beta in CS.
  rewrite (rsum_ext n (fun i => sqrt (a i) * (sqrt (a i) * z i)) (fun i => a i * z i)) in CS by (intros i Hi; rewrite <- Rmult_assoc, sqrt_sqrt by (left; apply Ha; auto); auto).
  rewrite (rsum_ext n (fun i => sqrt (a i) ^ 2) a) in CS by (intros i Hi; apply pow2_sqrt; left; apply Ha; auto).
  rewrite (rsum_ext n (fun i => (sqrt (a i) * z i) ^ 2) (fun i => a i * z i ^ 2)) in CS by (intros i Hi; rewrite Rpow_mult_distr, pow2_sqrt by (left; apply Ha; auto); auto).
  unfold mass in M1. rewrite M1, Rmult_1_l in CS. exact CS.
Qed.

(** ** the run *)
Definition search_contract (search : (R -> R) -> R -> R -> R -> option R * R) : Prop :=
  forall phi phi0 der amin, match search phi phi0 der amin with (Some al, v) => 0 <= al <= 1 /\ v = phi al /\ (der <= 0 -> v <= phi0) | (None, _) => True end.
Variables (lp : mat -> mat) (search : (R -> R) -> R -> R -> R -> option R * R) (K : nat) (t1 t2 : R).
Hypotheses (Hlp : forall Mi, optimal_coupling n m a b Mi (lp Mi)) (Hs : search_contract search).
Notation F := (cg_cost (N:=RNum) n m (fun _ _ => 0) 1 (weak_loss (N:=RNum) n m d a Xa Xb)).
Lemma F_obj : forall G, F G = f G.
Proof. intros G. rewrite cg_cost_R, weak_loss_R. unfold cost. rewrite rsum_0; [exact (eq_trans (Rplus_0_l _) (Rmult_1_l _))|]. intros i Hi. apply rsum_0. intros j Hj. apply Rmult_0_l. Qed.
Definition winv (s : @cg_state RNum) : Prop :=
  coupling n m a b (cg_G s) /\ cg_grad s = None /\ cg_val s = f (cg_G s) /\ nonincreasing (cg_log s) /\ cg_log s <> [] /\ last (cg_log s) 0 = cg_val s.
Lemma inner_cost : forall M G, inner (N:=RNum) n m M G = cost n m M G.
Proof. intros. unfold inner, cost. rewrite nsum_R. apply rsum_ext; intros. rewrite nsum_R. reflexivity. Qed.
Lemma weak_step : forall s, winv s ->
  winv (fst (cg_step (N:=RNum) n m (fun _ _ => 0) 1 (weak_loss (N:=RNum) n m d a Xa Xb) g lp (armijo_ls (N:=RNum) search n m) K t1 t2 s)).
Proof.
  intros s (C & Gr & V & NI & NE & LA). unfold cg_step. rewrite Gr. unfold armijo_ls, line_search_armijo.
  set (Mi := fun i j => nadd (n:=RNum) _ _). set (D := fun i j => nsub (n:=RNum) (lp Mi i j) (cg_G s i j)).
  assert (MiE : forall i j, Mi i j = g (cg_G s) i j) by (intros; unfold Mi; cbn; ring).
  assert (DN : inner (N:=RNum) n m Mi D <= 0).
  { rewrite inner_cost. destruct (Hlp Mi) as [_ O]. specialize (O (cg_G s) C). unfold D. cbn [nsub RNum].
    replace (cost n m Mi (fun i j => lp Mi i j - cg_G s i j)) with (cost n m Mi (lp Mi) - cost n m Mi (cg_G s)); [lra|].
    unfold cost. rewrite <- rsum_minus. apply rsum_ext; intros. rewrite <- rsum_minus. apply rsum_ext; intros. ring. }
  match goal with |- context [search ?p ?q ?u ?v] => assert (SC := Hs p q u v); destruct (search p q u v) as [[al|] w] end.
  - destruct SC as (A & W & LE). cbn [fst cg_G cg_grad cg_val cg_log].
    assert (EC : clip (N:=RNum) 0 None al = al) by (unfold clip; rewrite nmax_R, Rmax_left; lra).
    change (@n0 RNum) with 0. rewrite EC. change (@n0 RNum) with 0 in W. rewrite EC in W. specialize (LE DN).
    assert (C' : coupling n m a b (fun i j => nadd (n:=RNum) (cg_G s i j) (nmul (n:=RNum) al (D i j)))).
    { apply (convex_coupling n m a b (cg_G s) (lp Mi) al); auto. apply (Hlp Mi). }
    unfold winv. cbn [cg_G cg_grad cg_val cg_log]. split; [exact C'|]. split; auto. split; [rewrite W; apply F_obj|]. split; [|split].
    + apply nonincr_app; auto. right. eapply Rle_trans; [exact LE|]. apply Req_le. symmetry. exact LA.
    + intro X. apply app_eq_nil in X. destruct X; discriminate.
    + apply last_last.
  - cbn [fst cg_G cg_grad cg_val cg_log]. unfold winv. cbn [cg_G cg_grad cg_val cg_log].
    assert (C' : coupling n m a b (fun i j => nadd (n:=RNum) (cg_G s i j) (nmul (n:=RNum) (n0 (n:=RNum)) (D i j)))).
    { eapply coupling_ext; [| | |exact C]; auto. intros i j Hi Hj. cbn. rewrite Rmult_0_l, Rplus_0_r. reflexivity. }
    split; [exact C'|]. split; auto. split; [|split; [|split]].
    + rewrite V. unfold weak_obj. apply rsum_ext; intros. f_equal. apply rsum_ext; intros. do 2 f_equal. unfold cond_mean. f_equal. apply rsum_ext; intros. cbn. rewrite Rmult_0_l, Rplus_0_r. reflexivity.
    + apply nonincr_app; auto. right. apply Req_le. symmetry. exact LA.
    + intro X. apply app_eq_nil in X. destruct X; discriminate.
    + apply last_last.
Qed.
End W.

(** ** factored couplings *)
Lemma sqd_R : forall d X Y i j, sqd (N:=RNum) d X Y i j = sqdist2 d X Y i j.
Proof. intros. unfold sqd, sqdist2. rewrite nsum_R. apply rsum_ext; intros; cbn; ring. Qed.
Section F.
Variables (na nb r d : nat) (Xa Xb : mat) (a b : vec).
Hypotheses (Hr : (0 < r)%nat).
Definition unif_w (k : nat) : R := 1 / INR r.
(** objective at a support and two plans *)
Definition fact_obj (Ga Gb X : mat) : R := cost na r (sqdist2 d Xa X) Ga + cost r nb (sqdist2 d X Xb) Gb.
Lemma INR_r : 0 < INR r. Proof. apply lt_0_INR; auto. Qed.
Lemma fact_support_R : forall Ga Gb k t,
  fact_support (N:=RNum) na nb r Xa Xb Ga Gb k t = INR r / 2 * (rsum na (fun i => Ga i k * Xa i t) + rsum nb (fun j => Gb k j * Xb j t)).
Proof. intros. unfold fact_support, two. rewrite !nsum_R, nofnat_INR. cbn [nmul nadd ndiv n1 RNum]. replace (1 + 1) with 2 by lra. toR. field. Qed.
(** moving the support: exact change of the objective *)
Lemma fact_obj_shift : forall Ga Gb X, coupling na r a unif_w Ga -> coupling r nb unif_w b Gb ->
  fact_obj Ga Gb X = fact_obj Ga Gb (fact_support (N:=RNum) na nb r Xa Xb Ga Gb)
    + 2 / INR r * rsum r (fun k => rsum d (fun t => (X k t - fact_support (N:=RNum) na nb r Xa Xb Ga Gb k t) ^ 2)).
Proof.
  intros Ga Gb X (_ & _ & Ca) (_ & Rb & _). assert (P := INR_r). set (Z := fact_support (N:=RNum) na nb r Xa Xb Ga Gb).
  assert (E : forall Y, fact_obj Ga Gb Y = rsum r (fun k => rsum d (fun t =>
     (rsum na (fun i => Ga i k * Xa i t ^ 2) + rsum nb (fun j => Gb k j * Xb j t ^ 2)) + 2 / INR r * (Y k t ^ 2) - 4 / INR r * (Y k t * Z k t)))).
  { intros Y. unfold fact_obj, cost. rewrite rsum_swap, <- rsum_plus. apply rsum_ext; intros k Hk.
    rewrite (rsum_ext na _ (fun i => rsum d (fun t => Ga i k * Xa i t ^ 2 - (2 * Y k t) * (Ga i k * Xa i t) + (Y k t ^ 2) * Ga i k))) by (intros; unfold sqdist2; rewrite <- rsum_scal_r; apply rsum_ext; intros; ring).
    rewrite (rsum_ext nb _ (fun j => rsum d (fun t => Gb k j * Xb j t ^ 2 - (2 * Y k t) * (Gb k j * Xb j t) + (Y k t ^ 2) * Gb k j))) by (intros; unfold sqdist2; rewrite <- rsum_scal_r; apply rsum_ext; intros; ring).
    rewrite (rsum_swap na d), (rsum_swap nb d), <- rsum_plus. apply rsum_ext; intros t Ht.
    rewrite !rsum_plus, !rsum_minus, !rsum_scal. specialize (Ca k Hk). specialize (Rb k Hk). unfold col_sum, row_sum, unif_w in *. change (rsum nb (Gb k) = 1 / INR r) in Rb. rewrite Ca.
    match goal with |- context [rsum nb (fun i => Gb k i)] => change (rsum nb (fun i => Gb k i)) with (rsum nb (Gb k)) | _ => idtac end. rewrite Rb. unfold Z. rewrite fact_support_R. field. lra. }
  rewrite (E X), (E Z), <- rsum_scal, <- rsum_plus. apply rsum_ext; intros k Hk. rewrite <- rsum_scal, <- rsum_plus. apply rsum_ext; intros t Ht. field. lra.
Qed.
(** the composed plan *)
Lemma fact_plan_R : forall Ga Gb i j, fact_lazy_plan (N:=RNum) r Ga Gb i j = rsum r (fun k => Ga i k * INR r * Gb k j).
Proof. intros. unfold fact_lazy_plan. rewrite nsum_R, nofnat_INR. reflexivity. Qed.
Lemma fact_plan_coupling : forall Ga Gb, coupling na r a unif_w Ga -> coupling r nb unif_w b Gb -> coupling na nb a b (fact_lazy_plan (N:=RNum) r Ga Gb).
Proof.
  intros Ga Gb (Pa & Ra & Ca) (Pb & Rb & Cb). assert (P := INR_r). split; [|split].
  - intros i j Hi Hj. rewrite fact_plan_R. apply rsum_nonneg; intros k Hk. apply Rmult_le_pos; [apply Rmult_le_pos; [apply Pa; auto|lra]|apply Pb; auto].
  - intros i Hi. unfold row_sum. rewrite (rsum_ext nb _ (fun j => rsum r (fun k => Ga i k * INR r * Gb k j))) by (intros; apply fact_plan_R). rewrite rsum_swap.
    rewrite (rsum_ext r _ (fun k => Ga i k)); [apply Ra; auto|]. intros k Hk. rewrite rsum_scal. specialize (Rb k Hk). change (rsum nb (Gb k) = 1 / INR r) in Rb. rewrite Rb. field. lra.
  - intros j Hj. unfold col_sum. rewrite (rsum_ext na _ (fun i => rsum r (fun k => Ga i k * INR r * Gb k j))) by (intros; apply fact_plan_R). rewrite rsum_swap.
    rewrite (rsum_ext r _ (fun k => Gb k j)); [apply Cb; auto|]. intros k Hk. rewrite rsum_scal_r, rsum_scal_r. specialize (Ca k Hk). unfold col_sum, unif_w in Ca. rewrite Ca. field. lra.
Qed.
Lemma fact_plan_cost : forall Ga Gb X, coupling na r a unif_w Ga -> coupling r nb unif_w b Gb ->
  cost na nb (sqdist2 d Xa Xb) (fact_lazy_plan (N:=RNum) r Ga Gb) <= 2 * fact_obj Ga Gb X.
Proof.
  intros Ga Gb X (Pa & Ra & Ca) (Pb & Rb & Cb). assert (P := INR_r).
  assert (E1 : cost na nb (sqdist2 d Xa Xb) (fact_lazy_plan (N:=RNum) r Ga Gb) <= rsum na (fun i => rsum nb (fun j => rsum r (fun k => 2 * (sqdist2 d Xa X i k + sqdist2 d X Xb k j) * (Ga i k * INR r * Gb k j))))).
  { unfold cost. apply rsum_le; intros i Hi. apply rsum_le; intros j Hj. rewrite fact_plan_R, <- rsum_scal. apply rsum_le; intros k Hk.
    apply Rmult_le_compat_r; [apply Rmult_le_pos; [apply Rmult_le_pos; [apply Pa; auto|lra]|apply Pb; auto]|].
    unfold sqdist2. rewrite <- rsum_plus, <- rsum_scal. apply rsum_le; intros t Ht. assert (Q := pow2_ge_0 ((Xa i t - X k t) - (X k t - Xb j t))). nra. }
  eapply Rle_trans; [exact E1|]. right.
  rewrite (rsum_ext na _ (fun i => rsum r (fun k => 2 * sqdist2 d Xa X i k * Ga i k + Ga i k * INR r * 2 * rsum nb (fun j => sqdist2 d X Xb k j * Gb k j)))).
  - unfold fact_obj, cost. rewrite (rsum_ext na _ (fun i => rsum r (fun k => 2 * sqdist2 d Xa X i k * Ga i k) + rsum r (fun k => Ga i k * INR r * 2 * rsum nb (fun j => sqdist2 d X Xb k j * Gb k j)))) by (intros; rewrite rsum_plus; auto).
    rewrite rsum_plus, Rmult_plus_distr_l. f_equal.
    + rewrite <- rsum_scal. apply rsum_ext; intros. rewrite <- rsum_scal. apply rsum_ext; intros. ring.
    + rewrite rsum_swap, <- rsum_scal. apply rsum_ext; intros k Hk.
      rewrite (rsum_ext na _ (fun i => Ga i k * (INR r * 2 * rsum nb (fun j => sqdist2 d X Xb k j * Gb k j)))) by (intros; ring).
      rewrite rsum_scal_r. specialize (Ca k Hk). unfold col_sum, unif_w in Ca. rewrite Ca. field. lra.
  - intros i Hi. rewrite rsum_swap. apply rsum_ext; intros k Hk. rewrite (rsum_ext nb _ (fun j => 2 * sqdist2 d Xa X i k * Ga i k * INR r * Gb k j + Ga i k * INR r * 2 * (sqdist2 d X Xb k j * Gb k j))) by (intros; ring).
    rewrite rsum_plus, !rsum_scal. specialize (Rb k Hk). unfold row_sum, unif_w in Rb. change (rsum nb (Gb k) = 1 / INR r) in Rb. 
    match goal with |- context [rsum nb (fun i => Gb k i)] => change (rsum nb (fun i => Gb k i)) with (rsum nb (Gb k)) | _ => idtac end. rewrite Rb. field. lra.
Qed.

(** ** the loop: exact minimisation over the two plans for a penalty phi (0 for emd, reg times the
    entropy for sinkhorn), then over the support *)
Variables (ot : nat -> nat -> vec -> vec -> mat -> mat) (phi : nat -> nat -> mat -> R) (norm : mat -> R) (thr : R).
Hypothesis Hot : forall k l w1 w2 M, (exists G, coupling k l w1 w2 G) -> coupling k l w1 w2 (ot k l w1 w2 M) /\
   forall G, coupling k l w1 w2 G -> cost k l M (ot k l w1 w2 M) + phi k l (ot k l w1 w2 M) <= cost k l M G + phi k l G.
Hypotheses (Ea : exists G, coupling na r a unif_w G) (Eb : exists G, coupling r nb unif_w b G).
Hypothesis Hnorm : forall M, norm M = sqrt (rsum r (fun k => rsum d (fun t => M k t ^ 2))).
Definition pen_obj (Ga Gb X : mat) : R := fact_obj Ga Gb X + phi na r Ga + phi r nb Gb.
Notation plans X := (fact_plans (N:=RNum) ot na nb r d Xa Xb a b X).
Notation floop := (fact_loop (N:=RNum) ot norm na nb r d Xa Xb a b).
Notation supp := (fact_support (N:=RNum) na nb r Xa Xb).
Lemma w_eq : forall k, fact_w (N:=RNum) r k = unif_w k.
Proof. intros. unfold fact_w, unif_w. rewrite nofnat_INR. reflexivity. Qed.
Lemma plans_ok : forall X, let Ga := fst (plans X) in let Gb := snd (plans X) in coupling na r a unif_w Ga /\ coupling r nb unif_w b Gb /\
  forall Ga' Gb', coupling na r a unif_w Ga' -> coupling r nb unif_w b Gb' -> pen_obj Ga Gb X <= pen_obj Ga' Gb' X.
Proof.
  intros X. unfold fact_plans. cbn [fst snd].
  assert (CE1 : forall G, coupling na r a unif_w G <-> coupling na r a (fact_w (N:=RNum) r) G) by (intros G; split; intros C; (eapply coupling_ext; [| | |exact C]; auto; intros; rewrite w_eq; auto)).
  assert (CE2 : forall G, coupling r nb unif_w b G <-> coupling r nb (fact_w (N:=RNum) r) b G) by (intros G; split; intros C; (eapply coupling_ext; [| | |exact C]; auto; intros; rewrite w_eq; auto)).
  destruct (Hot na r a (fact_w (N:=RNum) r) (sqd (N:=RNum) d Xa X)) as [C1 O1]; [destruct Ea as [G HG]; exists G; apply CE1; auto|].
  destruct (Hot r nb (fact_w (N:=RNum) r) b (sqd (N:=RNum) d X Xb)) as [C2 O2]; [destruct Eb as [G HG]; exists G; apply CE2; auto|].
  split; [apply CE1; auto|]. split; [apply CE2; auto|]. intros Ga' Gb' H1 H2. specialize (O1 Ga' (proj1 (CE1 Ga') H1)). specialize (O2 Gb' (proj1 (CE2 Gb') H2)).
  assert (S1 : forall G, cost na r (sqd (N:=RNum) d Xa X) G = cost na r (sqdist2 d Xa X) G) by (intros; apply cost_ext; auto; intros; apply sqd_R).
  assert (S2 : forall G, cost r nb (sqd (N:=RNum) d X Xb) G = cost r nb (sqdist2 d X Xb) G) by (intros; apply cost_ext; auto; intros; apply sqd_R).
  rewrite !S1 in O1. rewrite !S2 in O2. unfold pen_obj, fact_obj. lra.
Qed.
(** what one round gives *)
Definition round_ok (o : @fact_out RNum) : Prop :=
  coupling na r a unif_w (fo_Ga o) /\ coupling r nb unif_w b (fo_Gb o) /\
  (forall k t, fo_X o k t = supp (fo_Ga o) (fo_Gb o) k t) /\
  (forall Ga' Gb', coupling na r a unif_w Ga' -> coupling r nb unif_w b Gb' -> pen_obj (fo_Ga o) (fo_Gb o) (fo_old o) <= pen_obj Ga' Gb' (fo_old o)).
Lemma round_now : forall X it, round_ok (mkFact (fst (plans X)) (snd (plans X)) (supp (fst (plans X)) (snd (plans X))) X it).
Proof. intros X it. destruct (plans_ok X) as (C1 & C2 & O). unfold round_ok. cbn. auto. Qed.
Definition gap (o : @fact_out RNum) : R := norm (fun k t => fo_X o k t - fo_old o k t).
Lemma norm_sq : forall M, 0 <= norm M /\ norm M ^ 2 = rsum r (fun k => rsum d (fun t => M k t ^ 2)).
Proof.
  intros M. rewrite Hnorm. split; [apply sqrt_pos|]. apply pow2_sqrt. apply rsum_nonneg; intros; apply rsum_nonneg; intros; apply pow2_ge_0.
Qed.
Lemma round_decrease : forall o, round_ok o -> pen_obj (fo_Ga o) (fo_Gb o) (fo_X o) = pen_obj (fo_Ga o) (fo_Gb o) (fo_old o) - 2 / INR r * gap o ^ 2.
Proof.
  intros o (C1 & C2 & EX & _). unfold pen_obj. rewrite (fact_obj_shift _ _ (fo_X o) C1 C2), (fact_obj_shift _ _ (fo_old o) C1 C2).
  assert (Z : rsum r (fun k => rsum d (fun t => (fo_X o k t - supp (fo_Ga o) (fo_Gb o) k t) ^ 2)) = 0) by (apply rsum_0; intros; apply rsum_0; intros; rewrite EX; ring).
  assert (G : rsum r (fun k => rsum d (fun t => (fo_old o k t - supp (fo_Ga o) (fo_Gb o) k t) ^ 2)) = gap o ^ 2).
  { unfold gap. destruct (norm_sq (fun k t => fo_X o k t - fo_old o k t)) as [_ ->]. apply rsum_ext; intros; apply rsum_ext; intros. rewrite EX. ring. }
  rewrite Z, G. lra.
Qed.
(** invariant: value of the objective after [it] rounds none of which stopped *)
Lemma floop_ok : forall k it X last v0,
  (match last with None => it = 0%nat | Some o => round_ok o /\ fo_it o = it /\ fo_X o = X /\ (1 <= it)%nat /\ thr <= gap o /\ pen_obj (fo_Ga o) (fo_Gb o) X + INR it * (2 / INR r * thr ^ 2) <= v0 end) ->
  0 <= thr -> pen_obj (fst (plans X)) (snd (plans X)) X + INR it * (2 / INR r * thr ^ 2) <= v0 ->
  match floop k it thr X last with
  | None => k = 0%nat /\ last = None
  | Some o => round_ok o /\ (fo_it o <= it + k)%nat /\ (gap o < thr \/ (fo_it o = it + k)%nat) /\ pen_obj (fo_Ga o) (fo_Gb o) (fo_X o) + INR (fo_it o - 1) * (2 / INR r * thr ^ 2) <= v0
  end.
Proof.
  induction k; intros it X last v0 Hl Ht Hv; cbn [fact_loop].
  - destruct last as [o|]; auto. destruct Hl as (R & Ei & EX & I1 & G & V). split; auto. split; [lia|]. split; [right; lia|]. rewrite EX. eapply Rle_trans; [|exact V].
    apply Rplus_le_compat_l. apply Rmult_le_compat_r; [|apply le_INR; lia]. assert (P := INR_r). apply Rmult_le_pos; [apply Rle_mult_inv_pos; lra|apply pow2_ge_0].
  - assert (RN := round_now X (S it)). destruct (plans X) as [Ga Gb] eqn:EP. cbn [fst snd] in *.
    set (o := mkFact Ga Gb (supp Ga Gb) X (S it)) in *. assert (D := round_decrease o RN). change (pen_obj Ga Gb (supp Ga Gb) = pen_obj Ga Gb X - 2 / INR r * gap o ^ 2) in D.
    assert (P := INR_r). assert (P2 : 0 <= 2 / INR r) by (apply Rle_mult_inv_pos; lra).
    match goal with |- context [if ?x then _ else _] => change x with (Rltb (gap o) thr) end.
    destruct (Rltb (gap o) thr) eqn:B.
    + apply Rltb_true in B. split; auto. split; [cbn; lia|]. split; auto. unfold o at 1 2 3 4. cbn [fo_Ga fo_Gb fo_X fo_it]. replace (S it - 1)%nat with it by lia.
      assert (0 <= 2 / INR r * gap o ^ 2) by (apply Rmult_le_pos; auto; apply pow2_ge_0). lra.
    + apply Rltb_false in B. replace (it + S k)%nat with (S it + k)%nat by lia.
      assert (TG : thr ^ 2 <= gap o ^ 2) by (apply pow_incr; lra).
      assert (TG2 : 2 / INR r * thr ^ 2 <= 2 / INR r * gap o ^ 2) by (apply Rmult_le_compat_l; auto).
      assert (V1 : pen_obj Ga Gb (supp Ga Gb) + INR (S it) * (2 / INR r * thr ^ 2) <= v0) by (rewrite S_INR; lra).
      specialize (IHk (S it) (supp Ga Gb) (Some o) v0).
      assert (H : match floop k (S it) thr (supp Ga Gb) (Some o) with None => k = 0%nat /\ Some o = None | Some o => round_ok o /\ (fo_it o <= S it + k)%nat /\ (gap o < thr \/ (fo_it o = S it + k)%nat) /\ pen_obj (fo_Ga o) (fo_Gb o) (fo_X o) + INR (fo_it o - 1) * (2 / INR r * thr ^ 2) <= v0 end).
      { apply IHk; auto.
        - split; [exact RN|]. split; auto. split; auto. split; [lia|]. split; auto.
        - destruct (plans_ok (supp Ga Gb)) as (_ & _ & O). destruct RN as (C1 & C2 & _ & _). cbn in C1, C2. specialize (O Ga Gb C1 C2). lra. }
      destruct (floop k (S it) thr (supp Ga Gb) (Some o)); auto. destruct H as [_ H]. discriminate.
Qed.
End F.
