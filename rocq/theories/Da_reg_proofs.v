(** Lemmas on the regularised problems of da.py: the conditional-gradient run with the Armijo search for any
    regulariser, majorisation-minimisation, group lasso, Laplacian regularisation. *)
From Coq Require Import Reals List Lra Lia Bool.
From Verif Require Import Num Sums Spec Perm Duals_proofs Emd1d_model Emd1d_perm_proofs Optim_model Optim_proofs Weak_model Weak_proofs Da_model.
Import ListNotations.
Local Open Scope R_scope.
Ltac toR := match goal with |- @eq _ ?x ?y => change (@eq R x y) end.

(** ** cg with the default line search *)
Section Cg.
Variables (n m : nat) (a b : vec) (M : mat) (reg : R) (f : mat -> R) (df : mat -> mat).
Variables (lp : mat -> mat) (search : (R -> R) -> R -> R -> R -> option R * R) (K : nat) (t1 t2 : R).
Hypothesis Hext : forall G G', (forall i j, (i < n)%nat -> (j < m)%nat -> G i j = G' i j) -> f G = f G'.
Hypotheses (Hlp : forall Mi, optimal_coupling n m a b Mi (lp Mi)) (Hs : search_contract search).
Definition total (G : mat) : R := cost n m M G + reg * f G.
Definition cinv (v0 : R) (s : @cg_state RNum) : Prop :=
  coupling n m a b (cg_G s) /\ cg_val s = total (cg_G s) /\ nonincreasing (cg_log s) /\ cg_log s <> [] /\ last (cg_log s) 0 = cg_val s /\ hd 0 (cg_log s) = v0.
Notation stp := (cg_step (N:=RNum) n m M reg f df lp (armijo_ls (N:=RNum) search n m) K t1 t2).
Lemma hd_app : forall (l : list R) x, l <> [] -> hd 0 (l ++ [x]) = hd 0 l.
Proof. intros [|y l] x H; [contradiction|reflexivity]. Qed.
Lemma cstep : forall v0 s, cinv v0 s -> cinv v0 (fst (stp s)).
Proof.
  intros v0 s (C & V & NI & NE & LA & HD). unfold cg_step.
  set (dfG := match cg_grad s with None => _ | Some g => g end). unfold armijo_ls, line_search_armijo.
  set (Mi := fun i j => nadd (n:=RNum) _ _). set (D := fun i j => nsub (n:=RNum) (lp Mi i j) (cg_G s i j)).
  assert (DN : inner (N:=RNum) n m Mi D <= 0).
  { rewrite inner_cost. destruct (Hlp Mi) as [_ O]. specialize (O (cg_G s) C). unfold D. cbn [nsub RNum].
    replace (cost n m Mi (fun i j => lp Mi i j - cg_G s i j)) with (cost n m Mi (lp Mi) - cost n m Mi (cg_G s)); [lra|].
    unfold cost. rewrite <- rsum_minus. apply rsum_ext; intros. rewrite <- rsum_minus. apply rsum_ext; intros. ring. }
  match goal with |- context [search ?p ?q ?u ?v] => assert (SC := Hs p q u v); destruct (search p q u v) as [[al|] w] end.
  - destruct SC as (A & W & LE). cbn [fst cg_G cg_val cg_log].
    assert (EC : clip (N:=RNum) 0 None al = al) by (unfold clip; rewrite nmax_R, Rmax_left; lra).
    change (@n0 RNum) with 0. rewrite EC. change (@n0 RNum) with 0 in W. rewrite EC in W. specialize (LE DN).
    assert (C' : coupling n m a b (fun i j => nadd (n:=RNum) (cg_G s i j) (nmul (n:=RNum) al (D i j)))).
    { apply (convex_coupling n m a b (cg_G s) (lp Mi) al); auto. apply (Hlp Mi). }
    unfold cinv. cbn [cg_G cg_val cg_log]. split; [exact C'|]. split; [rewrite W; apply cg_cost_R|]. split; [|split; [|split]].
    + apply nonincr_app; auto. right. eapply Rle_trans; [exact LE|]. apply Req_le. symmetry. exact LA.
    + intro X. apply app_eq_nil in X. destruct X; discriminate.
    + apply last_last.
    + rewrite hd_app; auto.
  - cbn [fst cg_G cg_val cg_log]. unfold cinv. cbn [cg_G cg_val cg_log].
    assert (E0 : forall i j, (i < n)%nat -> (j < m)%nat -> nadd (n:=RNum) (cg_G s i j) (nmul (n:=RNum) (n0 (n:=RNum)) (D i j)) = cg_G s i j)
      by (intros; cbn; rewrite Rmult_0_l, Rplus_0_r; reflexivity).
    split; [eapply coupling_ext; [| | |exact C]; auto; intros; symmetry; apply E0; auto|]. split; [|split; [|split; [|split]]].
    + rewrite V. unfold total. f_equal; [|f_equal; apply Hext; intros; symmetry; apply E0; auto]. apply cost_ext; intros; auto. symmetry. apply E0; auto.
    + apply nonincr_app; auto. right. apply Req_le. symmetry. exact LA.
    + intro X. apply app_eq_nil in X. destruct X; discriminate.
    + apply last_last.
    + rewrite hd_app; auto.
Qed.
Lemma crun : forall fuel G0 r, coupling n m a b G0 ->
  cg_loop (N:=RNum) fuel n m M reg f df lp (armijo_ls (N:=RNum) search n m) K t1 t2 (mkCg (N:=RNum) G0 (cg_cost (N:=RNum) n m M reg f G0) None 0 [cg_cost (N:=RNum) n m M reg f G0]) = Some r ->
  coupling n m a b (cg_G r) /\ nonincreasing (cg_log r) /\ last (cg_log r) 0 = total (cg_G r) /\ total (cg_G r) <= total G0.
Proof.
  intros fuel G0 r C0 E.
  pose proof (loop_inv (N:=RNum) n m M reg f df lp (armijo_ls (N:=RNum) search n m) K t1 t2 (cinv (total G0))) as LI.
  destruct LI with (3 := E) as (C & V & NI & NE & LA & HD).
  - intros s. apply cstep.
  - assert (F0 := cg_cost_R n m M reg f G0). unfold cinv. cbn [cg_G cg_val cg_log]. split; auto. split; [exact F0|]. split; [exact I|]. split; [discriminate|]. split; [reflexivity|exact F0].
  - split; auto. split; auto. split; [rewrite LA; exact V|]. assert (Q := nonincr_last (cg_log r) NI NE). assert (V' : last (cg_log r) 0 = total (cg_G r)) by (rewrite LA; exact V). rewrite <- V'. rewrite <- HD. exact Q.
Qed.
End Cg.

(** ** majorisation-minimisation *)
Section Mm.
Variables (skh : mat -> mat) (phi : mat -> R) (eps : R) (n m L : nat) (lab : nat -> nat) (a b : vec) (M : mat) (eta : R).
Hypotheses (Heps : 0 < eps) (Heta : 0 <= eta) (Hlab : forall i, (i < n)%nat -> (lab i < L)%nat).
Hypothesis Hsk : forall C, coupling n m a b (skh C) /\ forall T, coupling n m a b T -> cost n m C (skh C) + phi (skh C) <= cost n m C T + phi T.
Definition class_mass (T : mat) (c j : nat) : R := rsum n (fun i => if Nat.eqb (lab i) c then T i j else 0).
Definition mm_obj (T : mat) : R := cost n m M T + phi T + eta * rsum m (fun j => rsum L (fun c => sqrt (class_mass T c j + eps))).
Notation W := (mm_W (N:=RNum) (fun x => / sqrt x) eps (1 / 2) n L lab).
Lemma cls_R : forall T c j, cls_sum (N:=RNum) n lab T c j = class_mass T c j.
Proof. intros. unfold cls_sum, class_mass. rewrite nsum_R. reflexivity. Qed.
Lemma mm_W_R : forall T i j, (i < n)%nat -> W T i j = / (2 * sqrt (class_mass T (lab i) j + eps)).
Proof.
  intros T i j Hi. unfold mm_W.
  assert (S : nsum (N:=RNum) L (fun c => nmul (n:=RNum) (cls_sum (N:=RNum) n lab T c j) (if Nat.eqb (lab i) c then n1 else n0)) = class_mass T (lab i) j).
  { rewrite nsum_R. rewrite (rsum_single L (lab i)) by (auto; intros c Hc Hn; cbn [nmul RNum]; replace (Nat.eqb (lab i) c) with false by (symmetry; apply Nat.eqb_neq; auto); apply Rmult_0_r).
    rewrite Nat.eqb_refl. cbn [nmul n1 RNum]. rewrite cls_R. apply Rmult_1_r. }
  rewrite S. cbn [nadd nmul RNum]. rewrite Rinv_mult. unfold Rdiv. rewrite Rmult_1_l. reflexivity.
Qed.
Lemma sqrt_tangent : forall x y, 0 < x -> 0 <= y -> sqrt y <= sqrt x + (y - x) * / (2 * sqrt x).
Proof.
  intros x y Hx Hy. assert (S := sqrt_lt_R0 x Hx). assert (E1 := sqrt_sqrt x (Rlt_le _ _ Hx)). assert (E2 := sqrt_sqrt y Hy).
  apply (Rmult_le_reg_l (2 * sqrt x)); [lra|]. rewrite Rmult_plus_distr_l. replace (2 * sqrt x * ((y - x) * / (2 * sqrt x))) with (y - x) by (field; lra).
  rewrite <- E2 at 2. assert (Q := pow2_ge_0 (sqrt x - sqrt y)). nra.
Qed.
Lemma class_nonneg : forall T c j, nonneg_mat n m T -> (j < m)%nat -> 0 <= class_mass T c j.
Proof. intros T c j H Hj. apply rsum_nonneg. intros i Hi. destruct (Nat.eqb (lab i) c); [apply H; auto|lra]. Qed.
Lemma mm_majorise : forall T T', nonneg_mat n m T -> nonneg_mat n m T' ->
  rsum m (fun j => rsum L (fun c => sqrt (class_mass T' c j + eps)))
  <= rsum m (fun j => rsum L (fun c => sqrt (class_mass T c j + eps))) + (cost n m (W T) T' - cost n m (W T) T).
Proof.
  intros T T' HT HT'.
  assert (E : forall Z, cost n m (W T) Z = rsum m (fun j => rsum L (fun c => class_mass Z c j * / (2 * sqrt (class_mass T c j + eps))))).
  { intros Z. unfold cost. rewrite rsum_swap. apply rsum_ext. intros j Hj.
    rewrite (rsum_ext L _ (fun c => rsum n (fun i => if Nat.eqb (lab i) c then Z i j * / (2 * sqrt (class_mass T c j + eps)) else 0))).
    - rewrite rsum_swap. apply rsum_ext. intros i Hi. rewrite (rsum_single L (lab i)) by (auto; intros c Hc Hn; replace (Nat.eqb (lab i) c) with false by (symmetry; apply Nat.eqb_neq; auto); auto).
      rewrite Nat.eqb_refl, mm_W_R by auto. apply Rmult_comm.
    - intros c Hc. unfold class_mass at 1. rewrite <- rsum_scal_r. apply rsum_ext. intros i Hi. destruct (Nat.eqb (lab i) c); [reflexivity|apply Rmult_0_l]. }
  rewrite !E, <- rsum_minus, <- rsum_plus. apply rsum_le. intros j Hj. rewrite <- rsum_minus, <- rsum_plus. apply rsum_le. intros c Hc.
  assert (P := class_nonneg T c j HT Hj). assert (P' := class_nonneg T' c j HT' Hj).
  eapply Rle_trans; [apply (sqrt_tangent (class_mass T c j + eps)); lra|]. apply Req_le. assert (S : 0 < sqrt (class_mass T c j + eps)) by (apply sqrt_lt_R0; lra). field. lra.
Qed.
Lemma mm_descent : forall T, coupling n m a b T -> mm_obj (skh (fun i j => M i j + eta * W T i j)) <= mm_obj T.
Proof.
  intros T CT. set (C := fun i j => M i j + eta * W T i j). destruct (Hsk C) as [C' O]. specialize (O T CT).
  assert (EC : forall Z, cost n m C Z = cost n m M Z + eta * cost n m (W T) Z).
  { intros Z. unfold cost, C. rewrite <- rsum_scal, <- rsum_plus. apply rsum_ext; intros. rewrite <- rsum_scal, <- rsum_plus. apply rsum_ext; intros. toR. rewrite Rmult_plus_distr_r, Rmult_assoc. reflexivity. }
  rewrite !EC in O. assert (Q := mm_majorise T (skh C) (proj1 CT) (proj1 C')). unfold mm_obj.
  apply (Rmult_le_compat_l eta) in Q; auto. rewrite Rmult_plus_distr_l, Rmult_minus_distr_l in Q. lra.
Qed.
Notation mm := (sinkhorn_lpl1_mm (N:=RNum) (fun x => / sqrt x) skh eps (1 / 2) n L lab M eta).
Notation mml := (mm_loop (N:=RNum) (fun x => / sqrt x) skh eps (1 / 2) n L lab M eta).
Lemma mm_loop_S : forall k Wt last, mml (S k) Wt last = match mml k Wt last with
  | Some T => match k with O => mml 1 Wt last | _ => Some (skh (fun i j => M i j + eta * W T i j)) end | None => mml 1 Wt last end.
Proof.
  induction k as [|k IH]; intros Wt last; [destruct last; reflexivity|].
  change (mml (S (S k)) Wt last) with (mml (S k) (W (skh (fun i j => nadd (n:=RNum) (M i j) (nmul (n:=RNum) eta (Wt i j))))) (Some (skh (fun i j => nadd (n:=RNum) (M i j) (nmul (n:=RNum) eta (Wt i j)))))).
  rewrite IH. change (mml (S k) Wt last) with (mml k (W (skh (fun i j => nadd (n:=RNum) (M i j) (nmul (n:=RNum) eta (Wt i j))))) (Some (skh (fun i j => nadd (n:=RNum) (M i j) (nmul (n:=RNum) eta (Wt i j)))))).
  destruct k; [reflexivity|]. destruct (mml (S k) _ _) eqn:E; auto. exfalso. clear IH. revert E.
  assert (Z : forall k Wt T0, mml k Wt (Some T0) <> None) by (clear; induction k; intros; [discriminate|]; cbn [mm_loop]; apply IHk). apply Z.
Qed.
Lemma mm_run : forall K, exists T, mm (S K) = Some T /\ coupling n m a b T /\ forall T', mm (S (S K)) = Some T' -> mm_obj T' <= mm_obj T.
Proof.
  unfold sinkhorn_lpl1_mm. induction K as [|K [T [E [C _]]]].
  - eexists. split; [reflexivity|]. split; [apply Hsk|]. intros T' E. cbn [mm_loop] in E. injection E as <-. apply mm_descent. apply Hsk.
  - exists (skh (fun i j => M i j + eta * W T i j)). rewrite mm_loop_S, E. split; auto. split; [apply Hsk|]. intros T'. rewrite mm_loop_S, (mm_loop_S (S K)), E. intros Q. injection Q as <-. apply mm_descent. apply Hsk.
Qed.
End Mm.

(** ** group lasso *)
Section Gl.
Variables (eps : R) (n m L : nat) (lab : nat -> nat).
Hypotheses (Heps : 0 < eps) (Hlab : forall i, (i < n)%nat -> (lab i < L)%nat).
Definition grp_norm (G : mat) (c j : nat) : R := sqrt (rsum n (fun i => if Nat.eqb (lab i) c then G i j ^ 2 else 0)).
Definition grp_lasso (G : mat) : R := rsum m (fun j => rsum L (fun c => grp_norm G c j)).
Notation df := (gl_df (N:=RNum) sqrt eps n L lab).
Lemma cls_norm_R : forall G c j, cls_norm (N:=RNum) sqrt n lab G c j = grp_norm G c j.
Proof. intros. unfold cls_norm, grp_norm. rewrite nsum_R. f_equal. apply rsum_ext. intros i Hi. destruct (Nat.eqb _ _); [cbn; ring|reflexivity]. Qed.
Lemma gl_f_R : forall G, gl_f (N:=RNum) sqrt n m L lab G = grp_lasso G.
Proof. intros. unfold gl_f, grp_lasso. rewrite nsum_R. apply rsum_ext; intros. rewrite nsum_R. apply rsum_ext; intros. apply cls_norm_R. Qed.
Lemma gl_df_R : forall G i j, (i < n)%nat -> df G i j = G i j / Rmax (grp_norm G (lab i) j) eps.
Proof.
  intros G i j Hi. unfold gl_df. rewrite nsum_R. cbn [ndiv nmul RNum].
  rewrite (rsum_single L (lab i)) by (auto; intros c Hc Hn; replace (Nat.eqb (lab i) c) with false by (symmetry; apply Nat.eqb_neq; auto); cbn; unfold Rdiv; rewrite Rmult_0_r; apply Rmult_0_l).
  rewrite Nat.eqb_refl, nmax_R, cls_norm_R. cbn. rewrite Rmult_1_r. reflexivity.
Qed.
Lemma grp_cs : forall G H c j, rsum n (fun i => if Nat.eqb (lab i) c then G i j * H i j else 0) <= grp_norm G c j * grp_norm H c j.
Proof.
  intros G H c j. assert (CS := rsum_CS n (fun i => if Nat.eqb (lab i) c then G i j else 0) (fun i => if Nat.eqb (lab i) c then H i j else 0)). cbv beta in CS.
  assert (EE : forall (A B : mat), rsum n (fun i => (if Nat.eqb (lab i) c then A i j else 0) * (if Nat.eqb (lab i) c then B i j else 0)) = rsum n (fun i => if Nat.eqb (lab i) c then A i j * B i j else 0)).
  { intros. apply rsum_ext. intros i Hi. destruct (Nat.eqb _ _); [reflexivity|ring]. }
  rewrite EE in CS.
  assert (SQ : forall (A : mat), rsum n (fun i => (if Nat.eqb (lab i) c then A i j else 0) ^ 2) = grp_norm A c j ^ 2).
  { intros A. unfold grp_norm. rewrite pow2_sqrt by (apply rsum_nonneg; intros; destruct (Nat.eqb _ _); [apply pow2_ge_0|lra]). apply rsum_ext. intros i Hi. destruct (Nat.eqb _ _); [reflexivity|ring]. }
  rewrite !SQ in CS. rewrite <- Rpow_mult_distr in CS.
  assert (P : 0 <= grp_norm G c j * grp_norm H c j) by (apply Rmult_le_pos; apply sqrt_pos).
  destruct (Rle_dec (rsum n (fun i => if Nat.eqb (lab i) c then G i j * H i j else 0)) (grp_norm G c j * grp_norm H c j)); auto. exfalso. assert (X : grp_norm G c j * grp_norm H c j < rsum n (fun i => if Nat.eqb (lab i) c then G i j * H i j else 0)) by lra. nra.
Qed.
(** df is a subgradient up to eps/4 per group *)
Lemma gl_subgrad : forall G G', grp_lasso G + cost n m (df G) (fun i j => G' i j - G i j) - INR m * (INR L * (eps / 4)) <= grp_lasso G'.
Proof.
  intros G G'.
  assert (E : cost n m (df G) (fun i j => G' i j - G i j) = rsum m (fun j => rsum L (fun c => rsum n (fun i => if Nat.eqb (lab i) c then G i j * G' i j - G i j ^ 2 else 0) / Rmax (grp_norm G c j) eps))).
  { unfold cost. rewrite rsum_swap. apply rsum_ext. intros j Hj.
    rewrite (rsum_ext L _ (fun c => rsum n (fun i => if Nat.eqb (lab i) c then (G i j * G' i j - G i j ^ 2) / Rmax (grp_norm G c j) eps else 0))).
    - rewrite rsum_swap. apply rsum_ext. intros i Hi. rewrite (rsum_single L (lab i)) by (auto; intros c Hc Hn; replace (Nat.eqb (lab i) c) with false by (symmetry; apply Nat.eqb_neq; auto); auto).
      rewrite Nat.eqb_refl, gl_df_R by auto. unfold Rdiv. ring.
    - intros c Hc. rewrite <- rsum_div. apply rsum_ext. intros i Hi. destruct (Nat.eqb _ _); [reflexivity|unfold Rdiv; ring]. }
  rewrite E. unfold grp_lasso. rewrite <- !rsum_const, <- rsum_plus, <- rsum_minus. apply rsum_le. intros j Hj. rewrite <- rsum_plus, <- rsum_minus. apply rsum_le. intros c Hc.
  set (g := grp_norm G c j). set (g' := grp_norm G' c j). set (mu := Rmax g eps).
  assert (Pm : 0 < mu) by (eapply Rlt_le_trans; [exact Heps|apply Rmax_r]). assert (Pg : 0 <= g) by apply sqrt_pos. assert (Pg' : 0 <= g') by apply sqrt_pos. assert (Lg : g <= mu) by apply Rmax_l.
  assert (I : rsum n (fun i => if Nat.eqb (lab i) c then G i j * G' i j - G i j ^ 2 else 0) <= g * g' - g ^ 2).
  { rewrite (rsum_ext n _ (fun i => (if Nat.eqb (lab i) c then G i j * G' i j else 0) - (if Nat.eqb (lab i) c then G i j ^ 2 else 0))) by (intros; destruct (Nat.eqb _ _); [reflexivity|ring]).
    rewrite rsum_minus. assert (Q := grp_cs G G' c j). assert (S2 : g ^ 2 = rsum n (fun i => if Nat.eqb (lab i) c then G i j ^ 2 else 0)) by (unfold g, grp_norm; apply pow2_sqrt; apply rsum_nonneg; intros; destruct (Nat.eqb _ _); [apply pow2_ge_0|lra]).
    rewrite S2. unfold g, g'. lra. }
  assert (D : rsum n (fun i => if Nat.eqb (lab i) c then G i j * G' i j - G i j ^ 2 else 0) / mu <= (g * g' - g ^ 2) / mu) by (apply Rmult_le_compat_r; [left; apply Rinv_0_lt_compat; auto|exact I]).
  assert (F : g + (g * g' - g ^ 2) / mu - eps / 4 <= g'); [|lra].
  apply (Rmult_le_reg_l mu); auto. replace (mu * (g + (g * g' - g ^ 2) / mu - eps / 4)) with (mu * g + (g * g' - g ^ 2) - mu * (eps / 4)) by (field; lra).
  assert (g * g' <= mu * g') by (apply Rmult_le_compat_r; auto).
  assert (mu * g - g ^ 2 <= mu * (eps / 4)); [|lra].
  unfold mu, Rmax. destruct (Rle_dec g eps); [|nra]. assert (Q := pow2_ge_0 (g - eps / 2)). nra.
Qed.
End Gl.

(** ** Laplacian regularisation *)
Lemma mdot_R : forall k (A B : mat) i j, mdot (N:=RNum) k A B i j = rsum k (fun l => A i l * B l j).
Proof. intros. unfold mdot. rewrite nsum_R. reflexivity. Qed.
Lemma mdot_assoc : forall k l (A B C : mat) i j, rsum k (fun x => rsum l (fun y => A i y * B y x) * C x j) = rsum l (fun y => A i y * rsum k (fun x => B y x * C x j)).
Proof.
  intros. rewrite (rsum_ext k _ (fun x => rsum l (fun y => A i y * B y x * C x j))) by (intros; rewrite <- rsum_scal_r; reflexivity).
  rewrite rsum_swap. apply rsum_ext; intros y Hy. rewrite <- rsum_scal. apply rsum_ext; intros; ring.
Qed.
Definition lapR (k : nat) (S : mat) (i l : nat) : R := laplacian (N:=RNum) k S i l.
Lemma lapR_eq : forall k S i l, lapR k S i l = (if Nat.eqb i l then rsum k (fun r => S r i) else 0) - S i l.
Proof. intros. unfold lapR, laplacian. rewrite nsum_R. reflexivity. Qed.
(** the form sum_t sum_(i,l) A_it Lap_il B_lt *)
Definition lform (k d : nat) (S : mat) (A B : mat) : R :=
  rsum d (fun t => rsum k (fun i => rsum k (fun l => A i t * (lapR k S i l * B l t)))).
Lemma lform_add : forall k d S A A' B s, lform k d S (fun i t => A i t + s * A' i t) B = lform k d S A B + s * lform k d S A' B.
Proof. intros. unfold lform. rewrite <- rsum_scal, <- rsum_plus. apply rsum_ext; intros. rewrite <- rsum_scal, <- rsum_plus. apply rsum_ext; intros. rewrite <- rsum_scal, <- rsum_plus. apply rsum_ext; intros. ring. Qed.
Lemma lform_sym : forall k d S A B, (forall i l, (i < k)%nat -> (l < k)%nat -> S i l = S l i) -> lform k d S A B = lform k d S B A.
Proof.
  intros k d S A B HS. unfold lform. apply rsum_ext; intros t Ht. rewrite rsum_swap. apply rsum_ext; intros i Hi. apply rsum_ext; intros l Hl.
  rewrite !lapR_eq. rewrite (HS l i) by auto. rewrite (Nat.eqb_sym l i). destruct (Nat.eqb_spec i l) as [->|]; ring.
Qed.
(** a symmetric similarity gives half the similarity-weighted squared differences *)
Lemma lform_diff : forall k d S A, (forall i l, (i < k)%nat -> (l < k)%nat -> S i l = S l i) ->
  lform k d S A A = 1 / 2 * rsum k (fun i => rsum k (fun l => S i l * rsum d (fun t => (A i t - A l t) ^ 2))).
Proof.
  intros k d S A HS. unfold lform.
  rewrite (rsum_ext k (fun i => rsum k (fun l => S i l * rsum d (fun t => (A i t - A l t) ^ 2))) (fun i => rsum d (fun t => rsum k (fun l => S i l * (A i t - A l t) ^ 2)))).
  2:{ intros i Hi. rewrite (rsum_ext k _ (fun l => rsum d (fun t => S i l * (A i t - A l t) ^ 2))) by (intros; rewrite rsum_scal; reflexivity). apply rsum_swap. }
  rewrite (rsum_swap k d (fun i t => rsum k (fun l => S i l * (A i t - A l t) ^ 2))), <- rsum_scal. apply rsum_ext. intros t Ht.
  assert (E1 : rsum k (fun i => rsum k (fun l => A i t * (lapR k S i l * A l t)))
    = rsum k (fun i => rsum k (fun l => S i l * A i t ^ 2)) - rsum k (fun i => rsum k (fun l => S i l * (A i t * A l t)))).
  { rewrite <- rsum_minus. apply rsum_ext. intros i Hi.
    rewrite (rsum_ext k _ (fun l => (if Nat.eqb l i then A i t ^ 2 * rsum k (fun r => S i r) else 0) - S i l * (A i t * A l t))).
    - rewrite rsum_minus, rsum_delta by auto. f_equal. rewrite <- rsum_scal. apply rsum_ext; intros; ring.
    - intros l Hl. rewrite lapR_eq. rewrite (Nat.eqb_sym l i). destruct (Nat.eqb_spec i l) as [->|]; [|ring].
      rewrite (rsum_ext k (fun r => S r l) (fun r => S l r)) by (intros; apply HS; auto). ring. }
  rewrite E1.
  assert (E2 : rsum k (fun i => rsum k (fun l => S i l * (A i t - A l t) ^ 2))
    = rsum k (fun i => rsum k (fun l => S i l * A i t ^ 2)) + rsum k (fun i => rsum k (fun l => S i l * A l t ^ 2)) - 2 * rsum k (fun i => rsum k (fun l => S i l * (A i t * A l t)))).
  { rewrite <- rsum_plus, <- rsum_scal, <- rsum_minus. apply rsum_ext; intros i Hi. rewrite <- rsum_plus, <- rsum_scal, <- rsum_minus. apply rsum_ext; intros l Hl. ring. }
  rewrite E2.
  assert (E3 : rsum k (fun i => rsum k (fun l => S i l * A l t ^ 2)) = rsum k (fun i => rsum k (fun l => S i l * A i t ^ 2))).
  { rewrite rsum_swap. apply rsum_ext; intros i Hi. apply rsum_ext; intros l Hl. rewrite (HS l i) by auto. reflexivity. }
  rewrite E3. field.
Qed.
Section Lap.
Variables (n m d : nat) (xs xt sS sT : mat) (alpha : R).
(** images of the samples: row i of G xt, row j of G^T xs *)
Definition img_s (G : mat) : mat := fun i t => rsum m (fun j => G i j * xt j t).
Definition img_t (G : mat) : mat := fun j t => rsum n (fun i => G i j * xs i t).
Notation f := (lap_f (N:=RNum) n m d xs xt sS sT alpha).
Notation df := (lap_df (N:=RNum) n m d xs xt sS sT alpha).
Lemma lap_f_R : forall G, f G = alpha * lform n d sS (img_s G) (img_s G) + (1 - alpha) * lform m d sT (img_t G) (img_t G).
Proof.
  intros G. unfold lap_f, trace. rewrite !nsum_R. cbn [nadd nmul nsub n1 RNum]. unfold lform. f_equal; f_equal; apply rsum_ext; intros t Ht.
  - rewrite mdot_R. rewrite (rsum_ext m _ (fun x => rsum n (fun y => rsum n (fun l => img_s G l t * lapR n sS l y) * G y x) * xt x t)).
    + assert (Q1 := mdot_assoc m n (fun _ y => rsum n (fun l => img_s G l t * lapR n sS l y)) G xt 0%nat t). cbv beta in Q1. rewrite Q1.
      change (rsum n (fun y => rsum n (fun l => img_s G l t * lapR n sS l y) * img_s G y t) = rsum n (fun i => rsum n (fun l => img_s G i t * (lapR n sS i l * img_s G l t)))).
      assert (Q2 := mdot_assoc n n (fun _ l => img_s G l t) (lapR n sS) (img_s G) 0%nat t). cbv beta in Q2. rewrite Q2. apply rsum_ext; intros i Hi. rewrite <- rsum_scal. reflexivity.
    + intros x Hx. f_equal. rewrite mdot_R. apply rsum_ext; intros y Hy. f_equal. rewrite mdot_R. apply rsum_ext; intros l Hl. f_equal. rewrite mdot_R. apply rsum_ext; intros. unfold transp. apply Rmult_comm.
  - rewrite mdot_R. rewrite (rsum_ext n _ (fun x => rsum m (fun y => rsum m (fun l => img_t G l t * lapR m sT l y) * G x y) * xs x t)).
    + assert (Q1 := mdot_assoc n m (fun _ y => rsum m (fun l => img_t G l t * lapR m sT l y)) (fun y x => G x y) xs 0%nat t). cbv beta in Q1. rewrite Q1.
      change (rsum m (fun y => rsum m (fun l => img_t G l t * lapR m sT l y) * img_t G y t) = rsum m (fun i => rsum m (fun l => img_t G i t * (lapR m sT i l * img_t G l t)))).
      assert (Q2 := mdot_assoc m m (fun _ l => img_t G l t) (lapR m sT) (img_t G) 0%nat t). cbv beta in Q2. rewrite Q2. apply rsum_ext; intros i Hi. rewrite <- rsum_scal. reflexivity.
    + intros x Hx. f_equal. rewrite mdot_R. apply rsum_ext; intros y Hy. f_equal. rewrite mdot_R. apply rsum_ext; intros l Hl. f_equal. rewrite mdot_R. apply rsum_ext; intros. unfold transp. apply Rmult_comm.
Qed.
Lemma lform_pair_s : forall A (D : mat), lform n d sS A (img_s D) = cost n m (fun i j => rsum d (fun t => rsum n (fun l => A l t * lapR n sS l i) * xt j t)) D.
Proof.
  intros A D. unfold lform, cost.
  rewrite (rsum_ext d _ (fun t => rsum n (fun i => rsum m (fun j => rsum n (fun l => A l t * lapR n sS l i) * xt j t * D i j)))).
  - rewrite rsum_swap. apply rsum_ext; intros i Hi. rewrite rsum_swap. apply rsum_ext; intros j Hj. rewrite rsum_scal_r. reflexivity.
  - intros t Ht. rewrite rsum_swap. apply rsum_ext; intros i Hi.
    rewrite (rsum_ext n _ (fun l => A l t * lapR n sS l i * img_s D i t)) by (intros; symmetry; apply Rmult_assoc).
    rewrite rsum_scal_r. unfold img_s. rewrite <- rsum_scal. apply rsum_ext; intros. rewrite (Rmult_comm (D i i0)). symmetry. apply Rmult_assoc.
Qed.
Lemma lform_pair_t : forall A (D : mat), lform m d sT A (img_t D) = cost n m (fun i j => rsum d (fun t => rsum m (fun l => A l t * lapR m sT l j) * xs i t)) D.
Proof.
  intros A D. unfold lform, cost.
  rewrite (rsum_ext d _ (fun t => rsum n (fun i => rsum m (fun j => rsum m (fun l => A l t * lapR m sT l j) * xs i t * D i j)))).
  - rewrite rsum_swap. apply rsum_ext; intros i Hi. rewrite rsum_swap. apply rsum_ext; intros j Hj. rewrite rsum_scal_r. reflexivity.
  - intros t Ht. rewrite rsum_swap. rewrite (rsum_swap n m). apply rsum_ext; intros j Hj.
    rewrite (rsum_ext m _ (fun l => A l t * lapR m sT l j * img_t D j t)) by (intros; symmetry; apply Rmult_assoc).
    rewrite rsum_scal_r. unfold img_t. rewrite <- rsum_scal. apply rsum_ext; intros. rewrite (Rmult_comm (D i j)). symmetry. apply Rmult_assoc.
Qed.
Hypotheses (HS : forall i l, (i < n)%nat -> (l < n)%nat -> sS i l = sS l i) (HT : forall i l, (i < m)%nat -> (l < m)%nat -> sT i l = sT l i).
Lemma lap_sym : forall k (S : mat), (forall i l, (i < k)%nat -> (l < k)%nat -> S i l = S l i) -> forall i l, (i < k)%nat -> (l < k)%nat -> lapR k S i l = lapR k S l i.
Proof. intros k S H i l Hi Hl. rewrite !lapR_eq. rewrite (H l i) by auto. rewrite (Nat.eqb_sym l i). destruct (Nat.eqb_spec i l) as [->|]; reflexivity. Qed.
Lemma lap_df_R : forall G i j, (i < n)%nat -> (j < m)%nat -> df G i j =
  alpha * (2 * rsum d (fun t => rsum n (fun l => img_s G l t * lapR n sS l i) * xt j t)) + (1 - alpha) * (2 * rsum d (fun t => rsum m (fun l => img_t G l t * lapR m sT l j) * xs i t)).
Proof.
  intros G i j Hi Hj. unfold lap_df. cbn [nadd nmul nsub n1 RNum]. f_equal; f_equal.
  - rewrite mdot_R. rewrite (rsum_ext m _ (fun x => rsum n (fun y => ls2 (N:=RNum) n sS i y * G y x) * rsum d (fun t => xt x t * xt j t))) by (intros; rewrite !mdot_R; reflexivity).
    rewrite (mdot_assoc m n (ls2 (N:=RNum) n sS) G (fun x j => rsum d (fun t => xt x t * xt j t)) i j).
    rewrite (rsum_ext n _ (fun y => rsum d (fun t => ls2 (N:=RNum) n sS i y * (img_s G y t * xt j t)))).
    + rewrite rsum_swap, <- rsum_scal. apply rsum_ext; intros t Ht. rewrite <- Rmult_assoc, <- rsum_scal, <- rsum_scal_r. apply rsum_ext; intros l Hl. change (ls2 (N:=RNum) n sS i l) with (lapR n sS i l + lapR n sS l i). rewrite (lap_sym n sS HS i l) by auto. ring.
    + intros y Hy. rewrite rsum_scal. f_equal. rewrite <- (mdot_assoc d m G xt (fun t j => xt j t) y j). reflexivity.
  - rewrite mdot_R. rewrite (rsum_ext m _ (fun x => rsum n (fun y => rsum d (fun t => xs i t * xs y t) * G y x) * lt2 (N:=RNum) m sT x j)) by (intros; rewrite !mdot_R; f_equal; apply rsum_ext; intros; rewrite mdot_R; reflexivity).
    rewrite (rsum_ext m _ (fun x => rsum d (fun t => xs i t * img_t G x t) * lt2 (N:=RNum) m sT x j)).
    + rewrite (mdot_assoc m d xs (fun t x => img_t G x t) (lt2 (N:=RNum) m sT) i j), <- rsum_scal. apply rsum_ext; intros t Ht.
      rewrite (Rmult_comm (xs i t)), <- Rmult_assoc. f_equal. rewrite <- rsum_scal. apply rsum_ext; intros l Hl. change (lt2 (N:=RNum) m sT l j) with (lapR m sT l j + lapR m sT j l). rewrite (lap_sym m sT HT j l) by auto. ring.
    + intros x Hx. f_equal. rewrite (mdot_assoc n d xs (fun t y => xs y t) G i x). apply rsum_ext; intros t Ht. f_equal. unfold img_t. apply rsum_ext; intros; apply Rmult_comm.
Qed.
Lemma img_s_lin : forall G D s i t, img_s (fun i j => G i j + s * D i j) i t = img_s G i t + s * img_s D i t.
Proof. intros. unfold img_s. rewrite <- rsum_scal, <- rsum_plus. apply rsum_ext; intros; ring. Qed.
Lemma img_t_lin : forall G D s i t, img_t (fun i j => G i j + s * D i j) i t = img_t G i t + s * img_t D i t.
Proof. intros. unfold img_t. rewrite <- rsum_scal, <- rsum_plus. apply rsum_ext; intros; ring. Qed.
Lemma lform_ext : forall k S A A' B B', (forall i t, A i t = A' i t) -> (forall i t, B i t = B' i t) -> lform k d S A B = lform k d S A' B'.
Proof. intros k S A A' B B' H H'. unfold lform. apply rsum_ext; intros; apply rsum_ext; intros; apply rsum_ext; intros. rewrite H, H'. reflexivity. Qed.
Lemma lform_quad : forall k S A D s, (forall i l, (i < k)%nat -> (l < k)%nat -> S i l = S l i) ->
  lform k d S (fun i t => A i t + s * D i t) (fun i t => A i t + s * D i t) = lform k d S A A + s * (2 * lform k d S A D) + s ^ 2 * lform k d S D D.
Proof. intros k S A D s H. rewrite lform_add. rewrite !(lform_sym k d S _ (fun i t => A i t + s * D i t)) by auto. rewrite !lform_add. rewrite (lform_sym k d S D A) by auto. ring. Qed.
(** exact expansion *)
Lemma lap_expand : forall G D s, f (fun i j => G i j + s * D i j) = f G + s * cost n m (df G) D + s ^ 2 * f D.
Proof.
  intros G D s. rewrite !lap_f_R.
  rewrite (lform_ext n sS (img_s (fun i j => G i j + s * D i j)) (fun i t => img_s G i t + s * img_s D i t) _ (fun i t => img_s G i t + s * img_s D i t)) by (intros; apply img_s_lin).
  rewrite (lform_ext m sT (img_t (fun i j => G i j + s * D i j)) (fun i t => img_t G i t + s * img_t D i t) _ (fun i t => img_t G i t + s * img_t D i t)) by (intros; apply img_t_lin).
  rewrite (lform_quad n sS) by auto. rewrite (lform_quad m sT) by auto.
  assert (E : cost n m (df G) D = alpha * (2 * lform n d sS (img_s G) (img_s D)) + (1 - alpha) * (2 * lform m d sT (img_t G) (img_t D))).
  { rewrite lform_pair_s, lform_pair_t. unfold cost. rewrite <- !rsum_scal, <- rsum_plus. apply rsum_ext; intros i Hi. rewrite <- !rsum_scal, <- rsum_plus. apply rsum_ext; intros j Hj. rewrite lap_df_R by auto. ring. }
  rewrite E. toR; ring.
Qed.
Lemma lap_nonneg : forall G, 0 <= alpha <= 1 -> nonneg_mat n n sS -> nonneg_mat m m sT -> 0 <= f G.
Proof.
  intros G Ha H1 H2. rewrite lap_f_R, !lform_diff by auto.
  assert (P : forall k S A, nonneg_mat k k S -> 0 <= 1 / 2 * rsum k (fun i => rsum k (fun l => S i l * rsum d (fun t => (A i t - A l t) ^ 2)))).
  { intros k S A H. apply Rmult_le_pos; [lra|]. apply rsum_nonneg; intros; apply rsum_nonneg; intros. apply Rmult_le_pos; [apply H; auto|]. apply rsum_nonneg; intros; apply pow2_ge_0. }
  apply Rplus_le_le_0_compat; apply Rmult_le_pos; try lra; apply P; auto.
Qed.
(** the displacement variant: squares of displacements instead of positions, up to a constant *)
Lemma lap_disp : forall eta (M : mat), (0 < n)%nat -> (0 < m)%nat -> exists c, forall G,
  cost n m (lap_M (N:=RNum) n m d xs xt sS sT alpha true eta M) G + eta * f G
  = cost n m M G + eta * (alpha * lform n d sS (fun i t => img_s G i t - / INR n * xs i t) (fun i t => img_s G i t - / INR n * xs i t)
                        + (1 - alpha) * lform m d sT (fun j t => img_t G j t - / INR m * xt j t) (fun j t => img_t G j t - / INR m * xt j t)) - c.
Proof.
  intros eta M Hn Hm.
  exists (eta * (alpha * ((- / INR n) ^ 2 * lform n d sS xs xs) + (1 - alpha) * ((- / INR m) ^ 2 * lform m d sT xt xt))). intros G.
  rewrite (lform_ext n sS (fun i t => img_s G i t - / INR n * xs i t) (fun i t => img_s G i t + (- / INR n) * xs i t) _ (fun i t => img_s G i t + (- / INR n) * xs i t)) by (intros; ring).
  rewrite (lform_ext m sT (fun i t => img_t G i t - / INR m * xt i t) (fun i t => img_t G i t + (- / INR m) * xt i t) _ (fun i t => img_t G i t + (- / INR m) * xt i t)) by (intros; ring).
  rewrite (lform_quad n sS) by auto. rewrite (lform_quad m sT) by auto. rewrite lap_f_R.
  assert (E : cost n m (lap_M (N:=RNum) n m d xs xt sS sT alpha true eta M) G = cost n m M G - eta * (alpha * (/ INR n * (2 * lform n d sS xs (img_s G))) + (1 - alpha) * (/ INR m * (2 * lform m d sT xt (img_t G))))).
  { rewrite lform_pair_s, lform_pair_t. unfold cost. rewrite <- !rsum_scal. rewrite <- rsum_plus, <- rsum_scal, <- rsum_minus. apply rsum_ext; intros i Hi.
    rewrite <- !rsum_scal, <- rsum_plus, <- rsum_scal, <- rsum_minus. apply rsum_ext; intros j Hj. unfold lap_M. cbn [nadd nmul nsub n1 ndiv RNum]. rewrite !nofnat_INR.
    assert (P1 : mdot (N:=RNum) d (mdot (N:=RNum) n (ls2 (N:=RNum) n sS) xs) (transp (N:=RNum) xt) i j = 2 * rsum d (fun t => rsum n (fun l => xs l t * lapR n sS l i) * xt j t)).
    { rewrite mdot_R, <- rsum_scal. apply rsum_ext; intros t Ht. unfold transp. rewrite <- Rmult_assoc. f_equal. rewrite mdot_R, <- rsum_scal. apply rsum_ext; intros l Hl. change (ls2 (N:=RNum) n sS i l) with (lapR n sS i l + lapR n sS l i). rewrite (lap_sym n sS HS i l) by auto. ring. }
    assert (P2 : mdot (N:=RNum) m (mdot (N:=RNum) d xs (transp (N:=RNum) xt)) (lt2 (N:=RNum) m sT) i j = 2 * rsum d (fun t => rsum m (fun l => xt l t * lapR m sT l j) * xs i t)).
    { rewrite mdot_R. rewrite (rsum_ext m _ (fun x => rsum d (fun t => xs i t * xt x t) * lt2 (N:=RNum) m sT x j)) by (intros; rewrite mdot_R; reflexivity).
      rewrite (mdot_assoc m d xs (fun t x => xt x t) (lt2 (N:=RNum) m sT) i j), <- rsum_scal. apply rsum_ext; intros t Ht.
      rewrite (Rmult_comm (xs i t)), <- Rmult_assoc. f_equal. rewrite <- rsum_scal. apply rsum_ext; intros l Hl. change (lt2 (N:=RNum) m sT l j) with (lapR m sT l j + lapR m sT j l). rewrite (lap_sym m sT HT j l) by auto. ring. }
    rewrite P1, P2. unfold nopp. cbn [nsub n0 RNum]. toR. unfold Rdiv. ring. }
  rewrite E. rewrite (lform_sym n d sS (img_s G) xs), (lform_sym m d sT (img_t G) xt) by auto. ring.
Qed.
End Lap.
