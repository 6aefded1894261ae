(** Proofs about the entropic Gromov-Wasserstein solvers. *)
From Coq Require Import List Arith Bool Reals Lra Lia.
From Verif Require Import Num Sums Spec Duals_proofs Entropy Optim_model Gw_model Gw_proofs Gw_more Egw_model Sinkhorn_proofs P_Sinkhorn Sink_exist P_Sinkexist.
Import ListNotations.
Local Open Scope R_scope.

(** the objective of fused GW, and the relative entropy of two plans *)
Definition fgw_obj (n m : nat) (L : R -> R -> R) (C1 C2 M : mat) (alpha : R) (T : mat) : R := (1 - alpha) * cost n m M T + alpha * gw_obj n m L C1 C2 T.
Definition kl_plan (n m : nat) (T P : mat) : R := dsum n m (fun i j => T i j * (ln (T i j) - ln (P i j))).
Definition pos_mat (n m : nat) (T : mat) : Prop := forall i j, (i < n)%nat -> (j < m)%nat -> 0 < T i j.

Lemma coupling_diff : forall n m a b T S, coupling n m a b T -> coupling n m a b S ->
  zero_rows n m (fun i j => S i j - T i j) /\ zero_cols n m (fun i j => S i j - T i j).
Proof.
  intros n m a b T S (_ & R1 & C1) (_ & R2 & C2). split.
  - intros i Hi. unfold row_sum. rewrite rsum_minus. change (row_sum m S i - row_sum m T i = 0). rewrite R1, R2 by auto. ring.
  - intros j Hj. unfold col_sum. rewrite rsum_minus. change (col_sum n S j - col_sum n T j = 0). rewrite C1, C2 by auto. ring.
Qed.
Lemma cost_dsum : forall n m M T, cost n m M T = dsum n m (fun i j => M i j * T i j). Proof. reflexivity. Qed.
Lemma cost_minus : forall n m M S T, cost n m M S - cost n m M T = dsum n m (fun i j => M i j * (S i j - T i j)).
Proof. intros. rewrite !cost_dsum, <- dsum_minus. apply dsum_ext; intros; ring. Qed.

Lemma plan_pos : forall n m a b M reg P, sinkhorn_plan n m a b M reg P -> pos_mat n m P.
Proof.
  intros n m a b M reg P (_ & u & v & Hu & Hv & E) i j Hi Hj. rewrite E by auto. repeat apply Rmult_lt_0_compat; auto. apply exp_pos.
Qed.
(** potentials of a Sinkhorn plan: M + reg ln P = f + g *)
Lemma plan_pot : forall n m a b M reg P, 0 < reg -> sinkhorn_plan n m a b M reg P ->
  exists f g : vec, forall i j, (i < n)%nat -> (j < m)%nat -> M i j + reg * ln (P i j) = f i + g j.
Proof.
  intros n m a b M reg P Hr (_ & u & v & Hu & Hv & E). exists (fun i => reg * ln (u i)), (fun j => reg * ln (v j)). intros i j Hi Hj.
  rewrite E by auto. rewrite !ln_mult; auto; try apply exp_pos; [|apply Rmult_lt_0_compat; auto; apply exp_pos]. rewrite ln_exp. field. lra.
Qed.
(** three-point identity *)
Lemma three_point : forall n m a b M reg P T, 0 < reg -> sinkhorn_plan n m a b M reg P -> coupling n m a b T ->
  ent_obj n m M reg T - ent_obj n m M reg P = reg * kl_plan n m T P.
Proof.
  intros n m a b M reg P T Hr HP HT. destruct (plan_pot n m a b M reg P Hr HP) as (f & g & E). destruct HP as (CP & _).
  destruct (coupling_diff n m a b P T CP HT) as (Zr & Zc). assert (Z := zero_pair n m _ f g Zr Zc).
  unfold ent_obj, kl_plan. change (ent n m) with (fun P => dsum n m (fun i j => P i j * ln (P i j))). cbn beta.
  transitivity (cost n m M T - cost n m M P + reg * (dsum n m (fun i j => T i j * ln (T i j)) - dsum n m (fun i j => P i j * ln (P i j)))); [ring|].
  rewrite cost_minus, <- dsum_minus, <- !dsum_scal, <- dsum_plus.
  rewrite <- (Rplus_0_r (dsum n m (fun i j => reg * (T i j * (ln (T i j) - ln (P i j)))))), <- Z, <- dsum_plus.
  apply dsum_ext; intros i j Hi Hj. rewrite <- (E i j Hi Hj). ring.
Qed.
Lemma kl_plan_nonneg : forall n m a b T P, coupling n m a b T -> coupling n m a b P -> pos_mat n m P -> 0 <= kl_plan n m T P.
Proof.
  intros n m a b T P HT HP Hpos. assert (E : total n m T = total n m P).
  { destruct HT as (_ & R1 & _), HP as (_ & R2 & _). apply rsum_ext; intros i Hi. change (row_sum m T i = row_sum m P i). rewrite R1, R2; auto. }
  apply Rle_trans with (dsum n m (fun i j => T i j - P i j)).
  - rewrite dsum_minus. change (0 <= total n m T - total n m P). lra.
  - apply dsum_le. intros i j Hi Hj. assert (0 <= T i j) by (apply HT; auto). destruct (Req_dec (T i j) 0) as [Z|NZ].
    + rewrite Z, Rmult_0_l. specialize (Hpos i j Hi Hj). lra.
    + rewrite <- ln_div by (auto; lra). apply xlnx_div_ge; auto.
Qed.

(** *** traces of the loop *)
Section Loop.
Variables (n m : nat) (lg : R -> R) (eps : R) (norm : mat -> R) (tol : R) (sv : egw_solver) (gr : mat -> mat).
Variable (sk : warm_t (N:=RNum) -> mat -> mat * ((nat -> R) * (nat -> R))).
Notation step := (egw_step (N:=RNum) lg eps norm sv gr sk).
Fixpoint run (k cpt : nat) (s : egw_st (N:=RNum)) : egw_st (N:=RNum) := match k with O => s | S k => step (cpt + k) (run k cpt s) end.
Lemma run_shift : forall k cpt s, run k (S cpt) (step cpt s) = run (S k) cpt s.
Proof.
  induction k; intros cpt s; [cbn [run]; rewrite Nat.add_0_r; reflexivity|].
  cbn [run]. rewrite IHk. cbn [run]. replace (S cpt + k)%nat with (cpt + S k)%nat by lia. reflexivity.
Qed.
(** the loop runs k <= max_iter steps; before every one err > tol, after the last one (unless
    max_iter is reached) err <= tol *)
Lemma loop_trace : forall left cpt s, exists k, (k <= left)%nat /\
  egw_loop (N:=RNum) lg eps norm tol sv gr sk left cpt s = run k cpt s /\
  (forall j, (j < k)%nat -> tol < e_err (run j cpt s)) /\ ((k < left)%nat -> e_err (run k cpt s) <= tol).
Proof.
  induction left; intros cpt s; cbn [egw_loop].
  - exists 0%nat. split; [lia|]. split; [reflexivity|]. split; intros; lia.
  - destruct (nltb (n:=RNum) tol (e_err s)) eqn:Q.
    + apply Rltb_true in Q. destruct (IHleft (S cpt) (step cpt s)) as (k & Hk & E & B & A). exists (S k). split; [lia|]. rewrite E. split; [apply run_shift|]. split.
      * intros [|j] Hj; [exact Q|]. rewrite <- run_shift. apply B. lia.
      * intros. rewrite <- run_shift. apply A. lia.
    + apply Rltb_false in Q. exists 0%nat. split; [lia|]. split; [reflexivity|]. split; [intros; lia|]. intros _. exact Q.
Qed.
Lemma step_T : forall cpt s, e_T (step cpt s) = fst (sk (e_warm s) (egw_cost (N:=RNum) lg eps sv gr (e_T s))).
Proof. intros. unfold egw_step. destruct (Nat.eqb _ _); reflexivity. Qed.
Lemma run_T : forall k cpt s, e_T (run (S k) cpt s) = fst (sk (e_warm (run k cpt s)) (egw_cost (N:=RNum) lg eps sv gr (e_T (run k cpt s)))).
Proof. intros. cbn [run]. apply step_T. Qed.
(** a loop stopped by its tolerance compared the last two plans *)
Lemma stop_err : forall k s, (0 < k)%nat -> tol < e_err (run (k - 1) 0 s) -> e_err (run k 0 s) <= tol ->
  norm (fun i j => e_T (run k 0 s) i j - e_T (run (k - 1) 0 s) i j) <= tol.
Proof.
  intros [|k] s Hk HB HA; [lia|]. replace (S k - 1)%nat with k in * by lia. cbn [run] in *. unfold egw_step in HA |- *. destruct (Nat.eqb _ _); cbn [e_err e_T] in *.
  - exact HA.
  - lra.
Qed.
End Loop.

(** *** directional derivatives *)
Lemma deriv_xlnx : forall T D, 0 < T -> derivable_pt_lim (fun t => (T + t * D) * ln (T + t * D)) 0 (D * (ln T + 1)).
Proof.
  intros T D HT. apply deriv_eq with (D * ln (T + 0 * D) + (T + 0 * D) * (/ (T + 0 * D) * D)).
  - assert (A : derivable_pt_lim (fun t => T + t * D) 0 D).
    { apply deriv_eq with (0 + (1 * D + 0 * 0)); [|ring]. apply (derivable_pt_lim_plus (fun _ => T) (fun t => t * D)); [apply derivable_pt_lim_const|].
      apply (derivable_pt_lim_mult (fun t => t) (fun _ => D)); [apply derivable_pt_lim_id|apply derivable_pt_lim_const]. }
    apply (derivable_pt_lim_mult (fun t => T + t * D) (fun t => ln (T + t * D))); auto.
    apply (derivable_pt_lim_comp (fun t => T + t * D) ln); auto. apply derivable_pt_lim_ln. lra.
  - replace (T + 0 * D) with T by ring. field. lra.
Qed.
Lemma deriv_quad : forall A B C, derivable_pt_lim (fun t => A + t * B + t ^ 2 * C) 0 B.
Proof.
  intros A B C. apply deriv_eq with ((0 + (1 * B + 0 * 0)) + ((1 * (0 * 1) + 0 * (1 * 1 + 0 * 0)) * C + (0 * (0 * 1)) * 0)); [|ring].
  apply (derivable_pt_lim_plus (fun t => A + t * B) (fun t => t ^ 2 * C)).
  - apply (derivable_pt_lim_plus (fun _ => A) (fun t => t * B)); [apply derivable_pt_lim_const|].
    apply (derivable_pt_lim_mult (fun t => t) (fun _ => B)); [apply derivable_pt_lim_id|apply derivable_pt_lim_const].
  - apply (derivable_pt_lim_mult (fun t => t ^ 2) (fun _ => C)); [|apply derivable_pt_lim_const].
    apply deriv_eq with (INR 2 * 0 ^ pred 2); [apply derivable_pt_lim_pow|cbn; ring].
Qed.
Lemma deriv_ent : forall n m (T D : mat), pos_mat n m T ->
  derivable_pt_lim (fun t => ent n m (fun i j => T i j + t * D i j)) 0 (dsum n m (fun i j => D i j * (ln (T i j) + 1))).
Proof. intros n m T D HT. apply (deriv_dsum n m (fun i j t => (T i j + t * D i j) * ln (T i j + t * D i j))). intros i j Hi Hj. apply deriv_xlnx. auto. Qed.

Section Fgw.
Variables (n m : nat) (lg : R -> R) (tiny : R) (l : gwl) (sym : bool) (C1 C2 M : mat) (p q : vec) (alpha : R).
Hypothesis Hsym : sym = true -> symmetric n C1 /\ symmetric m C2.
Notation L := (loss_of lg tiny l).
Notation F := (fgw_obj n m L C1 C2 M alpha).
Definition gradF (T : mat) : mat := fun i j => alpha * gradT n m lg tiny l sym C1 C2 T i j + (1 - alpha) * M i j.
Lemma fgw_grad_R : forall T i j, coupling n m p q T -> fgw_grad (N:=RNum) n m lg tiny l sym C1 C2 p q alpha M T i j = gradF T i j.
Proof.
  intros T i j (_ & RW & CL). assert (E := gw_df_R n m lg tiny l sym C1 C2 Hsym p q T i j RW CL). unfold gw_df, half_, two in E. unfold fgw_grad, gradF, half_, two.
  destruct sym; cbn -[gwggrad constC hC1 hC2 gradT] in E |- *; rewrite <- E; match goal with |- @eq _ ?x ?y => change (@eq R x y) end; field.
Qed.
Lemma expand : forall T D t, F (fun i j => T i j + t * D i j) = F T + t * dsum n m (fun i j => gradF T i j * D i j) + t ^ 2 * (alpha * gw_bil n m L C1 C2 D D).
Proof.
  intros T D t. unfold fgw_obj, gw_obj. rewrite bil_expand, cost_add. unfold gradF.
  rewrite (dsum_ext n m (fun i j => (alpha * gradT n m lg tiny l sym C1 C2 T i j + (1 - alpha) * M i j) * D i j)
             (fun i j => alpha * (gradT n m lg tiny l sym C1 C2 T i j * D i j) + (1 - alpha) * (M i j * D i j))) by (intros; ring).
  rewrite dsum_plus, !dsum_scal, (gradT_ok n m lg tiny l sym C1 C2 Hsym), cost_dsum. rewrite cost_dsum. ring.
Qed.
Lemma F_ext : forall T T', (forall i j, (i < n)%nat -> (j < m)%nat -> T i j = T' i j) -> F T = F T'.
Proof.
  intros T T' H. unfold fgw_obj, gw_obj. rewrite (bil_ext n m L C1 C2 T T' T T') by auto. do 2 f_equal. rewrite !cost_dsum. apply dsum_ext; intros; rewrite H; auto.
Qed.
Lemma step_expand : forall T T', F T' = F T + (cost n m (gradF T) T' - cost n m (gradF T) T) + alpha * gw_bil n m L C1 C2 (fun i j => T' i j - T i j) (fun i j => T' i j - T i j).
Proof.
  intros T T'. rewrite (F_ext T' (fun i j => T i j + 1 * (T' i j - T i j))) by (intros; ring). rewrite expand, cost_minus. ring.
Qed.
Lemma deriv_F : forall T D, derivable_pt_lim (fun t => F (fun i j => T i j + t * D i j)) 0 (dsum n m (fun i j => gradF T i j * D i j)).
Proof. intros T D. apply deriv_ext with (fun t => F T + t * dsum n m (fun i j => gradF T i j * D i j) + t ^ 2 * (alpha * gw_bil n m L C1 C2 D D)); [intros; symmetry; apply expand|apply deriv_quad]. Qed.
Lemma deriv_Fe : forall eps T D, pos_mat n m T ->
  derivable_pt_lim (fun t => F (fun i j => T i j + t * D i j) + eps * ent n m (fun i j => T i j + t * D i j)) 0
    (dsum n m (fun i j => gradF T i j * D i j) + eps * dsum n m (fun i j => D i j * (ln (T i j) + 1))).
Proof.
  intros eps T D HT. apply (derivable_pt_lim_plus (fun t => F (fun i j => T i j + t * D i j)) (fun t => eps * ent n m (fun i j => T i j + t * D i j))).
  - apply deriv_F.
  - apply deriv_eq with (0 * ent n m (fun i j => T i j + 0 * D i j) + eps * dsum n m (fun i j => D i j * (ln (T i j) + 1))); [|ring].
    apply (derivable_pt_lim_mult (fun _ => eps) (fun t => ent n m (fun i j => T i j + t * D i j))); [apply derivable_pt_lim_const|apply deriv_ent; auto].
Qed.
(** the quadratic part is concave between couplings *)
Definition concave_gw : Prop := forall D, zero_rows n m D -> zero_cols n m D -> gw_bil n m L C1 C2 D D <= 0.

Section Descent.
Variables (eps : R) (lgN : R -> R).
Hypothesis (Heps : 0 < eps) (Hal : 0 <= alpha) (Hc : concave_gw).
Lemma lin_upper : forall T T', coupling n m p q T -> coupling n m p q T' -> F T' <= F T + (cost n m (gradF T) T' - cost n m (gradF T) T).
Proof.
  intros T T' HT HT'. rewrite (step_expand T T'). destruct (coupling_diff n m p q T T' HT HT') as (Z1 & Z2). assert (Q := Hc _ Z1 Z2).
  assert (alpha * gw_bil n m L C1 C2 (fun i j => T' i j - T i j) (fun i j => T' i j - T i j) <= 0); [|lra].
  rewrite <- (Rmult_0_r alpha). apply Rmult_le_compat_l; auto.
Qed.
Lemma pgd_step : forall T T', coupling n m p q T -> sinkhorn_plan n m p q (gradF T) eps T' ->
  F T' + eps * ent n m T' + eps * kl_plan n m T T' <= F T + eps * ent n m T.
Proof.
  intros T T' HT HT'. assert (Q := three_point n m p q _ eps T' T Heps HT' HT). assert (B := lin_upper T T' HT (proj1 HT')). unfold ent_obj in Q. lra.
Qed.
Lemma ppa_step : forall T T', coupling n m p q T -> pos_mat n m T -> sinkhorn_plan n m p q (fun i j => gradF T i j - eps * ln (T i j)) eps T' ->
  F T' + eps * (kl_plan n m T' T + kl_plan n m T T') <= F T.
Proof.
  intros T T' HT PT HT'. assert (Q := three_point n m p q _ eps T' T Heps HT' HT). assert (B := lin_upper T T' HT (proj1 HT')). unfold ent_obj in Q.
  assert (E : forall X, cost n m (fun i j => gradF T i j - eps * ln (T i j)) X + eps * ent n m X = cost n m (gradF T) X + eps * kl_plan n m X T).
  { intros X. unfold kl_plan. rewrite !cost_dsum. change (ent n m X) with (dsum n m (fun i j => X i j * ln (X i j))). rewrite <- !dsum_scal, <- !dsum_plus. apply dsum_ext; intros; ring. }
  rewrite !E in Q. assert (Z : kl_plan n m T T = 0).
  { unfold kl_plan. rewrite (dsum_ext n m _ (fun _ _ => 0)) by (intros; ring). unfold dsum. apply rsum_0. intros. apply rsum_0; auto. }
  rewrite Z in Q. lra.
Qed.
End Descent.
End Fgw.
