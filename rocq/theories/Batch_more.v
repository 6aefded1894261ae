(** Batched solvers: what a log-domain projection returns, the traces of solve_gromov_batch, and the
    variational form of a diagonally scaled plan. *)
From Coq Require Import Reals Lra Lia Arith Bool List String FunctionalExtensionality.
From Verif Require Import Num Sums Spec Entropy Optim_model Duals_proofs Emd1d_model Emd1d_perm_proofs Circle_proofs Gw_model Gw_proofs Sinkhorn_model Sinkhorn_proofs Sinkhorn_stab Sinkhorn_final P_Sinkhorn Sink_exist P_Sinkexist Egw_model Egw_proofs Egw_more P_Egw Batch_model Batch_proofs.
Import ListNotations.
Local Open Scope R_scope.

Section LP.
Variables (B n m : nat) (a b : nat -> vec) (L : nat -> mat) (norm : nat -> (nat -> R) -> R) (tol : R).
Hypotheses (Hn : (0 < n)%nat) (Hb : forall q, (q < B)%nat -> pos_vec m (b q)).
Notation loop := (bl_loop (N:=RNum) B n m a b norm tol exp ln L).
Lemma bl_done : forall left ii s, (0 < left)%nat -> let r := fst (loop left ii s) in b_g r = bl_v (N:=RNum) n b exp ln L (b_f r).
Proof.
  induction left; intros ii s H; [lia|]. cbn [bl_loop]. destruct (_ && _)%bool; [reflexivity|]. destruct left; [reflexivity|]. apply IHleft; lia.
Qed.
Lemma bl_col : forall s q j, (q < B)%nat -> (j < m)%nat -> b_g s = bl_v (N:=RNum) n b exp ln L (b_f s) -> col_sum n (bl_T (N:=RNum) exp L s q) j = b q j.
Proof.
  intros s q j Hq Hj E. unfold col_sum, bl_T. rewrite E. unfold bl_v, logsumexp. rewrite nsum_R.
  assert (P : 0 < rsum n (fun i => exp (L q i j + b_f s q i))) by (apply rsum_pos; auto; intros; apply exp_pos).
  change (rsum n (fun i => exp (L q i j + b_f s q i + (ln (b q j) - ln (rsum n (fun i => exp (L q i j + b_f s q i)))))) = b q j).
  rewrite (rsum_ext n _ (fun i => exp (L q i j + b_f s q i) * exp (ln (b q j) - ln (rsum n (fun i => exp (L q i j + b_f s q i)))))) by (intros; apply exp_plus).
  rewrite rsum_scal_r. unfold Rminus. rewrite exp_plus, exp_Ropp, !exp_ln; auto; [|apply Hb; auto]. field. lra.
Qed.
Lemma bl_conv : forall left ii s k, (0 < B)%nat -> snd (loop left ii s) = Converged k -> bp_err (N:=RNum) B n m a norm (bl_T (N:=RNum) exp L (fst (loop left ii s))) < tol.
Proof.
  induction left; intros ii s k HB; cbn [bl_loop]; [discriminate|]. destruct (_ && _)%bool eqn:E; [|apply IHleft; auto].
  intros _. cbn [fst]. apply andb_true_iff in E. apply Rltb_true. exact (proj2 E).
Qed.
Lemma log_projection : forall it last s e, bregman_log_projection_batch (N:=RNum) B n m a b norm tol exp ln L it last = Some (s, e) ->
  forall q j, (q < B)%nat -> (j < m)%nat -> col_sum n (bl_T (N:=RNum) exp L s q) j = b q j.
Proof.
  intros it last s e H q j Hq Hj. apply bl_col; auto. unfold bregman_log_projection_batch in H. destruct it as [|it]; [discriminate|]. destruct last.
  - injection H as <- _. reflexivity.
  - apply some_inj in H. assert (D := bl_done (S it) 0 (mk_bs (N:=RNum) (fun _ _ => n0) (fun _ _ => n0)) ltac:(lia)). cbv zeta in D. rewrite H in D. exact D.
Qed.
Lemma log_projection_some : forall it last, (0 < it)%nat -> bregman_log_projection_batch (N:=RNum) B n m a b norm tol exp ln L it last <> None.
Proof. intros [|it] last H; [lia|]. discriminate. Qed.
End LP.

(** a diagonal scaling of exp(-M/reg) minimises the entropic objective among the plans with its marginals *)
Lemma scaled_plan : forall n m (M P : mat) reg u v, pos_vec n u -> pos_vec m v ->
  (forall i j, (i < n)%nat -> (j < m)%nat -> P i j = u i * exp (- M i j / reg) * v j) -> sinkhorn_plan n m (row_sum m P) (col_sum n P) M reg P.
Proof.
  intros n m M P reg u v Hu Hv E. split.
  - split; [|split; auto]. intros i j Hi Hj. rewrite E by auto. apply Rlt_le. repeat apply Rmult_lt_0_compat; auto. apply exp_pos.
  - exists u, v. auto.
Qed.
Lemma scaled_minimises : forall n m (M P : mat) reg a b, 0 < reg -> sinkhorn_plan n m a b M reg P -> forall S, coupling n m a b S -> ent_obj n m M reg P <= ent_obj n m M reg S.
Proof.
  intros n m M P reg a b Hr HP S HS. assert (Q := three_point n m a b M reg P S Hr HP HS). assert (K := kl_plan_nonneg n m a b S P HS (proj1 HP) (plan_pos _ _ _ _ _ _ _ HP)).
  assert (0 <= reg * kl_plan n m S P) by (apply Rmult_le_pos; lra). lra.
Qed.
(** the tiny constant inside the logarithm *)
Lemma ln_tiny : forall x t, 0 < x -> 0 <= t -> 0 <= x * ln (x + t) - x * ln x <= t.
Proof.
  intros x t Hx Ht. split.
  - assert (ln x <= ln (x + t)) by (destruct Ht as [Ht|<-]; [left; apply ln_increasing; lra|rewrite Rplus_0_r; lra]).
    assert (x * ln x <= x * ln (x + t)) by (apply Rmult_le_compat_l; lra). lra.
  - replace (x + t) with (x * (1 + t / x)) by (field; lra). assert (0 <= t / x) by (apply Rmult_le_pos; [lra|left; apply Rinv_0_lt_compat; lra]).
    rewrite ln_mult by lra. assert (Q := ln_le_sub1 (1 + t / x) ltac:(lra)).
    assert (x * ln (1 + t / x) <= x * (1 + t / x - 1)) by (apply Rmult_le_compat_l; lra).
    replace (x * (1 + t / x - 1)) with t in H0 by (field; lra). lra.
Qed.

Section Q.
Variables (B n m d : nat) (tiny : R) (l : bloss) (norm : nat -> (nat -> R) -> R) (tol tol_inner : R) (max_inner : nat) (reg alpha : R) (M : nat -> mat) (C1 C2 : nat -> feat) (sym : bool) (a b : nat -> vec).
Hypotheses (HB : (0 < B)%nat) (Hn : (0 < n)%nat) (Hb : forall q, (q < B)%nat -> pos_vec m (b q)) (Hr : 0 < reg)
  (Hsym : sym = true -> forall q, (q < B)%nat -> fsym n d (C1 q) /\ fsym m d (C2 q)).
Notation V := (vloss d tiny l).
Definition Lq (q : nat) := tensor_batch (N:=RNum) ln n m d tiny l sym (a q) (b q) (C1 q) (C2 q).
Notation step := (q_step (N:=RNum) ln exp B n m d norm tol_inner max_inner reg alpha M Lq sym a b).
Notation loop := (q_loop (N:=RNum) ln exp B n m d norm tol tol_inner max_inner reg alpha M Lq sym a b).
(** the gradient of the fused objective *)
Definition vfgrad (q : nat) (T : mat) : mat := fun i j => (1 - alpha) * M q i j + alpha * vgrad n m V (C1 q) (C2 q) T i j.
Lemma step_form : forall (T logT : nat -> mat) s, step T logT = Some s -> (forall q j, (q < B)%nat -> (j < m)%nat -> col_sum n (T q) j = b q j) ->
  (forall q i j, q_T s q i j = exp (q_log s q i j)) /\
  (forall q j, (q < B)%nat -> (j < m)%nat -> col_sum n (q_T s q) j = b q j) /\
  forall q, (q < B)%nat -> exists u v, pos_vec n u /\ pos_vec m v /\
    forall i j, (i < n)%nat -> (j < m)%nat -> q_T s q i j = u i * exp (logT q i j - vfgrad q (T q) i j / reg) * v j.
Proof.
  intros T logT s H HC. unfold q_step in H. set (K := q_kernel (N:=RNum) n m d reg alpha M Lq sym T logT) in H.
  destruct (bregman_log_projection_batch (N:=RNum) B n m a b norm tol_inner exp ln K max_inner false) as [[w e]|] eqn:E; [|discriminate]. injection H as <-. cbn [q_T q_log].
  split; [reflexivity|]. split; [intros q j Hq Hj; exact (log_projection B n m a b K norm tol_inner Hn Hb max_inner false w e E q j Hq Hj)|].
  intros q Hq. destruct (product_grad n m d tiny l sym (a q) (b q) (C1 q) (C2 q) (T q) (fun S => Hsym S q Hq) (fun j => HC q j Hq)) as (rho & HR).
  exists (fun i => exp (b_f w q i - alpha * rho i / reg)), (fun j => exp (b_g w q j)). split; [intros i _; apply exp_pos|]. split; [intros j _; apply exp_pos|].
  intros i j Hi Hj. rewrite <- !exp_plus. unfold bl_T. f_equal. cbn [nadd RNum]. unfold K, q_kernel, q_cost, nopp, two. cbn [nadd nsub nmul ndiv n0 n1 RNum].
  assert (Q := HR i j Hi Hj). fold (Lq q) in Q. unfold vfgrad.
  set (X := tensor_product_batch (N:=RNum) n m d (Lq q) (T q) false sym i j) in *. set (Y := vgrad n m V (C1 q) (C2 q) (T q) i j) in *.
  clearbody X Y. change (carrier RNum) with R in *. 
  replace Y with (2 * X - rho i) by lra. match goal with |- @eq _ ?x ?y => change (@eq R x y) end. field. lra.
Qed.
(** the loop as a sequence of states *)
Lemma loop_trace : forall left it (T logT : nat -> mat) s k, loop left it T logT = Some (s, k) ->
  exists (st : nat -> nat -> mat) (lt : nat -> nat -> mat), st 0%nat = T /\ lt 0%nat = logT /\ (it <= k < it + left)%nat /\
    st (S (k - it)) = q_T s /\ lt (S (k - it)) = q_log s /\
    (forall t, (t <= k - it)%nat -> exists w, step (st t) (lt t) = Some w /\ st (S t) = q_T w /\ lt (S t) = q_log w) /\
    ((k < it + left - 1)%nat -> q_err (N:=RNum) B n m (st (k - it)%nat) (q_T s) < tol).
Proof.
  induction left; intros it T logT s k H; [discriminate|]. cbn [q_loop] in H. destruct (step T logT) as [w|] eqn:E; [|discriminate].
  destruct (nltb (n:=RNum) _ tol) eqn:Z; [|destruct left].
  - injection H as <- <-. exists (fun t => match t with O => T | _ => q_T w end), (fun t => match t with O => logT | _ => q_log w end). replace (it - it)%nat with 0%nat by lia.
    repeat split; auto; try lia. + intros t Ht. replace t with 0%nat by lia. exists w. auto. + intros _. apply Rltb_true. exact Z.
  - injection H as <- <-. exists (fun t => match t with O => T | _ => q_T w end), (fun t => match t with O => logT | _ => q_log w end). replace (it - it)%nat with 0%nat by lia.
    repeat split; auto; try lia. intros t Ht. replace t with 0%nat by lia. exists w. auto.
  - destruct (IHleft (S it) (q_T w) (q_log w) s k H) as (st & lt & E0 & L0 & Hk & Es & El & HS & HE).
    exists (fun t => match t with O => T | S t => st t end), (fun t => match t with O => logT | S t => lt t end).
    replace (k - it)%nat with (S (k - S it)) by lia. repeat split; auto; try lia.
    + intros [|t] Ht; [exists w; rewrite E0, L0; auto|apply HS; lia].
    + intros Hlt. apply HE. lia.
Qed.
End Q.
