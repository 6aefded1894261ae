(** C135-C139: batched transport (ot/batch/_linear.py, ot/batch/_quadratic.py).  Exact reals, natural
    logarithm; the projections are those of C28. *)
From Coq Require Import Reals Lra Lia Arith Bool List String FunctionalExtensionality QArith Qreals.
From Verif Require Import Num Sums Spec Entropy Optim_model Duals_proofs Emd1d_model Emd1d_perm_proofs Circle_proofs Gw_model Gw_proofs Sinkhorn_model Sinkhorn_proofs Sinkhorn_stab Sinkhorn_final P_Sinkhorn Sink_exist P_Sinkexist Egw_model Egw_proofs Egw_more P_Egw Batch_model Batch_proofs Batch_more.
Import ListNotations.
Local Close Scope Q_scope.
Local Open Scope R_scope.

(** *** C135: the cost matrices of dist_batch *)
Definition sqdist (d : nat) (x y : nat -> R) : R := rsum d (fun e => (x e - y e) ^ 2).
(** |x|^p for p > 0 *)
Definition ppow (x p : R) : R := if Rlt_dec 0 x then Rpower x p else 0.
Lemma sq_R : forall d (X Y : mat) i j, dist_euclidean (N:=RNum) sqrt d true X Y i j = sqdist d (X i) (Y j).
Proof.
  intros. unfold dist_euclidean, sqdist, two. rewrite !nsum_R. cbn [nadd nsub nmul n1 RNum]. change (carrier RNum) with R.
  rewrite <- rsum_scal, <- rsum_plus, <- rsum_minus. apply rsum_ext; intros; match goal with |- @eq _ ?x ?y => change (@eq R x y) end; ring.
Qed.
Theorem C135_sqeuclidean : forall d eps pw p (X Y : mat), exists M, dist_batch (N:=RNum) ln sqrt d eps pw p "sqeuclidean" X (Some Y) = Ok M /\
  (forall i j, M i j = sqdist d (X i) (Y j) /\ 0 <= M i j) /\ (forall i j, M i j = 0 <-> forall e, (e < d)%nat -> X i e = Y j e).
Proof.
  intros. eexists. split; [reflexivity|]. split.
  - intros. rewrite sq_R. split; auto. apply rsum_nonneg; intros; apply pow2_ge_0.
  - intros i j. rewrite sq_R. split.
    + intros H e He. assert (Q := rsum_nonneg_zero d _ (fun e _ => pow2_ge_0 (X i e - Y j e)) H e He). cbn beta in Q. assert (X i e - Y j e = 0) by nra. lra.
    + intros H. apply rsum_0. intros e He. rewrite H by auto. ring.
Qed.
Print Assumptions C135_sqeuclidean.
Theorem C135_euclidean : forall d eps pw p (X Y : mat), exists M, dist_batch (N:=RNum) ln sqrt d eps pw p "euclidean" X (Some Y) = Ok M /\
  forall i j, M i j = sqrt (sqdist d (X i) (Y j)) /\ M i j * M i j = sqdist d (X i) (Y j).
Proof.
  intros. exists (dist_euclidean (N:=RNum) sqrt d false X Y). split; [reflexivity|]. intros i j.
  assert (E : dist_euclidean (N:=RNum) sqrt d false X Y i j = sqrt (sqdist d (X i) (Y j))). { rewrite <- sq_R. reflexivity. }
  rewrite E. split; auto. apply sqrt_sqrt. apply rsum_nonneg; intros; apply pow2_ge_0.
Qed.
Print Assumptions C135_euclidean.
(** the p-norm: M^p is the sum of the p-th powers; p = 2 gives the euclidean matrix *)
Lemma ppow_nonneg : forall x p, 0 <= ppow x p. Proof. intros. unfold ppow. destruct (Rlt_dec 0 x); [left; apply exp_pos|lra]. Qed.
Lemma ppow_inv : forall s p, 0 <= s -> 0 < p -> ppow (ppow s (1 / p)) p = s.
Proof.
  intros s p Hs Hp. unfold ppow at 2. destruct (Rlt_dec 0 s) as [H|H].
  - unfold ppow. destruct (Rlt_dec 0 (Rpower s (1 / p))) as [H2|H2]; [|exfalso; apply H2; apply exp_pos].
    rewrite Rpower_mult. replace (1 / p * p) with 1 by (field; lra). apply Rpower_1; auto.
  - unfold ppow. destruct (Rlt_dec 0 0); lra.
Qed.
Lemma ppow_1 : forall x, 0 <= x -> ppow x 1 = x.
Proof. intros x H. unfold ppow. destruct (Rlt_dec 0 x); [apply Rpower_1; auto|lra]. Qed.
Theorem C135_minkowski : forall d eps p (X Y : mat), 0 < p -> exists M, dist_batch (N:=RNum) ln sqrt d eps ppow p "minkowski" X (Some Y) = Ok M /\
  forall i j, 0 <= M i j /\ ppow (M i j) p = rsum d (fun e => ppow (Rabs (X i e - Y j e)) p).
Proof.
  intros d eps p X Y Hp. exists (dist_lp (N:=RNum) d ppow p X Y). split; [reflexivity|]. intros i j. unfold dist_lp. rewrite nsum_R. cbn [nsub ndiv neqb n1 RNum].
  rewrite (rsum_ext d _ (fun e => ppow (Rabs (X i e - Y j e)) p)) by (intros; rewrite nabs_R; reflexivity).
  set (s := rsum d _). assert (Hs : 0 <= s) by (apply rsum_nonneg; intros; apply ppow_nonneg).
  destruct (Reqb 1 p) eqn:E.
  - apply Reqb_true in E. subst p. split; auto. apply ppow_1; auto.
  - split; [apply ppow_nonneg|]. apply ppow_inv; auto.
Qed.
Print Assumptions C135_minkowski.
(** X2 = None means X1; any other name raises, and the default name of loss_linear_samples_batch is
    one of those *)
Theorem C135_self : forall N (lg sq : carrier N -> carrier N) d eps pw p metric X, dist_batch (N:=N) lg sq d eps pw p metric X None = dist_batch (N:=N) lg sq d eps pw p metric X (Some X).
Proof. reflexivity. Qed.
Theorem C135_metric : forall N (lg sq : carrier N -> carrier N) d eps pw p metric X Y,
  dist_batch (N:=N) lg sq d eps pw p metric X Y = Raise ValueErr <-> ~ In metric ["sqeuclidean"; "euclidean"; "minkowski"; "kl"]%string.
Proof.
  intros. unfold dist_batch. cbn [In].
  destruct (String.eqb_spec metric "sqeuclidean"); [subst; split; [discriminate|tauto]|].
  destruct (String.eqb_spec metric "euclidean"); [subst; split; [discriminate|tauto]|].
  destruct (String.eqb_spec metric "minkowski"); [subst; split; [discriminate|tauto]|].
  destruct (String.eqb_spec metric "kl"); [subst; split; [discriminate|tauto]|].
  split; [intros _ [H|[H|[H|[H|[]]]]]; congruence|reflexivity].
Qed.
Print Assumptions C135_metric.
Theorem C135_default_refuted : forall N (lg sq : carrier N -> carrier N) n m d eps pw X Y T,
  loss_linear_samples (N:=N) lg sq n m d eps pw None X Y T = Raise ValueErr.
Proof. intros. unfold loss_linear_samples. destruct (dist_batch lg sq d eps pw two default_metric X (Some Y)) eqn:E; [discriminate|]. cbn in E. congruence. Qed.
Print Assumptions C135_default_refuted.
Theorem C135_loss : forall n m d eps pw (X Y T : mat), loss_linear_samples (N:=RNum) ln sqrt n m d eps pw (Some "sqeuclidean"%string) X Y T
  = Ok (rsum n (fun i => rsum m (fun j => sqdist d (X i) (Y j) * T i j))).
Proof.
  intros. unfold loss_linear_samples, dist_batch. cbn [String.eqb Ascii.eqb Bool.eqb]. f_equal. unfold loss_linear. rewrite inner_R. apply dsum_ext; intros. rewrite sq_R. reflexivity.
Qed.
Print Assumptions C135_loss.

(** *** C136: solve_batch *)
Definition KL (n m : nat) (T : mat) (a b : vec) : R := dsum n m (fun i j => T i j * (ln (T i j) - ln (a i * b j))).
Definition pos_batch (B n : nat) (w : nat -> vec) : Prop := forall q, (q < B)%nat -> pos_vec n (w q).
Definition weights_of (k : nat) (w : option (nat -> vec)) : nat -> vec := match w with Some w => w | None => fun _ _ => 1 / INR k end.
Definition reg_term (reg_type : string) (n m : nat) (T : mat) (a b : vec) : R := if String.eqb reg_type "entropy" then ent n m T else KL n m T a b.
Lemma given_R : forall k w, given (N:=RNum) k w = weights_of k w.
Proof. intros k [w|]; [reflexivity|]. cbn. unfold uniform. extensionality q. extensionality i. rewrite nofnat_INR. reflexivity. Qed.
Lemma entr_bound : forall n m (T : mat) tiny, pos_mat n m T -> 0 <= tiny ->
  0 <= dsum n m (fun i j => T i j * ln (T i j + tiny)) - ent n m T <= INR n * INR m * tiny.
Proof.
  intros n m T tiny HT Ht. change (ent n m T) with (dsum n m (fun i j => T i j * ln (T i j))). rewrite <- dsum_minus. split.
  - apply dsum_nonneg. intros. apply ln_tiny; auto.
  - apply Rle_trans with (dsum n m (fun _ _ => tiny)). { apply dsum_le. intros. apply ln_tiny; auto. }
    unfold dsum. rewrite (rsum_ext n _ (fun _ => INR m * tiny)) by (intros; apply rsum_const). rewrite rsum_const. lra.
Qed.
Lemma kl_bound : forall n m (T : mat) (a b : vec) tiny, pos_mat n m T -> pos_vec n a -> pos_vec m b -> 0 <= tiny ->
  0 <= dsum n m (fun i j => T i j * ln (T i j / (a i * b j) + tiny)) - KL n m T a b <= mass n a * mass m b * tiny.
Proof.
  intros n m T a b tiny HT Ha Hb Ht. unfold KL. rewrite <- dsum_minus.
  assert (Q : forall i j, (i < n)%nat -> (j < m)%nat -> 0 <= T i j * ln (T i j / (a i * b j) + tiny) - T i j * (ln (T i j) - ln (a i * b j)) <= a i * b j * tiny).
  { intros i j Hi Hj. assert (Hr : 0 < a i * b j) by (apply Rmult_lt_0_compat; auto). assert (HTT := HT i j Hi Hj).
    assert (X := ln_tiny (T i j / (a i * b j)) tiny (Rdiv_lt_0_compat _ _ HTT Hr) Ht).
    replace (ln (T i j) - ln (a i * b j)) with (ln (T i j / (a i * b j))) by (unfold Rdiv; rewrite ln_mult, ln_Rinv; [ring|auto|auto|apply Rinv_0_lt_compat; auto]).
    set (r := a i * b j) in *. set (y := ln (T i j / r + tiny)) in *. set (z := ln (T i j / r)) in *.
    replace (T i j * y - T i j * z) with (r * (T i j / r * y - T i j / r * z)) by (field; lra).
    split; [apply Rmult_le_pos; lra|apply Rmult_le_compat_l; lra]. }
  split; [apply dsum_nonneg; intros; apply Q; auto|].
  apply Rle_trans with (dsum n m (fun i j => a i * b j * tiny)); [apply dsum_le; intros; apply Q; auto|].
  right. unfold dsum, mass. rewrite (rsum_ext n _ (fun i => a i * (rsum m b * tiny))).
  - rewrite rsum_scal_r. ring.
  - intros. rewrite <- rsum_scal_r, <- rsum_scal. apply rsum_ext; intros; ring.
Qed.
Lemma plan_form : forall B n m (a b : nat -> vec) M reg norm tol last it (solver : string) (s : bs (N:=RNum)) e (T : nat -> mat),
  (0 < B)%nat -> (0 < n)%nat -> (0 < m)%nat -> pos_batch B n a -> pos_batch B m b ->
  (solver = "log_sinkhorn"%string /\ bregman_log_projection_batch (N:=RNum) B n m a b norm tol exp ln (fun q i j => - M q i j / reg) it last = Some (s, e) /\ T = bl_T (N:=RNum) exp (fun q i j => - M q i j / reg) s \/
   solver = "sinkhorn"%string /\ bregman_projection_batch (N:=RNum) B n m a b norm tol (fun q i j => exp (- M q i j / reg)) it last = Some (s, e) /\ T = bp_T (N:=RNum) (fun q i j => exp (- M q i j / reg)) s) ->
  forall q, (q < B)%nat -> (forall j, (j < m)%nat -> col_sum n (T q) j = b q j) /\ exists u v, pos_vec n u /\ pos_vec m v /\ forall i j, (i < n)%nat -> (j < m)%nat -> T q i j = u i * exp (- M q i j / reg) * v j.
Proof.
  intros B n m a b M reg norm tol last it solver s e T HB Hn Hm Ha Hb H q Hq. destruct H as [(_ & H & ->)|(_ & H & ->)].
  - split; [intros; eapply log_projection; eauto|]. exists (fun i => exp (b_f s q i)), (fun j => exp (b_g s q j)).
    split; [intros i _; apply exp_pos|]. split; [intros i _; apply exp_pos|]. intros i j Hi Hj. unfold bl_T. cbn [nadd RNum]. rewrite <- !exp_plus. f_equal. match goal with |- @eq _ ?x ?y => change (@eq R x y) end. ring.
  - destruct (C28_batch B n m a b _ norm tol it last s e HB Hn Hm Ha Hb (fun _ _ _ _ _ _ => exp_pos _) H) as (P1 & P2 & P3).
    assert (E : forall i j, bp_T (N:=RNum) (fun q i j => exp (- M q i j / reg)) s q i j = diag_plan (fun i j => exp (- M q i j / reg)) (b_f s q) (b_g s q) i j).
    { intros. unfold bp_T, diag_plan. cbn [nmul RNum]. match goal with |- @eq _ ?x ?y => change (@eq R x y) end. ring. }
    split. { intros j Hj. rewrite <- (P2 q j Hq Hj). apply rsum_ext; intros; apply E. }
    destruct it as [|it]; [discriminate|]. unfold bregman_projection_batch in H. set (s0 := mk_bs (N:=RNum) (fun _ _ => n1) (fun _ _ => n1)) in H.
    assert (H0 : forall q, (q < B)%nat -> pos_vec m (b_g s0 q)) by (intros q' Hq' j Hj; cbn; lra).
    destruct (bp_loop_spec B n m a b (fun q i j => exp (- M q i j / reg)) HB Hn Hm Ha Hb (fun _ _ _ _ _ _ => exp_pos _) norm tol (S it) 0 s0 H0) as (X1 & X2 & X3). specialize (X2 ltac:(lia)).
    assert (PS : bpos B n m s).
    { destruct last.
      - injection H as <- _. apply (bstep_done B n m a b (fun q i j => exp (- M q i j / reg)) Hn Hm Ha Hb (fun _ _ _ _ _ _ => exp_pos _) _ (proj2 (proj1 X2))).
      - apply some_inj in H. rewrite H in X2. apply X2. }
    exists (b_f s q), (b_g s q). split; [apply PS; auto|]. split; [apply PS; auto|]. intros i j Hi Hj. rewrite E. reflexivity.
Qed.
(** what is returned: plans with exact columns, each minimising the objective among the plans that share
    its marginals; the linear value; and the value, up to the constant put inside the logarithm *)
Theorem C136_solve : forall B n m norm tiny tol solver reg_type last reg M oa ob it r,
  (0 < B)%nat -> (0 < n)%nat -> (0 < m)%nat -> 0 < reg -> 0 <= tiny ->
  let a := weights_of n oa in let b := weights_of m ob in pos_batch B n a -> pos_batch B m b ->
  solve_batch (N:=RNum) ln exp B n m norm tiny tol solver reg_type last reg M oa ob it = Ok r ->
  forall q, (q < B)%nat ->
  let T := l_plan r q in
  pos_mat n m T /\ (forall j, (j < m)%nat -> col_sum n T j = b q j) /\
  (forall S, coupling n m (row_sum m T) (b q) S -> cost n m (M q) T + reg * reg_term reg_type n m T (a q) (b q) <= cost n m (M q) S + reg * reg_term reg_type n m S (a q) (b q)) /\
  l_lin r q = cost n m (M q) T /\
  0 <= l_value r q - (cost n m (M q) T + reg * reg_term reg_type n m T (a q) (b q)) <= reg * tiny * (INR n * INR m + mass n (a q) * mass m (b q)).
Proof.
  intros B n m norm tiny tol solver reg_type last reg M oa ob it r HB Hn Hm Hr Ht a b Ha Hb HS q Hq T.
  assert (RT : exists s e, (solver = "log_sinkhorn"%string /\ bregman_log_projection_batch (N:=RNum) B n m a b norm tol exp ln (fun q i j => - M q i j / reg) it last = Some (s, e) /\ l_plan r = bl_T (N:=RNum) exp (fun q i j => - M q i j / reg) s \/
     solver = "sinkhorn"%string /\ bregman_projection_batch (N:=RNum) B n m a b norm tol (fun q i j => exp (- M q i j / reg)) it last = Some (s, e) /\ l_plan r = bp_T (N:=RNum) (fun q i j => exp (- M q i j / reg)) s) /\
     l_lin r = (fun q => loss_linear (N:=RNum) n m (M q) (l_plan r q)) /\
     (reg_type = "entropy"%string /\ l_value r = (fun q => nadd (n:=RNum) (l_lin r q) (nmul (n:=RNum) reg (nopp (N:=RNum) (entropy_b (N:=RNum) ln n m tiny (l_plan r q))))) \/
      reg_type = "kl"%string /\ l_value r = (fun q => nadd (n:=RNum) (l_lin r q) (nmul (n:=RNum) reg (nsum (N:=RNum) n (fun i => nsum (N:=RNum) m (fun j =>
               nmul (n:=RNum) (l_plan r q i j) (ln (nadd (n:=RNum) (ndiv (n:=RNum) (l_plan r q i j) (nmul (n:=RNum) (a q i) (b q j))) tiny)))))))) ).
  { unfold solve_batch in HS. rewrite !given_R in HS. fold a b in HS.
    assert (EK : (fun q i j => ndiv (n:=RNum) (nopp (N:=RNum) (M q i j)) reg) = (fun q i j => - M q i j / reg)).
    { extensionality q'. extensionality i. extensionality j. unfold nopp. cbn. unfold Rminus. rewrite Rplus_0_l. reflexivity. }
    assert (EK2 : (fun q i j => exp (ndiv (n:=RNum) (nopp (N:=RNum) (M q i j)) reg)) = (fun q i j => exp (- M q i j / reg))).
    { extensionality q'. extensionality i. extensionality j. unfold nopp. cbn. unfold Rminus. rewrite Rplus_0_l. reflexivity. }
    rewrite EK, EK2 in HS.
    destruct (String.eqb_spec solver "log_sinkhorn") as [->|N1]; [|destruct (String.eqb_spec solver "sinkhorn") as [->|N2]; [|discriminate]].
    - destruct (bregman_log_projection_batch _ _ _ _ _ _ _ _ _ _ _ _) as [[s e]|] eqn:E; [|discriminate]. exists s, e.
      destruct (String.eqb_spec reg_type "entropy") as [->|N3]; [injection HS as <-; cbn [l_plan l_lin l_value]; auto 10|].
      destruct (String.eqb_spec reg_type "kl") as [->|N4]; [injection HS as <-; cbn [l_plan l_lin l_value]; auto 10|discriminate].
    - destruct (bregman_projection_batch _ _ _ _ _ _ _ _ _ _) as [[s e]|] eqn:E; [|discriminate]. exists s, e.
      destruct (String.eqb_spec reg_type "entropy") as [->|N3]; [injection HS as <-; cbn [l_plan l_lin l_value]; auto 10|].
      destruct (String.eqb_spec reg_type "kl") as [->|N4]; [injection HS as <-; cbn [l_plan l_lin l_value]; auto 10|discriminate]. }
  destruct RT as (s & e & RP & RL & RV).
  destruct (plan_form B n m a b M reg norm tol last it solver s e (l_plan r) HB Hn Hm Ha Hb RP q Hq) as (PC & u & v & Hu & Hv & PE). fold T in PC, PE.
  assert (SP := scaled_plan n m (M q) T reg u v Hu Hv PE). assert (PT := plan_pos _ _ _ _ _ _ _ SP).
  split; auto. split; auto.
  assert (EL : l_lin r q = cost n m (M q) T). { rewrite RL. unfold loss_linear. rewrite inner_R. reflexivity. }
  split; [|split; [exact EL|]].
  - intros S CS.
    assert (CS' : coupling n m (row_sum m T) (col_sum n T) S). { destruct CS as (A1 & A2 & A3). split; auto. split; auto. intros j Hj. rewrite PC by auto. apply A3; auto. }
    assert (MN := scaled_minimises n m (M q) T reg _ _ Hr SP S CS'). unfold ent_obj in MN. unfold reg_term. destruct (String.eqb reg_type "entropy"); [exact MN|].
    assert (EQ : forall X, coupling n m (row_sum m T) (b q) X -> KL n m X (a q) (b q) = ent n m X - (rsum n (fun i => ln (a q i) * row_sum m T i) + rsum m (fun j => ln (b q j) * b q j))).
    { intros X (A1 & A2 & A3). unfold KL. rewrite (dsum_ext n m _ (fun i j => X i j * ln (X i j) - (ln (a q i) * X i j + ln (b q j) * X i j))).
      2:{ intros i j Hi Hj. rewrite ln_mult; [ring|apply Ha; auto|apply Hb; auto]. }
      rewrite dsum_minus, dsum_plus, dsum_row, dsum_col. rewrite (rsum_ext n (fun i => ln (a q i) * row_sum m X i) (fun i => ln (a q i) * row_sum m T i)) by (intros; rewrite A2; auto).
      rewrite (rsum_ext m (fun j => ln (b q j) * col_sum n X j) (fun j => ln (b q j) * b q j)) by (intros; rewrite A3; auto). reflexivity. }
    rewrite (EQ S CS), (EQ T). 2:{ split; [intros i j Hi Hj; left; apply PT; auto|]. split; auto. }
    lra.
  - assert (P0 : 0 <= INR n * INR m) by (apply Rmult_le_pos; apply pos_INR).
    assert (P1 : 0 <= mass n (a q) * mass m (b q)). { apply Rmult_le_pos; apply rsum_nonneg; intros; left; [apply Ha|apply Hb]; auto. }
    destruct RV as [(-> & RV)|(-> & RV)]; rewrite RV; cbn [nadd nmul ndiv RNum]; rewrite EL; fold T; unfold reg_term; cbn [String.eqb Ascii.eqb Bool.eqb].
    + unfold entropy_b, nopp. cbn [nsub n0 RNum]. rewrite nsum_R.
      rewrite (rsum_ext n (fun i => nsum (N:=RNum) m _) (fun i => rsum m (fun j => T i j * ln (T i j + tiny)))) by (intros; apply nsum_R).
      assert (Q := entr_bound n m T tiny PT Ht). unfold dsum in Q. set (X := rsum n _) in *. change (carrier RNum) with R in *.
      replace (cost n m (M q) T + reg * (0 - (0 - X)) - (cost n m (M q) T + reg * ent n m T)) with (reg * (X - ent n m T)) by ring.
      split; [apply Rmult_le_pos; lra|]. rewrite Rmult_assoc. apply Rmult_le_compat_l; [lra|]. assert (0 <= tiny * (mass n (a q) * mass m (b q))) by (apply Rmult_le_pos; lra). lra.
    + rewrite nsum_R. rewrite (rsum_ext n (fun i => nsum (N:=RNum) m _) (fun i => rsum m (fun j => T i j * ln (T i j / (a q i * b q j) + tiny)))) by (intros; apply nsum_R).
      assert (Q := kl_bound n m T (a q) (b q) tiny PT (Ha q Hq) (Hb q Hq) Ht). unfold dsum in Q. set (X := rsum n _) in *. change (carrier RNum) with R in *.
      replace (cost n m (M q) T + reg * X - (cost n m (M q) T + reg * KL n m T (a q) (b q))) with (reg * (X - KL n m T (a q) (b q))) by ring.
      split; [apply Rmult_le_pos; lra|]. rewrite Rmult_assoc. apply Rmult_le_compat_l; [lra|]. assert (0 <= tiny * (INR n * INR m)) by (apply Rmult_le_pos; lra). lra.
Qed.
Print Assumptions C136_solve.
(** the names accepted; max_iter = 0 and an unknown reg_type end in an unbound local name *)
Theorem C136_errors : forall N (lg ex : carrier N -> carrier N) B n m norm tiny tol solver reg_type last reg M oa ob it,
  let r := solve_batch (N:=N) lg ex B n m norm tiny tol solver reg_type last reg M oa ob it in
  (In solver ["log_sinkhorn"; "sinkhorn"]%string <-> r <> Raise ValueErr) /\
  (In solver ["log_sinkhorn"; "sinkhorn"]%string -> ((0 < it)%nat /\ In reg_type ["entropy"; "kl"]%string <-> exists x, r = Ok x)).
Proof.
  intros. subst r. unfold solve_batch.
  assert (P : forall K, bregman_log_projection_batch B n m (given n oa) (given m ob) norm tol ex lg K it last = None <-> it = 0%nat) by (intros; destruct it; split; intros; try discriminate; auto).
  assert (P2 : forall K, bregman_projection_batch B n m (given n oa) (given m ob) norm tol K it last = None <-> it = 0%nat) by (intros; destruct it; split; intros; try discriminate; auto).
  destruct (String.eqb_spec solver "log_sinkhorn") as [->|N1]; [|destruct (String.eqb_spec solver "sinkhorn") as [->|N2]].
  - match goal with |- context [bregman_log_projection_batch ?b ?x1 ?x2 ?x3 ?x4 ?x5 ?x6 ?x7 ?x8 ?K ?x9 ?x10] => specialize (P K); destruct (bregman_log_projection_batch b x1 x2 x3 x4 x5 x6 x7 x8 K x9 x10) as [[s e]|] end.
    + assert (it <> 0%nat) by (intros Z; apply P in Z; discriminate).
      destruct (String.eqb_spec reg_type "entropy") as [->|N3]; [|destruct (String.eqb_spec reg_type "kl") as [->|N4]].
      1,2: split; [split; [discriminate|cbn; tauto]|intros _; split; [intros _; eexists; reflexivity|intros _; split; [lia|cbn; tauto]]].
      split; [split; [discriminate|cbn; tauto]|intros _; split; [intros (_ & [Z|[Z|[]]]); congruence|intros (x & Z); discriminate]].
    + assert (it = 0%nat) by (apply P; auto). split; [split; [discriminate|cbn; tauto]|intros _; split; [lia|intros (x & Z); discriminate]].
  - match goal with |- context [bregman_projection_batch ?b ?x1 ?x2 ?x3 ?x4 ?x5 ?x6 ?K ?x9 ?x10] => specialize (P2 K); destruct (bregman_projection_batch b x1 x2 x3 x4 x5 x6 K x9 x10) as [[s e]|] end.
    + assert (it <> 0%nat) by (intros Z; apply P2 in Z; discriminate).
      destruct (String.eqb_spec reg_type "entropy") as [->|N3]; [|destruct (String.eqb_spec reg_type "kl") as [->|N4]].
      1,2: split; [split; [discriminate|cbn; tauto]|intros _; split; [intros _; eexists; reflexivity|intros _; split; [lia|cbn; tauto]]].
      split; [split; [discriminate|cbn; tauto]|intros _; split; [intros (_ & [Z|[Z|[]]]); congruence|intros (x & Z); discriminate]].
    + assert (it = 0%nat) by (apply P2; auto). split; [split; [discriminate|cbn; tauto]|intros _; split; [lia|intros (x & Z); discriminate]].
  - split; [split; [intros [Z|[Z|[]]]; congruence|congruence]|intros [Z|[Z|[]]]; congruence].
Qed.
Print Assumptions C136_errors.
(** the two solvers return the same plans at the same iteration *)
Lemma kernel_eq : forall (M : nat -> mat) reg, (fun q i j => ndiv (n:=RNum) (nopp (N:=RNum) (M q i j)) reg) = (fun q i j => - M q i j / reg).
Proof. intros. extensionality q'. extensionality i. extensionality j. unfold nopp. cbn. unfold Rminus. rewrite Rplus_0_l. reflexivity. Qed.
Theorem C136_solvers_agree : forall B n m tiny tol reg_type last reg M oa ob it r,
  (0 < B)%nat -> (0 < n)%nat -> (0 < m)%nat -> pos_batch B n (weights_of n oa) -> pos_batch B m (weights_of m ob) ->
  solve_batch (N:=RNum) ln exp B n m norm2 tiny tol "sinkhorn" reg_type last reg M oa ob it = Ok r ->
  exists r', solve_batch (N:=RNum) ln exp B n m norm2 tiny tol "log_sinkhorn" reg_type last reg M oa ob it = Ok r' /\ l_exit r' = l_exit r /\
  forall q i j, (q < B)%nat -> (i < n)%nat -> (j < m)%nat -> l_plan r' q i j = l_plan r q i j.
Proof.
  intros B n m tiny tol reg_type last reg M oa ob it r HB Hn Hm Ha Hb HS. unfold solve_batch in *. rewrite !given_R in *. cbn [String.eqb Ascii.eqb Bool.eqb] in *.
  assert (EK2 : (fun q i j => exp (ndiv (n:=RNum) (nopp (N:=RNum) (M q i j)) reg)) = (fun q i j => exp (- M q i j / reg))).
  { assert (E := kernel_eq M reg). extensionality q'. extensionality i. extensionality j. apply (f_equal exp). exact (f_equal (fun f => f q' i j) E). }
  rewrite EK2 in HS. rewrite kernel_eq.
  destruct (bregman_projection_batch _ _ _ _ _ _ _ _ _ _) as [[s e]|] eqn:E; [|discriminate].
  destruct (C28_batch_log_agrees B n m _ _ (fun q i j => - M q i j / reg) norm2 tol it last s e HB Hn Hm Ha Hb norm2_ext E) as (l & El & Q). rewrite El.
  assert (PL : forall q i j, (q < B)%nat -> (i < n)%nat -> (j < m)%nat -> bl_T (N:=RNum) exp (fun q i j => - M q i j / reg) l q i j = bp_T (N:=RNum) (fun q i j => exp (- M q i j / reg)) s q i j).
  { intros q i j Hq Hi Hj. unfold bl_T, bp_T. cbn [nadd nmul RNum]. rewrite <- (Q q i j Hq Hi Hj). unfold diag_plan. match goal with |- @eq _ ?x ?y => change (@eq R x y) end. ring. }
  destruct (String.eqb reg_type "entropy"); [|destruct (String.eqb reg_type "kl"); [|discriminate]]; injection HS as <-; eexists; (split; [reflexivity|split; [reflexivity|exact PL]]).
Qed.
Print Assumptions C136_solvers_agree.
(** elements of a batch only interact through the number of iterations: there is one k such that every
    element is what its own problem gives after k iterations *)
Lemma norm2_nonneg : forall k f, 0 <= norm2 k f. Proof. intros. apply sqrt_pos. Qed.
Lemma single_never : forall n m a T, nltb (n:=RNum) (bp_err (N:=RNum) 1 n m a norm2 T) 0 = false.
Proof. intros. apply Rltb_false. unfold bp_err. cbn. apply norm2_nonneg. Qed.
Lemma single_step : forall n m (a b : nat -> vec) (L : nat -> mat) q (s s' : bs (N:=RNum)), b_g s' 0%nat = b_g s q ->
  let u := bl_u (N:=RNum) m a exp ln L (b_g s) in let u' := bl_u (N:=RNum) m (fun _ => a q) exp ln (fun _ => L q) (b_g s') in
  u' 0%nat = u q /\ bl_v (N:=RNum) n (fun _ => b q) exp ln (fun _ => L q) u' 0%nat = bl_v (N:=RNum) n b exp ln L u q.
Proof.
  intros n m a b L q s s' E u u'. assert (U : u' 0%nat = u q). { subst u u'. extensionality i. unfold bl_u. rewrite E. reflexivity. }
  split; auto. extensionality j. unfold bl_v. rewrite U. reflexivity.
Qed.
Lemma single_run : forall B n m (a b : nat -> vec) (L : nat -> mat) tol left ii (s : bs (N:=RNum)), exists k, (k <= left)%nat /\ ((0 < left)%nat -> (0 < k)%nat) /\
  forall q ii' s', b_g s' 0%nat = b_g s q -> b_f s' 0%nat = b_f s q ->
  let r := fst (bl_loop (N:=RNum) B n m a b norm2 tol exp ln L left ii s) in
  let r' := fst (bl_loop (N:=RNum) 1 n m (fun _ => a q) (fun _ => b q) norm2 0 exp ln (fun _ => L q) k ii' s') in
  b_f r' 0%nat = b_f r q /\ b_g r' 0%nat = b_g r q.
Proof.
  intros B n m a b L tol. induction left; intros ii s; [exists 0%nat; cbn; repeat split; auto; lia|].
  cbn [bl_loop]. set (s1 := mk_bs _ _). destruct (_ && _)%bool.
  - exists 1%nat. split; [lia|]. split; [lia|]. intros q ii' s' Eg Ef. cbn [bl_loop]. destruct (single_step n m a b L q s s' Eg) as (U & V). destruct (_ && _)%bool; cbn [fst b_f b_g s1]; auto.
  - destruct (IHleft (S ii) s1) as (k & Hk & _ & H). exists (S k). split; [lia|]. split; [lia|]. intros q ii' s' Eg Ef. cbn [bl_loop].
    rewrite single_never, andb_false_r. destruct (single_step n m a b L q s s' Eg) as (U & V). apply H; auto.
Qed.
Theorem C136_independent : forall B n m tiny tol reg_type reg (M : nat -> mat) (a b : nat -> vec) it r,
  solve_batch (N:=RNum) ln exp B n m norm2 tiny tol "log_sinkhorn" reg_type false reg M (Some a) (Some b) it = Ok r ->
  exists k, (0 < k <= it)%nat /\ forall q, exists r', solve_batch (N:=RNum) ln exp 1 n m norm2 tiny 0 "log_sinkhorn" reg_type false reg (fun _ => M q) (Some (fun _ => a q)) (Some (fun _ => b q)) k = Ok r' /\
    l_plan r' 0%nat = l_plan r q /\ l_value r' 0%nat = l_value r q /\ l_lin r' 0%nat = l_lin r q.
Proof.
  intros B n m tiny tol reg_type reg M a b it r HS. unfold solve_batch in *. cbn [given String.eqb Ascii.eqb Bool.eqb] in *. rewrite kernel_eq in HS.
  destruct it as [|it]; [discriminate|]. unfold bregman_log_projection_batch in HS. set (s0 := mk_bs (N:=RNum) (fun _ _ => n0) (fun _ _ => n0)) in HS.
  destruct (single_run B n m a b (fun q i j => - M q i j / reg) tol (S it) 0 s0) as (k & Hk & Hk1 & H). specialize (Hk1 ltac:(lia)).
  exists k. split; [lia|]. intros q. specialize (H q 0%nat s0 eq_refl eq_refl). cbv zeta in H.
  rewrite (kernel_eq (fun _ => M q) reg). unfold bregman_log_projection_batch. fold s0. destruct k as [|k]; [lia|].
  set (z := bl_loop (N:=RNum) B n m a b norm2 tol exp ln (fun q i j => - M q i j / reg) (S it) 0 s0) in *.
  set (z' := bl_loop (N:=RNum) 1 n m (fun _ => a q) (fun _ => b q) norm2 0 exp ln (fun _ i j => - M q i j / reg) (S k) 0 s0) in *.
  destruct z as [s e]. destruct z' as [s' e']. cbn [fst] in H. destruct H as (Hf & Hg).
  assert (PL : bl_T (N:=RNum) exp (fun _ i j => - M q i j / reg) s' 0%nat = bl_T (N:=RNum) exp (fun q i j => - M q i j / reg) s q).
  { extensionality i. extensionality j. unfold bl_T. rewrite Hf, Hg. reflexivity. }
  destruct (String.eqb reg_type "entropy"); [|destruct (String.eqb reg_type "kl"); [|discriminate]]; injection HS as <-; eexists; (split; [reflexivity|]); cbn [l_plan l_value l_lin]; rewrite PL; auto.
Qed.
Print Assumptions C136_independent.

(** *** C137: the quadratic loss.  With recompute_const=True it is the quadruple sum for every T, every
    number of features and either value of the symmetric flag; without, for every T with marginals a, b *)
Theorem C137_loss : forall n m d tiny l (symmetric : option bool) (recompute : bool) a b C1 C2 T,
  recompute = true \/ (forall i, (i < n)%nat -> row_sum m T i = a i) /\ (forall j, (j < m)%nat -> col_sum n T j = b j) ->
  loss_quadratic_samples (N:=RNum) ln n m d tiny l a b C1 C2 T symmetric recompute = vgw n m (vloss d tiny l) C1 C2 T.
Proof.
  intros. unfold loss_quadratic_samples. apply loss_R. intros ->. destruct H as [H|H]; [discriminate|exact H].
Qed.
Print Assumptions C137_loss.
(** for symmetric structures (all features) the flag is irrelevant for the product itself *)
Theorem C137_flag : forall n m d tiny l recompute a b C1 C2 T i j, fsym n d C1 -> fsym m d C2 -> (i < n)%nat -> (j < m)%nat ->
  tensor_product_batch (N:=RNum) n m d (tensor_batch (N:=RNum) ln n m d tiny l true a b C1 C2) T recompute true i j
  = tensor_product_batch (N:=RNum) n m d (tensor_batch (N:=RNum) ln n m d tiny l false a b C1 C2) T recompute false i j.
Proof.
  intros n m d tiny l recompute a b C1 C2 T i j S1 S2 Hi Hj. rewrite !product_R. unfold sgn.
  assert (E : forall p r, TP n m d tiny l (ftp C1) (ftp C2) p r T i j = TP n m d tiny l C1 C2 p r T i j).
  { intros. unfold TP. f_equal; [f_equal|].
    - apply rsum_ext; intros k Hk. f_equal. unfold b_f1. destruct l; [|reflexivity]. rewrite !nsum_R. apply rsum_ext; intros e He. unfold ftp. rewrite (S1 k i e); auto.
    - apply rsum_ext; intros k Hk. f_equal. unfold b_f2. destruct l; rewrite !nsum_R; apply rsum_ext; intros e He; unfold ftp; rewrite (S2 k j e); auto.
    - apply dsum_ext; intros k c Hk Hc. f_equal. apply rsum_ext; intros e He. unfold b_h1, b_h2, ftp. rewrite (S1 k i e), (S2 c j e); auto. }
  rewrite E. match goal with |- @eq _ ?x ?y => change (@eq R x y) end. field.
Qed.
Print Assumptions C137_flag.
(** the 'kl' loss is KL(C2 | C1), not the documented KL(C1 | C2) *)
Definition documented_kl (d : nat) (x y : nat -> R) : R := rsum d (fun e => x e * ln (x e / y e)).
Theorem C137_kl_arguments_refuted : exists (C1 C2 : feat) (T : mat), forall tiny sym, 0 <= tiny ->
  vgw 1 1 (documented_kl 1) C1 C2 T < 0 < loss_quadratic_samples (N:=RNum) ln 1 1 1 tiny (BKl false) (fun _ => 1) (fun _ => 1) C1 C2 T sym true.
Proof.
  exists (fun _ _ _ => 1), (fun _ _ _ => 2), (fun _ _ => 1). intros tiny sym Ht. rewrite C137_loss by auto. unfold vgw, documented_kl, vloss. cbn.
  assert (0 < ln 2) by (rewrite <- ln_1; apply ln_increasing; lra). assert (ln (1 + tiny) < ln (2 + tiny)) by (apply ln_increasing; lra).
  replace (1 / 2) with (/ 2) by lra. rewrite ln_Rinv by lra. lra.
Qed.
Print Assumptions C137_kl_arguments_refuted.
(** without recompute_const the value is not the loss of a plan with other marginals *)
Theorem C137_stale_constant_refuted : exists (C1 C2 : feat) (T : mat), forall tiny sym,
  loss_quadratic_samples (N:=RNum) ln 1 1 1 tiny BSq (fun _ => 1) (fun _ => 1) C1 C2 T sym false = 2 /\ vgw 1 1 (vloss 1 tiny BSq) C1 C2 T = 4.
Proof.
  exists (fun _ _ _ => 1), (fun _ _ _ => 0), (fun _ _ => 2). intros tiny sym. split; [|unfold vgw; cbn; ring].
  unfold loss_quadratic_samples, loss_quadratic. rewrite inner_R. destruct sym as [[]|]; unfold dsum; cbn; unfold half_, two, b_h2, ftr; cbn; match goal with |- @eq _ ?x ?y => change (@eq R x y) end; field.
Qed.
Print Assumptions C137_stale_constant_refuted.

(** *** C138: solve_gromov_batch *)
Definition close (rtol atol x y : R) : Prop := Rabs (x - y) <= atol + rtol * Rabs y.
Definition near_symmetric (rtol atol : R) (B k d : nat) (C : nat -> feat) : Prop :=
  forall q i j e, (q < B)%nat -> (i < k)%nat -> (j < k)%nat -> (e < d)%nat -> close rtol atol (C q i j e) (C q j i e).
Definition treated_symmetric (rtol atol : R) (B n m d : nat) (C1 C2 : nat -> feat) (symmetric : option bool) : Prop :=
  match symmetric with Some s => s = true | None => near_symmetric rtol atol B n d C1 /\ near_symmetric rtol atol B m d C2 end.
Lemma alln_spec : forall k f, alln k f = true <-> forall i, (i < k)%nat -> f i = true.
Proof.
  induction k; intros f; cbn [alln]; [split; [intros; lia|auto]|]. rewrite andb_true_iff, IHk. split.
  - intros (H1 & H2) i Hi. destruct (Nat.eq_dec i k); [subst; auto|apply H1; lia].
  - intros H. split; [intros; apply H; lia|apply H; lia].
Qed.
Lemma detect : forall rtol atol B k d C, batch_symmetric (N:=RNum) B d rtol atol k C = true <-> near_symmetric rtol atol B k d C.
Proof.
  intros. unfold batch_symmetric, near_symmetric, close. rewrite alln_spec.
  assert (Q : forall x y, close_b (N:=RNum) rtol atol x y = true <-> Rabs (x - y) <= atol + rtol * Rabs y).
  { intros. unfold close_b. rewrite !nabs_R. exact (Rleb_true _ _). }
  split.
  - intros H q i j e Hq Hi Hj He. specialize (H q Hq). rewrite alln_spec in H. specialize (H i Hi). rewrite alln_spec in H. specialize (H j Hj). rewrite alln_spec in H. apply Q. auto.
  - intros H q Hq. rewrite alln_spec. intros i Hi. rewrite alln_spec. intros j Hj. rewrite alln_spec. intros e He. apply Q. auto.
Qed.
(** exactly symmetric structures are always recognised *)
Theorem C138_detect : forall rtol atol B k d (C : nat -> feat), 0 <= rtol -> 0 <= atol -> (forall q, (q < B)%nat -> fsym k d (C q)) -> batch_symmetric (N:=RNum) B d rtol atol k C = true.
Proof.
  intros rtol atol B k d C Hr Ha H. apply detect. intros q i j e Hq Hi Hj He. unfold close. rewrite (H q Hq i j e) by auto. rewrite Rminus_diag_eq, Rabs_R0 by auto.
  assert (0 <= rtol * Rabs (C q j i e)) by (apply Rmult_le_pos; [auto|apply Rabs_pos]). lra.
Qed.
Definition start (n m : nat) (a b : nat -> vec) (T_init : option (nat -> mat)) : nat -> mat :=
  match T_init with Some T => T | None => fun q i j => a q i * b q j / sqrt (mass n (a q) * mass m (b q)) end.
(** the default start has the columns b (and the rows a) when the masses agree *)
Theorem C138_default_start : forall n m (a b : nat -> vec) q, 0 < mass n (a q) -> mass n (a q) = mass m (b q) ->
  (forall j, col_sum n (start n m a b None q) j = b q j) /\ (forall i, row_sum m (start n m a b None q) i = a q i).
Proof.
  intros n m a b q Ha E. unfold start, col_sum, row_sum. rewrite <- E, sqrt_square by lra. split; intros.
  - rewrite (rsum_ext n _ (fun i => a q i * (b q j / mass n (a q)))) by (intros; field; lra). rewrite rsum_scal_r. fold (mass n (a q)). field. lra.
  - rewrite (rsum_ext m _ (fun j => a q i / mass n (a q) * b q j)) by (intros; field; lra). rewrite rsum_scal. fold (mass m (b q)). rewrite <- E. field. lra.
Qed.
Print Assumptions C138_default_start.
(** the gradient of (1-alpha) <M,T> + alpha GW(T) *)
Definition fgrad (n m d : nat) (tiny : R) (l : bloss) (alpha : R) (M : mat) (C1 C2 : feat) (T : mat) : mat := fun i j =>
  (1 - alpha) * M i j + alpha * dsum n m (fun k c => (vloss d tiny l (C1 i k) (C2 j c) + vloss d tiny l (C1 k i) (C2 c j)) * T k c).
Definition linear_part (M : option (nat -> mat)) : nat -> mat := match M with Some M => M | None => fun _ _ _ => 0 end.
Definition weight (alpha : option R) : R := match alpha with Some x => x | None => 1 end.
Lemma solve_inv : forall B n m d tiny l norm rtol atol tol tol_inner max_iter max_inner reg oa ob C1 C2 symmetric oM oalpha T_init r,
  let a := weights_of n oa in let b := weights_of m ob in let M := linear_part oM in let alpha := weight oalpha in
  let sym := match symmetric with Some s => s | None => (batch_symmetric (N:=RNum) B d rtol atol n C1 && batch_symmetric (N:=RNum) B d rtol atol m C2)%bool end in
  solve_gromov_batch (N:=RNum) ln exp sqrt B n m d tiny l norm rtol atol tol tol_inner max_iter max_inner reg oa ob C1 C2 symmetric oM oalpha T_init = Ok r ->
  exists s, q_loop (N:=RNum) ln exp B n m d norm tol tol_inner max_inner reg alpha M (Lq n m d tiny l C1 C2 sym a b) sym a b max_iter 0 (start n m a b T_init) (fun q i j => ln (start n m a b T_init q i j + tiny)) = Some (s, r_iter r) /\
    r_plan r = q_T s /\ r_pot r = q_pot s /\
    (forall q, r_lin r q = cost n m (M q) (q_T s q) * (1 - alpha) /\ r_quad r q = loss_quadratic (N:=RNum) n m d (Lq n m d tiny l C1 C2 sym a b q) (q_T s q) true sym * alpha /\ r_value r q = (1 - alpha) * cost n m (M q) (q_T s q) + alpha * loss_quadratic (N:=RNum) n m d (Lq n m d tiny l C1 C2 sym a b q) (q_T s q) true sym).
Proof.
  intros B n m d tiny l norm rtol atol tol tol_inner max_iter max_inner reg oa ob C1 C2 symmetric oM oalpha T_init r a b M alpha sym H.
  unfold solve_gromov_batch in H. rewrite !given_R in H. fold a b in H. cbv zeta in H. fold sym in H.
  assert (ES : match T_init with Some T => T | None => fun q i j => ndiv (n:=RNum) (nmul (n:=RNum) (a q i) (b q j)) (sqrt (nmul (n:=RNum) (nsum (N:=RNum) n (a q)) (nsum (N:=RNum) m (b q)))) end = start n m a b T_init).
  { destruct T_init; [reflexivity|]. unfold start. extensionality q. extensionality i. extensionality j. rewrite !nsum_R. reflexivity. }
  rewrite ES in H. change (fun q => tensor_batch (N:=RNum) ln n m d tiny l sym (a q) (b q) (C1 q) (C2 q)) with (Lq n m d tiny l C1 C2 sym a b) in H.
  assert (EL : forall (X Y : mat), loss_linear (N:=RNum) n m X Y = cost n m X Y) by (intros; unfold loss_linear; rewrite inner_R; reflexivity).
  subst M alpha. destruct oM as [M|], oalpha as [al|]; cbn [linear_part weight] in *; try discriminate.
  - destruct (_ || _)%bool in H; [discriminate|]. destruct (q_loop _ _ _ _ _ _ _ _ _ _ _ _ _ _ _ _ _ _ _ _ _) as [[s k]|] eqn:E in H; [|discriminate]. injection H as <-. exists s. cbn [r_plan r_lin r_quad r_value r_pot r_iter].
    split; [exact E|]. split; auto. split; auto. intros q. rewrite EL. auto.
  - match type of H with match ?x with _ => _ end = _ => destruct x as [[s k]|] eqn:E; [|discriminate] end. injection H as <-. exists s. cbn [r_plan r_lin r_quad r_value r_pot r_iter].
    split; [exact E|]. split; auto. split; auto. intros q. rewrite EL. auto.
Qed.
(** the values are those of the plan returned, whatever the inputs and the number of iterations *)
Theorem C138_value : forall B n m d tiny l norm rtol atol tol tol_inner max_iter max_inner reg oa ob C1 C2 symmetric oM oalpha T_init r,
  solve_gromov_batch (N:=RNum) ln exp sqrt B n m d tiny l norm rtol atol tol tol_inner max_iter max_inner reg oa ob C1 C2 symmetric oM oalpha T_init = Ok r ->
  forall q, let al := weight oalpha in let T := r_plan r q in
  r_lin r q = (1 - al) * cost n m (linear_part oM q) T /\ r_quad r q = al * vgw n m (vloss d tiny l) (C1 q) (C2 q) T /\ r_value r q = r_lin r q + r_quad r q.
Proof.
  intros B n m d tiny l norm rtol atol tol tol_inner max_iter max_inner reg oa ob C1 C2 symmetric oM oalpha T_init r H q al T. destruct (solve_inv _ _ _ _ _ _ _ _ _ _ _ _ _ _ _ _ _ _ _ _ _ _ _ H) as (s & _ & EP & _ & V). destruct (V q) as (V1 & V2 & V3).
  unfold Lq in V2, V3. rewrite loss_R in V2, V3 by discriminate. subst T al. rewrite EP, V1, V2, V3. repeat split; match goal with |- @eq _ ?x ?y => change (@eq R x y) end; ring.
Qed.
Print Assumptions C138_value.
(** the iterates: from a start with columns b, every later plan is positive with columns b, and is the
    minimiser of the problem linearised at the previous one (true gradient, relative entropy to it)
    among the plans with the same marginals; the loop ends at max_iter or when no element moved *)
Theorem C138_steps : forall B n m d tiny l norm rtol atol tol tol_inner max_iter max_inner reg oa ob C1 C2 symmetric oM oalpha T_init r,
  let a := weights_of n oa in let b := weights_of m ob in let al := weight oalpha in let T0 := start n m a b T_init in
  (0 < B)%nat -> (0 < n)%nat -> (0 < m)%nat -> 0 < reg -> pos_batch B m b ->
  (treated_symmetric rtol atol B n m d C1 C2 symmetric -> forall q, (q < B)%nat -> fsym n d (C1 q) /\ fsym m d (C2 q)) ->
  (forall q j, (q < B)%nat -> (j < m)%nat -> col_sum n (T0 q) j = b q j) ->
  solve_gromov_batch (N:=RNum) ln exp sqrt B n m d tiny l norm rtol atol tol tol_inner max_iter max_inner reg oa ob C1 C2 symmetric oM oalpha T_init = Ok r ->
  exists T : nat -> nat -> mat, let k := r_iter r in
  T 0%nat = T0 /\ r_plan r = T (S k) /\ (k < max_iter)%nat /\
  (forall t q, (t <= k)%nat -> (q < B)%nat -> pos_mat n m (T (S t) q) /\ (forall j, (j < m)%nat -> col_sum n (T (S t) q) j = b q j)) /\
  (forall t q, (t <= k)%nat -> (q < B)%nat ->
     let G := fgrad n m d tiny l al (linear_part oM q) (C1 q) (C2 q) (T t q) in
     let ref := if Nat.eqb t 0 then fun i j => T0 q i j + tiny else T t q in
     forall S, coupling n m (row_sum m (T (Datatypes.S t) q)) (b q) S ->
     cost n m G (T (Datatypes.S t) q) + reg * kl_plan n m (T (Datatypes.S t) q) ref <= cost n m G S + reg * kl_plan n m S ref) /\
  ((k < max_iter - 1)%nat -> forall q, (q < B)%nat -> dsum n m (fun i j => Rabs (T k q i j - T (S k) q i j)) < tol * (INR n * INR m)).
Proof.
  intros B n m d tiny l norm rtol atol tol tol_inner max_iter max_inner reg oa ob C1 C2 symmetric oM oalpha T_init r a b al T0 HB Hn Hm Hr Hb Hs HC H.
  destruct (solve_inv _ _ _ _ _ _ _ _ _ _ _ _ _ _ _ _ _ _ _ _ _ _ _ H) as (s & EL & EP & _ & _). fold a b in EL. fold T0 in EL. fold al in EL.
  set (sym := match symmetric with Some s => s | None => _ end) in EL.
  assert (HS : sym = true -> forall q, (q < B)%nat -> fsym n d (C1 q) /\ fsym m d (C2 q)).
  { intros E. apply Hs. subst sym. destruct symmetric; [exact E|]. apply andb_true_iff in E. split; apply detect; apply E. }
  set (M := linear_part oM) in *. set (k := r_iter r) in *.
  destruct (loop_trace B n m d tiny l norm tol tol_inner max_inner reg al M C1 C2 sym a b HB Hn max_iter 0%nat T0 (fun q i j => ln (T0 q i j + tiny)) s k EL) as (T & Lt & E0 & L0 & Hk & Es & _ & HT & HE).
  replace (k - 0)%nat with k in * by lia.
  assert (COL : forall t q j, (t <= S k)%nat -> (q < B)%nat -> (j < m)%nat -> col_sum n (T t q) j = b q j).
  { induction t; intros q j Ht Hq Hj; [rewrite E0; auto|]. destruct (HT t ltac:(lia)) as (w & Sw & -> & _).
    apply (step_form B n m d tiny l norm tol_inner max_inner reg al M C1 C2 sym a b Hn Hb Hr HS (T t) (Lt t) w Sw); auto. intros; apply IHt; auto; lia. }
  assert (FORM : forall t, (t <= k)%nat -> (forall q i j, T (S t) q i j = exp (Lt (S t) q i j)) /\ forall q, (q < B)%nat -> exists u v, pos_vec n u /\ pos_vec m v /\
    forall i j, (i < n)%nat -> (j < m)%nat -> T (S t) q i j = u i * exp (Lt t q i j - fgrad n m d tiny l al (M q) (C1 q) (C2 q) (T t q) i j / reg) * v j).
  { intros t Ht. destruct (HT t Ht) as (w & Sw & -> & ->).
    destruct (step_form B n m d tiny l norm tol_inner max_inner reg al M C1 C2 sym a b Hn Hb Hr HS (T t) (Lt t) w Sw) as (F1 & F2 & F3). { intros; apply COL; auto; lia. }
    split; [exact F1|exact F3]. }
  assert (POS : forall t q, (t <= k)%nat -> pos_mat n m (T (S t) q)). { intros t q Ht i j Hi Hj. destruct (FORM t Ht) as (F & _). rewrite F. apply exp_pos. }
  assert (LG : forall t q i j, (t <= k)%nat -> Lt t q i j = ln ((if Nat.eqb t 0 then fun i j => T0 q i j + tiny else T t q) i j)).
  { intros [|t] q i j Ht; cbn [Nat.eqb]; [rewrite L0; reflexivity|]. destruct (FORM t ltac:(lia)) as (F & _). rewrite F, ln_exp. reflexivity. }
  exists T. cbv zeta. split; [exact E0|]. split; [rewrite EP; auto|]. split; [lia|]. split; [|split].
  - intros t q Ht Hq. split; [apply POS; auto|]. intros; apply COL; auto; lia.
  - intros t q Ht Hq S CS. destruct (FORM t Ht) as (_ & F). destruct (F q Hq) as (u & v & Hu & Hv & E).
    set (G := fgrad n m d tiny l al (M q) (C1 q) (C2 q) (T t q)) in *. set (ref := if Nat.eqb t 0 then fun i j => T0 q i j + tiny else T t q) in *.
    assert (SP : sinkhorn_plan n m (row_sum m (T (Datatypes.S t) q)) (col_sum n (T (Datatypes.S t) q)) (fun i j => G i j - reg * ln (ref i j)) reg (T (Datatypes.S t) q)).
    { apply (scaled_plan n m (fun i j => G i j - reg * ln (ref i j)) _ reg u v Hu Hv). intros i j Hi Hj. rewrite E by auto. f_equal. f_equal. f_equal. rewrite LG by auto. fold ref. field. lra. }
    assert (CS' : coupling n m (row_sum m (T (Datatypes.S t) q)) (col_sum n (T (Datatypes.S t) q)) S). { destruct CS as (A1 & A2 & A3). split; auto. split; auto. intros j Hj. rewrite COL by (auto; lia). apply A3; auto. }
    assert (Q := scaled_minimises n m _ _ reg _ _ Hr SP S CS').
    assert (EQ : forall X, ent_obj n m (fun i j => G i j - reg * ln (ref i j)) reg X = cost n m G X + reg * kl_plan n m X ref).
    { intros X. unfold ent_obj, kl_plan. rewrite !cost_dsum. change (ent n m X) with (dsum n m (fun i j => X i j * ln (X i j))). rewrite <- !dsum_scal, <- !dsum_plus. apply dsum_ext; intros; ring. }
    rewrite !EQ in Q. exact Q.
  - intros Hlt q Hq. assert (Q := HE ltac:(lia)). rewrite <- Es in Q. unfold q_err in Q.
    assert (W := nmaxk_ge (B - 1) (fun q => ndiv (n:=RNum) (nsum (N:=RNum) n (fun i => nsum (N:=RNum) m (fun j => nabs (N:=RNum) (nsub (n:=RNum) (T k q i j) (T (S k) q i j))))) (nmul (n:=RNum) (nofnat n) (nofnat m))) q ltac:(lia)).
    cbv beta in W. assert (Z := Rle_lt_trans _ _ _ W Q). cbn [ndiv nmul RNum] in Z. rewrite !nofnat_INR, nsum_R in Z.
    rewrite (rsum_ext n (fun i => nsum (N:=RNum) m _) (fun i => rsum m (fun j => Rabs (T k q i j - T (S k) q i j)))) in Z by (intros; rewrite nsum_R; apply rsum_ext; intros; apply nabs_R).
    assert (P : 0 < INR n * INR m) by (apply Rmult_lt_0_compat; apply lt_0_INR; auto). unfold dsum. apply (Rmult_lt_compat_r _ _ _ P) in Z. unfold Rdiv in Z. rewrite Rmult_assoc, Rinv_l in Z by lra. lra.
Qed.
Print Assumptions C138_steps.
(** M and alpha come together and alpha is in [0, 1] (the documented default 0.5 is never used);
    max_iter = 0 or max_iter_inner = 0 ends in an unbound local name *)
Theorem C138_errors : forall B n m d tiny l norm rtol atol tol tol_inner max_iter max_inner reg oa ob C1 C2 symmetric oM oalpha T_init,
  let r := solve_gromov_batch (N:=RNum) ln exp sqrt B n m d tiny l norm rtol atol tol tol_inner max_iter max_inner reg oa ob C1 C2 symmetric oM oalpha T_init in
  (r = Raise ValueErr <-> match oM, oalpha with None, None => False | Some _, Some al => al < 0 \/ 1 < al | _, _ => True end) /\
  (r <> Raise ValueErr -> ((exists x, r = Ok x) <-> (0 < max_iter)%nat /\ (0 < max_inner)%nat)).
Proof.
  intros. subst r.
  assert (LP : forall M alpha L sym a b left it T lT, q_loop (N:=RNum) ln exp B n m d norm tol tol_inner max_inner reg alpha M L sym a b left it T lT = None <-> (left = 0 \/ max_inner = 0)%nat).
  { intros M alpha L sym a b.
    assert (HI : forall K, bregman_log_projection_batch (N:=RNum) B n m a b norm tol_inner exp ln K max_inner false = None <-> max_inner = 0%nat) by (intros; destruct max_inner; split; intros; try discriminate; auto).
    induction left; intros it T lT; cbn [q_loop]; [split; auto|]. unfold q_step. specialize (HI (q_kernel (N:=RNum) n m d reg alpha M L sym T lT)).
    destruct (bregman_log_projection_batch _ _ _ _ _ _ _ _ _ _ _ _) as [[w e]|]; [|split; auto; intros _; right; apply HI; auto].
    assert (max_inner <> 0%nat) by (intros Z; apply HI in Z; discriminate). cbn [q_T q_log].
    destruct (nltb _ _); [split; [discriminate|lia]|]. destruct left; [split; [discriminate|lia]|]. rewrite IHleft. lia. }
  unfold solve_gromov_batch. cbv zeta. destruct oM as [M|], oalpha as [al|].
  - destruct (_ || _)%bool eqn:E.
    + split; [|congruence]. split; auto. intros _. apply orb_true_iff in E. destruct E as [E|E]; apply Rltb_true in E; auto.
    + apply orb_false_iff in E. destruct E as (E1 & E2). apply Rltb_false in E1, E2. cbn in E1, E2.
      match goal with |- context [q_loop ?x1 ?x2 ?x3 ?x4 ?x5 ?x6 ?x7 ?x8 ?x9 ?y0 ?y1 ?y2 ?y3 ?y4 ?y5 ?y6 ?y7 ?y8 ?y9 ?z0 ?z1] => specialize (LP y3 y2 y4 y5 y6 y7 y8 y9 z0 z1); destruct (q_loop (N:=RNum) x1 x2 x3 x4 x5 x6 x7 x8 x9 y0 y1 y2 y3 y4 y5 y6 y7 y8 y9 z0 z1) as [[s k]|] end.
      * split; [split; [discriminate|lra]|]. intros _. split; [|intros; eexists; reflexivity]. intros _. assert (~ (max_iter = 0 \/ max_inner = 0)%nat) by (rewrite <- LP; discriminate). lia.
      * split; [split; [discriminate|lra]|]. intros _. split; [intros (x & X); discriminate|]. assert (max_iter = 0 \/ max_inner = 0)%nat by (apply LP; auto). lia.
  - split; [tauto|congruence].
  - split; [tauto|congruence].
  - match goal with |- context [q_loop ?x1 ?x2 ?x3 ?x4 ?x5 ?x6 ?x7 ?x8 ?x9 ?y0 ?y1 ?y2 ?y3 ?y4 ?y5 ?y6 ?y7 ?y8 ?y9 ?z0 ?z1] => specialize (LP y3 y2 y4 y5 y6 y7 y8 y9 z0 z1); destruct (q_loop (N:=RNum) x1 x2 x3 x4 x5 x6 x7 x8 x9 y0 y1 y2 y3 y4 y5 y6 y7 y8 y9 z0 z1) as [[s k]|] end.
      * split; [split; [discriminate|lra]|]. intros _. split; [|intros; eexists; reflexivity]. intros _. assert (~ (max_iter = 0 \/ max_inner = 0)%nat) by (rewrite <- LP; discriminate). lia.
      * split; [split; [discriminate|lra]|]. intros _. split; [intros (x & X); discriminate|]. assert (max_iter = 0 \/ max_inner = 0)%nat by (apply LP; auto). lia.
Qed.
Print Assumptions C138_errors.

(** *** the hypotheses are met *)
Example C136_ex : let M := fun (q i j : nat) => INR (q + i * j) in
  pos_batch 3 2 (weights_of 2 None) /\ exists r, solve_batch (N:=RNum) ln exp 3 2 2 norm2 (1 / 10) (1 / 10) "log_sinkhorn" "kl" false 1 M None None 5 = Ok r.
Proof.
  intros M. split; [intros q Hq i Hi; cbn; lra|].
  apply (C136_errors RNum ln exp 3 2 2 norm2 (1 / 10) (1 / 10) "log_sinkhorn" "kl" false 1 M None None 5); cbn; auto. split; [lia|auto].
Qed.
Definition exC1 (q i k e : nat) : R := INR (e + (i + k) * q).
Definition exC2 (q j c e : nat) : R := INR (e * (j + c)).
Example C138_ex : let a := weights_of 2 None in let b := weights_of 3 None in
  pos_batch 2 3 b /\ (forall q, fsym 2 2 (exC1 q) /\ fsym 3 2 (exC2 q)) /\ (forall q, 0 < mass 2 (a q) /\ mass 2 (a q) = mass 3 (b q)) /\
  exists r, solve_gromov_batch (N:=RNum) ln exp sqrt 2 2 3 2 (1 / 10) BSq norm2 0 0 (1 / 10) (1 / 10) 4 7 1 None None exC1 exC2 None None None None = Ok r.
Proof.
  intros a b. split; [intros q Hq i Hi; cbn; lra|]. split; [intros q; split; intros i k e _ _ _; unfold exC1, exC2; rewrite (Nat.add_comm i k); reflexivity|].
  split; [intros q; unfold mass; cbn; split; field_simplify; lra|].
  set (r := solve_gromov_batch _ _ _ _ _ _ _ _ _ _ _ _ _ _ _ _ _ _ _ _ _ _ _ _ _).
  destruct (C138_errors 2 2 3 2 (1 / 10) BSq norm2 0 0 (1 / 10) (1 / 10) 4 7 1 None None exC1 exC2 None None None None) as (E1 & E2). fold r in E1, E2.
  apply E2; [intros E; apply E1 in E; exact E|lia].
Qed.
(** two asymmetric structures with two features, a plan that is not a coupling of (a, b) *)
Example C137_ex : Qeq (loss_quadratic_samples (N:=QNum) (fun x => x) 2 2 2 0%Q BSq (fun _ => 1 # 2)%Q (fun _ => 1 # 2)%Q
   (fun i k e => inject_Z (Z.of_nat (i + 2 * k + e))) (fun j c e => inject_Z (Z.of_nat (3 * j + c * e))) (fun i j => if Nat.eqb i j then (1 # 4)%Q else (1 # 3)%Q) None true) (791 # 72).
Proof. vm_compute. reflexivity. Qed.
