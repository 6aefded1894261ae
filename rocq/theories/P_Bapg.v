(** C132: Bregman alternated projected gradient (ot/gromov/_bregman.py:440-617, 1436-1637).
    Exact reals; every iteration rescales the rows, then the columns. *)
From Coq Require Import List Arith Bool Reals Lra Lia FunctionalExtensionality.
From Verif Require Import Num Sums Spec Duals_proofs Entropy Optim_model Gw_model Gw_proofs Gw_more Egw_model Egw_proofs Egw_crit Egw_more P_Egw P_Sinkhorn Sinkhorn_more.
Import ListNotations.
Local Open Scope R_scope.

Section Steps.
Variables (n m : nat) (p q : vec) (eps : R) (df : mat -> mat).
Hypothesis (Hn : (0 < n)%nat) (Hm : (0 < m)%nat) (Hp : pos_vec n p) (Hq : pos_vec m q) (Heps : 0 < eps).
Notation mult := (bapg_mult (N:=RNum) exp eps df).
Notation rows := (bapg_rows (N:=RNum) m exp p eps df).
Notation cols := (bapg_cols (N:=RNum) n exp q eps df).
Lemma mult_R : forall T i j, mult T i j = T i j * exp (- df T i j / eps).
Proof. intros. unfold bapg_mult, nopp. cbn [nmul ndiv nsub n0 RNum]. match goal with |- @eq _ ?x ?y => change (@eq R x y) end. rewrite Rminus_0_l. reflexivity. Qed.
Lemma rows_R : forall T i j, rows T i j = p i / rsum m (fun k => T i k * exp (- df T i k / eps)) * (T i j * exp (- df T i j / eps)).
Proof.
  intros. unfold bapg_rows. rewrite nsum_R. rewrite (rsum_ext m _ (fun k => T i k * exp (- df T i k / eps))) by (intros; apply mult_R). cbn [nmul ndiv RNum]. rewrite mult_R. reflexivity.
Qed.
Lemma cols_R : forall T i j, cols T i j = q j / rsum n (fun k => T k j * exp (- df T k j / eps)) * (T i j * exp (- df T i j / eps)).
Proof.
  intros. unfold bapg_cols. rewrite nsum_R. rewrite (rsum_ext n _ (fun k => T k j * exp (- df T k j / eps))) by (intros; apply mult_R). cbn [nmul ndiv RNum]. rewrite mult_R. reflexivity.
Qed.
Lemma rsum_posv : forall d f, (0 < d)%nat -> (forall k, (k < d)%nat -> 0 < f k) -> 0 < rsum d f.
Proof. intros d f Hd H. apply rsum_pos; auto. Qed.
Lemma me_pos : forall (T : mat) i j, 0 < T i j -> 0 < T i j * exp (- df T i j / eps). Proof. intros. apply Rmult_lt_0_compat; auto. apply exp_pos. Qed.
Lemma rsum_row_pos : forall T i, pos_mat n m T -> (i < n)%nat -> 0 < rsum m (fun k => T i k * exp (- df T i k / eps)).
Proof. intros T i H Hi. apply rsum_posv; auto. intros k Hk. apply me_pos. auto. Qed.
Lemma rsum_col_pos : forall T j, pos_mat n m T -> (j < m)%nat -> 0 < rsum n (fun k => T k j * exp (- df T k j / eps)).
Proof. intros T j H Hj. apply rsum_posv; auto. intros k Hk. apply me_pos. auto. Qed.
Lemma rows_pos : forall T, pos_mat n m T -> pos_mat n m (rows T).
Proof. intros T H i j Hi Hj. rewrite rows_R. apply Rmult_lt_0_compat; [apply Rdiv_lt_0_compat; auto; apply rsum_row_pos; auto|apply me_pos; auto]. Qed.
Lemma cols_pos : forall T, pos_mat n m T -> pos_mat n m (cols T).
Proof. intros T H i j Hi Hj. rewrite cols_R. apply Rmult_lt_0_compat; [apply Rdiv_lt_0_compat; auto; apply rsum_col_pos; auto|apply me_pos; auto]. Qed.
Lemma rows_sum : forall T i, pos_mat n m T -> (i < n)%nat -> row_sum m (rows T) i = p i.
Proof.
  intros T i H Hi. unfold row_sum. rewrite (rsum_ext m _ (fun j => p i / rsum m (fun k => T i k * exp (- df T i k / eps)) * (T i j * exp (- df T i j / eps)))) by (intros; apply rows_R).
  rewrite rsum_scal. assert (Q := rsum_row_pos T i H Hi). field. lra.
Qed.
Lemma cols_sum : forall T j, pos_mat n m T -> (j < m)%nat -> col_sum n (cols T) j = q j.
Proof.
  intros T j H Hj. unfold col_sum. rewrite (rsum_ext n _ (fun i => q j / rsum n (fun k => T k j * exp (- df T k j / eps)) * (T i j * exp (- df T i j / eps)))) by (intros; apply cols_R).
  rewrite rsum_scal. assert (Q := rsum_col_pos T j H Hj). field. lra.
Qed.
(** eps ln(rows T) = eps ln T - df T + f_i *)
Lemma rows_pot : forall T, pos_mat n m T -> exists f : vec, forall i j, (i < n)%nat -> (j < m)%nat -> df T i j + eps * (ln (rows T i j) - ln (T i j)) = f i.
Proof.
  intros T H. exists (fun i => eps * ln (p i / rsum m (fun k => T i k * exp (- df T i k / eps)))). intros i j Hi Hj. rewrite rows_R.
  assert (Q := rsum_row_pos T i H Hi). rewrite ln_mult, ln_mult, ln_exp; auto; try apply exp_pos; [|apply Rdiv_lt_0_compat; auto|apply me_pos; auto]. field. lra.
Qed.
Lemma cols_pot : forall T, pos_mat n m T -> exists g : vec, forall i j, (i < n)%nat -> (j < m)%nat -> df T i j + eps * (ln (cols T i j) - ln (T i j)) = g j.
Proof.
  intros T H. exists (fun j => eps * ln (q j / rsum n (fun k => T k j * exp (- df T k j / eps)))). intros i j Hi Hj. rewrite cols_R.
  assert (Q := rsum_col_pos T j H Hj). rewrite ln_mult, ln_mult, ln_exp; auto; try apply exp_pos; [|apply Rdiv_lt_0_compat; auto|apply me_pos; auto]. field. lra.
Qed.
(** the linearised problems solved by the two halves *)
Definition half_obj (T S : mat) : R := cost n m (df T) S + eps * kl_plan n m S T.
Lemma kl_le : forall S P, (forall i j, (i < n)%nat -> (j < m)%nat -> 0 <= S i j) -> pos_mat n m P -> dsum n m S = dsum n m P -> 0 <= kl_plan n m S P.
Proof.
  intros S P HS HP E. apply Rle_trans with (dsum n m (fun i j => S i j - P i j)).
  - rewrite dsum_minus. change (0 <= dsum n m S - dsum n m P). lra.
  - apply dsum_le. intros i j Hi Hj. specialize (HS i j Hi Hj). specialize (HP i j Hi Hj). destruct HS as [HS|Z].
    + rewrite <- ln_div by auto. apply xlnx_div_ge; lra.
    + rewrite <- Z, Rmult_0_l. lra.
Qed.
Lemma half_gap : forall T P S (pot : mat), (forall i j, (i < n)%nat -> (j < m)%nat -> df T i j + eps * (ln (P i j) - ln (T i j)) = pot i j) ->
  dsum n m (fun i j => pot i j * (S i j - P i j)) = 0 -> half_obj T S - half_obj T P = eps * kl_plan n m S P.
Proof.
  intros T P S pot E Z. unfold half_obj, kl_plan. rewrite !cost_dsum.
  match goal with |- ?a + ?e * ?b - (?c + ?e * ?d) = _ => transitivity (a - c + (e * b - e * d)); [ring|] end.
  rewrite <- !dsum_scal, <- !dsum_minus, <- dsum_plus.
  rewrite <- (Rplus_0_r (dsum n m (fun i j => eps * (S i j * (ln (S i j) - ln (P i j)))))), <- Z, <- dsum_plus. apply dsum_ext; intros i j Hi Hj. rewrite <- (E i j Hi Hj). ring.
Qed.
Lemma rows_min : forall T S, pos_mat n m T -> (forall i j, (i < n)%nat -> (j < m)%nat -> 0 <= S i j) -> (forall i, (i < n)%nat -> row_sum m S i = p i) -> half_obj T (rows T) <= half_obj T S.
Proof.
  intros T S HT HS RS. destruct (rows_pot T HT) as (f & Ef).
  assert (RW : forall i, (i < n)%nat -> rsum m (fun j => S i j - rows T i j) = 0).
  { intros i Hi. rewrite rsum_minus. change (row_sum m S i - row_sum m (rows T) i = 0). rewrite RS, rows_sum by auto. ring. }
  assert (Q := half_gap T (rows T) S (fun i _ => f i) Ef).
  assert (K := kl_le S (rows T) HS (rows_pos T HT)). assert (0 <= eps * kl_plan n m S (rows T)).
  { apply Rmult_le_pos; [lra|]. apply K. apply rsum_ext. intros i Hi. change (row_sum m S i = row_sum m (rows T) i). rewrite RS, rows_sum; auto. }
  assert (half_obj T S - half_obj T (rows T) = eps * kl_plan n m S (rows T)); [|lra]. apply Q.
  unfold dsum. apply rsum_0. intros i Hi. rewrite rsum_scal, RW by auto. ring.
Qed.
Lemma cols_min : forall T S, pos_mat n m T -> (forall i j, (i < n)%nat -> (j < m)%nat -> 0 <= S i j) -> (forall j, (j < m)%nat -> col_sum n S j = q j) -> half_obj T (cols T) <= half_obj T S.
Proof.
  intros T S HT HS RS. destruct (cols_pot T HT) as (f & Ef).
  assert (RW : forall j, (j < m)%nat -> rsum n (fun i => S i j - cols T i j) = 0).
  { intros i Hi. rewrite rsum_minus. change (col_sum n S i - col_sum n (cols T) i = 0). rewrite RS, cols_sum by auto. ring. }
  assert (Q := half_gap T (cols T) S (fun _ j => f j) Ef).
  assert (K := kl_le S (cols T) HS (cols_pos T HT)). assert (0 <= eps * kl_plan n m S (cols T)).
  { apply Rmult_le_pos; [lra|]. apply K. unfold dsum. rewrite rsum_swap, (rsum_swap n m). apply rsum_ext. intros i Hi. change (col_sum n S i = col_sum n (cols T) i). rewrite RS, cols_sum; auto. }
  assert (half_obj T S - half_obj T (cols T) = eps * kl_plan n m S (cols T)); [|lra]. apply Q.
  unfold dsum. rewrite rsum_swap. apply rsum_0. intros i Hi. rewrite rsum_scal, RW by auto. ring.
Qed.
(** the loop: with at least one iteration the result is [cols] of a positive plan with rows p *)
Lemma loop_last : forall norm tol left cpt T err, pos_mat n m T -> (exists U, pos_mat n m U /\ (forall i, (i < n)%nat -> row_sum m U i = p i) /\ T = cols U) \/ (err = None /\ (0 < left)%nat) ->
  exists U, pos_mat n m U /\ (forall i, (i < n)%nat -> row_sum m U i = p i) /\ bapg_loop (N:=RNum) n m exp p q eps norm tol df left cpt T err = cols U.
Proof.
  induction left; intros cpt T err HT H; cbn [bapg_loop].
  - destruct H as [H|(_ & H)]; [exact H|lia].
  - destruct (match err with None => true | Some e => nltb (n:=RNum) tol e end) eqn:Q.
    + apply IHleft; [apply cols_pos, rows_pos; auto|]. left. exists (rows T). split; [apply rows_pos; auto|]. split; [intros; apply rows_sum; auto|reflexivity].
    + destruct H as [H|(-> & _)]; [exact H|discriminate].
Qed.
End Steps.

(** *** Specification: the problem a half step solves, and the gradients used *)
Definition half_problem (n m : nat) (eps : R) (G T S : mat) : R := cost n m G S + eps * kl_plan n m S T.

(** Each iteration first minimises <df(T), S> + eps KL(S | T) over the nonnegative matrices with row
    sums p, then the same at the result over those with column sums q. *)
Theorem C132_half_steps : forall n m p q eps df T, (0 < n)%nat -> (0 < m)%nat -> pos_vec n p -> pos_vec m q -> 0 < eps -> pos_mat n m T ->
  let T1 := bapg_rows (N:=RNum) m exp p eps df T in let T2 := bapg_cols (N:=RNum) n exp q eps df T1 in
  ((forall i, (i < n)%nat -> row_sum m T1 i = p i) /\ pos_mat n m T1 /\
   forall S, (forall i j, (i < n)%nat -> (j < m)%nat -> 0 <= S i j) -> (forall i, (i < n)%nat -> row_sum m S i = p i) -> half_problem n m eps (df T) T T1 <= half_problem n m eps (df T) T S) /\
  ((forall j, (j < m)%nat -> col_sum n T2 j = q j) /\ pos_mat n m T2 /\
   forall S, (forall i j, (i < n)%nat -> (j < m)%nat -> 0 <= S i j) -> (forall j, (j < m)%nat -> col_sum n S j = q j) -> half_problem n m eps (df T1) T1 T2 <= half_problem n m eps (df T1) T1 S).
Proof.
  intros n m p q eps df T Hn Hm Hp Hq He HT T1 T2. assert (P1 : pos_mat n m T1) by (apply rows_pos; auto). split; (split; [|split]).
  - intros; apply rows_sum with (n := n); auto.
  - exact P1.
  - intros S HS RS. apply (rows_min n m p eps df Hm Hp He T S HT HS RS).
  - intros; apply cols_sum with (m := m); auto.
  - apply cols_pos; auto.
  - intros S HS RS. apply (cols_min n m q eps df Hn Hq He T1 S P1 HS RS).
Qed.
Print Assumptions C132_half_steps.
(** so as soon as one iteration is made (max_iter >= 1, whatever tol) the columns of the plan
    returned are exactly q and its entries positive *)
Theorem C132_columns : forall n m tiny l sym C1 C2 M p q alpha eps norm tol ml G0 max_iter,
  (0 < n)%nat -> (0 < m)%nat -> pos_vec n p -> pos_vec m q -> 0 < eps -> pos_mat n m (start_plan p q G0) -> (0 < max_iter)%nat ->
  let T := fst (fst (BAPG_fused_gromov_wasserstein (N:=RNum) n m ln exp tiny l sym C1 C2 p q eps norm tol ml alpha M G0 max_iter)) in
  pos_mat n m T /\ forall j, (j < m)%nat -> col_sum n T j = q j.
Proof.
  intros n m tiny l sym C1 C2 M p q alpha eps norm tol ml G0 max_iter Hn Hm Hp Hq He HT Hk T.
  destruct (loop_last n m p q eps (bapg_fused_df (N:=RNum) n m ln tiny l sym C1 C2 p q ml alpha M) Hn Hm Hp Hq norm tol max_iter 0 (start_plan p q G0) None HT) as (U & PU & RU & E); [right; auto|].
  assert (ET : T = bapg_cols (N:=RNum) n exp q eps (bapg_fused_df (N:=RNum) n m ln tiny l sym C1 C2 p q ml alpha M) U) by (unfold T; destruct G0; exact E).
  rewrite ET. split; [apply cols_pos; auto|]. intros j Hj. apply cols_sum with (m := m); auto.
Qed.
Print Assumptions C132_columns.
(** ... and likewise for BAPG_gromov_wasserstein *)
Theorem C132_columns_gw : forall n m tiny l sym C1 C2 p q eps norm tol ml G0 max_iter,
  (0 < n)%nat -> (0 < m)%nat -> pos_vec n p -> pos_vec m q -> 0 < eps -> pos_mat n m (start_plan p q G0) -> (0 < max_iter)%nat ->
  let T := fst (fst (BAPG_gromov_wasserstein (N:=RNum) n m ln exp tiny l sym C1 C2 p q eps norm tol ml G0 max_iter)) in
  pos_mat n m T /\ forall j, (j < m)%nat -> col_sum n T j = q j.
Proof.
  intros n m tiny l sym C1 C2 p q eps norm tol ml G0 max_iter Hn Hm Hp Hq He HT Hk T.
  destruct (loop_last n m p q eps (bapg_df (N:=RNum) n m ln tiny l sym C1 C2 p q ml) Hn Hm Hp Hq norm tol max_iter 0 (start_plan p q G0) None HT) as (U & PU & RU & E); [right; auto|].
  assert (ET : T = bapg_cols (N:=RNum) n exp q eps (bapg_df (N:=RNum) n m ln tiny l sym C1 C2 p q ml) U) by (unfold T; destruct G0; exact E).
  rewrite ET. split; [apply cols_pos; auto|]. intros j Hj. apply cols_sum with (m := m); auto.
Qed.
Print Assumptions C132_columns_gw.
(** With no iteration the start is returned. *)
Theorem C132_no_iteration : forall n m tiny l sym C1 C2 p q eps norm tol ml G0,
  fst (fst (BAPG_gromov_wasserstein (N:=RNum) n m ln exp tiny l sym C1 C2 p q eps norm tol ml G0 0)) = start_plan p q G0.
Proof. intros. destruct G0; reflexivity. Qed.
Print Assumptions C132_no_iteration.

(** A positive plan is left unchanged by both halves exactly when it is a coupling of p and q at
    which df is constant: so critical couplings in general are not fixed points. *)
Theorem C132_fixed_plans : forall n m p q eps df T, (0 < n)%nat -> (0 < m)%nat -> pos_vec n p -> pos_vec m q -> 0 < eps -> pos_mat n m T ->
  ((forall i j, (i < n)%nat -> (j < m)%nat -> bapg_rows (N:=RNum) m exp p eps df T i j = T i j) /\
   (forall i j, (i < n)%nat -> (j < m)%nat -> bapg_cols (N:=RNum) n exp q eps df T i j = T i j)) <->
  (coupling n m p q T /\ exists c, forall i j, (i < n)%nat -> (j < m)%nat -> df T i j = c).
Proof.
  intros n m p q eps df T Hn Hm Hp Hq He HT. split.
  - intros (HR & HC). split.
    + split; [intros i j Hi Hj; left; apply HT; auto|]. split.
      * intros i Hi. rewrite <- (rows_sum n m p eps df Hm T i HT Hi). apply rsum_ext; intros j Hj. symmetry. apply HR; auto.
      * intros j Hj. rewrite <- (cols_sum n m q eps df Hn T j HT Hj). apply rsum_ext; intros i Hi. symmetry. apply HC; auto.
    + destruct (rows_pot n m p eps df Hm Hp He T HT) as (f & Ef). destruct (cols_pot n m q eps df Hn Hq He T HT) as (g & Eg).
      exists (df T 0%nat 0%nat). intros i j Hi Hj.
      assert (A := Ef i j Hi Hj). assert (B := Eg i j Hi Hj). assert (A0 := Ef i 0%nat Hi Hm). assert (B0 := Eg i 0%nat Hi Hm). assert (B00 := Eg 0%nat 0%nat Hn Hm).
      rewrite HR in A, A0 by auto. rewrite HC in B, B0, B00 by auto. lra.
  - intros ((P & RW & CL) & c & Ec). assert (EX := exp_pos (- c / eps)). split; intros i j Hi Hj.
    + rewrite rows_R. rewrite (rsum_ext m _ (fun k => T i k * exp (- c / eps))) by (intros; rewrite Ec; auto). rewrite rsum_scal_r. change (rsum m (T i)) with (row_sum m T i). rewrite RW, Ec by auto. specialize (Hp i Hi). match goal with |- @eq _ ?x ?y => change (@eq R x y) end. field. lra.
    + rewrite cols_R. rewrite (rsum_ext n _ (fun k => T k j * exp (- c / eps))) by (intros; rewrite Ec; auto). rewrite rsum_scal_r. change (rsum n (fun k => T k j)) with (col_sum n T j). rewrite CL, Ec by auto. specialize (Hq j Hj). match goal with |- @eq _ ?x ?y => change (@eq R x y) end. field. lra.
Qed.
Print Assumptions C132_fixed_plans.

(** The gradient used, with or without the marginal terms, at any plan T: it pairs with the
    difference of two couplings as the true gradient of the objective does. *)
Lemma dot3_bl : forall n m (A B T : mat) i j, dot3 (N:=RNum) n m A T (tr (N:=RNum) B) i j = dsum n m (fun k c => A i k * B j c * T k c).
Proof. intros. exact (bil_R n m A B T i j). Qed.
Theorem C132_gradient : forall n m (tiny : R) l sym (C1 C2 M : mat) p q (alpha : R) ml (T S S' : mat), sym_ok sym n m C1 C2 -> coupling n m p q S -> coupling n m p q S' ->
  let L := loss_of ln tiny l in
  cost n m (bapg_fused_df (N:=RNum) n m ln tiny l sym C1 C2 p q ml alpha M T) S' - cost n m (bapg_fused_df (N:=RNum) n m ln tiny l sym C1 C2 p q ml alpha M T) S
  = cost n m (fgw_gradient n m L C1 C2 M alpha T) S' - cost n m (fgw_gradient n m L C1 C2 M alpha T) S.
Proof.
  intros n m tiny l sym C1 C2 M p q alpha ml T S S' Hs CS CS' L. rewrite !cost_minus. destruct (coupling_diff n m p q S S' CS CS') as (Z1 & Z2).
  assert (X : exists f g : vec, forall i j, (i < n)%nat -> (j < m)%nat -> fgw_gradient n m L C1 C2 M alpha T i j = bapg_fused_df (N:=RNum) n m ln tiny l sym C1 C2 p q ml alpha M T i j + (f i + g j)).
  { set (a := fun (C : mat) (r : vec) i => rsum n (fun k => f1 (N:=RNum) ln tiny l (C i k) * r k)). set (b := fun (C : mat) (c : vec) j => rsum m (fun k => f2 (N:=RNum) l (C j k) * c k)).
    set (bl := fun (X Y : mat) i j => dsum n m (fun k c => hC1 (N:=RNum) l X i k * hC2 (N:=RNum) ln tiny l Y j c * T k c)).
    assert (ET : forall X Y i j, tens n m L X Y T i j = a X (row_sum m T) i + b Y (col_sum n T) j - bl X Y i j).
    { intros X Y i j. unfold a, b, bl. rewrite <- bil_R. apply (tens_bl n m ln tiny l X Y T i j). }
    assert (EC : forall (X Y : mat) (i j : nat), tensor_product (N:=RNum) n m (constC (N:=RNum) n m ln tiny l X Y p q) (hC1 (N:=RNum) l X) (hC2 (N:=RNum) ln tiny l Y) T i j = a X p i + b Y q j - bl X Y i j).
    { intros X Y i j. unfold tensor_product, constC, nopp. rewrite bil_R, const1_R, const2_R. cbn [nadd nsub n0 RNum]. unfold a, b, bl.
      rewrite (rsum_ext m (fun k => f2 (N:=RNum) l (Y j k) * q k) (fun k => q k * f2 (N:=RNum) l (Y j k))) by (intros; apply Rmult_comm). match goal with |- @eq _ ?x ?y => change (@eq R x y) end. ring. }
    assert (EG : forall i j, (i < n)%nat -> (j < m)%nat -> fgw_gradient n m L C1 C2 M alpha T i j = gradF n m ln tiny l sym C1 C2 M alpha T i j) by (intros; symmetry; apply gradF_spec; auto).
    destruct ml, sym.
    - exists (fun i => 2 * alpha * (a C1 (row_sum m T) i - a C1 p i)), (fun j => 2 * alpha * (b C2 (col_sum n T) j - b C2 q j)). intros i j Hi Hj. rewrite EG by auto. unfold gradF, gradT. fold L. rewrite ET.
      unfold bapg_fused_df, fgw_grad, gwggrad, two. rewrite EC. cbn [nadd nmul nsub n1 RNum]. match goal with |- @eq _ ?x ?y => change (@eq R x y) end. ring.
    - exists (fun i => alpha * (a C1 (row_sum m T) i - a C1 p i + (a (transp C1) (row_sum m T) i - a (transp C1) p i))), (fun j => alpha * (b C2 (col_sum n T) j - b C2 q j + (b (transp C2) (col_sum n T) j - b (transp C2) q j))).
      intros i j Hi Hj. rewrite EG by auto. unfold gradF, gradT. fold L. rewrite !ET.
      unfold bapg_fused_df, fgw_grad, gwggrad, two, half_, two. change (tr (N:=RNum) C1) with (transp C1). change (tr (N:=RNum) C2) with (transp C2). rewrite !EC. cbn [nadd nmul nsub ndiv n1 RNum]. match goal with |- @eq _ ?x ?y => change (@eq R x y) end. field.
    - exists (fun i => 2 * alpha * a C1 (row_sum m T) i), (fun j => 2 * alpha * b C2 (col_sum n T) j). intros i j Hi Hj. rewrite EG by auto. unfold gradF, gradT. fold L. rewrite ET.
      unfold bapg_fused_df, nopp, two. rewrite dot3_bl. fold (bl C1 C2 i j). cbn [nadd nmul nsub n0 n1 RNum]. match goal with |- @eq _ ?x ?y => change (@eq R x y) end. ring.
    - exists (fun i => alpha * (a C1 (row_sum m T) i + a (transp C1) (row_sum m T) i)), (fun j => alpha * (b C2 (col_sum n T) j + b (transp C2) (col_sum n T) j)).
      intros i j Hi Hj. rewrite EG by auto. unfold gradF, gradT. fold L. rewrite !ET.
      unfold bapg_fused_df, nopp. change (hC2 (N:=RNum) ln tiny l (tr (N:=RNum) C2)) with (tr (N:=RNum) (hC2 (N:=RNum) ln tiny l C2)). change (tr (N:=RNum) C1) with (transp C1).
      change (hC2 (N:=RNum) ln tiny l C2) with (tr (N:=RNum) (hC2 (N:=RNum) ln tiny l (transp C2))) at 2. rewrite !dot3_bl. fold (bl C1 C2 i j). fold (bl (transp C1) (transp C2) i j). cbn [nadd nmul nsub n0 n1 RNum]. match goal with |- @eq _ ?x ?y => change (@eq R x y) end. field. }
  destruct X as (f & g & E). assert (Z := zero_pair n m _ f g Z1 Z2). cbn beta in Z.
  match goal with |- ?x = ?y => rewrite <- (Rplus_0_r x) end. rewrite <- Z, <- dsum_plus. apply dsum_ext; intros i j Hi Hj. rewrite (E i j Hi Hj). match goal with |- @eq _ ?x ?y => change (@eq R x y) end. ring.
Qed.
Print Assumptions C132_gradient.
(** The distance reported uses the terms computed from p and q: on a plan with columns q it exceeds
    the objective by sum_ik f1(C1_ik) r_i (p_k - r_k), r the row sums of the plan. *)
Theorem C132_value : forall n m (tiny : R) l (C1 C2 : mat) p q (T : mat), (forall j, (j < m)%nat -> col_sum n T j = q j) ->
  gwloss (N:=RNum) n m (constC (N:=RNum) n m ln tiny l C1 C2 p q) (hC1 (N:=RNum) l C1) (hC2 (N:=RNum) ln tiny l C2) T
  = gw_obj n m (loss_of ln tiny l) C1 C2 T + rsum n (fun i => rsum n (fun k => f1 (N:=RNum) ln tiny l (C1 i k) * (p k - row_sum m T k)) * row_sum m T i).
Proof.
  intros n m tiny l C1 C2 p q T HC. unfold gwloss, gw_obj. rewrite inner_R, bil_tens.
  assert (E : forall i j, tensor_product (N:=RNum) n m (constC (N:=RNum) n m ln tiny l C1 C2 p q) (hC1 (N:=RNum) l C1) (hC2 (N:=RNum) ln tiny l C2) T i j
     = tens n m (loss_of ln tiny l) C1 C2 T i j + rsum n (fun k => f1 (N:=RNum) ln tiny l (C1 i k) * (p k - row_sum m T k))).
  { intros i j. unfold tensor_product, constC, nopp. rewrite bil_R, const1_R, const2_R. cbn [nadd nsub n0 RNum]. rewrite (tens_bl n m ln tiny l C1 C2 T i j), bil_R.
    rewrite (rsum_ext m (fun k => q k * f2 (N:=RNum) l (C2 j k)) (fun k => f2 (N:=RNum) l (C2 j k) * col_sum n T k)) by (intros k Hk; rewrite HC by auto; apply Rmult_comm).
    rewrite (rsum_ext n (fun k => f1 (N:=RNum) ln tiny l (C1 i k) * (p k - row_sum m T k)) (fun k => f1 (N:=RNum) ln tiny l (C1 i k) * p k - f1 (N:=RNum) ln tiny l (C1 i k) * row_sum m T k)) by (intros; cbn; ring).
    rewrite rsum_minus. match goal with |- @eq _ ?x ?y => change (@eq R x y) end. ring. }
  rewrite (dsum_ext n m _ (fun i j => T i j * tens n m (loss_of ln tiny l) C1 C2 T i j + rsum n (fun k => f1 (N:=RNum) ln tiny l (C1 i k) * (p k - row_sum m T k)) * T i j)) by (intros; rewrite E; ring).
  rewrite dsum_plus. f_equal. unfold dsum. apply rsum_ext; intros i _. rewrite rsum_scal. reflexivity.
Qed.
Print Assumptions C132_value.

(** With marginal_loss=True (the default) even a coupling that is optimal among all couplings can be
    moved by the iteration: C1 = 0, C2 = [[0,1],[1,0]], p = (1/2,1/2), q = (1/4,3/4), where every
    coupling has the same objective. *)
Definition bx_q : vec := fun j => match j with O => / 4 | _ => 3 / 4 end.
Definition bx_C : mat := fun i j => if Nat.eqb i j then 0 else 1.
Theorem C132_optimal_not_fixed_refuted : exists n m C1 C2 p q T eps, 0 < eps /\ symmetric n C1 /\ symmetric m C2 /\ coupling n m p q T /\ pos_mat n m T /\
  (forall S, coupling n m p q S -> gw_obj n m sq_loss C1 C2 T <= gw_obj n m sq_loss C1 C2 S) /\
  ~ ((forall i j, (i < n)%nat -> (j < m)%nat -> bapg_rows (N:=RNum) m exp p eps (bapg_df (N:=RNum) n m ln 0 SquareLoss true C1 C2 p q true) T i j = T i j) /\
     (forall i j, (i < n)%nat -> (j < m)%nat -> bapg_cols (N:=RNum) n exp q eps (bapg_df (N:=RNum) n m ln 0 SquareLoss true C1 C2 p q true) T i j = T i j)).
Proof.
  set (T := fun (_ j : nat) => / 2 * bx_q j).
  assert (S2 : symmetric 2 bx_C). { intros [|[|i]] [|[|k]] Hi Hk; try lia; reflexivity. }
  assert (CT : coupling 2 2 (fun _ => / 2) bx_q T).
  { unfold T, bx_q. split; [intros i [|j] _ _; lra|]. split; [intros i _|intros [|[|j]] Hj; try lia]; unfold row_sum, col_sum; cbn [rsum]; lra. }
  assert (PT : pos_mat 2 2 T) by (unfold T, bx_q; intros i [|j] _ _; lra).
  exists 2%nat, 2%nat, (fun _ _ => 0), bx_C, (fun _ => / 2), bx_q, T, 1. split; [lra|]. split; [intros i k _ _; reflexivity|]. split; [exact S2|]. split; [exact CT|]. split; [exact PT|]. split.
  - assert (X : forall S, coupling 2 2 (fun _ => / 2) bx_q S -> gw_obj 2 2 sq_loss (fun _ _ => 0) bx_C S = 3 / 8).
    { intros S (_ & _ & CL). assert (A := CL 0%nat ltac:(lia)). assert (B := CL 1%nat ltac:(lia)). unfold col_sum, bx_q in A, B. cbn [rsum] in A, B.
      unfold gw_obj, gw_bil, sq_loss, bx_C. cbn [rsum Nat.eqb].
      match goal with |- ?x = _ => transitivity (2 * ((0 + S 0%nat 0%nat + S 1%nat 0%nat) * (0 + S 0%nat 1%nat + S 1%nat 1%nat))); [ring|] end. rewrite A, B. lra. }
    intros S CS. rewrite (X S CS), (X T CT). lra.
  - intros H. apply (C132_fixed_plans 2 2 (fun _ => / 2) bx_q 1 _ T) in H; auto; try lia; try lra; [|intros i _; lra|intros [|j] _; unfold bx_q; lra].
    destruct H as (_ & c & Hc). destruct CT as (_ & RW & CL).
    assert (G : forall i j, bapg_df (N:=RNum) 2 2 ln 0 SquareLoss true (fun _ _ => 0) bx_C (fun _ => / 2) bx_q true T i j = gradT 2 2 ln 0 SquareLoss true (fun _ _ => 0) bx_C T i j).
    { intros i j. apply (gw_df_R 2 2 ln 0 SquareLoss true (fun _ _ => 0) bx_C (fun _ => conj (fun _ _ _ _ => eq_refl) S2) (fun _ => / 2) bx_q T i j RW CL). }
    assert (A := Hc 0%nat 0%nat ltac:(lia) ltac:(lia)). assert (B := Hc 0%nat 1%nat ltac:(lia) ltac:(lia)). rewrite G in A, B.
    unfold gradT, tens, dsum, loss_of, sq_loss, bx_C, T, bx_q in A, B. cbn [rsum Nat.eqb] in A, B. lra.
Qed.
Print Assumptions C132_optimal_not_fixed_refuted.
(** the hypotheses of the other theorems are met by the same data and any df *)
Example C132_case : (0 < 2)%nat /\ pos_vec 2 (fun _ => / 2) /\ pos_vec 2 bx_q /\ pos_mat 2 2 (start_plan (fun _ => / 2) bx_q None) /\
  (forall i j, (i < 2)%nat -> (j < 2)%nat -> bapg_rows (N:=RNum) 2 exp (fun _ => / 2) 1 (fun _ _ _ => 3) (fun i j => / 2 * bx_q j) i j = / 2 * bx_q j).
Proof.
  split; [lia|]. split; [intros i _; lra|]. split; [intros [|j] _; unfold bx_q; lra|]. split; [intros i [|j] _ _; unfold start_plan, bx_q; lra|].
  intros i j Hi Hj. rewrite rows_R. cbn [rsum]. unfold bx_q. assert (Q := exp_pos (Ropp 3 / 1)). destruct j; match goal with |- @eq _ ?x ?y => change (@eq R x y) end; field; lra.
Qed.
