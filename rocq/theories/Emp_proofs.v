(** The lazy empirical Sinkhorn loop: independence of the batches, and its reading as the kernel iteration of the swapped problem. *)
From Coq Require Import List Arith Bool Reals Lra Lia ClassicalChoice.
From Verif Require Import Num Sums Spec Duals_proofs Entropy Exist Sinkhorn_model Sinkhorn_proofs Sinkhorn_more Sinkhorn_stab Sinkhorn_final P_Sinkhorn Sink_exist P_Sinkexist Emp_model.
Import ListNotations.

(** ** batches *)
Lemma rows_all : forall n b k, (1 <= b)%nat -> concat (map (fun i => rows n b (i * b)) (seq 0 k)) = seq 0 (Nat.min (k * b) n).
Proof.
  intros n b k Hb. induction k; [reflexivity|]. rewrite seq_S, map_app, concat_app, IHk. cbn [map concat Nat.add]. rewrite app_nil_r. unfold rows.
  destruct (Nat.le_gt_cases n (k * b)).
  - replace (Nat.min b (n - k * b)) with 0%nat by lia. rewrite app_nil_r. f_equal. nia.
  - replace (Nat.min (k * b) n) with (k * b)%nat by lia. rewrite <- (seq_app (k * b) _ 0). f_equal. nia.
Qed.
Lemma by_batches_all : forall {A} n b (row : nat -> A), (1 <= b)%nat -> by_batches n b row = map row (seq 0 n).
Proof.
  intros A n b row Hb. unfold by_batches, starts. rewrite map_map.
  rewrite <- (map_map (fun k => rows n b (k * b)) (map row)), <- concat_map, rows_all by auto. do 2 f_equal.
  assert (D := Nat.div_mod (n + (b - 1)) b ltac:(lia)). assert (M := Nat.mod_upper_bound (n + (b - 1)) b ltac:(lia)). nia.
Qed.
Lemma loop_batches : forall (N : NumOps) ex lg ns nt (D : nat -> nat -> N) reg a b thr bs bt bs' bt' left ii f g errs,
  (1 <= bs)%nat -> (1 <= bt)%nat -> (1 <= bs')%nat -> (1 <= bt')%nat ->
  lz_loop ex lg ns nt D reg a b bs bt thr left ii f g errs = lz_loop ex lg ns nt D reg a b bs' bt' thr left ii f g errs.
Proof.
  intros N ex lg ns nt D reg a b thr bs bt bs' bt' left. induction left; intros ii f g errs H1 H2 H3 H4; [reflexivity|]. cbn [lz_loop].
  assert (EF : lz_f ex lg ns nt D reg a bs g = lz_f ex lg ns nt D reg a bs' g) by (unfold lz_f; rewrite !by_batches_all by auto; reflexivity).
  rewrite EF. set (f' := lz_f ex lg ns nt D reg a bs' g).
  assert (EG : lz_g ex lg ns nt D reg b bt f' = lz_g ex lg ns nt D reg b bt' f') by (unfold lz_g; rewrite !by_batches_all by auto; reflexivity).
  rewrite EG. set (g' := lz_g ex lg ns nt D reg b bt' f').
  assert (EE : lz_err ex ns nt D reg a bs f' g' = lz_err ex ns nt D reg a bs' f' g') by (unfold lz_err; rewrite !by_batches_all by auto; reflexivity).
  rewrite EE. destruct (Nat.eqb _ _); [destruct (nleb _ _)|]; auto.
Qed.
(** ** stopping, any arithmetic *)
Lemma loop_exit : forall (N : NumOps) ex lg ns nt (D : nat -> nat -> N) reg a b bs bt thr left ii f g errs,
  let o := lz_loop ex lg ns nt D reg a b bs bt thr left ii f g errs in
  match sk_exit o with
  | Converged k => (ii <= k < ii + left)%nat /\ (S k mod 10 = 0)%nat /\
      nleb (lz_err ex ns nt D reg a bs (sk_u o) (sk_v o)) thr = true /\
      exists l, sk_err o = errs ++ l ++ [lz_err ex ns nt D reg a bs (sk_u o) (sk_v o)] /\ Forall (fun e => nleb e thr = false) l
  | MaxIter => exists l, sk_err o = errs ++ l /\ Forall (fun e => nleb e thr = false) l
  | NumErr _ => False
  end.
Proof.
  intros N ex lg ns nt D reg a b bs bt thr left. induction left; intros ii f g errs; cbn zeta; cbn [lz_loop].
  - exists []. rewrite app_nil_r. split; [reflexivity|constructor].
  - set (f' := lz_f ex lg ns nt D reg a bs g). set (g' := lz_g ex lg ns nt D reg b bt f'). set (e := lz_err ex ns nt D reg a bs f' g').
    destruct (Nat.eqb_spec (S ii mod 10) 0) as [E|E]; [destruct (nleb e thr) eqn:EE|].
    + cbn [sk_exit sk_u sk_v sk_err]. fold e. split; [lia|]. split; [auto|]. split; [auto|]. exists []. split; [reflexivity|constructor].
    + specialize (IHleft (S ii) f' g' (errs ++ [e])). cbn zeta in IHleft. destruct (sk_exit _).
      * destruct IHleft as (I1 & I2 & I3 & l & I4 & I5). split; [lia|]. split; [auto|]. split; [auto|]. exists (e :: l). split; [rewrite I4, <- app_assoc; reflexivity|constructor; auto].
      * auto.
      * destruct IHleft as (l & I4 & I5). exists (e :: l). split; [rewrite I4, <- app_assoc; reflexivity|constructor; auto].
    + specialize (IHleft (S ii) f' g' errs). cbn zeta in IHleft. destruct (sk_exit _); auto. destruct IHleft as (I1 & I2). split; [lia|auto].
Qed.
(** the result is one update of some potential: the first warm start potential is never used *)
Lemma loop_last : forall (N : NumOps) ex lg ns nt (D : nat -> nat -> N) reg a b bs bt thr left ii f g errs, (0 < left)%nat ->
  let o := lz_loop ex lg ns nt D reg a b bs bt thr left ii f g errs in
  exists g0, sk_u o = lz_f ex lg ns nt D reg a bs g0 /\ sk_v o = lz_g ex lg ns nt D reg b bt (sk_u o).
Proof.
  intros N ex lg ns nt D reg a b bs bt thr left. induction left; intros ii f g errs H; cbn zeta; [lia|]. cbn [lz_loop].
  destruct (Nat.eqb _ _); [destruct (nleb _ _)|]; cbn [sk_u sk_v].
  - exists g. auto.
  - destruct left; [exists g; auto|]. apply IHleft. lia.
  - destruct left; [exists g; auto|]. apply IHleft. lia.
Qed.
Lemma loop_first : forall (N : NumOps) ex lg ns nt (D : nat -> nat -> N) reg a b bs bt thr left ii f f' g errs, (0 < left)%nat ->
  lz_loop ex lg ns nt D reg a b bs bt thr left ii f g errs = lz_loop ex lg ns nt D reg a b bs bt thr left ii f' g errs.
Proof. intros. destruct left; [lia|reflexivity]. Qed.

Local Open Scope R_scope.
Lemma nth_map_seq : forall n (row : nat -> R) i, (i < n)%nat -> lnth (N:=RNum) (map row (seq 0 n)) i = row i.
Proof.
  intros n row i Hi. unfold lnth. rewrite (nth_indep _ _ (row 0%nat)) by (rewrite map_length, seq_length; auto).
  change (carrier RNum) with R. rewrite (map_nth row). rewrite seq_nth by auto. reflexivity.
Qed.

(** ** exact reals *)
Section L.
Variables (ns nt : nat) (D : mat) (reg : R) (a b : vec) (bs bt : nat).
Hypotheses (Hs : (0 < ns)%nat) (Ht : (0 < nt)%nat) (Ha : pos_vec ns a) (Hb : pos_vec nt b) (Bs : (1 <= bs)%nat) (Bt : (1 <= bt)%nat).
Notation lf := (lz_f (N:=RNum) exp ln ns nt D reg a bs).
Notation lg := (lz_g (N:=RNum) exp ln ns nt D reg b bt).
(** the plan of two potentials *)
Definition pot_plan (f g : vec) : mat := fun i j => exp (f i + g j - D i j / reg).
Lemma lf_R : forall g i, (i < ns)%nat -> lf g i = ln (a i) - ln (rsum nt (fun j => exp (g j - D i j / reg))).
Proof. intros g i Hi. unfold lz_f. rewrite by_batches_all by auto. cbn [nsub RNum]. rewrite nth_map_seq by auto. unfold logsumexp. rewrite nsum_R. reflexivity. Qed.
Lemma lg_R : forall f j, (j < nt)%nat -> lg f j = ln (b j) - ln (rsum ns (fun i => exp (f i - D i j / reg))).
Proof. intros f j Hj. unfold lz_g. rewrite by_batches_all by auto. cbn [nsub RNum]. rewrite nth_map_seq by auto. unfold logsumexp. rewrite nsum_R. reflexivity. Qed.
Lemma err_R : forall f g, lz_err (N:=RNum) exp ns nt D reg a bs f g = rsum ns (fun i => Rabs (row_sum nt (pot_plan f g) i - a i)).
Proof.
  intros f g. unfold lz_err. rewrite by_batches_all by auto. rewrite nsum_R. apply rsum_ext; intros i Hi. rewrite nabs_R. f_equal. cbn [nsub RNum].
  rewrite nth_map_seq by auto. rewrite nsum_R. reflexivity.
Qed.
(** the swapped problem: rows are the targets *)
Notation K := (gibbs (fun j i => D i j) reg).
Notation kv := (kp_v (N:=RNum) nt a K).
Notation ku := (kp_u (N:=RNum) ns b K).
Notation E g := (fun i : nat => exp (g i)).
Lemma E_pos : forall k (g : vec), pos_vec k (E g). Proof. intros k g i _. apply exp_pos. Qed.
Lemma Kpos : forall i j, (i < nt)%nat -> (j < ns)%nat -> 0 < K i j. Proof. intros. apply exp_pos. Qed.
Lemma exp_lf : forall g i, (i < ns)%nat -> exp (lf g i) = kv (E g) i.
Proof.
  intros g i Hi. rewrite lf_R by auto. rewrite kv_R. unfold Rminus. rewrite exp_plus, exp_Ropp.
  assert (P : 0 < rsum nt (fun j => exp (g j + - (D i j / reg)))) by (apply rsum_pos; auto; intros; apply exp_pos). rewrite !exp_ln by auto.
  unfold Rdiv. f_equal. f_equal. unfold ktu. apply rsum_ext; intros j Hj. rewrite exp_plus, Rmult_comm. unfold gibbs. f_equal. f_equal. unfold Rdiv. ring.
Qed.
Lemma exp_lg : forall f j, (j < nt)%nat -> exp (lg f j) = ku (E f) j.
Proof.
  intros f j Hj. rewrite lg_R by auto. rewrite (ku_R nt) by (auto; apply (kvs_pos nt ns); auto using Kpos; apply E_pos). unfold Rminus. rewrite exp_plus, exp_Ropp.
  assert (P : 0 < rsum ns (fun i => exp (f i + - (D i j / reg)))) by (apply rsum_pos; auto; intros; apply exp_pos). rewrite !exp_ln by auto.
  unfold Rdiv. f_equal. f_equal. unfold kv_sum. apply rsum_ext; intros i Hi. rewrite exp_plus, Rmult_comm. unfold gibbs. f_equal. f_equal. unfold Rdiv. ring.
Qed.
Lemma pot_pl : forall f g i j, pot_plan f g i j = scaled (N:=RNum) K (E g) (E f) j i.
Proof.
  intros f g i j. unfold pot_plan, scaled, gibbs. cbn [nmul RNum]. unfold Rminus. rewrite !exp_plus.
  replace (- (D i j / reg)) with (- D i j / reg) by (unfold Rdiv; ring). ring.
Qed.
Lemma pot_pos : forall f g i j, 0 < pot_plan f g i j. Proof. intros. apply exp_pos. Qed.
(** after the update of g the columns are exact *)
Lemma col_exact : forall f j, (j < nt)%nat -> col_sum ns (pot_plan f (lg f)) j = b j.
Proof.
  intros f j Hj. unfold col_sum, pot_plan. rewrite (rsum_ext ns _ (fun i => exp (lg f j) * exp (f i - D i j / reg))) by (intros; rewrite <- exp_plus; f_equal; ring).
  rewrite rsum_scal. rewrite lg_R by auto. unfold Rminus at 1. rewrite exp_plus, exp_Ropp.
  assert (P : 0 < rsum ns (fun i => exp (f i - D i j / reg))) by (apply rsum_pos; auto; intros; apply exp_pos). rewrite !exp_ln by auto. field. lra.
Qed.

(** ** convergence *)
Hypothesis Hmass : mass ns a = mass nt b.
Notation A := (mass nt b).
Lemma err1_kl : forall k (x y : vec) B, pos_vec k x -> pos_vec k y -> rsum k x <= B -> rsum k y <= B ->
  rsum k (fun j => Rabs (y j - x j)) * rsum k (fun j => Rabs (y j - x j)) <= 4 * B * kl k x y.
Proof.
  intros k x y B Hx Hy Bx By.
  set (p := fun j => Rabs (sqrt (y j) - sqrt (x j))). set (q := fun j => sqrt (y j) + sqrt (x j)).
  assert (E : rsum k (fun j => Rabs (y j - x j)) = rsum k (fun j => p j * q j)).
  { apply rsum_ext; intros j Hj. unfold p, q. assert (X := sqrt_sqrt (x j) (Rlt_le _ _ (Hx j Hj))). assert (Y := sqrt_sqrt (y j) (Rlt_le _ _ (Hy j Hj))).
    assert (S1 := sqrt_pos (x j)). assert (S2 := sqrt_pos (y j)).
    rewrite <- (Rabs_pos_eq (sqrt (y j) + sqrt (x j))) by lra. rewrite <- Rabs_mult. f_equal. rewrite <- X at 1. rewrite <- Y at 1. ring. }
  rewrite E. assert (CS := rsum_CS k p q). cbn beta in CS. rewrite (rsum_ext k (fun i => p i ^ 2) (fun i => p i * p i)) in CS by (intros; ring). rewrite (rsum_ext k (fun i => q i ^ 2) (fun i => q i * q i)) in CS by (intros; ring).
  eapply Rle_trans; [|eapply Rle_trans; [exact CS|]]; [right; ring|]. rewrite (Rmult_comm (rsum k (fun j => p j * p j))).
  assert (H1 : rsum k (fun j => p j * p j) <= kl k x y).
  { unfold kl. apply rsum_le; intros j Hj. unfold p. assert (H := hellinger1 (x j) (y j) (Hx j Hj) (Hy j Hj)).
    rewrite <- Rabs_mult, Rabs_pos_eq by apply Rle_0_sqr. eapply Rle_trans; [|exact H]. right; ring. }
  assert (H2 : rsum k (fun j => q j * q j) <= 4 * B).
  { apply Rle_trans with (2 * rsum k y + 2 * rsum k x); [|lra]. rewrite <- !rsum_scal, <- rsum_plus. apply rsum_le; intros j Hj. unfold q.
    assert (X := sqrt_sqrt (x j) (Rlt_le _ _ (Hx j Hj))). assert (Y := sqrt_sqrt (y j) (Rlt_le _ _ (Hy j Hj))).
    assert (0 <= (sqrt (y j) - sqrt (x j)) * (sqrt (y j) - sqrt (x j))) by apply Rle_0_sqr. nra. }
  apply Rmult_le_compat; auto; apply rsum_nonneg; intros; apply Rle_0_sqr.
Qed.
Notation gp u v := (gap nt ns b a K u v).
Lemma mass_bt : A = mass ns a. Proof. symmetry; exact Hmass. Qed.
Lemma A0 : 0 < A. Proof. apply rsum_pos; auto. Qed.
(** state after an update of g: f arbitrary, g = lg f; the gap in terms of exp *)
Definition egap (f g : vec) : R := gp (E g) (E f).
Lemma egap_k : forall g, egap (lf g) (lg (lf g)) = gp (ku (kv (E g))) (kv (E g)).
Proof.
  intros g. unfold egap. apply gap_ext; intros k Hk.
  - cbn beta. rewrite exp_lg by auto. unfold kp_u. f_equal. apply (f_equal (fun z : R => z)). rewrite !nsum_R. apply rsum_ext; intros i Hi. cbn beta.
    rewrite exp_lf by auto. reflexivity.
  - cbn beta. apply exp_lf; auto.
Qed.
Lemma egap_step : forall f, egap (lf (lg f)) (lg (lf (lg f))) <= egap f (lg f) - kl ns a (fun i => row_sum nt (pot_plan f (lg f)) i).
Proof.
  intros f. set (g := lg f).
  assert (R1 : forall j, (j < nt)%nat -> row_sum ns (scaled (N:=RNum) K (E g) (E f)) j = b j).
  { intros j Hj. rewrite <- (col_exact f j Hj). fold g. apply rsum_ext; intros i Hi. symmetry. apply pot_pl. }
  assert (G := gap_step nt ns b a K Ht Hs Hb Ha Kpos mass_bt (E g) (E f) (E_pos _ _) (E_pos _ _) R1).
  rewrite egap_k. unfold egap. fold g.
  replace (kl ns a (fun i => row_sum nt (pot_plan f g) i)) with (kl ns a (colm nt K (E g) (E f))); [lra|].
  unfold kl. apply rsum_ext; intros i Hi. assert (Y : colm nt K (E g) (E f) i = row_sum nt (pot_plan f g) i).
  { unfold colm, col_sum, row_sum. apply rsum_ext; intros j Hj. symmetry. apply pot_pl. }
  rewrite Y. reflexivity.
Qed.
Lemma egap_nonneg : forall f, 0 <= egap f (lg f).
Proof.
  intros f. unfold egap. apply (gap_nonneg nt ns b a K Ht Hb Ha Kpos mass_bt); try apply E_pos.
  apply (tot_rows nt ns b K). intros j Hj. transitivity (col_sum ns (pot_plan f (lg f)) j); [|apply col_exact; auto]. apply rsum_ext; intros i Hi. symmetry. apply pot_pl.
Qed.
Notation loop thr := (lz_loop (N:=RNum) exp ln ns nt D reg a b bs bt thr).
Lemma maxiter_gap : forall thr left ii f g errs, 0 <= thr -> (0 < left)%nat -> sk_exit (loop thr left ii f g errs) = MaxIter ->
  INR (checks left (S ii)) * (thr * thr / (4 * A)) <= egap (lf g) (lg (lf g)).
Proof.
  intros thr. induction left; intros ii f g errs Hth Hl; [lia|]. cbn [lz_loop checks].
  set (f' := lf g). set (g' := lg f'). assert (G1 := egap_step f'). assert (G2 := egap_nonneg (lf g')). fold g' in G1.
  assert (RP : pos_vec ns (fun i => row_sum nt (pot_plan f' g') i)) by (intros i Hi; apply rsum_pos; auto; intros; apply pot_pos).
  assert (G3 : 0 <= kl ns a (fun i => row_sum nt (pot_plan f' g') i)) by (apply kl_nonneg; [intros i Hi; left; auto|exact RP]).
  assert (A_ := A0).
  destruct (Nat.eqb (S ii mod 10) 0).
  - change (nleb (n:=RNum)) with Rleb. destruct (Rleb _ thr) eqn:EE; [discriminate|]. apply Rleb_false in EE. rewrite err_R in EE.
    assert (TT : rsum ns (fun i => row_sum nt (pot_plan f' g') i) = A).
    { unfold row_sum. rewrite rsum_swap. apply rsum_ext; intros j Hj. apply (col_exact f' j Hj). }
    assert (G4 := err1_kl ns a (fun i => row_sum nt (pot_plan f' g') i) A Ha RP ltac:(right; exact Hmass) ltac:(right; exact TT)). cbn beta in G4.
    assert (G5 : thr * thr / (4 * A) <= kl ns a (fun i => row_sum nt (pot_plan f' g') i)).
    { apply (Rmult_le_reg_l (4 * A)); [lra|]. replace (4 * A * (thr * thr / (4 * A))) with (thr * thr) by (field; lra).
      eapply Rle_trans; [|exact G4]. apply Rmult_le_compat; lra. }
    intros HX. rewrite plus_INR, Rmult_plus_distr_r. change (INR 1) with 1. rewrite Rmult_1_l.
    destruct left as [|l]; [cbn [checks]; change (INR 0) with 0; lra|].
    specialize (IHleft _ _ _ _ Hth ltac:(lia) HX). lra.
  - intros HX. cbn [Nat.add]. destruct left as [|l]; [cbn [checks]; change (INR 0) with 0; lra|].
    specialize (IHleft _ _ _ _ Hth ltac:(lia) HX). lra.
Qed.
Lemma lazy_converges : forall lo hi thr it f g, 0 < reg -> 0 < thr -> (forall i j, (i < ns)%nat -> (j < nt)%nat -> lo <= D i j <= hi) ->
  80 * (A * A) * (hi - lo) < (INR it - 9) * reg * (thr * thr) -> exists k, sk_exit (loop thr it 0 f g []) = Converged k.
Proof.
  intros lo hi thr it f g Hr Hth HM Hit. assert (A_ := A0).
  assert (LH : lo <= hi) by (specialize (HM 0%nat 0%nat Hs Ht); lra).
  assert (TT : 0 < thr * thr) by (apply Rmult_lt_0_compat; auto).
  assert (Hl : (0 < it)%nat).
  { destruct it; [|lia]. exfalso. change (INR 0) with 0 in Hit. assert (0 <= 80 * (A * A) * (hi - lo)) by (repeat apply Rmult_le_pos; lra).
    assert (0 < reg * (thr * thr)) by (apply Rmult_lt_0_compat; auto). lra. }
  assert (X := loop_exit RNum exp ln ns nt D reg a b bs bt thr it 0 f g []). cbn zeta in X.
  destruct (sk_exit (loop thr it 0 f g [])) as [k|k|] eqn:EX; [eauto|contradiction|]. clear X. exfalso.
  assert (G := maxiter_gap thr it 0 f g [] (Rlt_le _ _ Hth) Hl EX). rewrite egap_k in G.
  assert (HB : forall i j, (i < nt)%nat -> (j < ns)%nat -> exp (- hi / reg) <= K i j <= exp (- lo / reg)) by (apply gibbs_range; auto).
  assert (F := gap_first nt ns b a K Ht Hs Hb Ha Kpos mass_bt (exp (- hi / reg)) (exp (- lo / reg)) (E g) (exp_pos _) HB (E_pos nt g)).
  rewrite ln_range in F by auto.
  assert (C := checks_ge nt ns Ht Hs it 1%nat 1%nat 9%nat ltac:(lia) ltac:(lia)). apply le_INR in C. rewrite plus_INR, mult_INR in C.
  replace (INR 10) with 10 in C by (cbn; ring). replace (INR 9) with 9 in C by (cbn; ring).
  assert (G' : INR (checks it 1) * (thr * thr / (4 * A)) <= 2 * A * ((hi - lo) / reg)) by lra.
  apply (Rmult_le_compat_l (40 * A * reg)) in G'; [|repeat apply Rmult_le_pos; lra].
  replace (40 * A * reg * (INR (checks it 1) * (thr * thr / (4 * A)))) with (10 * INR (checks it 1) * (reg * (thr * thr))) in G' by (field; lra).
  replace (40 * A * reg * (2 * A * ((hi - lo) / reg))) with (80 * (A * A) * (hi - lo)) in G' by (field; lra).
  assert ((INR it - 9) * (reg * (thr * thr)) <= 10 * INR (checks it 1) * (reg * (thr * thr))) by (apply Rmult_le_compat_r; [left; apply Rmult_lt_0_compat; auto|lra]).
  lra.
Qed.
(** what the row error costs *)
Lemma ent_obj_swap : forall (P : mat), ent_obj nt ns (fun j i => D i j) reg (fun j i => P i j) = ent_obj ns nt D reg P.
Proof. intros P. unfold ent_obj, cost, ent. f_equal; [apply rsum_swap|f_equal; apply rsum_swap]. Qed.
Lemma ent_obj_ext : forall n m M (P Q : mat), (forall i j, (i < n)%nat -> (j < m)%nat -> P i j = Q i j) -> ent_obj n m M reg P = ent_obj n m M reg Q.
Proof. intros n m M P Q H. unfold ent_obj, cost, ent. f_equal; [|f_equal]; apply rsum_ext; intros i Hi; apply rsum_ext; intros j Hj; rewrite H; auto. Qed.
Lemma lazy_subopt : forall lo hi thr it f g ii errs, 0 < reg -> (0 < it)%nat -> (forall i j, (i < ns)%nat -> (j < nt)%nat -> lo <= D i j <= hi) ->
  let o := loop thr it ii f g errs in let G := pot_plan (sk_u o) (sk_v o) in
  forall P, coupling ns nt a b P ->
  ent_obj ns nt D reg G - ent_obj ns nt D reg P <=
    reg * rsum ns (fun i => ln (a i) * (row_sum nt G i - a i)) + (hi - lo) * rsum ns (fun i => Rabs (row_sum nt G i - a i)).
Proof.
  intros lo hi thr it f g ii errs Hr Hl HM o G P (P1 & P2 & P3).
  destruct (loop_last RNum exp ln ns nt D reg a b bs bt thr it ii f g errs Hl) as (g0 & EU & EV). fold o in EU, EV.
  set (v := kv (E g0)). assert (Gv : forall j i, (j < nt)%nat -> (i < ns)%nat -> scaled (N:=RNum) K (E (sk_v o)) v j i = G i j).
  { intros j i Hj Hi. unfold G. rewrite pot_pl. unfold scaled, v. f_equal. rewrite <- exp_lf by auto. rewrite <- EU. reflexivity. }
  assert (RW : forall j, (j < nt)%nat -> row_sum ns (scaled (N:=RNum) K (E (sk_v o)) v) j = b j).
  { intros j Hj. rewrite <- (col_exact (sk_u o) j Hj). rewrite <- EV. fold G. apply rsum_ext; intros i Hi. apply Gv; auto. }
  assert (CL : forall i, (i < ns)%nat -> col_sum nt (scaled (N:=RNum) K (E (sk_v o)) v) i = row_sum nt G i) by (intros i Hi; apply rsum_ext; intros j Hj; apply Gv; auto).
  assert (Q := pl_subopt nt ns b a (fun j i => D i j) reg Ht Ha Hr (E (sk_v o)) v lo hi (E g0) (E_pos _ _) (E_pos _ _) (fun _ => eq_refl)
    (fun j i Hj Hi => HM i j Hi Hj) RW mass_bt (fun j i => P i j)).
  assert (CP : coupling nt ns b a (fun j i => P i j)) by (split; [intros j i Hj Hi; apply P1; auto|split; intros; [apply P3|apply P2]; auto]).
  specialize (Q CP). rewrite (ent_obj_swap P) in Q. rewrite (ent_obj_ext nt ns (fun j i => D i j) (scaled (N:=RNum) (kern (fun j i => D i j) reg) (E (sk_v o)) v) (fun j i => G i j)) in Q by (intros; apply Gv; auto).
  rewrite (ent_obj_swap G) in Q.
  rewrite (rsum_ext ns (fun i => ln (a i) * (row_sum nt G i - a i)) (fun i => ln (a i) * (col_sum nt (scaled (N:=RNum) K (E (sk_v o)) v) i - a i))) by (intros i Hi; rewrite CL by auto; reflexivity).
  rewrite (rsum_ext ns (fun i => Rabs (row_sum nt G i - a i)) (fun i => Rabs (col_sum nt (scaled (N:=RNum) K (E (sk_v o)) v) i - a i))) by (intros i Hi; rewrite CL by auto; reflexivity).
  exact Q.
Qed.
(** ** the same iterates as sinkhorn on the swapped problem *)
Lemma err_nonneg : forall f g, 0 <= lz_err (N:=RNum) exp ns nt D reg a bs f g.
Proof. intros. rewrite err_R. apply rsum_nonneg; intros; apply Rabs_pos. Qed.
Lemma swapped : forall thr left ii ii' c u v f g errs errs', thr < 0 -> 0 < c -> (0 < left)%nat -> (forall j, (j < nt)%nat -> u j = c * exp (g j)) ->
  let o := loop thr left ii f g errs in
  let s := kp_loop (N:=RNum) nt ns b a norm2 no_nan 0 K left ii' u v errs' in
  sk_exit o = MaxIter /\ sk_exit s = MaxIter /\
  forall i j, (i < ns)%nat -> (j < nt)%nat -> pot_plan (sk_u o) (sk_v o) i j = scaled (N:=RNum) K (sk_u s) (sk_v s) j i.
Proof.
  intros thr left. induction left; intros ii ii' c u v f g errs errs' Hth Hc Hl Hu; cbn zeta; [lia|]. cbn [lz_loop kp_loop].
  assert (Pu : pos_vec nt u) by (intros j Hj; rewrite Hu by auto; apply Rmult_lt_0_compat; [auto|apply exp_pos]).
  rewrite (bad_false nt ns K Ht Kpos u) by exact Pu.
  set (f' := lf g). set (g' := lg f').
  assert (V : forall i, (i < ns)%nat -> kv u i = exp (f' i) / c).
  { intros i Hi. unfold f'. rewrite exp_lf by auto. apply (kv_scale nt ns a (fun j i => D i j) reg Ht c u (E g) Hc (E_pos _ _) Hu i Hi). }
  assert (U : forall j, (j < nt)%nat -> ku (kv u) j = c * exp (g' j)).
  { intros j Hj. unfold g'. rewrite exp_lg by auto. apply (ku_scale nt ns b (fun j i => D i j) reg Hs Hb c (kv u) (E f') Hc (E_pos _ _) V j Hj). }
  assert (PL : forall i j, (i < ns)%nat -> (j < nt)%nat -> pot_plan f' g' i j = scaled (N:=RNum) K (ku (kv u)) (kv u) j i).
  { intros i j Hi Hj. rewrite pot_pl. unfold scaled. cbn [nmul RNum]. change (carrier RNum) with R in *. rewrite V, U by auto. unfold Rdiv. field. lra. }
  replace (nleb (n:=RNum) (lz_err (N:=RNum) exp ns nt D reg a bs f' g') thr) with false
    by (symmetry; apply (proj2 (Rleb_false _ _)); assert (Q := err_nonneg f' g'); change (carrier RNum) with R in *; lra).
  replace (nltb (n:=RNum) (kp_err (N:=RNum) nt ns a norm2 K (ku (kv u)) (kv u)) 0) with false
    by (symmetry; apply (proj2 (Rltb_false _ _)); unfold kp_err, norm2; apply sqrt_pos).
  assert (Z : forall (x : bool) (p q : sk (N:=RNum)), (p = q) -> (if x then p else q) = q) by (intros [|] p q H; auto).
  destruct left as [|l].
  { destruct (Nat.eqb (S ii mod 10) 0), (Nat.eqb (ii' mod 10) 0); cbn [lz_loop kp_loop sk_exit sk_u sk_v]; auto. }
  destruct (Nat.eqb (S ii mod 10) 0), (Nat.eqb (ii' mod 10) 0); apply (IHleft _ _ c); auto; lia.
Qed.
(** ** the loss, accumulated by batches *)
Lemma loss_R : forall f g, lz_loss (N:=RNum) exp ns nt D reg bs f g = rsum ns (fun i => rsum nt (fun j => D i j * pot_plan f g i j)).
Proof.
  intros f g. unfold lz_loss.
  set (row := fun r : nat => nsum (N:=RNum) nt (fun j => nmul (n:=RNum) (D r j) (lz_entry (N:=RNum) exp D reg f g r j))).
  assert (L : forall (ll : list (list R)) (z : R), fold_left Rplus (map (fun l => fold_left Rplus l 0) ll) z = fold_left Rplus (concat ll) z).
  { assert (S : forall (l : list R) (z : R), fold_left Rplus l z = z + fold_left Rplus l 0).
    { induction l as [|x l IH]; intros z; cbn [fold_left]; [lra|]. rewrite (IH (z + x)), (IH (0 + x)). lra. }
    induction ll as [|l ll IH]; intros z; cbn [map concat fold_left]; [reflexivity|]. rewrite fold_left_app, IH. f_equal. rewrite (S l z). reflexivity. }
  transitivity (fold_left Rplus (by_batches ns bs row) 0).
  - unfold by_batches. rewrite <- L, map_map. reflexivity.
  - rewrite by_batches_all by auto. clear L.
    assert (M : forall n (h : nat -> R), fold_left Rplus (map h (seq 0 n)) 0 = rsum n h).
    { induction n as [|n IH]; intros h; [reflexivity|]. rewrite seq_S, map_app, fold_left_app, IH. reflexivity. }
    etransitivity; [exact (M ns row)|]. apply rsum_ext; intros i Hi. unfold row. rewrite nsum_R. apply rsum_ext; intros j Hj. reflexivity.
Qed.
End L.

(** ** limits *)
Lemma scalings_converge : forall n m a b M reg (P : nat -> mat), (0 < n)%nat -> (0 < m)%nat -> pos_vec n a -> pos_vec m b -> 0 < reg ->
  (forall k, scaling n m (gibbs M reg) (P k)) ->
  (forall i, (i < n)%nat -> Un_cv (fun k => row_sum m (P k) i) (a i)) -> (forall j, (j < m)%nat -> Un_cv (fun k => col_sum n (P k) j) (b j)) ->
  (exists B, forall k i j, (i < n)%nat -> (j < m)%nat -> P k i j <= B) ->
  exists L, coupling n m a b L /\ scaling n m (gibbs M reg) L /\ mat_cv n m P L.
Proof.
  intros n m a b M reg P Hn Hm Ha Hb Hr HS HR HC (B & HB).
  assert (SUB : forall h, increasing_idx h -> exists f L, increasing_idx f /\ mat_cv n m (fun k => P (h (f k))) L /\ coupling n m a b L /\ scaling n m (gibbs M reg) L).
  { intros h Hh. apply (scaling_limit n m a b (gibbs M reg) Hn Hm Ha Hb (fun i j _ _ => gibbs_pos M reg i j) (fun k => P (h k))); auto.
    - intros i Hi. apply (cv_sub (fun k => row_sum m (P k) i)); auto.
    - intros j Hj. apply (cv_sub (fun k => col_sum n (P k) j)); auto.
    - exists B. auto. }
  destruct (SUB (fun k => k)) as (f0 & L & _ & _ & CL & SL); [intros k; lia|]. exists L. split; auto. split; auto.
  intros i j Hi Hj e He. apply Classical_Prop.NNPP. intros NC.
  assert (X : forall q, exists k, (q <= k)%nat /\ e <= R_dist (P k i j) (L i j)).
  { intros q. apply Classical_Prop.NNPP. intros NE. apply NC. exists q. intros k Hk. apply Rnot_le_lt. intros HL. apply NE. exists k. split; auto. }
  destruct (choice _ X) as (g & Hg). set (h := fix h (k : nat) : nat := match k with O => g O | S k => g (S (h k)) end).
  assert (Hh : increasing_idx h) by (intros k; destruct (Hg (S (h k))) as (Q & _); cbn [h]; fold h; lia).
  assert (Hd : forall k, e <= R_dist (P (h k) i j) (L i j)) by (intros [|k]; cbn [h]; apply Hg).
  destruct (SUB h Hh) as (f & L' & Hf & CV & CL' & SL'). destruct (CV i j Hi Hj e He) as (N0 & HN). specialize (HN N0 (le_n _)). cbn beta in HN.
  rewrite <- (scaling_unique n m a b M reg L L' Hr SL SL' CL CL' i j Hi Hj) in HN. specialize (Hd (f N0)). lra.
Qed.
