(** C50, C51, C82-C85: unbalanced co-optimal transport and fused unbalanced Gromov-Wasserstein
    (ot/gromov/_utils.py:902-1290, ot/gromov/_unbalanced.py).
    Specification: D is KL(x|y) = x log(x/y) - x + y or (x-y)^2/2, and ugw_obj is
      sum (X_ia - Y_jb)^2 s_ij f_ab + <M_s, s> + <M_f, f>
      + rho_x D(s1 (x) f1 | wx (x) wx') + rho_y D(s2 (x) f2 | wy (x) wy')
      + eps D(s (x) f | w (x) w')                       (joint), or
      + eps_s D(s | wx (x) wy) + eps_f D(f | wx' (x) wy')  (independent),
    every product divergence being the sum of D over all pairs of entries.  The guards 1e-16 of
    kl_div are taken as 0. *)
From Coq Require Import Reals Lra Lia QArith List.
Import ListNotations.
From Verif Require Import Num Sums Spec Entropy Optim_model Duals_proofs Gw_model Gw_proofs Gw_more Unb_proofs Ugw_model Ugw_proofs.
Local Open Scope R_scope.

(** C51.  div_to_product and div_between_product are the divergences of the full product measures *)
Theorem C51_div_to_product : forall n m P a b,
  (nonneg_mat n m P -> pos_vec n a -> pos_vec m b ->
     div_to_product (N:=RNum) ln n m P a b None None DKL true = dsum n m (fun i j => gkl (P i j) (a i * b j)) /\
     div_to_product (N:=RNum) ln n m P a b None None DKL false = dsum n m (fun i j => P i j * ln (P i j / (a i * b j)))) /\
  (forall mass, div_to_product (N:=RNum) ln n m P a b None None DL2 mass = dsum n m (fun i j => (P i j - a i * b j) ^ 2 / 2)).
Proof. intros n m P a b. split; [intros HP Ha Hb; split; rewrite dtp_R by auto; reflexivity|]. intro mass. apply dtp_l2_R. Qed.
Print Assumptions C51_div_to_product.
Theorem C51_div_between_product : forall n k (mu al nu be : vec), nonneg_vec n mu -> pos_vec n al -> nonneg_vec k nu -> pos_vec k be ->
  div_between_product (N:=RNum) ln 0 (sum1 (N:=RNum) n) (sum1 (N:=RNum) k) mu nu al be DKL = rsum n (fun i => rsum k (fun a => gkl (mu i * nu a) (al i * be a))) /\
  div_between_product (N:=RNum) ln 0 (sum1 (N:=RNum) n) (sum1 (N:=RNum) k) mu nu al be DL2 = rsum n (fun i => rsum k (fun a => (mu i * nu a - al i * be a) ^ 2 / 2)).
Proof.
  intros n k mu al nu be H1 H2 H3 H4.
  assert (L : forall q, lin (upto q) (sum1 (N:=RNum) q)).
  { intro q. destruct (lin1 q) as [X Y Z]. split; intros; rewrite !sum1_R; auto. }
  assert (E : forall dv, div_between_product (N:=RNum) ln 0 (sum1 (N:=RNum) n) (sum1 (N:=RNum) k) mu nu al be dv = rsum n (fun i => rsum k (fun a => match dv with DKL => gkl | DL2 => l2h end (mu i * nu a) (al i * be a)))).
  { intro dv. rewrite (dbp_R _ _ _ _ (L n) (L k)) by (intros; split; auto). rewrite sum1_R. apply rsum_ext; intros. apply sum1_R. }
  split; apply E.
Qed.
Print Assumptions C51_div_between_product.
Example C51_case : (div_between_product (N:=QNum) (fun x => x) 0%Q (sum1 (N:=QNum) 2) (sum1 (N:=QNum) 1) (fun i => if Nat.eqb i 0 then 1 else 3)%Q (fun _ => 2%Q) (fun _ => 1%Q) (fun _ => 1%Q) DL2 == 13)%Q.
Proof. reflexivity. Qed.

(** C50.  With reg_type = "joint" the reported cost is the objective, for both divergences *)
Lemma linear_cost_R : forall n m k l inp s f, linear_cost (N:=RNum) n m k l inp s f = coot n m k l (gX inp) (gY inp) s f.
Proof.
  intros. rewrite coot_local. unfold linear_cost, base, two. cbn [nadd nsub nmul n1 RNum].
  rewrite (dsum_ext n m _ (fun i j => rsum k (fun a => gX inp i a * gX inp i a * row_sum l f a) * s i j + rsum l (fun b => gY inp j b * gY inp j b * col_sum k f b) * s i j
     - 2 * (rsum l (fun b => rsum k (fun a => gX inp i a * f a b) * gY inp j b) * s i j))) by (intros; ring).
  rewrite dsum_minus, dsum_plus, dsum_row, dsum_col, dsum_scal, sum2_R, !nsum_R. unfold s2. replace (1 + 1) with 2 by ring.
  f_equal; [f_equal; apply rsum_ext; intros|f_equal; apply dsum_ext; intros; cbn [fst snd]; unfold flat; cbn [fst snd]].
  - rewrite rowsum_R, nsum_R. f_equal. apply rsum_ext; intros. rewrite rowsum_R. reflexivity.
  - rewrite csum_R, nsum_R. f_equal. apply rsum_ext; intros. rewrite csum_R. reflexivity.
  - f_equal. rewrite nsum_R. apply rsum_ext; intros. rewrite nsum_R. reflexivity.
Qed.
Definition pos_weights (n m k l : nat) (inp : ugw_input (N:=RNum)) : Prop :=
  pos_vec n (wxs inp) /\ pos_vec m (wys inp) /\ pos_vec k (wxf inp) /\ pos_vec l (wyf inp).
Lemma add_lin_R : forall r c (x : R) M P, add_lin (N:=RNum) r c x M P = x + lin_term r c M P.
Proof. intros r c x [M|] P; cbn; [|lra]. rewrite sum2_R. unfold s2, flat. reflexivity. Qed.
Lemma marg_div_R : forall n k mu nu al be dv (r1 : nat -> R) (r2 : nat -> R), (forall i, (i < n)%nat -> 0 <= mu i) -> pos_vec n al -> (forall i, (i < k)%nat -> 0 <= nu i) -> pos_vec k be ->
  (forall i, r1 i = mu i) -> (forall i, r2 i = nu i) ->
  div_between_product (N:=RNum) ln 0 (sum1 (N:=RNum) n) (sum1 (N:=RNum) k) r1 r2 al be dv = prod_div (Dv dv) n k mu nu al be.
Proof.
  intros n k mu nu al be dv r1 r2 H1 H2 H3 H4 E1 E2. assert (L : forall q, lin (upto q) (sum1 (N:=RNum) q)).
  { intro q. destruct (lin1 q) as [X Y Z]. split; intros; rewrite !sum1_R; auto. }
  rewrite (dbp_R _ _ _ _ (L n) (L k)) by (intros; rewrite ?E1, ?E2; split; auto). unfold prod_div. rewrite sum1_R. apply rsum_ext; intros. rewrite sum1_R. apply rsum_ext; intros. rewrite E1, E2. destruct dv; reflexivity.
Qed.
Theorem C50_joint_cost : forall n m k l inp s f, pos_weights n m k l inp -> nonneg_mat n m s -> nonneg_mat k l f -> grt inp = Joint ->
  ucoot_cost (N:=RNum) ln 0 n m k l inp s f = ugw_obj n m k l inp s f.
Proof.
  intros n m k l inp s f (H1 & H2 & H3 & H4) Hs Hf G. unfold ucoot_cost, ugw_obj. rewrite G, !add_lin_R, !penal_R, linear_cost_R. cbn [nadd RNum].
  rewrite (marg_div_R n k (row_sum m s) (row_sum l f)); [|intros; apply rsum_nonneg; auto|auto|intros; apply rsum_nonneg; auto|auto|intros; apply rowsum_R|intros; apply rowsum_R].
  rewrite (marg_div_R m l (col_sum n s) (col_sum k f)); [|intros; apply rsum_nonneg; auto|auto|intros; apply rsum_nonneg; auto|auto|intros; apply csum_R|intros; apply csum_R].
  assert (L : forall q r, lin (upto2 q r) (sum2 (N:=RNum) q r)).
  { intros q r. destruct (lin2 q r) as [X Y Z]. split; intros; rewrite !sum2_R; auto. }
  rewrite (dbp_R _ _ _ _ (L n m) (L k l)).
  - assert (E : sum2 (N:=RNum) n m (fun i => sum2 (N:=RNum) k l (fun j => match gdv inp with DKL => gkl | DL2 => l2h end (flat (N:=RNum) s i * flat (N:=RNum) f j) (flat (N:=RNum) (wxys (N:=RNum) inp) i * flat (N:=RNum) (wxyf (N:=RNum) inp) j)))
      = plan_div (Dv (gdv inp)) n m k l s f (ref (wxs inp) (wys inp)) (ref (wxf inp) (wyf inp))).
    { rewrite sum2_R. unfold s2, plan_div. apply dsum_ext; intros. rewrite sum2_R. unfold s2. apply dsum_ext; intros. destruct (gdv inp); reflexivity. }
    rewrite E. reflexivity.
  - intros [i j] [Hi Hj]; cbn in *. split; [apply Hs; auto|]. apply Rmult_lt_0_compat; auto.
  - intros [i j] [Hi Hj]; cbn in *. split; [apply Hf; auto|]. apply Rmult_lt_0_compat; auto.
Qed.
Print Assumptions C50_joint_cost.
(** with reg_type = "independent" only for plans whose marginals are the prescribed ones *)
Theorem C50_independent_cost_balanced : forall n m k l inp s f, pos_weights n m k l inp -> nonneg_mat n m s -> nonneg_mat k l f -> grt inp = Independent ->
  (forall i, (i < n)%nat -> row_sum m s i = wxs inp i) -> (forall j, (j < m)%nat -> col_sum n s j = wys inp j) ->
  (forall i, (i < k)%nat -> row_sum l f i = wxf inp i) -> (forall j, (j < l)%nat -> col_sum k f j = wyf inp j) ->
  ucoot_cost (N:=RNum) ln 0 n m k l inp s f = ugw_obj n m k l inp s f.
Proof.
  intros n m k l inp s f (H1 & H2 & H3 & H4) Hs Hf G A1 A2 A3 A4. unfold ucoot_cost, ugw_obj. rewrite G, !add_lin_R, !penal_R, linear_cost_R. cbn [nadd RNum].
  rewrite (marg_div_R n k (row_sum m s) (row_sum l f)); [|intros; apply rsum_nonneg; auto|auto|intros; apply rsum_nonneg; auto|auto|intros; apply rowsum_R|intros; apply rowsum_R].
  rewrite (marg_div_R m l (col_sum n s) (col_sum k f)); [|intros; apply rsum_nonneg; auto|auto|intros; apply rsum_nonneg; auto|auto|intros; apply csum_R|intros; apply csum_R].
  assert (E : forall r c P a b, nonneg_mat r c P -> pos_vec r a -> pos_vec c b -> (forall i, (i < r)%nat -> row_sum c P i = a i) -> (forall j, (j < c)%nat -> col_sum r P j = b j) ->
    div_to_product (N:=RNum) ln r c P (rowsum (N:=RNum) c P) (csum (N:=RNum) r P) (Some a) (Some b) (gdv inp) true = dsum r c (fun i j => Dv (gdv inp) (P i j) (a i * b j))).
  { intros r c P a b HP Ha Hb B1 B2. destruct (gdv inp).
    - rewrite dtp_R; auto.
      + apply dsum_ext; intros. cbn. rewrite rowsum_R, csum_R, B1, B2 by auto. reflexivity.
      + intros i Hi. rewrite rowsum_R, B1 by auto. auto.
      + intros i Hi. rewrite csum_R, B2 by auto. auto.
      + intros. symmetry; auto.
      + intros. symmetry; auto.
    - rewrite dtp_l2_R. apply dsum_ext; intros. cbn [Dv]. rewrite rowsum_R, csum_R, B1, B2 by auto. reflexivity. }
  rewrite !E by auto. unfold pen. match goal with |- @eq _ ?x ?y => change (@eq R x y) end. ring.
Qed.
Print Assumptions C50_independent_cost_balanced.
(** in general the arguments of div_to_product are exchanged: 1 x 1 plan 2 with px = py = 1 and the
    other terms 0.  KL(2|1) = 2 ln 2 - 1; the code reports 3. *)
Definition one_in (M : option mat) (rx : option R) (es ef : R) (rt : regtype) (dv : divergence) : ugw_input (N:=RNum) :=
  mkIn (N:=RNum) (fun _ _ => 0) (fun _ _ => 0) M None (fun _ => 1) (fun _ => 1) (fun _ => 1) (fun _ => 1) rx None es ef rt dv.
Lemma one_obj : forall M rx es ef rt dv s f, ugw_obj 1 1 1 1 (one_in M rx es ef rt dv) s f =
  match M with None => 0 | Some M => s 0%nat 0%nat * M 0%nat 0%nat end + pen rx (Dv dv (s 0%nat 0%nat * f 0%nat 0%nat) 1) + match rt with Joint => es * Dv dv (s 0%nat 0%nat * f 0%nat 0%nat) 1 | Independent => es * Dv dv (s 0%nat 0%nat) 1 + ef * Dv dv (f 0%nat 0%nat) 1 end.
Proof.
  intros. unfold ugw_obj, one_in, coot, lin_term, prod_div, plan_div, dsum, ref. cbn [gX gY gMs gMf wxs wys wxf wyf grx gry eps_s eps_f grt gdv rsum row_sum col_sum].
  unfold row_sum; cbn [rsum]. rewrite !Rplus_0_l, !Rmult_1_l. destruct M, rx, rt; cbn [pen]; ring.
Qed.
Lemma gkl_ge0 : forall q y, 0 <= q -> 0 < y -> 0 <= gkl q y.
Proof. intros q y Hq Hy. pose proof (gkl_tan q y y Hq Hy Hy) as G. replace (y / y) with 1 in G by (field; lra). rewrite ln_1 in G. unfold gkl in G at 2. replace (y / y) with 1 in G by (field; lra). rewrite ln_1 in G. lra. Qed.
Lemma ln2_lt_1 : ln 2 < 1.
Proof. apply exp_lt_inv. rewrite exp_ln by lra. pose proof (exp_ineq1 1). lra. Qed.
Theorem C50_independent_cost_refuted : exists n m k l inp s f, pos_weights n m k l inp /\ nonneg_mat n m s /\ nonneg_mat k l f /\ grt inp = Independent /\
  ugw_obj n m k l inp s f < 1 /\ ucoot_cost (N:=RNum) ln 0 n m k l inp s f = 3.
Proof.
  exists 1%nat, 1%nat, 1%nat, 1%nat, (one_in None None 1 0 Independent DKL), (fun _ _ => 2), (fun _ _ => 1).
  split; [repeat split; intros i _; cbn; lra|]. split; [intros i j _ _; lra|]. split; [intros i j _ _; lra|]. split; [reflexivity|]. split.
  - rewrite one_obj. cbn. unfold gkl. replace (2 / 1) with 2 by field. pose proof ln2_lt_1. lra.
  - unfold ucoot_cost. rewrite !add_lin_R, !penal_R, linear_cost_R. unfold coot, dsum, one_in, div_to_product. cbn -[xlogx]. rewrite xlogx_R. cbn.
    unfold row_sum, col_sum, flat, rowsum, csum. cbn. unfold dsum; cbn. rewrite !Rplus_0_l. ring.
Qed.
Print Assumptions C50_independent_cost_refuted.

(** C82.  divergence = "kl", rescale_plan = False: each block problem handed to ot.solve is the
    objective restricted to that block up to a constant, and if the inner solver is never worse
    than the plan_init it is given, the objective never increases, for any number of rounds.  (With
    reg_type = "independent" the two regularisations must be equal, see C84.) *)
Theorem C82_block_problems_exact : forall n m k l inp s0 f0, good_ugw n m k l inp -> eps_f inp = eps_s inp -> nonneg_mat n m s0 -> nonneg_mat k l f0 ->
  (exists c, forall f, nonneg_mat k l f -> uot_val DKL k l (feat_problem (N:=RNum) ln 0 n m k l inp s0 f0) f + c = ugw_obj n m k l inp s0 f) /\
  (exists c, forall s, nonneg_mat n m s -> uot_val DKL n m (samp_problem (N:=RNum) ln 0 n m k l inp s0 f0) s + c = ugw_obj n m k l inp s f0).
Proof. intros. split; [apply feat_exact; auto|apply samp_exact; auto]. Qed.
Print Assumptions C82_block_problems_exact.
Lemma joint_eps_same : forall inp : ugw_input (N:=RNum), (grt inp = Independent -> eps_f inp = eps_s inp) ->
  eps_f (joint_eps inp) = eps_s (joint_eps inp) /\ forall n m k l, good_ugw n m k l inp -> good_ugw n m k l (joint_eps inp).
Proof.
  intros inp E. unfold joint_eps, good_ugw. destruct (grt inp) eqn:G; cbn; [split; [reflexivity|]; intros; intuition|split; [auto|intros; auto]].
Qed.
Theorem C82_objective_never_increases : forall n m k l inp sq fs ss max_iter tol s0 f0,
  good_ugw n m k l inp -> (grt inp = Independent -> eps_f inp = eps_s inp) -> no_worse k l fs -> no_worse n m ss -> nonneg_mat n m s0 -> nonneg_mat k l f0 ->
  let r := fused_unbalanced_across_spaces_divergence (N:=RNum) ln sq 0 n m k l inp fs ss false max_iter tol (Some s0, Some f0) in
  nonneg_mat n m (fst r) /\ nonneg_mat k l (snd r) /\ ugw_obj n m k l (joint_eps inp) (fst r) (snd r) <= ugw_obj n m k l (joint_eps inp) s0 f0.
Proof.
  intros n m k l inp sq fs ss max_iter tol s0 f0 HG E Hfs Hss Hs Hf. destruct (joint_eps_same inp E) as [E1 E2].
  apply (bcd_descent n m k l (joint_eps inp) sq fs ss tol max_iter 0 s0 f0); auto.
Qed.
Print Assumptions C82_objective_never_increases.
(** with exact inner solvers, a round that leaves both plans unchanged has found a pair in which
    each plan is optimal given the other *)
Definition exact (n m : nat) (sol : inner_solver (N:=RNum)) : Prop := forall it pb P Q, nonneg_mat n m P -> nonneg_mat n m Q -> uot_val DKL n m pb (sol it pb P) <= uot_val DKL n m pb Q.
Theorem C82_fixed_point_blockwise_optimal : forall n m k l inp sq fs ss it s f, good_ugw n m k l inp -> eps_f inp = eps_s inp -> exact k l fs -> exact n m ss ->
  nonneg_mat n m s -> nonneg_mat k l f -> bcd_round (N:=RNum) ln sq 0 n m k l inp fs ss false it s f = (s, f) ->
  (forall f', nonneg_mat k l f' -> ugw_obj n m k l inp s f <= ugw_obj n m k l inp s f') /\ (forall s', nonneg_mat n m s' -> ugw_obj n m k l inp s f <= ugw_obj n m k l inp s' f).
Proof.
  intros n m k l inp sq fs ss it s f HG E Hfs Hss Hs Hf R. unfold bcd_round, rescale in R. injection R as R1 R2. rewrite R2 in R1.
  destruct (C82_block_problems_exact n m k l inp s f HG E Hs Hf) as [[c Hc] [d Hd]]. split.
  - intros f' Hf'. rewrite <- (Hc f Hf), <- (Hc f' Hf'). pose proof (Hfs it (feat_problem (N:=RNum) ln 0 n m k l inp s f) f f' Hf Hf') as Q. rewrite R2 in Q. lra.
  - intros s' Hs'. rewrite <- (Hd s Hs), <- (Hd s' Hs'). pose proof (Hss it (samp_problem (N:=RNum) ln 0 n m k l inp s f) s s' Hs Hs') as Q. rewrite R1 in Q. lra.
Qed.
Print Assumptions C82_fixed_point_blockwise_optimal.
(** the hypotheses are met, e.g. by the 1 x 1 problem, and by a solver that keeps its start *)
Example C82_case : good_ugw 1 1 1 1 (one_in None (Some 1) 1 1 Joint DKL) /\ no_worse 1 1 (fun _ _ P => P).
Proof. split; [unfold good_ugw, one_in, pos_vec; cbn; repeat split; intros; lra|]. intros it pb P HP. split; [auto|lra]. Qed.

(** C83.  divergence = "l2": the rescaled weights are computed from the plan being updated
    (lines 367, 394) instead of the other one, so that an exact inner solve can increase the
    objective.  1 x 1, X = Y = 0, weights 1, rho_x = 1, s = 1, f = 1/2: the problem handed over is
    (1/4)(f - 2)^2/2 with minimiser 2, and (s f - 1)^2/2 goes from 1/8 to 1/2. *)
Theorem C83_l2_block_problem_refuted : exists n m k l inp s f f', pos_weights n m k l inp /\ gdv inp = DL2 /\ nonneg_mat n m s /\ nonneg_mat k l f /\ nonneg_mat k l f' /\
  (forall h, nonneg_mat k l h -> uot_val DL2 k l (feat_problem (N:=RNum) ln 0 n m k l inp s f) f' <= uot_val DL2 k l (feat_problem (N:=RNum) ln 0 n m k l inp s f) h) /\
  ugw_obj n m k l inp s f < ugw_obj n m k l inp s f'.
Proof.
  exists 1%nat, 1%nat, 1%nat, 1%nat, (one_in None (Some 1) 0 0 Joint DL2), (fun _ _ => 1), (fun _ _ => / 2), (fun _ _ => 2).
  split; [repeat split; intros i _; cbn; lra|]. split; [reflexivity|]. split; [intros i j _ _; lra|]. split; [intros i j _ _; lra|]. split; [intros i j _ _; lra|]. split.
  - intros h Hh. unfold uot_val, feat_problem, l2_params, uot_cost_matrix, one_in, dsum, row_sum, col_sum. cbn. unfold l2h, dsum, rowsum, csum, row_sum; cbn. unfold flat, rowsum, csum; cbn.
    set (x := h 0%nat 0%nat). replace (1 * (0 + (0 + / 2) * 1) / (0 + (0 + / 2) * (0 + / 2))) with 2 by field.
    rewrite !Rmult_0_l. pose proof (pow2_ge_0 (x - 2)). lra.
  - rewrite !one_obj. cbn. unfold l2h. cbn. lra.
Qed.
Print Assumptions C83_l2_block_problem_refuted.

(** C84.  reg_type = "independent", divergence = "kl": eps_samp is never used by the iteration
    (line 391 uses eps_feat), for any arithmetic, solver and number of rounds; so the sample plan is
    optimised for the wrong objective. *)
Definition with_eps_s {N : NumOps} (inp : ugw_input (N:=N)) (e : N) : ugw_input (N:=N) :=
  mkIn (gX inp) (gY inp) (gMs inp) (gMf inp) (wxs inp) (wys inp) (wxf inp) (wyf inp) (grx inp) (gry inp) e (eps_f inp) (grt inp) (gdv inp).
Theorem C84_eps_samp_ignored : forall (N : NumOps) (lg sq : N -> N) g n m k l (inp : ugw_input (N:=N)) e fs ss resc max_iter tol init,
  gdv inp = DKL -> grt inp = Independent ->
  fused_unbalanced_across_spaces_divergence lg sq g n m k l (with_eps_s inp e) fs ss resc max_iter tol init
  = fused_unbalanced_across_spaces_divergence lg sq g n m k l inp fs ss resc max_iter tol init.
Proof.
  intros N lg sq g n m k l inp e fs ss resc max_iter tol init Hd Hr. unfold fused_unbalanced_across_spaces_divergence.
  assert (J : joint_eps inp = inp) by (unfold joint_eps; rewrite Hr; reflexivity).
  assert (J' : joint_eps (with_eps_s inp e) = with_eps_s inp e) by (unfold joint_eps; cbn; rewrite Hr; reflexivity).
  rewrite J, J'. change (wxys (with_eps_s inp e)) with (wxys inp). change (wxyf (with_eps_s inp e)) with (wxyf inp).
  assert (EF : forall s f, feat_problem lg g n m k l (with_eps_s inp e) s f = feat_problem lg g n m k l inp s f).
  { intros. unfold feat_problem. cbn. rewrite Hd, Hr. reflexivity. }
  assert (ES : forall s f, samp_problem lg g n m k l (with_eps_s inp e) s f = samp_problem lg g n m k l inp s f).
  { intros. unfold samp_problem. cbn. rewrite Hd, Hr. reflexivity. }
  generalize (match fst init with Some p => p | None => wxys inp end) (match snd init with Some p => p | None => wxyf inp end). generalize 0%nat.
  induction max_iter; intros it s f; [reflexivity|]. cbn [bcd].
  assert (ER : bcd_round lg sq g n m k l (with_eps_s inp e) fs ss resc it s f = bcd_round lg sq g n m k l inp fs ss resc it s f).
  { unfold bcd_round. rewrite EF. rewrite ES. reflexivity. }
  rewrite ER. destruct (bcd_round lg sq g n m k l inp fs ss resc it s f) as [s' f'].
  match goal with |- context [if ?b then _ else _] => destruct b end; [reflexivity|apply IHmax_iter].
Qed.
Print Assumptions C84_eps_samp_ignored.
(** 1 x 1, M_samp = 1, eps_samp = 1, eps_feat = 2: the sample problem is minimised by exp(-1/2)
    while the objective has its minimum at exp(-1): starting there, the exact update makes it worse *)
Lemma exp_half : exp (- (1 / 2)) > 1 / 2.
Proof.
  assert (H : exp (1 / 2) < 2).
  { pose proof exp_le_3 as E3. assert (Q : exp (1 / 2) * exp (1 / 2) = exp 1) by (rewrite <- exp_plus; f_equal; lra). pose proof (exp_pos (1 / 2)). nra. }
  rewrite exp_Ropp. replace (1 / 2) with (/ 2) at 2 by lra. apply Rinv_lt_contravar; [pose proof (exp_pos (1 / 2)); nra|]. exact H.
Qed.
Theorem C84_sample_problem_refuted : exists n m k l inp s f s', pos_weights n m k l inp /\ gdv inp = DKL /\ grt inp = Independent /\ 0 < eps_s inp /\ 0 < eps_f inp /\
  nonneg_mat n m s /\ nonneg_mat k l f /\ nonneg_mat n m s' /\
  (forall h, nonneg_mat n m h -> uot_val DKL n m (samp_problem (N:=RNum) ln 0 n m k l inp s f) s' <= uot_val DKL n m (samp_problem (N:=RNum) ln 0 n m k l inp s f) h) /\
  ugw_obj n m k l inp s f < ugw_obj n m k l inp s' f.
Proof.
  exists 1%nat, 1%nat, 1%nat, 1%nat, (one_in (Some (fun _ _ => 1)) None 1 2 Independent DKL), (fun _ _ => exp (-1)), (fun _ _ => 1), (fun _ _ => exp (- (1 / 2))).
  split; [repeat split; intros i _; cbn; lra|]. split; [reflexivity|]. split; [reflexivity|]. split; [cbn; lra|]. split; [cbn; lra|].
  split; [intros i j _ _; left; apply exp_pos|]. split; [intros i j _ _; lra|]. split; [intros i j _ _; left; apply exp_pos|]. split.
  - intros h Hh. unfold uot_val, samp_problem, uot_cost_matrix, one_in, dsum. cbn. unfold gkl. rewrite !Rplus_0_l.
    set (x := h 0%nat 0%nat). assert (Hx : 0 <= x) by (apply Hh; lia). pose proof (gkl_tan x (exp (- (1 / 2))) 1 Hx (exp_pos _) Rlt_0_1) as G.
    unfold gkl in G. replace (1 * 1) with 1 by ring. replace (x / 1) with x in * by field. replace (exp (- (1 / 2)) / 1) with (exp (- (1 / 2))) in * by field. rewrite ln_exp in *.
    lra.
  - rewrite !one_obj. cbn. unfold gkl. replace (exp (-1) / 1) with (exp (-1)) by field. replace (exp (- (1 / 2)) / 1) with (exp (- (1 / 2))) by field. rewrite !ln_exp.
    pose proof exp_half as T. assert (Q : exp (- (1 / 2)) * exp (- (1 / 2)) = exp (-1)) by (rewrite <- exp_plus; f_equal; lra). rewrite <- Q. set (t := exp (- (1 / 2))) in *. nra.
Qed.
Print Assumptions C84_sample_problem_refuted.

(** C85.  rescale_plan = True "so that they always have equal mass": the rescaling gives each plan
    the geometric mean of the two masses, at different times, so the returned masses differ. *)
Theorem C85_rescaled_mass : forall r c (mass : R) P, 0 < mass -> 0 < total r c P -> total r c (rescale (N:=RNum) sqrt true mass r c P) = sqrt (mass * total r c P).
Proof.
  intros r c mass P Hm HP. unfold rescale. cbn [ndiv nmul RNum]. rewrite mass_R. change (total r c (fun i j => sqrt (mass / total r c P) * P i j)) with (dsum r c (fun i j => sqrt (mass / total r c P) * P i j)).
  rewrite dsum_scal. change (dsum r c P) with (total r c P). set (t := total r c P) in *.
  rewrite <- (sqrt_square t) at 2 by lra. rewrite <- sqrt_mult; [f_equal; field; lra| |nra]. left. apply Rdiv_lt_0_compat; auto.
Qed.
Print Assumptions C85_rescaled_mass.
(** 1 x 1, no penalties, eps = 1 (independent): both inner problems have minimiser 1; from s = 4 one
    round returns f = sqrt 4 = 2 and s = sqrt 2 *)
Theorem C85_equal_mass_refuted : exists n m k l inp sol s0 f0,
  good_ugw n m k l inp /\ eps_f inp = eps_s inp /\ nonneg_mat n m s0 /\ nonneg_mat k l f0 /\
  (forall s f h, nonneg_mat 1 1 h -> uot_val DKL 1 1 (feat_problem (N:=RNum) ln 0 n m k l inp s f) (sol 0%nat (feat_problem (N:=RNum) ln 0 n m k l inp s f) f) <= uot_val DKL 1 1 (feat_problem (N:=RNum) ln 0 n m k l inp s f) h) /\
  (forall s f h, nonneg_mat 1 1 h -> uot_val DKL 1 1 (samp_problem (N:=RNum) ln 0 n m k l inp s f) (sol 0%nat (samp_problem (N:=RNum) ln 0 n m k l inp s f) s) <= uot_val DKL 1 1 (samp_problem (N:=RNum) ln 0 n m k l inp s f) h) /\
  let r := fused_unbalanced_across_spaces_divergence (N:=RNum) ln sqrt 0 n m k l inp sol sol true 1 0 (Some s0, Some f0) in
  total n m (fst r) <> total k l (snd r).
Proof.
  exists 1%nat, 1%nat, 1%nat, 1%nat, (one_in None None 1 1 Independent DKL), (fun _ _ _ _ _ => 1), (fun _ _ => 4), (fun _ _ => 1).
  split; [unfold good_ugw, one_in, pos_vec; cbn; repeat split; intros; lra|]. split; [reflexivity|]. split; [intros i j _ _; lra|]. split; [intros i j _ _; lra|].
  assert (G1 : gkl 1 1 = 0) by (unfold gkl; replace (1 / 1) with 1 by field; rewrite ln_1; ring).
  split; [|split].
  - intros s f h Hh. unfold uot_val, feat_problem, uot_cost_matrix, one_in, dsum. cbn. rewrite !Rmult_1_l, G1.
    assert (0 <= gkl (h 0%nat 0%nat) 1) by (apply gkl_ge0; [apply Hh; lia|lra]). lra.
  - intros s f h Hh. unfold uot_val, samp_problem, uot_cost_matrix, one_in, dsum. cbn. rewrite !Rmult_1_l, G1.
    assert (0 <= gkl (h 0%nat 0%nat) 1) by (apply gkl_ge0; [apply Hh; lia|lra]). lra.
  - unfold fused_unbalanced_across_spaces_divergence, one_in. cbn [fst snd joint_eps grt]. unfold bcd. 
    set (rr := bcd_round (N:=RNum) _ _ _ _ _ _ _ _ _ _ _ _ _ _). assert (E : total 1 1 (fst rr) = sqrt 2 /\ total 1 1 (snd rr) = 2).
    { unfold rr, bcd_round. cbn [fst snd]. set (f' := rescale (N:=RNum) sqrt true (sum2 (N:=RNum) 1 1 (flat (N:=RNum) (fun _ _ => 4))) 1 1 _). assert (Ef : total 1 1 f' = 2).
      { unfold f'. rewrite mass_R, C85_rescaled_mass by (cbn; lra). cbn. replace ((0 + (0 + 4)) * (0 + (0 + 1))) with (2 * 2) by ring. apply sqrt_square; lra. }
      split; [|exact Ef]. rewrite mass_R, Ef, C85_rescaled_mass by (cbn; lra). f_equal. cbn. ring. }
    destruct rr as [s' f']. cbn [fst snd] in E. destruct E as [E1 E2].
    match goal with |- context [if ?b then _ else _] => destruct b end; cbn [fst snd]; rewrite E1, E2; intro Z.
    all: assert (sqrt 2 * sqrt 2 = 2) by (apply sqrt_sqrt; lra); rewrite Z in *; lra.
Qed.
Print Assumptions C85_equal_mass_refuted.
