(** C45-C48, C78-C81: Gromov-Wasserstein (ot/gromov/_utils.py, _gw.py, _semirelaxed.py, _partial.py).
    Specification: gw_obj n m L C1 C2 T = sum_{i,j,k,l} L(C1_ik, C2_jl) T_ij T_kl, with
    L(x,y) = (x-y)^2 (square) or x log x - x log y - x + y (kl, with the eps = 1e-18 the code adds
    inside the logarithms; the identities hold for every eps and every function lg). *)
From Coq Require Import Reals Lra Lia QArith List.
Import ListNotations.
From Verif Require Import Num Sums Spec Entropy Optim_model Duals_proofs Optim_proofs Gw_model Gw_proofs Gw_more.
Local Open Scope R_scope.

Definition has_marginals (n m : nat) (p q : vec) (T : mat) : Prop :=
  (forall i, (i < n)%nat -> row_sum m T i = p i) /\ (forall j, (j < m)%nat -> col_sum n T j = q j).
Definition symmetric_if (sym : bool) (n m : nat) (C1 C2 : mat) : Prop := sym = true -> symmetric n C1 /\ symmetric m C2.

Lemma row_diff : forall m (A B : mat) i, row_sum m (fun i j => A i j - B i j) i = row_sum m A i - row_sum m B i.
Proof. intros. apply rsum_minus. Qed.
Lemma col_diff : forall n (A B : mat) j, col_sum n (fun i j => A i j - B i j) j = col_sum n A j - col_sum n B j.
Proof. intros. apply (rsum_minus n (fun i => A i j) (fun i => B i j)). Qed.

(** C45.  For a plan with marginals (p, q), the factorised tensor is the full contraction and the
    loss is the quadruple sum, for both losses and any (also asymmetric) C1, C2. *)
Theorem C45_tensor_factorisation : forall n m lg eps l C1 C2 p q T, has_marginals n m p q T ->
  (forall i j, tensor_product (N:=RNum) n m (constC (N:=RNum) n m lg eps l C1 C2 p q) (hC1 (N:=RNum) l C1) (hC2 (N:=RNum) lg eps l C2) T i j
     = rsum n (fun k => rsum m (fun c => loss_of lg eps l (C1 i k) (C2 j c) * T k c))) /\
  gw_f (N:=RNum) n m lg eps l C1 C2 p q T = gw_obj n m (loss_of lg eps l) C1 C2 T.
Proof. intros n m lg eps l C1 C2 p q T [Hp Hq]. split; [intros; rewrite (tens_coupling n m lg eps l C1 C2 p q) by auto; reflexivity|apply gw_f_R; auto]. Qed.
Print Assumptions C45_tensor_factorisation.
(** the hypothesis matters: for a plan with other marginals the two differ *)
Example C45_other_marginals : (gw_f (N:=QNum) 1 1 (fun x => x) 0 SquareLoss (fun _ _ => 1%Q) (fun _ _ => 1%Q) (fun _ => 1%Q) (fun _ => 1%Q) (fun _ _ => (1 # 2)%Q) == 1 # 2)%Q.
Proof. reflexivity. Qed.
(** semi-relaxed and partial solvers recompute the constants from the plan: exact for plans with
    first marginal p, resp. for every matrix. *)
Theorem C45_semirelaxed_and_partial : forall n m lg eps l C1 C2 p T,
  ((forall i, (i < n)%nat -> row_sum m T i = p i) -> sr_f (N:=RNum) n m lg eps l C1 C2 p T = gw_obj n m (loss_of lg eps l) C1 C2 T) /\
  pt_f (N:=RNum) n m lg eps l C1 C2 T = gw_obj n m (loss_of lg eps l) C1 C2 T.
Proof. intros. split; [intros; apply sr_f_R; auto|apply pt_f_R]. Qed.
Print Assumptions C45_semirelaxed_and_partial.

(** C46.  The gradients are exact: the loss expands along every direction with the computed
    gradient as linear term (gw: at plans with marginals p, q; semi-relaxed: first marginal p;
    partial: everywhere).  With sym = true both matrices must be symmetric. *)
Theorem C46_gradients : forall n m lg eps l sym C1 C2 p q G D t, symmetric_if sym n m C1 C2 ->
  let J := gw_obj n m (loss_of lg eps l) C1 C2 in
  let slope g := rsum n (fun i => rsum m (fun j => g i j * D i j)) in
  let along := J (fun i j => G i j + t * D i j) in
  (has_marginals n m p q G -> along = J G + t * slope (gw_df (N:=RNum) n m lg eps l sym C1 C2 p q G) + t ^ 2 * J D) /\
  ((forall i, (i < n)%nat -> row_sum m G i = p i) -> along = J G + t * slope (sr_df (N:=RNum) n m lg eps l sym C1 C2 p G) + t ^ 2 * J D) /\
  along = J G + t * slope (pt_df (N:=RNum) n m lg eps l sym C1 C2 G) + t ^ 2 * J D.
Proof.
  intros n m lg eps l sym C1 C2 p q G D t Hs J slope along.
  assert (X : along = J G + t * slope (gradT n m lg eps l sym C1 C2 G) + t ^ 2 * J D).
  { unfold along, J, gw_obj. rewrite bil_expand. unfold slope. change (rsum n _) with (dsum n m (fun i j => gradT n m lg eps l sym C1 C2 G i j * D i j)). rewrite gradT_ok by auto. reflexivity. }
  split; [|split]; rewrite ?X.
  - intros [Hp Hq]. f_equal. f_equal. f_equal. apply dsum_ext. intros. rewrite gw_df_R; auto.
  - intros Hp. f_equal. f_equal. f_equal. apply dsum_ext. intros. rewrite sr_df_R; auto.
  - f_equal. f_equal. f_equal. apply dsum_ext. intros. rewrite pt_df_R; auto.
Qed.
Print Assumptions C46_gradients.
(** The line search coefficients are exact along feasible directions: zero marginals (balanced),
    zero row sums (semi-relaxed). *)
Theorem C46_line_search : forall n m lg eps l sym C1 C2 M reg p q G D t, symmetric_if sym n m C1 C2 ->
  (forall i, (i < n)%nat -> row_sum m G i = p i) -> (forall i, (i < n)%nat -> row_sum m D i = 0) ->
  let J T := cost n m M T + reg * gw_obj n m (loss_of lg eps l) C1 C2 T in
  let along := J (fun i j => G i j + t * D i j) in
  ((forall j, (j < m)%nat -> col_sum n G j = q j) -> (forall j, (j < m)%nat -> col_sum n D j = 0) ->
   along = J G + gl_b (N:=RNum) n m sym (hC1 (N:=RNum) l C1) (hC2 (N:=RNum) lg eps l C2) M reg G D * t
               + gl_a (N:=RNum) n m (hC1 (N:=RNum) l C1) (hC2 (N:=RNum) lg eps l C2) reg G D * t ^ 2) /\
  along = J G + sr_b (N:=RNum) n m lg eps l C1 C2 M reg G D * t + sr_a (N:=RNum) n m lg eps l C1 C2 reg G D * t ^ 2.
Proof.
  intros n m lg eps l sym C1 C2 M reg p q G D t Hs Hp Hr J along. unfold along, J, gw_obj. rewrite bil_expand, cost_add. split.
  - intros Hq Hc. rewrite (gl_a_R n m lg eps l C1 C2 reg G D Hr Hc). rewrite (gl_b_R n m lg eps l sym C1 C2 Hs M reg G D Hr Hc). ring.
  - rewrite (sr_a_R n m lg eps l C1 C2 reg G D Hr), (sr_b_R n m lg eps l C1 C2 M reg G D Hr). ring.
Qed.
Print Assumptions C46_line_search.

(** C47.  The square loss is a discrepancy: non-negative on plans, zero exactly when the plan only
    pairs points with equal internal distances (so for any measure preserving isometry), and
    unchanged when the two spaces are swapped. *)
Theorem C47_square_discrepancy : forall n m C1 C2 T, nonneg_mat n m T ->
  0 <= gw_obj n m sq_loss C1 C2 T /\
  (gw_obj n m sq_loss C1 C2 T = 0 <->
     forall i j k c, (i < n)%nat -> (j < m)%nat -> (k < n)%nat -> (c < m)%nat -> 0 < T i j -> 0 < T k c -> C1 i k = C2 j c) /\
  gw_obj n m sq_loss C1 C2 T = gw_obj m n sq_loss C2 C1 (fun j i => T i j).
Proof.
  intros n m C1 C2 T HT. assert (Q : forall x y, 0 <= sq_loss x y) by (intros; apply pow2_ge_0).
  split; [apply obj_nonneg; auto|]. split.
  - rewrite (obj_zero n m sq_loss C1 C2 T) by auto. split; intros H i j k c Hi Hj Hk Hc P1 P2; specialize (H i j k c Hi Hj Hk Hc P1 P2).
    + unfold sq_loss in H. assert ((C1 i k - C2 j c) * (C1 i k - C2 j c) = 0) by lra. apply Rsqr_0_uniq in H0. lra.
    + unfold sq_loss. rewrite H. ring.
  - unfold gw_obj. rewrite bil_swap. unfold gw_bil, sq_loss, transp. apply rsum_ext; intros; apply rsum_ext; intros; apply rsum_ext; intros; apply rsum_ext; intros; ring.
Qed.
Print Assumptions C47_square_discrepancy.
Theorem C47_isometry_costs_zero : forall n C1 C2 p s, nonneg_vec n p -> (forall i, (i < n)%nat -> (s i < n)%nat) ->
  (forall i k, (i < n)%nat -> (k < n)%nat -> C1 i k = C2 (s i) (s k)) ->
  gw_obj n n sq_loss C1 C2 (fun i j => if Nat.eqb j (s i) then p i else 0) = 0.
Proof.
  intros n C1 C2 p s Hp Hs Hi. apply C47_square_discrepancy.
  - intros i j Hi' Hj. destruct (Nat.eqb j (s i)); [auto|lra].
  - intros i j k c Hi' Hj Hk Hc. destruct (Nat.eqb_spec j (s i)); [|lra]. destruct (Nat.eqb_spec c (s k)); [|lra]. subst. auto.
Qed.
Print Assumptions C47_isometry_costs_zero.
(** the kl loss on positive matrices, without the 1e-18 *)
Theorem C47_kl_discrepancy : forall n m C1 C2 T, nonneg_mat n m T ->
  (forall i k, (i < n)%nat -> (k < n)%nat -> 0 < C1 i k) -> (forall j c, (j < m)%nat -> (c < m)%nat -> 0 < C2 j c) ->
  0 <= gw_obj n m (kl_loss ln 0) C1 C2 T /\
  (gw_obj n m (kl_loss ln 0) C1 C2 T = 0 <->
     forall i j k c, (i < n)%nat -> (j < m)%nat -> (k < n)%nat -> (c < m)%nat -> 0 < T i j -> 0 < T k c -> C1 i k = C2 j c).
Proof.
  intros n m C1 C2 T HT H1 H2.
  assert (E : forall x y, 0 < x -> 0 < y -> kl_loss ln 0 x y = x * ln (x / y) - x + y) by (intros; unfold kl_loss; rewrite !Rplus_0_r, ln_div by auto; ring).
  assert (Q : forall x y, 0 < x -> 0 < y -> 0 <= kl_loss ln 0 x y).
  { intros x y Hx Hy. rewrite E by auto. pose proof (xlnx_div_ge x y (Rlt_le _ _ Hx) Hy). lra. }
  split; [apply obj_nonneg; auto|]. rewrite (obj_zero n m (kl_loss ln 0) C1 C2 T) by auto.
  split; intros H i j k c Hi Hj Hk Hc P1 P2; specialize (H i j k c Hi Hj Hk Hc P1 P2).
  - rewrite E in H by auto. destruct (Req_dec (C1 i k) (C2 j c)) as [|N]; auto.
    pose proof (xlnx_div_gt (C1 i k) (C2 j c) (Rlt_le _ _ (H1 i k Hi Hk)) (H2 j c Hj Hc) N). lra.
  - rewrite H. unfold kl_loss. ring.
Qed.
Print Assumptions C47_kl_discrepancy.

(** C48.  The gradients in C1 and C2 attached by the "2" functions: for the square loss the loss of
    the fixed plan expands exactly with them, for kl (without the 1e-15) they are its directional
    derivatives, when p and q are the plan's own marginals: gromov_wasserstein2 and, with q the
    second marginal of the plan, semirelaxed_gromov_wasserstein2. *)
Theorem C48_square_gradients : forall n m C1 C2 T E1 E2 p q e t, has_marginals n m p q T ->
  let J C1 C2 := gw_obj n m sq_loss C1 C2 T in
  J (fun i k => C1 i k + t * E1 i k) C2 = J C1 C2
    + t * rsum n (fun i => rsum n (fun k => gw2_gC1 (N:=RNum) m ln SquareLoss e C1 C2 p T i k * E1 i k))
    + t ^ 2 * rsum n (fun i => rsum n (fun k => E1 i k ^ 2 * (p i * p k))) /\
  J C1 (fun i k => C2 i k + t * E2 i k) = J C1 C2
    + t * rsum m (fun i => rsum m (fun k => gw2_gC2 (N:=RNum) n SquareLoss e C1 C2 q T i k * E2 i k))
    + t ^ 2 * rsum m (fun i => rsum m (fun k => E2 i k ^ 2 * (q i * q k))).
Proof. intros n m C1 C2 T E1 E2 p q e t [Hp Hq] J. split; [apply sq_C1_expand; auto|apply sq_C2_expand; auto]. Qed.
Print Assumptions C48_square_gradients.
Theorem C48_kl_gradients : forall n m C1 C2 T E1 E2 p q, has_marginals n m p q T ->
  (forall i k, (i < n)%nat -> (k < n)%nat -> 0 < C1 i k) -> (forall j c, (j < m)%nat -> (c < m)%nat -> 0 < C2 j c) ->
  let J C1 C2 := gw_obj n m (kl_loss ln 0) C1 C2 T in
  derivable_pt_lim (fun t => J (fun i k => C1 i k + t * E1 i k) C2) 0
    (rsum n (fun i => rsum n (fun k => gw2_gC1 (N:=RNum) m ln KlLoss 0 C1 C2 p T i k * E1 i k))) /\
  derivable_pt_lim (fun t => J C1 (fun i k => C2 i k + t * E2 i k)) 0
    (rsum m (fun i => rsum m (fun k => gw2_gC2 (N:=RNum) n KlLoss 0 C1 C2 q T i k * E2 i k))).
Proof. intros n m C1 C2 T E1 E2 p q [Hp Hq] H1 H2 J. split; [apply (kl_C1_deriv n m C1 C2 T E1 p); auto|apply (kl_C2_deriv n m C1 C2 T E2 q); auto]. Qed.
Print Assumptions C48_kl_gradients.
(** The defect: partial_gromov_wasserstein2 uses the full p, q.  One point each, C1 = C2 = 1,
    p = q = 1, plan of mass 1/2: the loss (C1 - C2)^2 / 4 is minimal, but the gradient is 3/2. *)
Theorem C48_partial_gradient_refuted :
  let T : mat := fun _ _ => 1 / 2 in let one2 : mat := fun _ _ => 1 in
  subcoupling 1 1 (fun _ => 1) (fun _ => 1) T /\
  (forall C1, gw_obj 1 1 sq_loss one2 one2 T <= gw_obj 1 1 sq_loss C1 one2 T) /\
  gw2_gC1 (N:=RNum) 1 ln SquareLoss 0 one2 one2 (fun _ => 1) T 0%nat 0%nat = 3 / 2.
Proof.
  cbv zeta. split; [|split].
  - split; [intros i j _ _; lra|]. split; intros i _; unfold row_sum, col_sum; cbn; lra.
  - intro C1. unfold gw_obj, gw_bil, sq_loss. pose proof (pow2_ge_0 (C1 0%nat 0%nat - 1)). cbn in *. lra.
  - unfold gw2_gC1, two. cbn. field.
Qed.
Print Assumptions C48_partial_gradient_refuted.

(** C78.  gromov_wasserstein and fused_gromov_wasserstein, with a linear oracle answering couplings
    (C01, C05 prove that of emd): the result is a coupling, the reported distance (the last
    recorded loss) is exactly (1 - alpha) <M, T> + alpha GW(T) of the returned plan, recorded
    losses never increase and the result is no worse than the start. *)
Theorem C78_fused_gw : forall fuel n m lg eps l sym M reg C1 C2 p q lp G0 K t1 t2 r,
  symmetric_if sym n m C1 C2 -> coupling n m p q G0 -> (forall Mi, coupling n m p q (lp Mi)) ->
  fused_gw (N:=RNum) n m lg eps fuel l sym M reg C1 C2 p q lp (Some G0) K t1 t2 = Some r ->
  let J T := cost n m M T + reg * gw_obj n m (loss_of lg eps l) C1 C2 T in
  coupling n m p q (cg_G r) /\ last (cg_log r) 0 = J (cg_G r) /\ cg_val r = J (cg_G r) /\ nonincreasing (cg_log r) /\ J (cg_G r) <= J G0.
Proof.
  intros fuel n m lg eps l sym M reg C1 C2 p q lp G0 K t1 t2 r Hs H0 Hlp E J.
  assert (CC : forall G, coupling n m p q G -> cg_cost (N:=RNum) n m M reg (gw_f (N:=RNum) n m lg eps l C1 C2 p q) G = J G).
  { intros G (_ & Hr & Hc). rewrite cg_cost_R. unfold J. f_equal. f_equal. apply gw_f_R; auto. }
  assert (X : coupling n m p q (cg_G r) /\ nonincreasing (cg_log r) /\ last (cg_log r) 0 = cg_val r /\ cg_val r = cg_cost (N:=RNum) n m M reg (gw_f (N:=RNum) n m lg eps l C1 C2 p q) (cg_G r) /\
    cg_cost (N:=RNum) n m M reg (gw_f (N:=RNum) n m lg eps l C1 C2 p q) (cg_G r) <= cg_cost (N:=RNum) n m M reg (gw_f (N:=RNum) n m lg eps l C1 C2 p q) G0).
  { refine (quad_ls_ok n m M reg _ (coupling n m p q) _ _ _ _ fuel p q _ lp G0 K t1 t2 r Hlp H0 E).
    - intros; apply convex_coupling; auto.
    - intros G Gc t HG HGc Ht D. rewrite (CC G HG). rewrite (CC (fun i j => G i j + t * D i j)) by (apply convex_coupling; auto).
      destruct HG as (_ & Gr & Gcc). destruct HGc as (_ & Cr & Ccc).
      assert (Dr : forall i, (i < n)%nat -> row_sum m D i = 0) by (intros i Hi; unfold D; rewrite row_diff, Cr, Gr by auto; ring).
      refine (proj1 (C46_line_search n m lg eps l sym C1 C2 M reg p q G D t Hs Gr Dr) Gcc _). unfold D.
      intros i Hi. rewrite col_diff, Ccc, Gcc by auto. ring. }
  destruct X as (X1 & X2 & X3 & X4 & X5). rewrite (CC _ X1) in X4, X5. rewrite (CC _ H0) in X5. rewrite X3, X4. auto.
Qed.
Print Assumptions C78_fused_gw.

(** C79.  semirelaxed_(fused_)gromov_wasserstein, with its own linear oracle and margin: first
    marginal exactly p, reported loss exact, descent. *)
Definition semi_plan (n m : nat) (p : vec) (T : mat) : Prop := nonneg_mat n m T /\ forall i, (i < n)%nat -> row_sum m T i = p i.
Theorem C79_semirelaxed_gw : forall fuel n m lg eps l sym M reg C1 C2 p q margin G0 K t1 t2 r,
  (0 < m)%nat -> 0 <= margin -> nonneg_vec n p -> semi_plan n m p G0 ->
  semirelaxed_gw (N:=RNum) n m lg eps fuel l sym M reg C1 C2 p q margin (Some G0) K t1 t2 = Some r ->
  let J T := cost n m M T + reg * gw_obj n m (loss_of lg eps l) C1 C2 T in
  semi_plan n m p (cg_G r) /\ last (cg_log r) 0 = J (cg_G r) /\ cg_val r = J (cg_G r) /\ nonincreasing (cg_log r) /\ J (cg_G r) <= J G0.
Proof.
  intros fuel n m lg eps l sym M reg C1 C2 p q margin G0 K t1 t2 r Hm He Hp H0 E J.
  assert (CC : forall G, semi_plan n m p G -> cg_cost (N:=RNum) n m M reg (sr_f (N:=RNum) n m lg eps l C1 C2 p) G = J G).
  { intros G (_ & Hr). rewrite cg_cost_R. unfold J. f_equal. f_equal. apply sr_f_R; auto. }
  assert (CV : forall G Gc t, semi_plan n m p G -> semi_plan n m p Gc -> 0 <= t <= 1 -> semi_plan n m p (fun i j => G i j + t * (Gc i j - G i j))).
  { intros G Gc t (Gn & Gr) (Cn & Cr) Ht. split.
    - intros i j Hi Hj. specialize (Gn i j Hi Hj). specialize (Cn i j Hi Hj). assert (0 <= (1 - t) * G i j) by (apply Rmult_le_pos; lra). assert (0 <= t * Gc i j) by (apply Rmult_le_pos; lra). lra.
    - intros i Hi. unfold row_sum in *. rewrite rsum_plus, rsum_scal, rsum_minus, Gr, Cr by auto. ring. }
  assert (Hlp : forall Mi, semi_plan n m p (semirelaxed_lp (N:=RNum) m margin p Mi)).
  { intros Mi. split; [apply sr_nonneg; auto|intros; apply sr_row; auto]. }
  assert (X : semi_plan n m p (cg_G r) /\ nonincreasing (cg_log r) /\ last (cg_log r) 0 = cg_val r /\ cg_val r = cg_cost (N:=RNum) n m M reg (sr_f (N:=RNum) n m lg eps l C1 C2 p) (cg_G r) /\
    cg_cost (N:=RNum) n m M reg (sr_f (N:=RNum) n m lg eps l C1 C2 p) (cg_G r) <= cg_cost (N:=RNum) n m M reg (sr_f (N:=RNum) n m lg eps l C1 C2 p) G0).
  { refine (quad_ls_ok n m M reg _ (semi_plan n m p) _ _ CV _ fuel p q _ _ G0 K t1 t2 r Hlp H0 E).
    intros G Gc t HG HGc Ht D. rewrite (CC G HG). rewrite (CC (fun i j => G i j + t * D i j)) by (apply CV; auto).
    destruct HG as (_ & Gr). destruct HGc as (_ & Cr).
    refine (proj2 (C46_line_search n m lg eps l false C1 C2 M reg p (fun _ => 0) G D t _ Gr _)); [discriminate|unfold D].
    intros i Hi. rewrite row_diff, Cr, Gr by auto. ring. }
  destruct X as (X1 & X2 & X3 & X4 & X5). rewrite (CC _ X1) in X4, X5. rewrite (CC _ H0) in X5. rewrite X3, X4. auto.
Qed.
Print Assumptions C79_semirelaxed_gw.

(** C80.  partial_(fused_)gromov_wasserstein: the gradient it updates incrementally along the line
    search is always the true gradient at the current plan, the reported loss is that of the
    returned plan, losses never increase; and if the start and the oracle's answers are
    sub-couplings of mass w (the oracle: C44), so is the result. *)
Definition partial_plan (n m : nat) (p q : vec) (w : R) (T : mat) : Prop := subcoupling n m p q T /\ total n m T = w.
Lemma row_conv : forall m (G H : mat) t i, row_sum m (fun i j => G i j + t * (H i j - G i j)) i = row_sum m G i + t * (row_sum m H i - row_sum m G i).
Proof. intros. unfold row_sum. rewrite rsum_plus, rsum_scal, rsum_minus. reflexivity. Qed.
Lemma col_conv : forall n (G H : mat) t j, col_sum n (fun i j => G i j + t * (H i j - G i j)) j = col_sum n G j + t * (col_sum n H j - col_sum n G j).
Proof. intros. unfold col_sum. rewrite rsum_plus, rsum_scal, rsum_minus. reflexivity. Qed.
Lemma partial_convex : forall n m p q w G Gc t, partial_plan n m p q w G -> partial_plan n m p q w Gc -> 0 <= t <= 1 ->
  partial_plan n m p q w (fun i j => G i j + t * (Gc i j - G i j)).
Proof.
  intros n m p q w G Gc t ((Gn & Gr & Gcc) & Gt) ((Cn & Cr & Ccc) & Ct) Ht. split; [split; [|split]|].
  - intros i j Hi Hj. specialize (Gn i j Hi Hj). specialize (Cn i j Hi Hj). assert (0 <= (1 - t) * G i j) by (apply Rmult_le_pos; lra). assert (0 <= t * Gc i j) by (apply Rmult_le_pos; lra). lra.
  - intros i Hi. specialize (Gr i Hi). specialize (Cr i Hi). rewrite row_conv.
    assert (0 <= (1 - t) * (p i - row_sum m G i)) by (apply Rmult_le_pos; lra). assert (0 <= t * (p i - row_sum m Gc i)) by (apply Rmult_le_pos; lra). lra.
  - intros i Hi. specialize (Gcc i Hi). specialize (Ccc i Hi). rewrite col_conv.
    assert (0 <= (1 - t) * (q i - col_sum n G i)) by (apply Rmult_le_pos; lra). assert (0 <= t * (q i - col_sum n Gc i)) by (apply Rmult_le_pos; lra). lra.
  - rewrite <- (dsum_total n m) in *. rewrite dsum_plus, dsum_scal, dsum_minus. change (fun i j : nat => G i j) with G. change (fun i j : nat => Gc i j) with Gc. rewrite Gt, Ct. ring.
Qed.
Lemma partial_start_ok : forall n m p q w, nonneg_vec n p -> nonneg_vec m q -> 0 <= w -> w <= mass n p -> w <= mass m q -> 0 < mass n p -> 0 < mass m q ->
  partial_plan n m p q w (partial_start (N:=RNum) n m p q w).
Proof.
  intros n m p q w Hp Hq W0 W1 W2 Sp Sq.
  assert (E : forall i j, partial_start (N:=RNum) n m p q w i j = p i * (w / (mass n p * mass m q)) * q j).
  { intros. unfold partial_start. rewrite !nsum_R. fold (mass n p) (mass m q). cbn. change (rsum n p) with (mass n p). change (rsum m q) with (mass m q). field. lra. }
  assert (A0 : 0 < mass n p * mass m q) by (apply Rmult_lt_0_compat; auto).
  assert (A1 : 0 <= w / (mass n p * mass m q)) by (apply Rle_mult_inv_pos; auto).
  assert (RS : forall i, row_sum m (partial_start (N:=RNum) n m p q w) i = p i * (w / mass n p)).
  { intro i. unfold row_sum. rewrite (rsum_ext m _ (fun j => p i * (w / (mass n p * mass m q)) * q j)) by (intros; apply E). rewrite rsum_scal. change (rsum m q) with (mass m q). field. lra. }
  assert (L1 : w / mass n p <= 1) by (apply Rmult_le_reg_r with (1 := Sp); auto; unfold Rdiv; rewrite Rmult_assoc, Rinv_l by lra; lra).
  assert (L2 : w / mass m q <= 1) by (apply Rmult_le_reg_r with (1 := Sq); auto; unfold Rdiv; rewrite Rmult_assoc, Rinv_l by lra; lra).
  split; [split; [|split]|].
  - intros i j Hi Hj. rewrite E. apply Rmult_le_pos; [apply Rmult_le_pos|]; auto.
  - intros i Hi. rewrite RS. rewrite <- (Rmult_1_r (p i)) at 2. apply Rmult_le_compat_l; auto.
  - intros j Hj. unfold col_sum. rewrite (rsum_ext n _ (fun i => p i * ((w / (mass n p * mass m q)) * q j))) by (intros; rewrite E; ring). rewrite rsum_scal_r. change (rsum n p) with (mass n p).
    replace (mass n p * (w / (mass n p * mass m q) * q j)) with (q j * (w / mass m q)) by (field; lra). rewrite <- (Rmult_1_r (q j)) at 2. apply Rmult_le_compat_l; auto.
  - unfold total. rewrite (rsum_ext n _ (fun i => p i * (w / mass n p))) by (intros; apply RS). rewrite rsum_scal_r. change (rsum n p) with (mass n p). field. lra.
Qed.
Theorem C80_partial_gw : forall fuel n m lg eps l sym M reg C1 C2 p q lp w G0 K tol r,
  symmetric_if sym n m C1 C2 ->
  let start := match G0 with Some G => G | None => partial_start (N:=RNum) n m p q w end in
  (match G0 with Some G => partial_plan n m p q w G
   | None => nonneg_vec n p /\ nonneg_vec m q /\ 0 <= w /\ w <= mass n p /\ w <= mass m q /\ 0 < mass n p /\ 0 < mass m q end) ->
  (forall Mi, partial_plan n m p q w (lp Mi)) ->
  partial_gw (N:=RNum) n m lg eps fuel l sym M reg C1 C2 p q lp w G0 K tol = Some r ->
  let J T := cost n m M T + reg * gw_obj n m (loss_of lg eps l) C1 C2 T in
  partial_plan n m p q w (cg_G r) /\ last (cg_log r) 0 = J (cg_G r) /\ cg_val r = J (cg_G r) /\ nonincreasing (cg_log r) /\ J (cg_G r) <= J start.
Proof.
  intros fuel n m lg eps l sym M reg C1 C2 p q lp w G0 K tol r Hs start H0 Hlp E J.
  assert (P0 : partial_plan n m p q w start).
  { unfold start. destruct G0 as [G|]; auto. destruct H0 as (h1 & h2 & h3 & h4 & h5 & h6 & h7). apply partial_start_ok; auto. }
  assert (CC : forall G, cg_cost (N:=RNum) n m M reg (pt_f (N:=RNum) n m lg eps l C1 C2) G = J G).
  { intros G. rewrite cg_cost_R. unfold J. f_equal. f_equal. apply pt_f_R; auto. }
  unfold partial_gw in E. fold start in E.
  assert (X : partial_plan n m p q w (cg_G r) /\ nonincreasing (cg_log r) /\ last (cg_log r) 0 = cg_val r /\ cg_val r = cg_cost (N:=RNum) n m M reg (pt_f (N:=RNum) n m lg eps l C1 C2) (cg_G r) /\
    cg_cost (N:=RNum) n m M reg (pt_f (N:=RNum) n m lg eps l C1 C2) (cg_G r) <= cg_cost (N:=RNum) n m M reg (pt_f (N:=RNum) n m lg eps l C1 C2) start).
  { refine (cg_on n m M reg _ _ lp _ (partial_plan n m p q w)
      (fun G g => forall i j, (i < n)%nat -> (j < m)%nat -> g i j = gradT n m lg eps l sym C1 C2 G i j) K tol 0 _ _ fuel p q start r P0 E).
    - intros G _ i j Hi Hj. apply pt_df_R; auto.
    - intros Fc G D Mi c g HG Hg Ec ED EM. unfold pt_line_search. cbv zeta beta iota.
      set (L := loss_of lg eps l) in *.
      assert (DD : forall i j, (i < n)%nat -> (j < m)%nat -> nsub (n:=RNum) (pt_df (N:=RNum) n m lg eps l sym C1 C2 (fun i j => nadd (n:=RNum) (D i j) (G i j)) i j) (g i j) = gradT n m lg eps l sym C1 C2 D i j).
      { intros i j Hi Hj. rewrite pt_df_R, Hg by auto. rewrite (gradT_ext n m lg eps l sym C1 C2 _ (fun i j => G i j + 1 * D i j)) by (intros; cbn; ring). rewrite gradT_add by auto. cbn. ring. }
      set (a := nmul (n:=RNum) reg _). set (b := nadd (n:=RNum) (inner (N:=RNum) n m M D) _).
      assert (Ea : a = reg * gw_bil n m L C1 C2 D D).
      { unfold a. rewrite inner_R. rewrite (dsum_ext n m _ (fun i j => gradT n m lg eps l sym C1 C2 D i j * D i j)) by (intros; rewrite DD; auto). rewrite gradT_ok by auto. unfold half_, two. cbn. fold L. field. }
      assert (Eb : b = cost n m M D + reg * (gw_bil n m L C1 C2 G D + gw_bil n m L C1 C2 D G)).
      { unfold b. rewrite !inner_R. rewrite (dsum_ext n m (fun i j => g i j * D i j) (fun i j => gradT n m lg eps l sym C1 C2 G i j * D i j)) by (intros; rewrite Hg; auto). rewrite gradT_ok by auto. reflexivity. }
      set (al := solve_1d_linesearch_quad (N:=RNum) a b).
      pose proof (quad_ls_range a b) as Ra. pose proof (quad_ls_min a b 0 ltac:(lra)) as Q. cbn zeta in Q. fold al in Ra, Q.
      assert (EX : J (fun i j => G i j + al * D i j) = J G + b * al + a * al ^ 2).
      { unfold J, gw_obj. rewrite bil_expand, cost_add, Ea, Eb. ring. }
      split; [rewrite ED; apply partial_convex; auto|]. rewrite CC in *. split; [etransitivity; [|symmetry; exact EX]; rewrite Ec; cbn; ring|].
      split; [apply Rle_trans with (c + (a * al ^ 2 + b * al)); [right; cbn; ring|]; replace (a * 0 ^ 2 + b * 0) with 0 in Q by ring; rewrite <- (Rplus_0_r c) at 2; apply Rplus_le_compat_l; exact Q|].
      intros i j Hi Hj. rewrite gradT_add, <- DD, <- Hg by auto. reflexivity. }
  destruct X as (X1 & X2 & X3 & X4 & X5). rewrite !CC in *. rewrite X3, X4. auto.
Qed.
Print Assumptions C80_partial_gw.
(** The defect: a start given by the user is checked for G0 1 <= p and G0^T 1 <= q but not for its
    mass.  The zero plan passes, is stationary, and is returned: mass 0 instead of 1/2. *)
Theorem C80_start_mass_refuted : exists r,
  partial_gw (N:=QNum) 1 1 (fun x => x) 0%Q 10 SquareLoss true (fun _ _ => 0%Q) 1%Q (fun _ _ => 1%Q) (fun _ _ => 0%Q) (fun _ => 1%Q) (fun _ => 1%Q)
    (fun _ _ _ => (1 # 2)%Q) (1 # 2)%Q (Some (fun _ _ => 0%Q)) 10 (1 # 1000000000) = Some r /\ (cg_G r 0%nat 0%nat == 0)%Q.
Proof. eexists. split; [vm_compute; reflexivity|]. vm_compute. reflexivity. Qed.
Print Assumptions C80_start_mass_refuted.

(** C81.  A round of (fused) Gromov-Wasserstein that makes no step certifies first-order
    stationarity: if the oracle's answer is optimal for the linearised cost and the step is 0, no
    coupling improves the linearised objective. *)
Theorem C81_stalled_is_stationary : forall n m lg eps l sym M reg C1 C2 p q G Gc,
  symmetric_if sym n m C1 C2 -> coupling n m p q G ->
  let Mi := fun i j => M i j + reg * gw_df (N:=RNum) n m lg eps l sym C1 C2 p q G i j in
  optimal_coupling n m p q Mi Gc ->
  let D := fun i j => Gc i j - G i j in
  solve_1d_linesearch_quad (N:=RNum) (gl_a (N:=RNum) n m (hC1 (N:=RNum) l C1) (hC2 (N:=RNum) lg eps l C2) reg G D)
    (gl_b (N:=RNum) n m sym (hC1 (N:=RNum) l C1) (hC2 (N:=RNum) lg eps l C2) M reg G D) = 0 ->
  forall T, coupling n m p q T -> 0 <= rsum n (fun i => rsum m (fun j => Mi i j * (T i j - G i j))).
Proof.
  intros n m lg eps l sym M reg C1 C2 p q G Gc Hs (Gn & Gr & Gcc) Mi (HC & HO) D HZ T HT.
  destruct HC as (Cn & Cr & Ccc).
  assert (Dr : zero_rows n m D). { intros i Hi. unfold D. rewrite row_diff, Cr, Gr by auto. ring. }
  assert (Dc : zero_cols n m D). { intros i Hi. unfold D. rewrite col_diff, Ccc, Gcc by auto. ring. }
  set (a := gl_a (N:=RNum) n m _ _ _ _ _) in HZ. set (b := gl_b (N:=RNum) n m _ _ _ _ _ _ _) in HZ.
  assert (Eb : b = dsum n m (fun i j => Mi i j * D i j)).
  { unfold b. rewrite (gl_b_R n m lg eps l sym C1 C2 Hs M reg G D Dr Dc). rewrite <- (gradT_ok n m lg eps l sym C1 C2 Hs). 
    change (cost n m M D) with (dsum n m (fun i j => M i j * D i j)). rewrite <- dsum_scal, <- dsum_plus. apply dsum_ext; intros. unfold Mi. rewrite (gw_df_R n m lg eps l sym C1 C2 Hs p q G) by auto. ring. }
  assert (B0 : 0 <= b).
  { pose proof (quad_ls_min a b) as Q. rewrite HZ in Q. cbv zeta in Q. destruct (Rle_dec 0 b) as [|NB]; auto. exfalso.
    assert (Hb : b < 0) by lra. set (t := Rmin 1 (- b / (2 * (Rabs a + 1)))).
    assert (Pa : 0 <= Rabs a) by apply Rabs_pos. assert (La : a <= Rabs a) by apply Rle_abs.
    assert (T0 : 0 < - b / (2 * (Rabs a + 1))) by (apply Rdiv_lt_0_compat; lra).
    assert (Ht : 0 < t <= 1) by (unfold t; split; [apply Rmin_glb_lt; lra|apply Rmin_l]).
    assert (Ht2 : t * (2 * (Rabs a + 1)) <= - b).
    { apply Rle_trans with ((- b / (2 * (Rabs a + 1))) * (2 * (Rabs a + 1))); [apply Rmult_le_compat_r; [lra|apply Rmin_r]|right; field; lra]. }
    specialize (Q t ltac:(lra)). assert (a * t ^ 2 + b * t < 0); [|nra].
    assert (t * (a * t + b) < 0); [|nra]. assert (a * t + b < 0); [|nra]. nra. }
  rewrite Eb in B0. specialize (HO T HT). unfold cost in HO. fold (dsum n m (fun i j => Mi i j * Gc i j)) (dsum n m (fun i j => Mi i j * T i j)) in HO.
  unfold D in B0. fold (dsum n m (fun i j => Mi i j * (T i j - G i j))).
  rewrite (dsum_ext n m _ (fun i j => Mi i j * Gc i j - Mi i j * G i j)) in B0 by (intros; ring). rewrite dsum_minus in B0.
  rewrite (dsum_ext n m _ (fun i j => Mi i j * T i j - Mi i j * G i j)) by (intros; ring). rewrite dsum_minus. lra.
Qed.
Print Assumptions C81_stalled_is_stationary.

(** a run: two three-point spaces at distances 1/2 and 2/1, C2 a relabelling of C1; the start is
    the product coupling, the oracle answers the right matching; loss 0 is reached in one step *)
Definition ex_C1 (i j : nat) : Q := match i, j with 0, 1 | 1, 0 => 1%Q | 0, 2 | 2, 0 => 2%Q | 1, 2 | 2, 1 => 3%Q | _, _ => 0%Q end%nat.
Definition ex_s (i : nat) : nat := match i with 0 => 1 | 1 => 2 | _ => 0 end%nat.
Definition ex_C2 (i j : nat) : Q := ex_C1 (ex_s i) (ex_s j).
Example gw_run : match gromov_wasserstein (N:=QNum) 3 3 (fun x => x) 0%Q 20 SquareLoss true ex_C1 ex_C2 (fun _ => (1 # 3)%Q) (fun _ => (1 # 3)%Q)
    (fun _ i j => if Nat.eqb i (ex_s j) then (1 # 3)%Q else 0%Q) None 10 (1 # 1000000000) (1 # 1000000000) with
  | Some r => (Qeq_bool (cg_val r) 0 && Qeq_bool (cg_G r 1%nat 0%nat) (1 # 3) && Nat.eqb (length (cg_log r)) 3)%bool = true | None => False end.
Proof. vm_compute. reflexivity. Qed.
