(** C162: the linear unmixings of ot.gromov (Gdict_model.v). *)
From Coq Require Import List Arith Bool Reals Lra Lia QArith Qreduction.
From Verif Require Import Num Sums Spec NS_dense Duals_proofs Emd1d_perm_proofs Entropy Emd1d_model Sinkhorn_model Lrgw_proofs Optim_model Optim_proofs Gdict_model Gdict_proofs.
Import ListNotations.
Local Open Scope R_scope.

(** ** specification *)
(** the structure (or features) w composes from the atoms Z 0, ..., Z (D - 1) *)
Definition composed (D : nat) (w : vec) (Z : nat -> mat) : mat := fun k l => rsum D (fun d => w d * Z d k l).
(** squared Gromov-Wasserstein objective of the plan T between the structures A and B *)
Definition gwval (ns nt : nat) (A B T : mat) : R :=
  dsum ns nt (fun i k => dsum ns nt (fun i' k' => (A i i' - B k k') * (A i i' - B k k') * T i k * T i' k')).
(** transport cost of the squared Euclidean distances of the features *)
Definition featval (ns nt e : nat) (Y Z T : mat) : R := dsum ns nt (fun i k => T i k * rsum e (fun f => (Y i f - Z k f) * (Y i f - Z k f))).
(** the objective of the docstrings *)
Definition unmix_obj (ns nt D e : nat) (C : mat) (Cd : nat -> mat) (Y : mat) (Yd : nat -> mat) (reg alpha : R) (T : mat) (w : vec) : R :=
  alpha * gwval ns nt C (composed D w Cd) T + (1 - alpha) * featval ns nt e Y (composed D w Yd) T - reg * rsum D (fun d => w d * w d).
Definition plain_obj (ns nt D : nat) (C : mat) (Cd : nat -> mat) (reg : R) (T : mat) (w : vec) : R :=
  gwval ns nt C (composed D w Cd) T - reg * rsum D (fun d => w d * w d).
Definition simplex (D : nat) (w : vec) : Prop := nonneg_vec D w /\ rsum D w = 1.
(** the embedded structure and features carried along are those composed by the weights *)
Definition embeds (D : nat) (Cd Yd : nat -> mat) (s : ust (N:=RNum)) : Prop :=
  (forall k l, u_C s k l = composed D (u_w s) Cd k l) /\ (forall k f, u_Y s k f = composed D (u_w s) Yd k f).
Definition symm (n : nat) (A : mat) : Prop := forall i j, (i < n)%nat -> (j < n)%nat -> A i j = A j i.

Lemma obj_spec : forall ns nt D e C Cd Y Yd reg alpha T w, unmix_obj ns nt D e C Cd Y Yd reg alpha T w = obj ns nt D e C Cd Y Yd reg alpha T w.
Proof. reflexivity. Qed.
Lemma plain_spec : forall ns nt D e C Cd Y Yd reg T w, plain_obj ns nt D C Cd reg T w = obj ns nt D e C Cd Y Yd reg 1 T w.
Proof. intros. unfold plain_obj, obj. change (gwval ns nt C (composed D w Cd) T) with (gw ns nt C (emb D w Cd) T). ring. Qed.
Lemma quad_deriv : forall (f : R -> R) A B K, (forall t, f t = A + t * B + t * t * K) -> derivable_pt_lim f 0 B.
Proof.
  intros f A B K E eps He. assert (P : 0 < eps / (Rabs K + 1)) by (apply Rdiv_lt_0_compat; auto; assert (H := Rabs_pos K); lra). exists (mkposreal _ P). intros h Hh Hd. cbn [pos] in Hd.
  rewrite !E. replace ((A + (0 + h) * B + (0 + h) * (0 + h) * K - (A + 0 * B + 0 * 0 * K)) / h - B) with (h * K) by (field; auto).
  rewrite Rabs_mult. assert (HK := Rabs_pos K). apply Rle_lt_trans with (Rabs h * (Rabs K + 1)); [apply Rmult_le_compat_l; [apply Rabs_pos|lra]|].
  apply Rmult_lt_reg_r with (/ (Rabs K + 1)); [apply Rinv_0_lt_compat; lra|]. rewrite Rmult_assoc, Rinv_r by lra. unfold Rdiv in Hd. lra.
Qed.
(** ** the gradients of the two inner solvers *)
Theorem C162_gradient : forall ns nt D e C Cd Y Yd q reg alpha T s v, symm ns C -> (forall k, (k < nt)%nat -> col_sum ns T k = q k) -> embeds D Cd Yd s ->
  derivable_pt_lim (fun t => unmix_obj ns nt D e C Cd Y Yd reg alpha T (fun d => u_w s d + t * v d)) 0 (dot D (fgw_grad (N:=RNum) ns nt e C Cd Y Yd q reg alpha T s) v) /\
  derivable_pt_lim (fun t => plain_obj ns nt D C Cd reg T (fun d => u_w s d + t * v d)) 0 (dot D (gw_grad (N:=RNum) ns nt C Cd q reg T s) v).
Proof.
  intros ns nt D e C Cd Y Yd q reg alpha T s v HC Hq Hs. split.
  - apply (quad_deriv _ (obj ns nt D e C Cd Y Yd reg alpha T (u_w s)) _ (objsq ns nt D e Cd Yd q reg alpha T v)). intros t. rewrite obj_spec, (obj_quad ns nt D e C Cd Y Yd q reg alpha T HC Hq).
    f_equal. f_equal. f_equal. apply rsum_ext; intros d _. destruct (right_fgw ns nt D e C Cd Y Yd q reg T Hq alpha s Hs) as (E & _). rewrite E. reflexivity.
  - apply (quad_deriv _ (obj ns nt D e C Cd Y Yd reg 1 T (u_w s)) _ (objsq ns nt D e Cd Yd q reg 1 T v)). intros t. rewrite (plain_spec ns nt D e C Cd Y Yd), (obj_quad ns nt D e C Cd Y Yd q reg 1 T HC Hq).
    f_equal. f_equal. f_equal. apply rsum_ext; intros d _. destruct (right_gw ns nt D e C Cd Y Yd q reg T s Hs) as (E & _). rewrite E. reflexivity.
Qed.
Print Assumptions C162_gradient.

(** ** the inner solvers *)
(** one iteration: the new weights are the best on the segment towards a minimiser of the linearised objective over the simplex; the new loss is the objective there *)
Definition best_step (D : nat) (f : vec -> R) (w w' : vec) : Prop :=
  exists x, simplex D x /\
    (forall y, simplex D y -> exists gx gy, derivable_pt_lim (fun t => f (fun d => w d + t * (x d - w d))) 0 gx /\ derivable_pt_lim (fun t => f (fun d => w d + t * (y d - w d))) 0 gy /\ gx <= gy) /\
    (exists g, 0 <= g <= 1 /\ forall d, w' d = w d + g * (x d - w d)) /\
    (forall t, 0 <= t <= 1 -> f w' <= f (fun d => w d + t * (x d - w d))).
Lemma best_step_gen : forall ns nt D e C Cd Y Yd q reg alpha T grad ls s loss s' loss' (f : vec -> R), (forall w, f w = obj ns nt D e C Cd Y Yd reg alpha T w) ->
  (0 < D)%nat -> symm ns C -> (forall k, (k < nt)%nat -> col_sum ns T k = q k) -> right_ls ns nt D e C Cd Y Yd q reg alpha T grad ls ->
  embeds D Cd Yd s -> simplex D (u_w s) -> loss = f (u_w s) -> um_step (N:=RNum) D Cd Yd grad ls T s loss = (s', loss') ->
  embeds D Cd Yd s' /\ simplex D (u_w s') /\ loss' = f (u_w s') /\ loss' <= loss /\ best_step D f (u_w s) (u_w s').
Proof.
  intros ns nt D e C Cd Y Yd q reg alpha T grad ls s loss s' loss' f Ef HD HC Hq Hr Hs Hw Hl E.
  assert (I : inv ns nt D e C Cd Y Yd reg alpha T s loss) by (split; [exact Hs|split; [exact Hw|rewrite Hl; apply Ef]]).
  destruct (step_spec ns nt D e C Cd Y Yd q reg alpha HD HC T grad ls Hq Hr s loss s' loss' I E) as ((I1 & I2 & I3) & L & _ & B & _).
  split; [exact I1|split; [exact I2|split; [rewrite Ef; exact I3|split; [exact L|]]]].
  destruct (dir_spec D (grad T s) HD) as (X1 & X2). exists (um_dir (N:=RNum) D (grad T s)). split; [exact X1|split; [|split]].
  - intros y Hy. set (G := objgrad ns nt D e C Cd Y Yd q reg alpha T (u_w s)). exists (dot D G (fun d => um_dir (N:=RNum) D (grad T s) d - u_w s d)), (dot D G (fun d => y d - u_w s d)).
    assert (Dv : forall z : vec, derivable_pt_lim (fun t => f (fun d => u_w s d + t * (z d - u_w s d))) 0 (dot D G (fun d => z d - u_w s d))).
    { intros z. apply (quad_deriv _ (obj ns nt D e C Cd Y Yd reg alpha T (u_w s)) _ (objsq ns nt D e Cd Yd q reg alpha T (fun d => z d - u_w s d))). intros t. rewrite Ef.
      apply (obj_quad ns nt D e C Cd Y Yd q reg alpha T HC Hq (u_w s) (fun d => z d - u_w s d) t). }
    split; [apply Dv|split; [apply Dv|]]. specialize (X2 y Hy). destruct (Hr s Hs) as (Eg & _).
    assert (Dm : forall z : vec, dot D G (fun d => z d - u_w s d) = dot D (grad T s) z - dot D (grad T s) (u_w s)).
    { intros z. unfold dot. rewrite <- rsum_minus. apply rsum_ext; intros d _. rewrite Eg. unfold G. change (carrier RNum) with R in *. ring. }
    rewrite !Dm. change (carrier RNum) with R in *. lra.
  - unfold um_step in E. destruct (ls T s (um_dir (N:=RNum) D (grad T s))) as (a, b) eqn:Eab. inversion E; subst s' loss'. exists (um_gamma (N:=RNum) a b). split; [apply (gamma_spec a b)|]. intros d. reflexivity.
  - intros t Ht. rewrite !Ef. rewrite <- I3. apply B; exact Ht.
Qed.
Theorem C162_step : forall ns nt D e C Cd Y Yd q reg alpha T s loss s' loss', (0 < D)%nat -> symm ns C -> (forall k, (k < nt)%nat -> col_sum ns T k = q k) ->
  embeds D Cd Yd s -> simplex D (u_w s) ->
  (let f := unmix_obj ns nt D e C Cd Y Yd reg alpha T in loss = f (u_w s) ->
   um_step (N:=RNum) D Cd Yd (fgw_grad (N:=RNum) ns nt e C Cd Y Yd q reg alpha) (fgw_ls (N:=RNum) ns nt D e C Cd Y Yd q reg alpha) T s loss = (s', loss') ->
   embeds D Cd Yd s' /\ simplex D (u_w s') /\ loss' = f (u_w s') /\ loss' <= loss /\ best_step D f (u_w s) (u_w s')) /\
  (let f := plain_obj ns nt D C Cd reg T in loss = f (u_w s) ->
   um_step (N:=RNum) D Cd Yd (gw_grad (N:=RNum) ns nt C Cd q reg) (gw_ls (N:=RNum) ns nt D C Cd q reg) T s loss = (s', loss') ->
   embeds D Cd Yd s' /\ simplex D (u_w s') /\ loss' = f (u_w s') /\ loss' <= loss /\ best_step D f (u_w s) (u_w s')).
Proof.
  intros ns nt D e C Cd Y Yd q reg alpha T s loss s' loss' HD HC Hq Hs Hw. split; intros f Hl E.
  - apply (best_step_gen ns nt D e C Cd Y Yd q reg alpha T _ _ s loss s' loss' f (fun w => eq_refl) HD HC Hq (right_fgw ns nt D e C Cd Y Yd q reg T Hq alpha) Hs Hw Hl E).
  - apply (best_step_gen ns nt D e C Cd Y Yd q reg 1 T _ _ s loss s' loss' f (fun w => plain_spec ns nt D e C Cd Y Yd reg T w) HD HC Hq (right_gw ns nt D e C Cd Y Yd q reg T) Hs Hw Hl E).
Qed.
Print Assumptions C162_step.
(** a whole call, started from a criterion that does not stop it, with tol <= 0 and stopped by the criterion, ends where no feasible direction descends *)
Definition no_descent (D : nat) (f : vec -> R) (w : vec) : Prop := forall y, simplex D y -> exists g, derivable_pt_lim (fun t => f (fun d => w d + t * (y d - w d))) 0 g /\ 0 <= g.
Lemma inner_gen : forall ns nt D e C Cd Y Yd q reg alpha small T grad ls tol max_iter s loss s' loss' stopped (f : vec -> R), (forall w, f w = obj ns nt D e C Cd Y Yd reg alpha T w) ->
  (0 < D)%nat -> 0 < small -> symm ns C -> (forall k, (k < nt)%nat -> col_sum ns T k = q k) -> right_ls ns nt D e C Cd Y Yd q reg alpha T grad ls ->
  embeds D Cd Yd s -> simplex D (u_w s) -> loss = f (u_w s) -> um_loop (N:=RNum) D Cd Yd small grad ls tol max_iter T None s loss = (s', loss', stopped) ->
  embeds D Cd Yd s' /\ simplex D (u_w s') /\ loss' = f (u_w s') /\ loss' <= loss /\
  (stopped = true -> tol <= 0 -> no_descent D f (u_w s') /\
     (0 <= alpha <= 1 -> reg <= 0 -> nonneg_vec nt q -> nonneg_mat ns nt T -> forall y, simplex D y -> f (u_w s') <= f y)).
Proof.
  intros ns nt D e C Cd Y Yd q reg alpha small T grad ls tol max_iter s loss s' loss' stopped f Ef HD Hsm HC Hq Hr Hs Hw Hl E.
  assert (I : inv ns nt D e C Cd Y Yd reg alpha T s loss) by (split; [exact Hs|split; [exact Hw|rewrite Hl; apply Ef]]).
  destruct (loop_spec ns nt D e C Cd Y Yd q reg alpha small HD HC T grad ls tol Hq Hr max_iter None s loss s' loss' stopped I E Hsm ltac:(discriminate)) as ((I1 & I2 & I3) & L & St).
  split; [exact I1|split; [exact I2|split; [rewrite Ef; exact I3|split; [exact L|]]]]. intros Hb Ht. specialize (St Hb Ht).
  assert (Qd : forall y t, f (fun d => u_w s' d + t * (y d - u_w s' d)) = obj ns nt D e C Cd Y Yd reg alpha T (u_w s') + t * dot D (objgrad ns nt D e C Cd Y Yd q reg alpha T (u_w s')) (fun d => y d - u_w s' d) + t * t * objsq ns nt D e Cd Yd q reg alpha T (fun d => y d - u_w s' d)).
  { intros y t. rewrite Ef. apply (obj_quad ns nt D e C Cd Y Yd q reg alpha T HC Hq (u_w s') (fun d => y d - u_w s' d) t). }
  split.
  - intros y Hy. eexists. split; [eapply quad_deriv; apply Qd|]. apply St. exact Hy.
  - intros Ha Hreg Hq0 HT y Hy.
    assert (Ey : f y = f (fun d => u_w s' d + 1 * (y d - u_w s' d))).
    { assert (EZ : forall Z k l, emb D (fun d => u_w s' d + 1 * (y d - u_w s' d)) Z k l = emb D y Z k l) by (intros; unfold emb; apply rsum_ext; intros; ring).
      rewrite !Ef. unfold obj. symmetry. f_equal; [f_equal; f_equal; [apply gw_ext|apply feat_ext]; intros; apply EZ|]. f_equal. apply rsum_ext; intros; ring. }
    rewrite Ey, Qd, Ef. assert (P := objsq_nonneg ns nt D e Cd Yd q reg T alpha (fun d => y d - u_w s' d) Ha Hreg Hq0 HT). specialize (St y Hy). lra.
Qed.
Theorem C162_inner : forall ns nt D e C Cd Y Yd q reg alpha small T tol max_iter s loss s' loss' stopped, (0 < D)%nat -> 0 < small -> symm ns C ->
  (forall k, (k < nt)%nat -> col_sum ns T k = q k) -> embeds D Cd Yd s -> simplex D (u_w s) ->
  (let f := unmix_obj ns nt D e C Cd Y Yd reg alpha T in loss = f (u_w s) ->
   um_loop (N:=RNum) D Cd Yd small (fgw_grad (N:=RNum) ns nt e C Cd Y Yd q reg alpha) (fgw_ls (N:=RNum) ns nt D e C Cd Y Yd q reg alpha) tol max_iter T None s loss = (s', loss', stopped) ->
   embeds D Cd Yd s' /\ simplex D (u_w s') /\ loss' = f (u_w s') /\ loss' <= loss /\
   (stopped = true -> tol <= 0 -> no_descent D f (u_w s') /\
      (0 <= alpha <= 1 -> reg <= 0 -> nonneg_vec nt q -> nonneg_mat ns nt T -> forall y, simplex D y -> f (u_w s') <= f y))) /\
  (let f := plain_obj ns nt D C Cd reg T in loss = f (u_w s) ->
   um_loop (N:=RNum) D Cd Yd small (gw_grad (N:=RNum) ns nt C Cd q reg) (gw_ls (N:=RNum) ns nt D C Cd q reg) tol max_iter T None s loss = (s', loss', stopped) ->
   embeds D Cd Yd s' /\ simplex D (u_w s') /\ loss' = f (u_w s') /\ loss' <= loss /\
   (stopped = true -> tol <= 0 -> no_descent D f (u_w s') /\
      (reg <= 0 -> nonneg_vec nt q -> nonneg_mat ns nt T -> forall y, simplex D y -> f (u_w s') <= f y))).
Proof.
  intros ns nt D e C Cd Y Yd q reg alpha small T tol max_iter s loss s' loss' stopped HD Hsm HC Hq Hs Hw. split; intros f Hl E.
  - apply (inner_gen ns nt D e C Cd Y Yd q reg alpha small T _ _ tol max_iter s loss s' loss' stopped f (fun w => eq_refl) HD Hsm HC Hq (right_fgw ns nt D e C Cd Y Yd q reg T Hq alpha) Hs Hw Hl E).
  - destruct (inner_gen ns nt D e C Cd Y Yd q reg 1 small T _ _ tol max_iter s loss s' loss' stopped f (fun w => plain_spec ns nt D e C Cd Y Yd reg T w) HD Hsm HC Hq (right_gw ns nt D e C Cd Y Yd q reg T) Hs Hw Hl E) as (A & B & K & L & M).
    split; [exact A|split; [exact B|split; [exact K|split; [exact L|]]]]. intros Hb Ht. destruct (M Hb Ht) as (M1 & M2). split; [exact M1|]. intros. apply M2; auto; lra.
Qed.
Print Assumptions C162_inner.

(** ** the whole unmixing, for a transport solver that returns a plan, its value, and never does worse than its warm start *)
Definition gw_solver (ns nt : nat) (p q : vec) (C : mat) (sol : mat -> mat -> mat * R) : Prop :=
  forall E T T' dist, coupling ns nt p q T -> sol E T = (T', dist) -> coupling ns nt p q T' /\ dist = gwval ns nt C E T' /\ dist <= gwval ns nt C E T.
Definition fgw_solver (ns nt : nat) (p q : vec) (C : mat) (alpha : R) (sol : mat -> mat -> mat -> mat * R) : Prop :=
  let val := fun M E T => alpha * gwval ns nt C E T + (1 - alpha) * dsum ns nt (fun i k => M i k * T i k) in
  forall M E T T' dist, coupling ns nt p q T -> sol M E T = (T', dist) -> coupling ns nt p q T' /\ dist = val M E T' /\ dist <= val M E T.
Theorem C162_feature_cost : forall e Y s i k, feat_cost (N:=RNum) e Y s i k = rsum e (fun f => (Y i f - u_Y s k f) * (Y i f - u_Y s k f)).
Proof.
  intros. unfold feat_cost, two. cbn [nadd nsub nmul n1 RNum]. rewrite !nsum_R.
  rewrite (rsum_ext e (fun f => (Y i f - u_Y s k f) * (Y i f - u_Y s k f)) (fun f => Y i f * Y i f * 1 + 1 * (u_Y s k f * u_Y s k f) - 2 * (Y i f * u_Y s k f))) by (intros; change (carrier RNum) with R in *; ring).
  rewrite rsum_minus, rsum_plus, !rsum_scal. change (carrier RNum) with R in *. replace (1 + 1) with 2 by ring. reflexivity.
Qed.
Print Assumptions C162_feature_cost.
Definition uniform (D : nat) : vec := fun _ => 1 / INR D.
Lemma uniform_simplex : forall D, (0 < D)%nat -> simplex D (uniform D).
Proof.
  intros D HD. assert (P : 0 < INR D) by (apply lt_0_INR; auto). split; [intros d _; unfold uniform; apply Rlt_le, Rdiv_lt_0_compat; lra|]. unfold uniform. rewrite rsum_const. field. lra.
Qed.
Lemma product_coupling : forall ns nt p q, nonneg_vec ns p -> nonneg_vec nt q -> rsum ns p = 1 -> rsum nt q = 1 -> coupling ns nt p q (fun i k => p i * q k).
Proof.
  intros ns nt p q Hp Hq Sp Sq. split; [intros i k Hi Hk; apply Rmult_le_pos; [apply Hp|apply Hq]; auto|]. split; intros; unfold row_sum, col_sum; [rewrite rsum_scal, Sq|rewrite rsum_scal_r, Sp]; ring.
Qed.
Theorem C162_unmixing : forall ns nt D e C Cd Y Yd p q reg alpha small big tol tol_outer max_iter max_outer,
  (0 < D)%nat -> 0 < small -> symm ns C -> nonneg_vec ns p -> nonneg_vec nt q -> rsum ns p = 1 -> rsum nt q = 1 ->
  (forall sol s T loss, fgw_solver ns nt p q C alpha sol -> let f := unmix_obj ns nt D e C Cd Y Yd reg alpha in
   fgw_unmixing (N:=RNum) ns nt D e C Cd Y Yd q reg alpha small big sol tol tol_outer max_iter p max_outer = (s, T, loss) ->
   embeds D Cd Yd s /\ simplex D (u_w s) /\ coupling ns nt p q T /\ f T (u_w s) <= f (fun i k => p i * q k) (uniform D) /\ (max_outer <> O -> loss = f T (u_w s))) /\
  (forall sol s T loss, gw_solver ns nt p q C sol -> let f := plain_obj ns nt D C Cd reg in
   gw_unmixing (N:=RNum) ns nt D C Cd Yd q reg small big sol tol tol_outer max_iter p max_outer = (s, T, loss) ->
   embeds D Cd Yd s /\ simplex D (u_w s) /\ coupling ns nt p q T /\ f T (u_w s) <= f (fun i k => p i * q k) (uniform D) /\ (max_outer <> O -> loss = f T (u_w s))).
Proof.
  intros ns nt D e C Cd Y Yd p q reg alpha small big tol tol_outer max_iter max_outer HD Hsm HC Hp Hq Sp Sq.
  assert (W : forall d, u_w (um_start (N:=RNum) D Cd Yd) d = uniform D d) by (intros; unfold um_start, uniform; cbn [u_w ndiv n1 RNum]; rewrite nofnat_INR; reflexivity).
  assert (Cs : consistent D Cd Yd (um_start (N:=RNum) D Cd Yd)) by (split; intros; unfold um_start; cbn [u_C u_Y u_w]; apply embed_R).
  assert (Sw : in_simplex D (u_w (um_start (N:=RNum) D Cd Yd))).
  { destruct (uniform_simplex D HD) as (U1 & U2). split; [intros d Hd; rewrite W; apply U1; auto|]. rewrite <- U2. apply rsum_ext; intros; apply W. }
  assert (EZ : forall Z k l, emb D (u_w (um_start (N:=RNum) D Cd Yd)) Z k l = emb D (uniform D) Z k l) by (intros; unfold emb; apply rsum_ext; intros; rewrite W; reflexivity).
  assert (EF : forall al T, obj ns nt D e C Cd Y Yd reg al T (u_w (um_start (N:=RNum) D Cd Yd)) = obj ns nt D e C Cd Y Yd reg al T (uniform D)).
  { intros. unfold obj. f_equal; [f_equal; f_equal; [apply gw_ext|apply feat_ext]; intros; apply EZ|]. f_equal. apply rsum_ext; intros; rewrite W; reflexivity. }
  split; intros sol s T loss Hsol f E.
  - unfold fgw_unmixing, unmixing in E.
    assert (O := outer_spec ns nt D e C Cd Y Yd q reg alpha small HD HC p _ _ (fun s T => sol (feat_cost (N:=RNum) e Y s) (u_C s) T) tol tol_outer max_iter (fun T Hq => right_fgw ns nt D e C Cd Y Yd q reg T Hq alpha) Hsm).
    match type of O with ?A -> _ => assert (PA : A) end.
    + intros s0 T0 T' dist (C0 & Y0) _ HT Es. cbn beta in Es. destruct (Hsol _ _ _ _ _ HT Es) as (S1 & S2 & S3). split; [exact S1|].
      assert (EV : forall T, alpha * gwval ns nt C (u_C s0) T + (1 - alpha) * dsum ns nt (fun i k => feat_cost (N:=RNum) e Y s0 i k * T i k) = gcost ns nt D e C Cd Y Yd alpha T (u_w s0)).
      { intros T1. unfold gcost. f_equal; f_equal; [apply gw_ext; exact C0|]. unfold feat. apply dsum_ext; intros. rewrite C162_feature_cost, Rmult_comm. f_equal. apply rsum_ext; intros. rewrite Y0. reflexivity. }
      rewrite <- !EV. split; [exact S2|exact S3].
    + destruct (O PA max_outer None _ _ big s T loss Cs Sw (product_coupling ns nt p q Hp Hq Sp Sq) ltac:(congruence) E) as (A & B & K & L & M).
      split; [exact A|split; [exact B|split; [exact K|split]]]; [unfold f; rewrite !obj_spec, <- EF; exact L|]. intros H. apply M. right. exact H.
  - unfold gw_unmixing, unmixing in E.
    assert (O := outer_spec ns nt D e C Cd Y Yd q reg 1 small HD HC p _ _ (fun s T => sol (u_C s) T) tol tol_outer max_iter (fun T Hq => right_gw ns nt D e C Cd Y Yd q reg T) Hsm).
    match type of O with ?A -> _ => assert (PA : A) end.
    + intros s0 T0 T' dist (C0 & Y0) _ HT Es. cbn beta in Es. destruct (Hsol _ _ _ _ HT Es) as (S1 & S2 & S3). split; [exact S1|].
      assert (EV : forall T, gwval ns nt C (u_C s0) T = gcost ns nt D e C Cd Y Yd 1 T (u_w s0)).
      { intros T1. unfold gcost. rewrite <- (gw_ext ns nt C T1 _ _ C0). change (gwval ns nt C (u_C s0) T1) with (gw ns nt C (u_C s0) T1). ring. }
      rewrite <- !EV. split; [exact S2|exact S3].
    + destruct (O PA max_outer None _ _ big s T loss Cs Sw (product_coupling ns nt p q Hp Hq Sp Sq) ltac:(congruence) E) as (A & B & K & L & M).
      split; [exact A|split; [exact B|split; [exact K|split]]]; [unfold f; rewrite !(plain_spec ns nt D e C Cd Y Yd), <- EF; exact L|]. intros H. unfold f. rewrite (plain_spec ns nt D e C Cd Y Yd). apply M. right. exact H.
Qed.
Print Assumptions C162_unmixing.
(** without an outer iteration the loss returned is the initial 10**15, whatever the data *)
Theorem C162_no_iteration : forall ns nt D e C Cd Y Yd p q reg alpha small big sol tol tol_outer max_iter,
  exists s T, fgw_unmixing (N:=RNum) ns nt D e C Cd Y Yd q reg alpha small big sol tol tol_outer max_iter p 0 = (s, T, big) /\
  (forall d, u_w s d = uniform D d) /\ forall i k, T i k = p i * q k.
Proof.
  intros. exists (um_start (N:=RNum) D Cd Yd), (fun i k => p i * q k). split; [reflexivity|]. split; [|reflexivity]. intros. unfold um_start, uniform. cbn [u_w ndiv n1 RNum]. rewrite nofnat_INR. reflexivity.
Qed.
Print Assumptions C162_no_iteration.

(** ** a symmetric case, computed: from the uniform weights to the exact atom *)
Definition qgw (C E T : nat -> nat -> Q) : Q :=
  s2 (N:=QNum) 2 2 (fun i k => s2 (N:=QNum) 2 2 (fun i' k' => (C i i' - E k k') * (C i i' - E k k') * T i k * T i' k')%Q).
Definition qmat (a b c d : Q) : nat -> nat -> Q := fun i j => match i, j with O, O => a | O, _ => b | _, O => c | _, _ => d end.
Definition qhalf : nat -> nat -> Q := qmat (1 # 2) 0 0 (1 # 2).
Definition qrun (C : nat -> nat -> Q) (Cd : nat -> nat -> nat -> Q) (max_outer : nat) :=
  gw_unmixing (N:=QNum) 2 2 2 C Cd (fun _ _ _ => 0%Q) (fun _ => (1 # 2)%Q) 0%Q (1 # 1000000000000000)%Q 1000000000000000%Q (fun E _ => (qhalf, qgw C E qhalf)) 0%Q 0%Q 10 (fun _ => (1 # 2)%Q) max_outer.
Example C162_case : let C := qmat 0 1 1 0 in let '(s, T, loss) := qrun C (fun d => if Nat.eqb d 0 then C else qmat 0 0 0 0) 10%nat in
  (u_w s 0%nat == 1 /\ u_w s 1%nat == 0 /\ loss == 0 /\ qgw C (u_C s) T == 0)%Q.
Proof. vm_compute. repeat split. Qed.
(** the hypotheses of C162_unmixing are met by the solver that keeps the warm start *)
Example C162_solvers : forall ns nt p q C alpha, gw_solver ns nt p q C (fun E T => (T, gwval ns nt C E T)) /\
  fgw_solver ns nt p q C alpha (fun M E T => (T, alpha * gwval ns nt C E T + (1 - alpha) * dsum ns nt (fun i k => M i k * T i k))).
Proof. intros. split; [unfold gw_solver; intros E T T' dist HT H|unfold fgw_solver; cbv zeta; intros M E T T' dist HT H]; inversion H; subst; split; auto; split; auto; lra. Qed.
(** ** symmetry is needed: for C = [[0, 1], [0, 0]] and the atoms C and C^T, with the solver returning the plan diag(1/2, 1/2) and its exact
    value, one outer iteration goes from the uniform weights (objective 1/8) to the atom C^T and reports the loss 0, although the objective
    there is 1/2; further iterations stay there; C itself is an atom and has objective 0 *)
Theorem C162_asymmetric_refuted : exists (C : nat -> nat -> Q) (Cd : nat -> nat -> nat -> Q), (forall k l, Cd 0%nat k l = C k l) /\
  (let '(s, T, loss) := qrun C Cd 1 in (u_w s 0%nat == 0 /\ u_w s 1%nat == 1 /\ loss == 0 /\ qgw C (u_C s) T == 1 # 2)%Q) /\
  (let '(s, T, loss) := qrun C Cd 10 in (u_w s 0%nat == 0 /\ u_w s 1%nat == 1 /\ loss == 1 # 2)%Q) /\
  (qgw C (fun k l => (1 # 2) * Cd 0%nat k l + (1 # 2) * Cd 1%nat k l) qhalf == 1 # 8 /\ qgw C (Cd 0%nat) qhalf == 0)%Q.
Proof.
  exists (qmat 0 1 0 0), (fun d => if Nat.eqb d 0 then qmat 0 1 0 0 else qmat 0 0 1 0). split; [reflexivity|]. vm_compute. repeat split.
Qed.
Print Assumptions C162_asymmetric_refuted.
