(** Quadratic expansions and the conditional gradient loop of the linear unmixing (Gdict_model.v) over the reals. *)
From Coq Require Import List Arith Bool Reals Lra Lia.
From Verif Require Import Num Sums Spec NS_dense Duals_proofs Entropy Emd1d_model Emd1d_perm_proofs Circle_proofs Sinkhorn_model Sinkhorn_proofs Lowrank_more Lrgw_proofs Optim_model Optim_proofs Gdict_model.
Import ListNotations.
Local Open Scope R_scope.

Lemma s2_R : forall a b (f : mat), s2 (N:=RNum) a b f = dsum a b f.
Proof. intros. unfold s2, dsum. rewrite nsum_R. apply rsum_ext; intros. apply nsum_R. Qed.
(** the structures and features composed from the dictionary *)
Definition emb (D : nat) (w : vec) (Z : nat -> mat) : mat := fun k l => rsum D (fun d => w d * Z d k l).
Lemma embed_R : forall D w Z k l, embed (N:=RNum) D w Z k l = emb D w Z k l.
Proof. intros. unfold embed, emb. rewrite nsum_R. reflexivity. Qed.
Lemma emb_lin : forall D w v t Z k l, emb D (fun d => w d + t * v d) Z k l = emb D w Z k l + t * emb D v Z k l.
Proof. intros. unfold emb. rewrite <- rsum_scal, <- rsum_plus. apply rsum_ext; intros; ring. Qed.
Lemma emb_dot : forall D a b v Z (H : mat), rsum D (fun d => v d * dsum a b (fun k l => Z d k l * H k l)) = dsum a b (fun k l => emb D v Z k l * H k l).
Proof.
  intros. rewrite (rsum_ext D _ (fun d => rsum a (fun k => rsum b (fun l => v d * Z d k l * H k l)))).
  2:{ intros d _. unfold dsum. rewrite <- rsum_scal. apply rsum_ext; intros. rewrite <- rsum_scal. apply rsum_ext; intros; ring. }
  rewrite rsum_swap. apply rsum_ext; intros k _. rewrite rsum_swap. apply rsum_ext; intros l _. unfold emb. rewrite <- rsum_scal_r. reflexivity.
Qed.
(** ** the structure part *)
Section Quad.
Variables (ns nt : nat) (C T : mat) (q : vec).
Hypotheses (HC : forall i j, (i < ns)%nat -> (j < ns)%nat -> C i j = C j i) (Hq : forall k, (k < nt)%nat -> col_sum ns T k = q k).
Lemma tct_R : forall k l, tct (N:=RNum) ns C T k l = rsum ns (fun i => rsum ns (fun j => C i j * T j k * T i l)).
Proof. intros. unfold tct. rewrite nsum_R. apply rsum_ext; intros i _. cbn [nmul RNum]. rewrite nsum_R, <- rsum_scal_r. reflexivity. Qed.
Lemma bil_tct : forall E, bil ns nt C E T T = dsum nt nt (fun k l => E k l * tct (N:=RNum) ns C T k l).
Proof.
  intros E. unfold bil. rewrite (dsum_ext ns nt _ (fun i k => rsum nt (fun l => rsum ns (fun j => C i j * E k l * T i k * T j l)))) by (intros; unfold dsum; apply rsum_swap).
  unfold dsum at 1. rewrite rsum_swap. unfold dsum. apply rsum_ext; intros k _. rewrite rsum_swap. apply rsum_ext; intros l _.
  rewrite tct_R, <- rsum_scal. rewrite rsum_swap. apply rsum_ext; intros j Hj. rewrite <- rsum_scal. apply rsum_ext; intros i Hi. rewrite (HC i j) by auto. ring.
Qed.
Definition linC (E V : mat) : R := 2 * dsum nt nt (fun k l => V k l * (E k l * (q k * q l) - tct (N:=RNum) ns C T k l)).
Definition sqC (V : mat) : R := dsum nt nt (fun k l => V k l * V k l * (q k * q l)).
Lemma gw_E : forall E, gw ns nt C E T = selfsq ns C (row_sum nt T) + sqC E - 2 * dsum nt nt (fun k l => E k l * tct (N:=RNum) ns C T k l).
Proof.
  intros E. rewrite (gw_expand ns nt C E T (row_sum nt T) q) by auto. rewrite bil_tct. f_equal. f_equal. unfold selfsq, sqC, dsum. apply rsum_ext; intros. apply rsum_ext; intros. ring.
Qed.
Lemma gw_ext : forall E E', (forall k l, E k l = E' k l) -> gw ns nt C E T = gw ns nt C E' T.
Proof. intros. unfold gw. apply dsum_ext; intros. apply dsum_ext; intros. rewrite H. reflexivity. Qed.
Lemma gw_quad : forall E V t, gw ns nt C (fun k l => E k l + t * V k l) T = gw ns nt C E T + t * linC E V + t * t * sqC V.
Proof.
  intros E V t. rewrite !gw_E. unfold linC, sqC.
  assert (E1 : dsum nt nt (fun k l => (E k l + t * V k l) * (E k l + t * V k l) * (q k * q l)) =
    dsum nt nt (fun k l => E k l * E k l * (q k * q l)) + 2 * t * dsum nt nt (fun k l => V k l * (E k l * (q k * q l))) + t * t * dsum nt nt (fun k l => V k l * V k l * (q k * q l))).
  { rewrite <- !dsum_scal, <- !dsum_plus. apply dsum_ext; intros; ring. }
  assert (E2 : dsum nt nt (fun k l => (E k l + t * V k l) * tct (N:=RNum) ns C T k l) = dsum nt nt (fun k l => E k l * tct (N:=RNum) ns C T k l) + t * dsum nt nt (fun k l => V k l * tct (N:=RNum) ns C T k l)).
  { rewrite <- dsum_scal, <- dsum_plus. apply dsum_ext; intros; ring. }
  assert (E3 : dsum nt nt (fun k l => V k l * (E k l * (q k * q l) - tct (N:=RNum) ns C T k l)) = dsum nt nt (fun k l => V k l * (E k l * (q k * q l))) - dsum nt nt (fun k l => V k l * tct (N:=RNum) ns C T k l)).
  { rewrite <- dsum_minus. apply dsum_ext; intros; ring. }
  rewrite E1, E2, E3. ring.
Qed.
(** ** the feature part *)
Variables (e : nat) (Y : mat).
Definition feat (Z : mat) : R := dsum ns nt (fun i k => T i k * rsum e (fun f => (Y i f - Z k f) * (Y i f - Z k f))).
Definition linY (Z V : mat) : R := 2 * dsum nt e (fun k f => V k f * (q k * Z k f - rsum ns (fun i => T i k * Y i f))).
Definition sqY (V : mat) : R := dsum ns nt (fun i k => rsum e (fun f => V k f * V k f) * T i k).
Lemma linY_eq : forall Z V, linY Z V = 2 * dsum ns nt (fun i k => T i k * (rsum e (fun f => Z k f * V k f) - rsum e (fun f => Y i f * V k f))).
Proof.
  intros Z V. unfold linY. f_equal. unfold dsum. rewrite (rsum_swap ns nt).
  apply rsum_ext; intros k Hk. rewrite (rsum_ext ns _ (fun i => rsum e (fun f => T i k * (Z k f - Y i f) * V k f))).
  2:{ intros i _. rewrite <- rsum_minus, <- rsum_scal. apply rsum_ext; intros; ring. }
  rewrite rsum_swap. apply rsum_ext; intros f _. rewrite rsum_scal_r. rewrite Rmult_comm. f_equal. rewrite <- (Hq k Hk). unfold col_sum. rewrite <- rsum_scal_r, <- rsum_minus. apply rsum_ext; intros; ring.
Qed.
Lemma feat_quad : forall Z V t, feat (fun k f => Z k f + t * V k f) = feat Z + t * linY Z V + t * t * sqY V.
Proof.
  intros Z V t. rewrite linY_eq. unfold feat, sqY. rewrite <- !dsum_scal, <- !dsum_plus. apply dsum_ext; intros i k _ _.
  assert (E : rsum e (fun f => (Y i f - (Z k f + t * V k f)) * (Y i f - (Z k f + t * V k f))) =
    rsum e (fun f => (Y i f - Z k f) * (Y i f - Z k f)) + 2 * t * (rsum e (fun f => Z k f * V k f) - rsum e (fun f => Y i f * V k f)) + t * t * rsum e (fun f => V k f * V k f)).
  { rewrite <- rsum_minus, <- !rsum_scal, <- !rsum_plus. apply rsum_ext; intros; ring. }
  rewrite E. ring.
Qed.
Lemma feat_ext : forall Z Z', (forall k f, Z k f = Z' k f) -> feat Z = feat Z'.
Proof. intros. unfold feat. apply dsum_ext; intros. f_equal. apply rsum_ext; intros. rewrite H. reflexivity. Qed.
End Quad.

(** ** the objective in w for a fixed plan *)
Section Obj.
Variables (ns nt D e : nat) (C : mat) (Cd : nat -> mat) (Y : mat) (Yd : nat -> mat) (q : vec) (reg alpha : R).
Definition obj (T : mat) (w : vec) : R :=
  alpha * gw ns nt C (emb D w Cd) T + (1 - alpha) * feat ns nt T e Y (emb D w Yd) - reg * rsum D (fun d => w d * w d).
Definition objgrad (T : mat) (w : vec) : vec := fun d =>
  alpha * linC ns nt C T q (emb D w Cd) (Cd d) + (1 - alpha) * linY ns nt T q e Y (emb D w Yd) (Yd d) - 2 * reg * w d.
Definition objsq (T : mat) (v : vec) : R := alpha * sqC nt q (emb D v Cd) + (1 - alpha) * sqY ns nt T e (emb D v Yd) - reg * rsum D (fun d => v d * v d).
Lemma grad_dot : forall T w v, dot D (objgrad T w) v = alpha * linC ns nt C T q (emb D w Cd) (emb D v Cd) + (1 - alpha) * linY ns nt T q e Y (emb D w Yd) (emb D v Yd) - 2 * reg * rsum D (fun d => w d * v d).
Proof.
  intros T w v. unfold objgrad, dot, linC, linY. rewrite <- (emb_dot D nt nt v Cd), <- (emb_dot D nt e v Yd). rewrite <- !rsum_scal, <- rsum_plus, <- rsum_minus. apply rsum_ext; intros; ring.
Qed.
Variables (T : mat).
Hypotheses (HC : forall i j, (i < ns)%nat -> (j < ns)%nat -> C i j = C j i) (Hq : forall k, (k < nt)%nat -> col_sum ns T k = q k).
Lemma obj_quad : forall w v t, obj T (fun d => w d + t * v d) = obj T w + t * dot D (objgrad T w) v + t * t * objsq T v.
Proof.
  intros w v t. rewrite grad_dot. unfold obj, objsq.
  rewrite (gw_ext ns nt C T _ (fun k l => emb D w Cd k l + t * emb D v Cd k l)) by (intros; apply emb_lin). rewrite (gw_quad ns nt C T q HC Hq).
  rewrite (feat_ext ns nt T e Y _ (fun k l => emb D w Yd k l + t * emb D v Yd k l)) by (intros; apply emb_lin). rewrite (feat_quad ns nt T q Hq).
  assert (E : rsum D (fun d => (w d + t * v d) * (w d + t * v d)) = rsum D (fun d => w d * w d) + 2 * t * rsum D (fun d => w d * v d) + t * t * rsum D (fun d => v d * v d)).
  { rewrite <- !rsum_scal, <- !rsum_plus. apply rsum_ext; intros; ring. }
  rewrite E. ring.
Qed.
End Obj.

(** ** direction and step *)
Definition in_simplex (D : nat) (w : vec) : Prop := nonneg_vec D w /\ rsum D w = 1.
Lemma dir_spec : forall D g, (0 < D)%nat -> in_simplex D (um_dir (N:=RNum) D g) /\ forall y, in_simplex D y -> dot D g (um_dir (N:=RNum) D g) <= dot D g y.
Proof.
  intros D g HD. unfold um_dir. set (mn := nmink (N:=RNum) (D - 1) g). set (ind := fun d => if neqb (n:=RNum) (g d) mn then n1 else n0).
  destruct (nmink_R (D - 1) g) as (Mn & (d0 & Hd0 & E0)). fold mn in Mn, E0.
  assert (I : forall d, ind d = 1 /\ g d = mn \/ ind d = 0).
  { intros d. unfold ind. destruct (neqb (n:=RNum) (g d) mn) eqn:E; [left; split; [reflexivity|apply Reqb_true in E; exact E]|right; reflexivity]. }
  assert (I0 : ind d0 = 1) by (unfold ind; cbn [neqb RNum]; rewrite (proj2 (Reqb_true _ _)) by (symmetry; exact E0); reflexivity).
  assert (P : forall d, 0 <= ind d) by (intros d; destruct (I d) as [(-> & _)|H]; [lra|change (carrier RNum) with R in *; rewrite H; lra]).
  rewrite nsum_R. assert (SP : 0 < rsum D ind) by (assert (L := rsum_le_one D ind d0 (fun k _ => P k) ltac:(lia)); change (carrier RNum) with R in *; lra).
  cbn [ndiv RNum]. split.
  - split; [intros d Hd; apply Rmult_le_pos; [apply P|left; apply Rinv_0_lt_compat; auto]|]. rewrite rsum_div. unfold Rdiv. apply Rinv_r, Rgt_not_eq, SP.
  - intros y (Y1 & Y2). apply Rle_trans with mn.
    + right. unfold dot. rewrite (rsum_ext D _ (fun d => mn * (ind d / rsum D ind))).
      * rewrite rsum_scal, rsum_div. assert (E1 : rsum D ind / rsum D ind = 1) by (unfold Rdiv; apply Rinv_r, Rgt_not_eq, SP). transitivity (mn * 1); [f_equal; exact E1|]. change (carrier RNum) with R in *. ring.
      * intros d Hd. destruct (I d) as [(_ & E)|H]; [f_equal; exact E|]. transitivity (g d * (ind d / rsum D ind)); [reflexivity|]. change (carrier RNum) with R in *. rewrite H. unfold Rdiv. rewrite !Rmult_0_l. rewrite !Rmult_0_r. reflexivity.
    + replace mn with (rsum D (fun d => mn * y d)) by (rewrite rsum_scal, Y2; ring). apply rsum_le; intros d Hd. apply Rmult_le_compat_r; [apply Y1; auto|apply Mn; lia].
Qed.
Lemma gamma_spec : forall a b : R, let g : R := um_gamma (N:=RNum) a b in 0 <= g <= 1 /\ (forall t, 0 <= t <= 1 -> a * (g * g) + b * g <= a * (t * t) + b * t) /\ (a * (g * g) + b * g = 0 -> 0 <= b /\ g = 0).
Proof.
  intros a b g. unfold g, um_gamma. cbn [nltb n0 n1 nadd RNum]. destruct (Rltb 0 a) eqn:Ea.
  - apply Rltb_true in Ea. rewrite nmin_R, nmax_R. unfold nopp, two. cbn [nsub ndiv nmul nadd n0 n1 RNum]. set (z := (0 - b) / ((1 + 1) * a)).
    assert (Ez : b = - (2 * a * z)) by (unfold z; field; lra). assert (M0 : 0 <= Rmax 0 z) by apply Rmax_l.
    assert (G : 0 <= Rmin 1 (Rmax 0 z) <= 1) by (split; [apply Rmin_glb; lra|apply Rmin_l]). split; [exact G|].
    assert (Cs : (z <= 0 /\ Rmin 1 (Rmax 0 z) = 0) \/ (0 <= z <= 1 /\ Rmin 1 (Rmax 0 z) = z) \/ (1 <= z /\ Rmin 1 (Rmax 0 z) = 1)).
    { destruct (Rle_dec z 0) as [L|L]; [left; split; auto; rewrite Rmax_left by lra; apply Rmin_right; lra|]. rewrite (Rmax_right 0 z) by lra.
      destruct (Rle_dec z 1); [right; left; split; [lra|apply Rmin_right; lra]|right; right; split; [lra|apply Rmin_left; lra]]. }
    destruct Cs as [(H & ->)|[(H & ->)|(H & ->)]]; rewrite Ez; (split; [intros t Ht|]).
    + assert (0 <= a * (t * (t - 2 * z))); [|lra]. apply Rmult_le_pos; [lra|]. apply Rmult_le_pos; lra.
    + intros _. assert (0 <= a * (- z)) by (apply Rmult_le_pos; lra). split; lra.
    + assert (0 <= a * ((t - z) * (t - z))) by (apply Rmult_le_pos; [lra|apply Rle_0_sqr]). lra.
    + intros Z0. assert (a * (z * z) = 0) by lra. apply Rmult_integral in H0. destruct H0 as [H0|H0]; [lra|]. apply Rmult_integral in H0. assert (z = 0) by (destruct H0; auto). rewrite H1. split; lra.
    + assert (0 <= a * ((1 - t) * (2 * z - 1 - t))); [|lra]. apply Rmult_le_pos; [lra|]. apply Rmult_le_pos; lra.
    + intros Z0. exfalso. assert (0 < a * (2 * z - 1)); [|lra]. apply Rmult_lt_0_compat; lra.
  - apply Rltb_false in Ea. destruct (Rltb (a + b) 0) eqn:Eb; [apply Rltb_true in Eb|apply Rltb_false in Eb]; (split; [lra|]); (split; [intros t Ht|]).
    + assert (0 <= - a * (t * (1 - t))) by (apply Rmult_le_pos; [lra|apply Rmult_le_pos; lra]). assert (0 <= - (a + b) * (1 - t)) by (apply Rmult_le_pos; lra). lra.
    + intros Z0. exfalso. lra.
    + assert (0 <= - a * (t * (1 - t))) by (apply Rmult_le_pos; [lra|apply Rmult_le_pos; lra]). assert (0 <= (a + b) * t) by (apply Rmult_le_pos; lra). lra.
    + intros _. split; lra.
Qed.

(** ** the loops *)
Section Run.
Variables (ns nt D e : nat) (C : mat) (Cd : nat -> mat) (Y : mat) (Yd : nat -> mat) (q : vec) (reg alpha small big : R).
Hypotheses (HD : (0 < D)%nat) (HC : forall i j, (i < ns)%nat -> (j < ns)%nat -> C i j = C j i).
Notation st := (ust (N:=RNum)).
Notation F := (obj ns nt D e C Cd Y Yd reg alpha).
Notation G := (objgrad ns nt D e C Cd Y Yd q reg alpha).
Notation Q2 := (objsq ns nt D e Cd Yd q reg alpha).
Definition consistent (s : st) : Prop := (forall k l, u_C s k l = emb D (u_w s) Cd k l) /\ (forall k f, u_Y s k f = emb D (u_w s) Yd k f).
Definition right_ls (T : mat) (grad : mat -> st -> vec) (ls : mat -> st -> vec -> R * R) : Prop :=
  forall s, consistent s -> (forall d, grad T s d = G T (u_w s) d) /\
    forall x, fst (ls T s x) = Q2 T (fun d => x d - u_w s d) /\ snd (ls T s x) = dot D (G T (u_w s)) (fun d => x d - u_w s d).
Definition stationary (T : mat) (w : vec) : Prop := forall y, in_simplex D y -> 0 <= dot D (G T w) (fun d => y d - w d).
Lemma emb_step : forall w x t Z k l, emb D (fun d => w d + t * (x d - w d)) Z k l = emb D w Z k l + t * (emb D x Z k l - emb D w Z k l).
Proof. intros. unfold emb. rewrite <- rsum_minus, <- rsum_scal, <- rsum_plus. apply rsum_ext; intros; ring. Qed.
Lemma emb_minus : forall w x Z k l, emb D (fun d => x d - w d) Z k l = emb D x Z k l - emb D w Z k l.
Proof. intros. unfold emb. rewrite <- rsum_minus. apply rsum_ext; intros; ring. Qed.
Lemma simplex_step : forall w x t, in_simplex D w -> in_simplex D x -> 0 <= t <= 1 -> in_simplex D (fun d => w d + t * (x d - w d)).
Proof.
  intros w x t (W1 & W2) (X1 & X2) Ht. split.
  - intros d Hd. assert (0 <= (1 - t) * w d) by (apply Rmult_le_pos; [lra|apply W1; auto]). assert (0 <= t * x d) by (apply Rmult_le_pos; [lra|apply X1; auto]). lra.
  - rewrite rsum_plus, rsum_scal, rsum_minus, W2, X2. ring.
Qed.
Lemma G_ext : forall T w w', (forall d, w d = w' d) -> forall d, G T w d = G T w' d.
Proof.
  intros T w w' E d. assert (EZ : forall Z k l, emb D w Z k l = emb D w' Z k l) by (intros; unfold emb; apply rsum_ext; intros; rewrite E; reflexivity).
  unfold objgrad, linC, linY. rewrite E. f_equal. f_equal; f_equal; f_equal; apply dsum_ext; intros; rewrite EZ; reflexivity.
Qed.
Section Fixed.
Variables (T : mat) (grad : mat -> st -> vec) (ls : mat -> st -> vec -> R * R) (tol : R).
Hypotheses (Hq : forall k, (k < nt)%nat -> col_sum ns T k = q k) (Hls : right_ls T grad ls).
Definition inv (s : st) (loss : R) : Prop := consistent s /\ in_simplex D (u_w s) /\ loss = F T (u_w s).
Lemma step_spec : forall s loss s' loss', inv s loss -> um_step (N:=RNum) D Cd Yd grad ls T s loss = (s', loss') ->
  inv s' loss' /\ loss' <= loss /\ (forall y, in_simplex D y -> (forall z, in_simplex D z -> dot D (G T (u_w s)) y <= dot D (G T (u_w s)) z) -> dot D (G T (u_w s)) (um_dir (N:=RNum) D (grad T s)) = dot D (G T (u_w s)) y) /\
  (forall t, 0 <= t <= 1 -> loss' <= F T (fun d => u_w s d + t * (um_dir (N:=RNum) D (grad T s) d - u_w s d))) /\ (loss' = loss -> stationary T (u_w s')).
Proof.
  intros s loss s' loss' (Cs & Sw & El) E. unfold um_step in E. destruct (Hls s Cs) as (Hg & Hx). set (x := um_dir (N:=RNum) D (grad T s)) in *. destruct (ls T s x) as (a, b) eqn:Eab.
  destruct (Hx x) as (Ea & Eb). rewrite Eab in Ea, Eb. cbn [fst snd] in Ea, Eb. set (gm := um_gamma (N:=RNum) a b) in *. destruct (gamma_spec a b) as (G1 & G2 & G3). fold gm in G1, G2, G3.
  destruct (dir_spec D (grad T s) HD) as (X1 & X2). fold x in X1, X2. inversion E; subst s' loss'; clear E. cbn [nadd nmul nsub RNum u_w].
  assert (Gd : forall y, dot D (grad T s) y = dot D (G T (u_w s)) y) by (intros; unfold dot; apply rsum_ext; intros; rewrite Hg; reflexivity).
  assert (Q : forall t, F T (fun d => u_w s d + t * (x d - u_w s d)) = loss + (a * (t * t) + b * t)).
  { intros t. change (fun d => u_w s d + t * (x d - u_w s d)) with (fun d => u_w s d + t * (fun d => x d - u_w s d) d). rewrite (obj_quad ns nt D e C Cd Y Yd q reg alpha T HC Hq). rewrite <- Ea, <- Eb, El. change (carrier RNum) with R in *. ring. }
  split; [|split; [|split; [|split]]].
  - split; [split; cbn [u_w u_C u_Y]; intros; rewrite emb_step, embed_R; [rewrite (proj1 Cs)|rewrite (proj2 Cs)]; reflexivity|]. cbn [u_w]. split; [apply simplex_step; auto|]. symmetry. apply Q.
  - specialize (G2 0 ltac:(lra)). change (carrier RNum) with R in *. lra.
  - intros y Hy Hm. apply Rle_antisym; [rewrite <- !Gd; apply X2; auto|apply Hm; auto].
  - intros t Ht. rewrite Q. specialize (G2 t Ht). change (carrier RNum) with R in *. lra.
  - intros E0. assert (E1 : a * (gm * gm) + b * gm = 0) by (change (carrier RNum) with R in *; lra). destruct (G3 E1) as (B0 & Gz). intros y Hy. cbn [u_w].
    assert (Ew : forall d, u_w s d + gm * (x d - u_w s d) = u_w s d) by (intros; rewrite Gz; change (carrier RNum) with R in *; ring).
    unfold dot. rewrite (rsum_ext D _ (fun d => G T (u_w s) d * (y d - u_w s d))) by (intros; rewrite (G_ext T _ _ Ew); rewrite Ew; reflexivity).
    assert (L := X2 y Hy). rewrite !Gd in L. unfold dot in L, Eb.
    rewrite (rsum_ext D _ (fun d => G T (u_w s) d * x d - G T (u_w s) d * u_w s d)) in Eb by (intros; change (carrier RNum) with R in *; ring).
    rewrite (rsum_ext D _ (fun d => G T (u_w s) d * y d - G T (u_w s) d * u_w s d)) by (intros; change (carrier RNum) with R in *; ring).
    rewrite rsum_minus in Eb |- *. change (carrier RNum) with R in *. lra.
Qed.
Lemma crit_zero : forall prev cur, 0 < small -> tol <= 0 -> nltb (n:=RNum) tol (crit (N:=RNum) small prev cur) = false -> cur = prev.
Proof.
  intros prev cur Hs Ht E. apply Rltb_false in E. unfold crit in E. rewrite !nabs_R in E. cbn [nsub ndiv neqb n0 RNum] in E.
  assert (P : 0 < (if Reqb prev 0 then small else Rabs prev)).
  { destruct (Reqb prev 0) eqn:Ez; auto. apply Rabs_pos_lt. intros H. rewrite (proj2 (Reqb_true _ _) H) in Ez. discriminate. }
  assert (A : Rabs (prev - cur) <= 0).
  { apply Rmult_le_reg_r with (/ (if Reqb prev 0 then small else Rabs prev)); [apply Rinv_0_lt_compat; auto|]. rewrite Rmult_0_l. unfold Rdiv in E. change (carrier RNum) with R in *. lra. }
  assert (Z : Rabs (prev - cur) = 0) by (assert (H := Rabs_pos (prev - cur)); lra). assert (prev - cur = 0) by (destruct (Req_dec (prev - cur) 0) as [H|H]; auto; apply Rabs_no_R0 in H; lra). lra.
Qed.
Lemma loop_spec : forall left c s loss s' loss' b, inv s loss -> um_loop (N:=RNum) D Cd Yd small grad ls tol left T c s loss = (s', loss', b) ->
  0 < small -> (forall c0, c = Some c0 -> nltb (n:=RNum) tol c0 = false -> tol <= 0 -> stationary T (u_w s)) ->
  inv s' loss' /\ loss' <= loss /\ (b = true -> tol <= 0 -> stationary T (u_w s')).
Proof.
  induction left as [|left IH]; intros c s loss s' loss' b I E Hs K; cbn [um_loop] in E.
  - destruct c as [c|]; [destruct (nltb (n:=RNum) tol c) eqn:Ec|]; inversion E; subst; (split; [exact I|split; [apply Rle_refl|]]); intros H Ht; try discriminate. eapply K; eauto.
  - assert (Go : forall s1 l1, um_step (N:=RNum) D Cd Yd grad ls T s loss = (s1, l1) -> um_loop (N:=RNum) D Cd Yd small grad ls tol left T (Some (crit (N:=RNum) small loss l1)) s1 l1 = (s', loss', b) ->
      inv s' loss' /\ loss' <= loss /\ (b = true -> tol <= 0 -> stationary T (u_w s'))).
    { intros s1 l1 E1 E2. destruct (step_spec _ _ _ _ I E1) as (I1 & L1 & _ & _ & St). destruct (IH _ _ _ _ _ _ I1 E2 Hs) as (A1 & A2 & A3).
      - intros c0 Ec0 Hc Ht. inversion Ec0; subst c0. apply St. eapply crit_zero; eauto.
      - split; [exact A1|split; [|exact A3]]. change (carrier RNum) with R in *. lra. }
    destruct (um_step (N:=RNum) D Cd Yd grad ls T s loss) as (s1, l1) eqn:E1.
    destruct c as [c|]; [destruct (nltb (n:=RNum) tol c) eqn:Ec|]; [eapply Go; eauto| |eapply Go; eauto].
    inversion E; subst. split; [exact I|split; [apply Rle_refl|]]. intros _ Ht. eapply K; eauto.
Qed.
End Fixed.
(** what the solver of the outer loop has to do *)
Definition gcost (T : mat) (w : vec) : R := alpha * gw ns nt C (emb D w Cd) T + (1 - alpha) * feat ns nt T e Y (emb D w Yd).
Section Outer.
Variables (p : vec) (grad : mat -> st -> vec) (ls : mat -> st -> vec -> R * R) (solve : st -> mat -> mat * R) (tol tol_outer : R) (max_iter : nat).
Hypotheses (Hls : forall T, (forall k, (k < nt)%nat -> col_sum ns T k = q k) -> right_ls T grad ls) (Hs : 0 < small).
Hypothesis (Hsol : forall s T T' dist, consistent s -> in_simplex D (u_w s) -> coupling ns nt p q T -> solve s T = (T', dist) -> coupling ns nt p q T' /\ dist = gcost T' (u_w s) /\ dist <= gcost T (u_w s)).
Lemma outer_spec : forall left c s T loss s' T' loss', consistent s -> in_simplex D (u_w s) -> coupling ns nt p q T -> (c <> None -> loss = F T (u_w s)) ->
  bcd_loop (N:=RNum) D Cd Yd reg small grad ls solve tol tol_outer max_iter left c s T loss = (s', T', loss') ->
  consistent s' /\ in_simplex D (u_w s') /\ coupling ns nt p q T' /\ F T' (u_w s') <= F T (u_w s) /\ ((c <> None \/ left <> O) -> loss' = F T' (u_w s')).
Proof.
  induction left as [|left IH]; intros c s T loss s' T' loss' Cs Sw HT Hl E; cbn [bcd_loop] in E.
  - assert (E' : (s, T, loss) = (s', T', loss')) by (destruct c as [c|]; [destruct (nltb (n:=RNum) tol_outer c)|]; exact E). inversion E'; subst. split; [auto|split; [auto|split; [auto|split; [lra|]]]]. intros [H|H]; [auto|congruence].
  - destruct (solve s T) as (T1, dist) eqn:E1. destruct (Hsol s T T1 dist Cs Sw HT E1) as (HT1 & Ed & Ld).
    match goal with E : context [um_loop _ _ _ _ _ _ _ _ _ _ _ ?l0] |- _ => set (l0' := l0) in * end.
    assert (El : l0' = F T1 (u_w s)).
    { unfold l0', obj. rewrite Ed. unfold gcost. cbn [neqb nsub nmul n0 RNum]. rewrite nsum_R. destruct (Reqb reg 0) eqn:Er; [apply Reqb_true in Er; rewrite Er; change (carrier RNum) with R in *; ring|reflexivity]. }
    assert (Lr : F T1 (u_w s) <= F T (u_w s)) by (unfold obj; rewrite Ed in Ld; unfold gcost in Ld; change (carrier RNum) with R in *; lra).
    destruct (um_loop (N:=RNum) D Cd Yd small grad ls tol max_iter T1 None s l0') as ((s1, l1), b) eqn:E2.
    assert (Cq : forall k, (k < nt)%nat -> col_sum ns T1 k = q k) by apply HT1.
    destruct (loop_spec T1 grad ls tol Cq (Hls T1 Cq) max_iter None s l0' s1 l1 b (conj Cs (conj Sw El)) E2 Hs ltac:(discriminate)) as ((C1 & S1 & F1) & L1 & _).
    assert (Go : bcd_loop (N:=RNum) D Cd Yd reg small grad ls solve tol tol_outer max_iter left (Some (crit (N:=RNum) small loss l1)) s1 T1 l1 = (s', T', loss') ->
      consistent s' /\ in_simplex D (u_w s') /\ coupling ns nt p q T' /\ F T' (u_w s') <= F T (u_w s) /\ ((c <> None \/ S left <> O) -> loss' = F T' (u_w s'))).
    { intros E3. destruct (IH _ _ _ _ _ _ _ C1 S1 HT1 (fun _ => F1) E3) as (A & B & K & L & M). split; [auto|split; [auto|split; [auto|split]]]; [change (carrier RNum) with R in *; lra|]. intros _. apply M. left. discriminate. }
    destruct c as [c|]; [destruct (nltb (n:=RNum) tol_outer c) eqn:Ec|]; [apply Go; exact E| |apply Go; exact E].
    inversion E; subst. split; [auto|split; [auto|split; [auto|split; [lra|]]]]. intros _. apply Hl. discriminate.
Qed.
End Outer.
End Run.

(** ** the gradient and the line search of the code *)
Section Code.
Variables (ns nt D e : nat) (C : mat) (Cd : nat -> mat) (Y : mat) (Yd : nat -> mat) (q : vec) (reg : R) (T : mat).
Hypotheses (HC : forall i j, (i < ns)%nat -> (j < ns)%nat -> C i j = C j i) (Hq : forall k, (k < nt)%nat -> col_sum ns T k = q k).
Lemma ls_C_R : forall s x, consistent D Cd Yd s -> let v := fun d => x d - u_w s d in
  ls_C (N:=RNum) ns nt D C Cd q T s x = (sqC nt q (emb D v Cd), linC ns nt C T q (emb D (u_w s) Cd) (emb D v Cd)).
Proof.
  intros s x (Cs & _) v. unfold ls_C, sqC, linC. cbv beta zeta. rewrite !s2_R. unfold const_q, two. cbn [nadd nmul nsub n1 RNum]. f_equal.
  - rewrite <- dsum_minus. apply dsum_ext; intros. unfold v. rewrite emb_minus, embed_R, Cs. ring.
  - replace (1 + 1) with 2 by ring. f_equal. rewrite <- dsum_minus. apply dsum_ext; intros. unfold v. rewrite emb_minus, embed_R, Cs. change (carrier RNum) with R in *. ring.
Qed.
Lemma ls_Y_R : forall s x, consistent D Cd Yd s -> let v := fun d => x d - u_w s d in
  ls_Y (N:=RNum) ns nt D e Y Yd T s x = (sqY ns nt T e (emb D v Yd), linY ns nt T q e Y (emb D (u_w s) Yd) (emb D v Yd)).
Proof.
  intros s x (_ & Ys) v. rewrite (linY_eq ns nt T q Hq). unfold ls_Y, sqY. cbv beta zeta. rewrite !s2_R. unfold two. cbn [nadd nmul nsub n1 RNum]. f_equal.
  - apply dsum_ext; intros. rewrite nsum_R. f_equal. apply rsum_ext; intros. unfold v. rewrite emb_minus, embed_R, Ys. ring.
  - replace (1 + 1) with 2 by ring. f_equal. apply dsum_ext; intros. rewrite !nsum_R. f_equal. f_equal; apply rsum_ext; intros; unfold v; rewrite emb_minus, embed_R, ?Ys; ring.
Qed.
Lemma right_gw : right_ls ns nt D e C Cd Y Yd q reg 1 T (gw_grad (N:=RNum) ns nt C Cd q reg) (gw_ls (N:=RNum) ns nt D C Cd q reg).
Proof.
  intros s Cs. split.
  - intros d. unfold gw_grad, objgrad, linC. rewrite s2_R. unfold const_q, two. cbn [nadd nmul nsub n1 RNum].
    rewrite (dsum_ext nt nt _ (fun k l => Cd d k l * (emb D (u_w s) Cd k l * (q k * q l) - tct (N:=RNum) ns C T k l))) by (intros; rewrite (proj1 Cs); reflexivity). ring.
  - intros x. unfold gw_ls, ls_reg. rewrite ls_C_R by auto. rewrite grad_dot. unfold objsq. cbn [fst snd neqb nsub nmul n0 RNum]. unfold two. cbn [nadd n1 RNum].
    destruct (Reqb reg 0) eqn:Er; cbn [fst snd]; [apply Reqb_true in Er; rewrite Er; split; ring|]. rewrite !nsum_R. split; ring.
Qed.
Lemma right_fgw : forall alpha, right_ls ns nt D e C Cd Y Yd q reg alpha T (fgw_grad (N:=RNum) ns nt e C Cd Y Yd q reg alpha) (fgw_ls (N:=RNum) ns nt D e C Cd Y Yd q reg alpha).
Proof.
  intros alpha s Cs. split.
  - intros d. unfold fgw_grad, objgrad, linC, linY. rewrite !s2_R. unfold const_q, two. cbn [nadd nmul nsub n1 RNum].
    rewrite (dsum_ext nt nt _ (fun k l => Cd d k l * (emb D (u_w s) Cd k l * (q k * q l) - tct (N:=RNum) ns C T k l))) by (intros; rewrite (proj1 Cs); reflexivity).
    rewrite (dsum_ext nt e _ (fun k f => Yd d k f * (q k * emb D (u_w s) Yd k f - rsum ns (fun i => T i k * Y i f)))) by (intros; rewrite nsum_R, (proj2 Cs); reflexivity). ring.
  - intros x. unfold fgw_ls, ls_reg. rewrite ls_C_R, ls_Y_R by auto. rewrite grad_dot. unfold objsq. cbn [fst snd neqb nsub nadd nmul n0 n1 RNum]. unfold two. cbn [nadd n1 RNum].
    destruct (Reqb reg 0) eqn:Er; cbn [fst snd]; [apply Reqb_true in Er; rewrite Er; split; ring|]. rewrite !nsum_R. split; ring.
Qed.
Lemma objsq_nonneg : forall alpha v, 0 <= alpha <= 1 -> reg <= 0 -> nonneg_vec nt q -> nonneg_mat ns nt T -> 0 <= objsq ns nt D e Cd Yd q reg alpha T v.
Proof.
  intros alpha v Ha Hr Hq0 HT. unfold objsq.
  assert (0 <= alpha * sqC nt q (emb D v Cd)).
  { apply Rmult_le_pos; [lra|]. apply dsum_nonneg; intros. apply Rmult_le_pos; [apply Rle_0_sqr|apply Rmult_le_pos; apply Hq0; auto]. }
  assert (0 <= (1 - alpha) * sqY ns nt T e (emb D v Yd)).
  { apply Rmult_le_pos; [lra|]. apply dsum_nonneg; intros. apply Rmult_le_pos; [apply rsum_nonneg; intros; apply Rle_0_sqr|apply HT; auto]. }
  assert (0 <= - reg * rsum D (fun d => v d * v d)) by (apply Rmult_le_pos; [lra|apply rsum_nonneg; intros; apply Rle_0_sqr]). lra.
Qed.
End Code.
