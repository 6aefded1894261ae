(** uot_1d: translation, marginals, certificates *)
From Coq Require Import Reals Lra Lia List Arith Permutation Bool Sorted.
From Verif Require Import Num Sums Spec Monge Perm Emd1d_model Emd1d_proofs Emd1d_perm_proofs Emd1d_final W1d_model W1d_proofs
  Duals_model Duals_proofs Circle_proofs Unb_proofs Uot1d_model Uot1d_proofs Uot1d_more.
Import ListNotations.
Local Open Scope R_scope.

(** ** specification: the unbalanced problem and its dual *)
Definition uobj (n m : nat) (M : mat) (a b : vec) (r1 r2 : option R) (P : mat) : R :=
  cost n m M P + penalty r1 n (row_sum m P) a + penalty r2 m (col_sum n P) b.
(** one marginal's term of the dual: sum_i r a_i (1 - exp(-f_i / r)), or <a, f> when r is infinite *)
Definition dterm (k : nat) (a f : vec) (r : option R) : R :=
  match r with
  | Some r => rsum k (fun i => r * a i * (1 - exp (- f i / r)))
  | None => rsum k (fun i => a i * f i)
  end.
Definition udual (n m : nat) (a b : vec) (r1 r2 : option R) (f g : vec) : R := dterm n a f r1 + dterm m b g r2.

Lemma young : forall r x y f, 0 < r -> 0 <= x -> 0 < y -> r * y * (1 - exp (- f / r)) - f * x <= r * gkl x y.
Proof.
  intros r x y f Hr Hx Hy. assert (Hp : 0 < y * exp (- f / r)) by (apply Rmult_lt_0_compat; [auto|apply exp_pos]).
  pose proof (gkl_tan x (y * exp (- f / r)) y Hx Hp Hy) as T. unfold gkl in *.
  replace (y * exp (- f / r) / y) with (exp (- f / r)) in T by (field; lra). rewrite ln_exp in T.
  apply (Rmult_le_compat_l r) in T; [|lra].
  replace (r * (- f / r * (x - y * exp (- f / r)))) with (- f * (x - y * exp (- f / r))) in T by (field; lra).
  replace (r * (x * ln (x / y) - x + y - (y * exp (- f / r) * (- f / r) - y * exp (- f / r) + y)))
    with (r * (x * ln (x / y) - x + y) + f * (y * exp (- f / r)) + r * (y * exp (- f / r)) - r * y) in T by (field; lra).
  lra.
Qed.

Lemma dterm_weak : forall k a f r x, pos_rm r -> pos_vec k a -> nonneg_vec k x -> hard r k x a ->
  dterm k a f r <= penalty r k x a + rsum k (fun i => f i * x i).
Proof.
  intros k a f [r|] x Hr Ha Hx Hh; cbn [dterm penalty hard pos_rm] in *.
  - rewrite <- rsum_scal, <- rsum_plus. apply rsum_le. intros i Hi.
    pose proof (young r (x i) (a i) (f i) Hr (Hx i Hi) (Ha i Hi)). lra.
  - rewrite (rsum_ext k (fun i => f i * x i) (fun i => a i * f i)) by (intros i Hi; rewrite Hh by auto; ring). lra.
Qed.

(** weak duality for the unbalanced problem *)
Lemma uot_weak : forall n m M a b r1 r2 f g P, pos_rm r1 -> pos_rm r2 -> pos_vec n a -> pos_vec m b ->
  dual_feasible n m M f g -> uot_plan n m a b r1 r2 P -> udual n m a b r1 r2 f g <= uobj n m M a b r1 r2 P.
Proof.
  intros n m M a b r1 r2 f g P H1 H2 Ha Hb Hf (Hn & Hh1 & Hh2).
  pose proof (dterm_weak n a f r1 (row_sum m P) H1 Ha ltac:(intros i Hi; apply rsum_nonneg; intros; apply Hn; auto) Hh1) as A.
  pose proof (dterm_weak m b g r2 (col_sum n P) H2 Hb ltac:(intros j Hj; apply rsum_nonneg; intros; apply Hn; auto) Hh2) as B.
  assert (C : rsum n (fun i => f i * row_sum m P i) + rsum m (fun j => g j * col_sum n P j) <= cost n m M P).
  { unfold row_sum, col_sum, cost.
    rewrite (rsum_ext n (fun i => f i * rsum m (fun j => P i j)) (fun i => rsum m (fun j => f i * P i j))) by (intros; rewrite rsum_scal; reflexivity).
    rewrite (rsum_ext m (fun j => g j * rsum n (fun i => P i j)) (fun j => rsum n (fun i => g j * P i j))) by (intros; rewrite rsum_scal; reflexivity).
    rewrite (rsum_swap m n). rewrite <- rsum_plus. apply rsum_le. intros i Hi. rewrite <- rsum_plus. apply rsum_le. intros j Hj.
    pose proof (Hf i j Hi Hj). pose proof (Hn i j Hi Hj). nra. }
  unfold udual, uobj. lra.
Qed.

(** ** get_reweighted_marginal_uot *)
Definition rew (f a : vec) (r : option R) : vec := reweight (N:=RNum) exp f a r.
Lemma rew_pos : forall k f a r, pos_vec k a -> pos_vec k (rew f a r).
Proof. intros k f a [r|] H i Hi; cbn; [apply Rmult_lt_0_compat; [apply H; auto|apply exp_pos]|apply H; auto]. Qed.

Lemma lse_w : forall k (f a : vec) r, pos_vec k a ->
  logsumexp1 (N:=RNum) exp ln k (fun i => nadd (n:=RNum) (ndiv (n:=RNum) (nopp (N:=RNum) (f i)) r) (ln (a i)))
  = ln (rsum k (rew f a (Some r))).
Proof.
  intros k f a r Ha. unfold logsumexp1. rewrite nsum_R. f_equal. apply rsum_ext. intros i Hi. cbn.
  unfold nopp. cbn. rewrite exp_plus, exp_ln by (apply Ha; auto). replace (0 - f i) with (- f i) by ring. apply Rmult_comm.
Qed.

Lemma rew_shift : forall k f a r t, rsum k (rew (fun i => f i + t) a (Some r)) = exp (- t / r) * rsum k (rew f a (Some r)).
Proof.
  intros. rewrite <- rsum_scal. apply rsum_ext. intros i Hi. cbn. unfold nopp; cbn.
  replace ((0 - (f i + t)) / r) with (- t / r + (0 - f i) / r) by (unfold Rdiv; ring). rewrite exp_plus. ring.
Qed.

Lemma sum_pos : forall k x, (0 < k)%nat -> pos_vec k x -> 0 < rsum k x.
Proof.
  intros k x Hk Hx. destruct k; [lia|]. cbn [rsum]. pose proof (Hx k ltac:(lia)).
  assert (0 <= rsum k x) by (apply rsum_nonneg; intros; left; apply Hx; lia). lra.
Qed.

Section Rw.
Variables (n m : nat) (a b : vec) (r1 r2 : option R).
Hypothesis Hn : (0 < n)%nat.
Hypothesis Hm : (0 < m)%nat.
Hypothesis Ha : pos_vec n a.
Hypothesis Hb : pos_vec m b.
Hypothesis H1 : pos_rm r1.
Hypothesis H2 : pos_rm r2.
Hypothesis Hbal : r1 = None -> r2 = None -> mass n a = mass m b.

(** the translation equalises the two masses *)
Lemma mass_equal : forall (f g : vec), let t : R := rescale_potentials (N:=RNum) exp ln n m f g a b r1 r2 in
  rsum n (rew (fun i => f i + t) a r1) = rsum m (rew (fun j => g j - t) b r2).
Proof.
  intros f g t.
  assert (Sh : forall r, rsum m (rew (fun j => g j - t) b (Some r)) = exp (t / r) * rsum m (rew g b (Some r))).
  { intros r. pose proof (rew_shift m g b r (- t)) as E. replace (- - t / r) with (t / r) in E by (unfold Rdiv; ring). exact E. }
  assert (Pu : forall r, 0 < rsum n (rew f a r)) by (intros; apply sum_pos; auto; apply rew_pos; auto).
  assert (Pv : forall r, 0 < rsum m (rew g b r)) by (intros; apply sum_pos; auto; apply rew_pos; auto).
  assert (ET : t = match r1, r2 with
    | Some x, Some y => x * y / (x + y) * (ln (rsum n (rew f a (Some x))) - ln (rsum m (rew g b (Some y))))
    | Some x, None => x * (ln (rsum n (rew f a (Some x))) - ln (rsum m b))
    | None, Some y => y * (ln (rsum n a) - ln (rsum m (rew g b (Some y))))
    | None, None => 0 end).
  { unfold t, rescale_potentials. destruct r1 as [x|], r2 as [y|]; [| | |reflexivity].
    - exact (f_equal2 (fun P Q => x * y / (x + y) * (P - Q)) (lse_w n f a x Ha) (lse_w m g b y Hb)).
    - exact (f_equal2 (fun P Q => x * (P - ln Q)) (lse_w n f a x Ha) (nsum_R m b)).
    - exact (f_equal2 (fun P Q => y * (ln P - Q)) (nsum_R n a) (lse_w m g b y Hb)). }
  clearbody t. destruct r1 as [x|], r2 as [y|]; cbn [pos_rm] in *.
  - rewrite rew_shift, Sh. apply ln_inv; try (apply Rmult_lt_0_compat; [apply exp_pos|auto]).
    rewrite !ln_mult by (auto; apply exp_pos). rewrite !ln_exp. rewrite ET. field. repeat split; lra.
  - rewrite rew_shift.
    change (rsum m (rew (fun j => g j - t) b None)) with (rsum m b).
    assert (0 < rsum m b) by (apply sum_pos; auto).
    apply ln_inv; auto; [apply Rmult_lt_0_compat; [apply exp_pos|auto]|].
    rewrite ln_mult by (auto; apply exp_pos). rewrite ln_exp. rewrite ET. field. lra.
  - rewrite Sh.
    change (rsum n (rew (fun j => f j + t) a None)) with (rsum n a).
    assert (0 < rsum n a) by (apply sum_pos; auto).
    apply ln_inv; auto; [apply Rmult_lt_0_compat; [apply exp_pos|auto]|].
    rewrite ln_mult by (auto; apply exp_pos). rewrite ln_exp. rewrite ET. field. lra.
  - apply Hbal; reflexivity.
Qed.

(** concavity in the translation *)
Lemma dterm_shift : forall k x f r h, pos_rm r -> pos_vec k x -> dterm k x (fun i => f i + h) r <= dterm k x f r + h * rsum k (rew f x r).
Proof.
  intros k x f [r|] h Hr Hx; cbn [dterm pos_rm] in *.
  - rewrite <- rsum_scal, <- rsum_plus. apply rsum_le. intros i Hi. cbn. unfold nopp; cbn.
    replace (0 - f i) with (- f i) by ring. replace (- (f i + h) / r) with (- f i / r + - h / r) by (unfold Rdiv; ring).
    rewrite exp_plus. pose proof (exp_ineq1_le (- h / r)) as E. pose proof (exp_pos (- f i / r)) as P. pose proof (Hx i Hi) as X.
    assert (Q : exp (- f i / r) * (1 + - h / r) <= exp (- f i / r) * exp (- h / r)) by (apply Rmult_le_compat_l; lra).
    assert (Z : r * x i * (exp (- f i / r) * (1 + - h / r)) <= r * x i * (exp (- f i / r) * exp (- h / r))) by (apply Rmult_le_compat_l; [nra|auto]).
    replace (r * x i * (exp (- f i / r) * (1 + - h / r))) with (r * x i * exp (- f i / r) - h * (x i * exp (- f i / r))) in Z by (field; lra).
    lra.
  - rewrite <- rsum_scal, <- rsum_plus. apply rsum_le. intros i Hi. cbn. lra.
Qed.

Lemma translation_best : forall (f g : vec) (s : R), let t : R := rescale_potentials (N:=RNum) exp ln n m f g a b r1 r2 in
  udual n m a b r1 r2 (fun i => f i + s) (fun j => g j - s) <= udual n m a b r1 r2 (fun i => f i + t) (fun j => g j - t).
Proof.
  intros f g s t. pose proof (mass_equal f g) as E. cbv zeta in E. fold t in E.
  pose proof (dterm_shift n a (fun i => f i + t) r1 (s - t) H1 Ha) as A.
  pose proof (dterm_shift m b (fun i => g i - t) r2 (t - s) H2 Hb) as B. unfold udual.
  assert (EA : dterm n a (fun i => f i + t + (s - t)) r1 = dterm n a (fun i => f i + s) r1).
  { assert (X : forall i, f i + t + (s - t) = f i + s) by (intros; ring). destruct r1; cbn [dterm]; apply rsum_ext; intros; rewrite X; reflexivity. }
  assert (EB : dterm m b (fun i => g i - t + (t - s)) r2 = dterm m b (fun i => g i - s) r2).
  { assert (X : forall i, g i - t + (t - s) = g i - s) by (intros; ring). destruct r2; cbn [dterm]; apply rsum_ext; intros; rewrite X; reflexivity. }
  assert (A' : dterm n a (fun i => f i + s) r1 <= dterm n a (fun i => f i + t) r1 + (s - t) * rsum n (rew (fun i => f i + t) a r1)) by (rewrite <- EA; exact A).
  assert (B' : dterm m b (fun i => g i - s) r2 <= dterm m b (fun i => g i - t) r2 + (t - s) * rsum m (rew (fun i => g i - t) b r2)) by (rewrite <- EB; exact B).
  rewrite E in A'. lra.
Qed.

(** the divergence of a reweighted marginal *)
Lemma kl_rew : forall k x f r, 0 < r -> pos_vec k x ->
  r * kl_mass (N:=RNum) ln k (rew f x (Some r)) x = dterm k x f (Some r) - rsum k (fun i => f i * rew f x (Some r) i).
Proof.
  intros k x f r Hr Hx. unfold kl_mass. rewrite !nsum_R. cbn [nadd RNum dterm]. rewrite <- rsum_plus, <- rsum_scal, <- rsum_minus.
  apply rsum_ext. intros i Hi. cbn. unfold nopp; cbn. pose proof (Hx i Hi).
  replace (x i * exp ((0 - f i) / r) / x i) with (exp ((0 - f i) / r)) by (field; lra). rewrite ln_exp.
  replace (0 - f i) with (- f i) by ring. field. lra.
Qed.
Lemma kl_pen : forall k x y r, pos_vec k y -> r * kl_mass (N:=RNum) ln k x y = penalty (Some r) k x y.
Proof.
  intros. unfold kl_mass, penalty. rewrite !nsum_R. cbn [nadd RNum]. f_equal. rewrite <- rsum_plus. apply rsum_ext.
  intros i Hi. unfold gkl. cbn. ring.
Qed.
End Rw.

(** ** the Frank-Wolfe loop *)
Lemma tabv_nth : forall k (f : vec) i, (i < k)%nat -> lnth (tabv (N:=RNum) k f) i = f i.
Proof.
  intros k f i Hi. unfold lnth, tabv. rewrite (nth_indep _ (0 : RNum) (f 0%nat)) by (rewrite map_length, seq_length; auto).
  rewrite map_nth, seq_nth by auto. reflexivity.
Qed.
Lemma tabv_len : forall k (f : vec), length (tabv (N:=RNum) k f) = k.
Proof. intros. unfold tabv. rewrite map_length, seq_length. reflexivity. Qed.

Section Loop.
Variable tsort : list (R * tag) -> list (R * tag).
Hypothesis Hsort : sorter tsort.
Variables (us vs : list RNum) (p : R) (a b : vec) (r1 r2 : option R).
Let n := length us.
Let m := length vs.
Hypothesis Hn : (0 < n)%nat.
Hypothesis Hm : (0 < m)%nat.
Hypothesis Ha : pos_vec n a.
Hypothesis Hb : pos_vec m b.
Hypothesis Hp : 1 <= p.
Hypothesis Su : sorted n (lnth us).
Hypothesis Sv : sorted m (lnth vs).
Hypothesis H1 : pos_rm r1.
Hypothesis H2 : pos_rm r2.
Hypothesis Hbal : r1 = None -> r2 = None -> mass n a = mass m b.
Let M i j := wmetric p (lnth us i) (lnth vs j).

Notation getrw f g := (get_reweighted (N:=RNum) exp ln n m f g a b r1 r2).

Lemma rw_props : forall f g f' g' ur vr fm, getrw f g = (f', g', ur, vr, fm) ->
  0 < fm /\ pos_vec n ur /\ pos_vec m vr /\ mass n ur = 1 /\ mass m vr = 1
  /\ (forall i, (i < n)%nat -> ur i * fm = rew f' a r1 i) /\ (forall j, (j < m)%nat -> vr j * fm = rew g' b r2 j)
  /\ (exists t, t = rescale_potentials (N:=RNum) exp ln n m f g a b r1 r2 /\ f' = (fun i => f i + t) /\ g' = (fun j => g j - t)).
Proof.
  intros f g f' g' ur vr fm E. unfold get_reweighted in E. injection E as <- <- <- <- <-.
  set (t := rescale_potentials (N:=RNum) exp ln n m f g a b r1 r2).
  change (reweight (N:=RNum) exp (fun i => f i + t) a r1) with (rew (fun i => f i + t) a r1).
  change (reweight (N:=RNum) exp (fun i => g i - t) b r2) with (rew (fun i => g i - t) b r2).
  rewrite !nsum_R. set (F := rsum n (rew (fun i => f i + t) a r1)). set (G := rsum m (rew (fun i => g i - t) b r2)).
  assert (EFG : F = G) by (apply (mass_equal n m a b r1 r2 Hn Hm Ha Hb H1 H2 Hbal f g)).
  assert (PF : 0 < F) by (apply sum_pos; auto; apply rew_pos; auto).
  assert (P1 := rew_pos n (fun i => f i + t) a r1 Ha). assert (P2 := rew_pos m (fun i => g i - t) b r2 Hb).
  split; [exact PF|]. split; [intros i Hi; apply Rdiv_lt_0_compat; auto|].
  split; [intros i Hi; apply Rdiv_lt_0_compat; [auto|lra]|].
  split. { unfold mass. rewrite (rsum_ext n _ (fun i => / F * rew (fun i => f i + t) a r1 i)) by (intros; cbn; unfold Rdiv; ring).
    rewrite rsum_scal. fold F. field. lra. }
  split. { unfold mass. rewrite (rsum_ext m _ (fun i => / G * rew (fun i => g i - t) b r2 i)) by (intros; cbn; unfold Rdiv; ring).
    rewrite rsum_scal. fold G. field. lra. }
  split; [intros i Hi; cbn; field; lra|]. split; [intros j Hj; rewrite EFG; cbn; field; lra|].
  exists t. auto.
Qed.

Lemma call_ok : forall ur vr, pos_vec n ur -> pos_vec m vr -> mass n ur = 1 -> mass m vr = 1 ->
  exists fd gd w, emd_1d_dual_backprop (N:=RNum) rpow tsort us vs (tabv (N:=RNum) n ur) (tabv (N:=RNum) m vr) p false = Ok (fd, gd, w)
   /\ dot n ur fd + dot m vr gd = w
   /\ (exists P, optimal_coupling n m ur vr M P /\ w = cost n m M P)
   /\ (tie_free n m ur vr -> dual_feasible n m M fd gd).
Proof.
  intros ur vr P1 P2 M1 M2.
  assert (X1 : forall i, (i < n)%nat -> lnth (tabv (N:=RNum) n ur) i = ur i) by (intros; apply tabv_nth; auto).
  assert (X2 : forall i, (i < m)%nat -> lnth (tabv (N:=RNum) m vr) i = vr i) by (intros; apply tabv_nth; auto).
  assert (E1 : mass n (lnth (tabv (N:=RNum) n ur)) = 1) by (unfold mass; rewrite (rsum_ext n _ ur) by auto; exact M1).
  assert (E2 : mass m (lnth (tabv (N:=RNum) m vr)) = 1) by (unfold mass; rewrite (rsum_ext m _ vr) by auto; exact M2).
  destruct (bp_run tsort Hsort us vs (tabv (N:=RNum) n ur) (tabv (N:=RNum) m vr) p false) as (fd & gd & w & P & E & O & Ew & D & _ & F & _); fold n m; auto.
  - apply tabv_len. - apply tabv_len.
  - intros i Hi. rewrite X1 by auto. left; auto. - intros i Hi. rewrite X2 by auto. left; auto.
  - rewrite E1, E2. reflexivity. - rewrite E1. lra.
  - exists fd, gd, w. split; [exact E|]. split; [|split].
    + rewrite <- D. fold n m. unfold dot. f_equal; apply rsum_ext; intros; rewrite ?X1, ?X2 by auto; reflexivity.
    + exists P. split; [|exact Ew]. eapply optimal_ext; [| | | |exact O]; auto.
    + intros TF i j Hi Hj. apply F; auto.
      * intros k Hk. rewrite X1 by auto. auto. * intros k Hk. rewrite X2 by auto. auto.
      * intros x y Hx Hy. fold n m in Hx, Hy. 
        rewrite (rsum_ext x _ ur), (rsum_ext y _ vr).
        -- apply TF; auto.
        -- intros k Hk. unfold order, pfun. rewrite seq_nth by (fold m; lia). apply X2. lia.
        -- intros k Hk. unfold order, pfun. rewrite seq_nth by (fold n; lia). apply X1. lia.
Qed.

(** the normalised marginals met by the loop never have interior cumulative weights in common *)
Fixpoint tie_free_run (k i : nat) (f g : vec) : Prop :=
  match k with
  | O => True
  | S k' =>
      match getrw f g with
      | (f, g, ur, vr, _) =>
          tie_free n m ur vr /\
          match emd_1d_dual_backprop (N:=RNum) rpow tsort us vs (tabv (N:=RNum) n ur) (tabv (N:=RNum) m vr) p false with
          | Ok (fd, gd, _) =>
              let t := 2 / (2 + INR i) in
              tie_free_run k' (S i) (fun l => f l + t * (fd l - f l)) (fun l => g l + t * (gd l - g l))
          | _ => True
          end
      end
  end.

Lemma step_size : forall i, ndiv (n:=RNum) (nadd (n:=RNum) 1 1) (nadd (n:=RNum) (nadd (n:=RNum) 1 1) (nofnat (N:=RNum) i)) = 2 / (2 + INR i).
Proof. intros. rewrite nofnat_INR. cbn. replace (1 + 1) with 2 by ring. reflexivity. Qed.

Lemma loop_ok : forall k i f g, exists f' g', fw_loop (N:=RNum) rpow exp ln tsort n m us vs a b r1 r2 p k i f g = Ok (f', g')
  /\ (dual_feasible n m M f g -> tie_free_run k i f g -> dual_feasible n m M f' g').
Proof.
  induction k; intros i f g; [exists f, g; split; [reflexivity|auto]|].
  cbn [fw_loop tie_free_run]. destruct (getrw f g) as [[[[f1 g1] ur] vr] fm] eqn:G.
  destruct (rw_props f g f1 g1 ur vr fm G) as (_ & P1 & P2 & M1 & M2 & _ & _ & t & _ & -> & ->).
  destruct (call_ok ur vr P1 P2 M1 M2) as (fd & gd & w & E & _ & _ & F). rewrite E.
  destruct (IHk (S i) (fun l => f l + t + 2 / (2 + INR i) * (fd l - (f l + t))) (fun l => g l - t + 2 / (2 + INR i) * (gd l - (g l - t)))) as (f' & g' & E' & F').
  exists f', g'. split.
  - rewrite <- E'. f_equal; apply FunctionalExtensionality.functional_extensionality; intros l; cbv zeta; pose proof (step_size i) as SS; cbn in SS |- *; rewrite SS; reflexivity.
  - intros DF [TF TR]. apply F'; [|exact TR]. specialize (F TF).
    assert (T : 0 <= 2 / (2 + INR i) <= 1).
    { pose proof (pos_INR i). split; [apply Rlt_le, Rdiv_lt_0_compat; lra|]. apply (Rmult_le_reg_r (2 + INR i)); [lra|].
      replace (2 / (2 + INR i) * (2 + INR i)) with 2 by (field; lra). lra. }
    intros x y Hx Hy. specialize (F x y Hx Hy). specialize (DF x y Hx Hy).
    set (z := 2 / (2 + INR i)) in *. nra.
Qed.
End Loop.

Lemma scale_optimal : forall n m a b M P s, 0 < s -> optimal_coupling n m a b M P ->
  optimal_coupling n m (fun i => a i * s) (fun j => b j * s) M (fun i j => P i j * s).
Proof.
  intros n m a b M P s Hs [(Hn & Hr & Hc) HO]. split.
  - split; [|split].
    + intros i j Hi Hj. pose proof (Hn i j Hi Hj). nra.
    + intros i Hi. rewrite <- Hr by auto. unfold row_sum. rewrite (rsum_ext m (fun j => P i j * s) (fun j => s * P i j)) by (intros; apply Rmult_comm). rewrite rsum_scal. apply Rmult_comm.
    + intros j Hj. rewrite <- Hc by auto. unfold col_sum. rewrite (rsum_ext n (fun i => P i j * s) (fun i => s * P i j)) by (intros; apply Rmult_comm). rewrite rsum_scal. apply Rmult_comm.
  - intros G (Gn & Gr & Gc).
    assert (S : forall Q, cost n m M (fun i j => Q i j * s) = s * cost n m M Q).
    { intros Q. unfold cost. rewrite <- rsum_scal. apply rsum_ext. intros i Hi. rewrite <- rsum_scal. apply rsum_ext. intros; ring. }
    assert (C : coupling n m a b (fun i j => G i j * / s)).
    { assert (0 < / s) by (apply Rinv_0_lt_compat; auto). split; [|split].
      - intros i j Hi Hj. pose proof (Gn i j Hi Hj). nra.
      - intros i Hi. specialize (Gr i Hi). unfold row_sum in *. rewrite (rsum_ext m (fun j => G i j * / s) (fun j => / s * G i j)) by (intros; apply Rmult_comm). rewrite rsum_scal. transitivity (/ s * (a i * s)); [f_equal; exact Gr|field; lra].
      - intros j Hj. specialize (Gc j Hj). unfold col_sum in *. rewrite (rsum_ext n (fun i => G i j * / s) (fun i => / s * G i j)) by (intros; apply Rmult_comm). rewrite rsum_scal. transitivity (/ s * (b j * s)); [f_equal; exact Gc|field; lra]. }
    apply HO in C. rewrite S.
    assert (E : s * cost n m M (fun i j => G i j * / s) = cost n m M G).
    { rewrite <- S. apply cost_ext; intros; auto; cbn beta; field; lra. }
    rewrite <- E. apply Rmult_le_compat_l; lra.
Qed.

Lemma dterm_perm : forall k pu a f r, Permutation pu (seq 0 k) ->
  dterm k a (fun i => f (pos_of i pu)) r = dterm k (fun l => a (pfun pu l)) f r.
Proof.
  intros k pu a f [r|] H; cbn [dterm].
  - apply (pp_sum k pu H (fun i l => r * a i * (1 - exp (- f l / r)))).
  - apply (pp_sum k pu H (fun i l => a i * f l)).
Qed.

Section Column.
Variable tsort : list (R * tag) -> list (R * tag).
Hypothesis Hsort : sorter tsort.
Variables (u v : list RNum) (p : R) (a b : vec) (r1 r2 : option R).
Let n := length u.
Let m := length v.
Hypothesis Hn : (0 < n)%nat.
Hypothesis Hm : (0 < m)%nat.
Hypothesis Ha : pos_vec n a.
Hypothesis Hb : pos_vec m b.
Hypothesis Hp : 1 <= p.
Hypothesis H1 : pos_rm r1.
Hypothesis H2 : pos_rm r2.
Hypothesis Hbal : r1 = None -> r2 = None -> mass n a = mass m b.
Let M i j := wmetric p (lnth u i) (lnth v j).
Let pu := argsort (N:=RNum) u.
Let pv := argsort (N:=RNum) v.
Let us := map (fun k => nth k u 0) pu.
Let vs := map (fun k => nth k v 0) pv.

Lemma col_run : forall k, exists col, uot_column (N:=RNum) rpow exp ln tsort n m u v a b r1 r2 p k = Ok col
  /\ (forall i, (i < n)%nat -> uo_u col i = rew (uo_f col) a r1 i)
  /\ (forall j, (j < m)%nat -> uo_v col j = rew (uo_g col) b r2 j)
  /\ mass n (uo_u col) = mass m (uo_v col)
  /\ (exists P, optimal_coupling n m (uo_u col) (uo_v col) M P /\ uo_lin col = cost n m M P)
  /\ (forall s, udual n m a b r1 r2 (fun i => uo_f col i + s) (fun j => uo_g col j - s) <= udual n m a b r1 r2 (uo_f col) (uo_g col))
  /\ (tie_free_run tsort us vs p (fun l => a (pfun pu l)) (fun l => b (pfun pv l)) r1 r2 k 0 (fun _ => 0) (fun _ => 0) ->
      dual_feasible n m M (uo_f col) (uo_g col)).
Proof.
  intros k.
  destruct (argsort_sorts u) as [Pu Su]. destruct (argsort_sorts v) as [Pv Sv]. fold n pu in Pu, Su. fold m pv in Pv, Sv.
  pose proof (perm_list_on n pu Pu) as Sa. pose proof (perm_list_on m pv Pv) as Sb.
  assert (Lu : length us = n) by (unfold us; rewrite map_length; apply (pp_len n pu Pu)).
  assert (Lv : length vs = m) by (unfold vs; rewrite map_length; apply (pp_len m pv Pv)).
  assert (EU : forall i, (i < n)%nat -> lnth us i = lnth u (pfun pu i)) by (intros; apply lnth_take; rewrite (pp_len n pu Pu); auto).
  assert (EV : forall j, (j < m)%nat -> lnth vs j = lnth v (pfun pv j)) by (intros; apply lnth_take; rewrite (pp_len m pv Pv); auto).
  set (sa := fun l => a (pfun pu l)). set (sb := fun l => b (pfun pv l)).
  assert (Psa : pos_vec n sa) by (intros i Hi; apply Ha; apply Sa; auto).
  assert (Psb : pos_vec m sb) by (intros i Hi; apply Hb; apply Sb; auto).
  assert (Bal : r1 = None -> r2 = None -> mass n sa = mass m sb).
  { intros A B. unfold mass, sa, sb. rewrite (rsum_perm n (pfun pu) a), (rsum_perm m (pfun pv) b) by auto. apply Hbal; auto. }
  assert (Sus : sorted n (lnth us)) by (intros i Hi; rewrite !EU by lia; apply Su; auto).
  assert (Svs : sorted m (lnth vs)) by (intros i Hi; rewrite !EV by lia; apply Sv; auto).
  change (carrier RNum) with R in *.
  assert (L := loop_ok tsort Hsort us vs p sa sb r1 r2). change (carrier RNum) with R in *. rewrite Lu, Lv in L.
  destruct (L Hn Hm Psa Psb Hp Sus Svs H1 H2 Bal k 0%nat (fun _ => 0) (fun _ => 0)) as (f & g & E & F). clear L.
  destruct (get_reweighted (N:=RNum) exp ln n m f g sa sb r1 r2) as [[[[f1 g1] ur] vr] fm] eqn:G.
  pose proof (rw_props us vs sa sb r1 r2) as RP. change (carrier RNum) with R in *. rewrite Lu, Lv in RP.
  destruct (RP Hn Hm Psa Psb H1 H2 Bal f g f1 g1 ur vr fm G) as (Pfm & P1 & P2 & M1 & M2 & Eu & Ev & t & Et & -> & ->). clear RP.
  pose proof (c18 us vs (tabv (N:=RNum) n ur) (tabv (N:=RNum) m vr) p false) as W. cbv zeta in W. change (carrier RNum) with R in *. rewrite Lu, Lv in W.
  assert (X1 : forall i, (i < n)%nat -> lnth (tabv (N:=RNum) n ur) i = ur i) by (intros; apply tabv_nth; auto).
  assert (X2 : forall i, (i < m)%nat -> lnth (tabv (N:=RNum) m vr) i = vr i) by (intros; apply tabv_nth; auto).
  destruct W as (w & es & Ew & Ec & O); auto.
  { apply tabv_len. } { apply tabv_len. }
  { intros i Hi; rewrite X1 by auto; left; auto. } { intros i Hi; rewrite X2 by auto; left; auto. }
  { unfold mass. rewrite (rsum_ext n _ ur), (rsum_ext m _ vr) by auto. unfold mass in M1, M2. lra. }
  exists (UotCol (N:=RNum) (fun i => f (pos_of i pu) + t) (fun j => g (pos_of j pv) - t)
            (fun i => ur (pos_of i pu) * fm) (fun j => vr (pos_of j pv) * fm) (w * fm)).
  cbn [uo_f uo_g uo_u uo_v uo_lin].
  assert (PR : forall i, (i < n)%nat -> pfun pu (pos_of i pu) = i /\ (pos_of i pu < n)%nat) by (intros; apply pp_right; auto).
  assert (QR : forall j, (j < m)%nat -> pfun pv (pos_of j pv) = j /\ (pos_of j pv < m)%nat) by (intros; apply pp_right; auto).
  split; [|split; [|split; [|split; [|split; [|split]]]]].
  - unfold uot_column. cbv zeta.
    match goal with |- match ?X with _ => _ end = _ => change X with (fw_loop (N:=RNum) rpow exp ln tsort n m us vs sa sb r1 r2 p k 0 (fun _ => 0) (fun _ => 0)) end.
    rewrite E.
    match goal with |- match ?X with _ => _ end = _ => change X with (get_reweighted (N:=RNum) exp ln n m f g sa sb r1 r2) end.
    rewrite G.
    match goal with |- match ?X with _ => _ end = _ => replace X with (Ok (w, es) : res (RNum * list (@entry RNum))) by (symmetry; exact Ew) end.
    reflexivity.
  - intros i Hi. destruct (PR i Hi) as [A B]. rewrite Eu by auto. destruct r1; cbn; unfold sa; rewrite A; reflexivity.
  - intros i Hi. destruct (QR i Hi) as [A B]. rewrite Ev by auto. destruct r2; cbn; unfold sb; rewrite A; reflexivity.
  - unfold mass. rewrite (pp_sum n pu Pu (fun _ l => ur l * fm)), (pp_sum m pv Pv (fun _ l => vr l * fm)).
    rewrite (rsum_ext n _ (fun l => fm * ur l)), (rsum_ext m _ (fun l => fm * vr l)) by (intros; ring). rewrite !rsum_scal.
    unfold mass in M1, M2. rewrite M1, M2. reflexivity.
  - assert (O' : optimal_coupling n m ur vr (fun i j => wmetric p (lnth us i) (lnth vs j)) (dmat es)).
    { eapply optimal_ext; [| | | |exact O]; auto. }
    apply (scale_optimal _ _ _ _ _ _ fm Pfm) in O'.
    exists (fun i j => dmat es (pos_of i pu) (pos_of j pv) * fm). split.
    + apply (optimal_relabel n m (pfun pu) (pfun pv)); auto.
      eapply optimal_ext; [| | | |exact O'].
      * intros i Hi. rewrite (pp_left n pu Pu) by auto. reflexivity.
      * intros i Hi. rewrite (pp_left m pv Pv) by auto. reflexivity.
      * intros i j Hi Hj. unfold M. rewrite EU, EV by auto. reflexivity.
      * intros i j Hi Hj. rewrite (pp_left n pu Pu), (pp_left m pv Pv) by auto. reflexivity.
    + rewrite Ec. rewrite <- (cost_relabel n m (pfun pu) (pfun pv) M) by auto.
      rewrite (Rmult_comm (cost n m _ _) fm). unfold cost. rewrite <- rsum_scal. apply rsum_ext. intros i Hi. rewrite <- rsum_scal.
      apply rsum_ext. intros j Hj. unfold M. rewrite EU, EV by auto. rewrite (pp_left n pu Pu), (pp_left m pv Pv) by auto. ring.
  - intros s. unfold udual.
    rewrite (dterm_perm n pu a (fun l => f l + t + s) r1 Pu), (dterm_perm m pv b (fun l => g l - t - s) r2 Pv).
    rewrite (dterm_perm n pu a (fun l => f l + t) r1 Pu), (dterm_perm m pv b (fun l => g l - t) r2 Pv).
    pose proof (translation_best n m sa sb r1 r2 Hn Hm Psa Psb H1 H2 Bal f g (t + s)) as T. cbv zeta in T. rewrite <- Et in T.
    unfold udual in T. fold sa sb.
    replace (fun l => f l + t + s) with (fun l => f l + (t + s)) by (apply FunctionalExtensionality.functional_extensionality; intros; ring).
    replace (fun l => g l - t - s) with (fun l => g l - (t + s)) by (apply FunctionalExtensionality.functional_extensionality; intros; ring).
    exact T.
  - intros TF i j Hi Hj. destruct (PR i Hi) as [A1 A2]. destruct (QR j Hj) as [B1 B2].
    assert (D0 : dual_feasible n m (fun i j => wmetric p (lnth us i) (lnth vs j)) (fun _ => 0) (fun _ => 0)).
    { intros x y _ _. unfold wmetric. destruct (Req_EM_T p 1); [pose proof (Rabs_pos (lnth us x - lnth vs y)); lra|].
      pose proof (rpow_nonneg (Rabs (lnth us x - lnth vs y)) p). lra. }
    pose proof (F D0 TF (pos_of i pu) (pos_of j pv) A2 B2) as Q. cbn beta in Q. rewrite EU, EV in Q by auto. rewrite A1, B1 in Q.
    unfold M. lra.
Qed.
End Column.

Lemma all_cols_ok : forall {N : NumOps} K (run : nat -> res (@uot_col N)), (forall q, (q < K)%nat -> exists c, run q = Ok c) ->
  exists cols, all_cols K run = Some cols /\ forall q, (q < K)%nat -> run q = Ok (cols q).
Proof.
  intros N K run. induction K; intros H.
  - eexists. split; [reflexivity|]. intros; lia.
  - destruct IHK as (cols & E & C); [intros; apply H; lia|]. destruct (H K ltac:(lia)) as (c & Ec).
    cbn [all_cols]. rewrite E, Ec. eexists. split; [reflexivity|]. intros q Hq. cbn beta. destruct (Nat.eqb_spec q K) as [->|]; [auto|]. apply C. lia.
Qed.
