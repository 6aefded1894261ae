(** C160: lowrank_gromov_wasserstein_samples (ot/gromov/_lowrank.py), over the exact reals; [cbrt] is x ** (1/3), [tiny] the 1e-16 the code adds.
    [gw n m A B P] (Lrgw_proofs) = sum over i, j, i', j' of (A i i' - B j j')^2 P i j P i' j' is the Gromov-Wasserstein objective,
    [low_rank_plan r Q S g] = Q diag(1/g) S^T, [lincost n m A B P] = -4 A P B. *)
From Coq Require Import List Arith Bool Reals Lra Lia.
From Verif Require Import Num Sums Spec NS_dense Duals_proofs Entropy Emd1d_model Emd1d_perm_proofs Optim_model Optim_proofs Circle_proofs Dmmot_proofs
  Sinkhorn_model Sinkhorn_proofs P_Sinkhorn Lowrank_model Lowrank_proofs Lowrank_more P_Lowrank Lrgw_model Lrgw_proofs.
Import ListNotations.
Local Open Scope R_scope.

Definition sym_mat (n : nat) (A : mat) : Prop := forall i j, (i < n)%nat -> (j < n)%nat -> A i j = A j i.
(** the factors used for one side and the matrix they stand for *)
Definition factors (n d : nat) (X : mat) (rescale : bool) (f : option (nat * (mat * mat))) : nat * (mat * mat) :=
  match f with Some f => f | None => ((d + 2)%nat, lr_cost_factors (N:=RNum) sqrt n n d X X rescale) end.
Definition structure (f : nat * (mat * mat)) : mat := fun i j => rsum (fst f) (fun t => fst (snd f) i t * snd (snd f) j t).
Definition entropies (n m r : nat) (eps : R) (Q S : mat) (g : vec) : R :=
  dsum n r (fun i k => Q i k * ln (Q i k + eps)) + rsum r (fun k => g k * ln (g k + eps)) + dsum m r (fun j k => S j k * ln (S j k + eps)).

(** ** the structures *)
Theorem C160_structure : forall n d X i j, (0 < n)%nat -> let D := rsum d (fun k => (X i k - X j k) * (X i k - X j k)) in
  structure (factors n d X false None) i j = D /\ structure (factors n d X true None) i j * scale n n d X X true = D.
Proof.
  intros n d X i j Hn D. split.
  - unfold structure, factors. cbn [fst snd lr_cost_factors]. exact (factors_exact d X X i j).
  - assert (F := factors_rescaled n n d X X i j Hn Hn). unfold structure, factors, scale. cbn [fst snd]. destruct (lr_cost_factors (N:=RNum) sqrt n n d X X true) as [M1 M2]. exact F.
Qed.
Print Assumptions C160_structure.
(** Rescaling the two structures by different positive constants changes the objective but not the order of the couplings *)
Theorem C160_rescale : forall n m A B (s t : R) a b P P', 0 < s -> 0 < t -> coupling n m a b P -> coupling n m a b P' ->
  let A' := fun i j => A i j / s in let B' := fun i j => B i j / t in (gw n m A' B' P <= gw n m A' B' P' <-> gw n m A B P <= gw n m A B P').
Proof.
  intros n m A B s t a b P P' Hs Ht (P1 & P2 & P3) (Q1 & Q2 & Q3) A' B'.
  assert (E : forall X, bil n m A' B' X X = / (s * t) * bil n m A B X X).
  { intros X. unfold bil. rewrite <- dsum_scal. apply dsum_ext; intros. rewrite <- dsum_scal. apply dsum_ext; intros. unfold A', B'. field. lra. }
  rewrite !(gw_expand n m _ _ P a b), !(gw_expand n m _ _ P' a b) by auto. rewrite !E.
  assert (K : 0 < / (s * t)) by (apply Rinv_0_lt_compat; apply Rmult_lt_0_compat; auto).
  split; intros H; [|assert (/ (s * t) * bil n m A B P' P' <= / (s * t) * bil n m A B P P) by (apply Rmult_le_compat_l; lra); lra].
  assert (/ (s * t) * bil n m A B P' P' <= / (s * t) * bil n m A B P P) by lra. apply Rmult_le_reg_l in H0; auto. lra.
Qed.
Print Assumptions C160_rescale.

(** ** the step: mirror descent on the Gromov-Wasserstein objective *)
Lemma gradQ_ext : forall m reg Q S g C C' i k, (forall i j, C i j = C' i j) -> gradQ m reg Q S g C i k = gradQ m reg Q S g C' i k.
Proof. intros. unfold gradQ. f_equal. f_equal. apply rsum_ext; intros. rewrite H. reflexivity. Qed.
Lemma gradR_ext : forall n reg Q S g C C' i k, (forall i j, C i j = C' i j) -> gradR n reg Q S g C i k = gradR n reg Q S g C' i k.
Proof. intros. unfold gradR. f_equal. f_equal. apply rsum_ext; intros. rewrite H. reflexivity. Qed.
Lemma gradg_ext : forall n m reg Q S g C C' k, (forall i j, C i j = C' i j) -> gradg n m reg Q S g C k = gradg n m reg Q S g C' k.
Proof. intros. unfold gradg. f_equal. f_equal. f_equal. apply dsum_ext; intros. rewrite H. reflexivity. Qed.
(** whatever the step size gm: up to a constant the projection of the kernels minimises gm <G, x> + KL(x | previous) with the G below ... *)
Theorem C160_mirror_step : forall n m cA cB r A1 A2 B1 B2 (reg gm : R) Q S g, pos_mat n r Q -> pos_mat m r S -> pos_vec r g ->
  let C := lincost n m (structure (cA, (A1, A2))) (structure (cB, (B1, B2))) (low_rank_plan r Q S g) in
  let C1 := gl_C1 (N:=RNum) n cA A1 A2 Q g in let C2 := gl_C2 (N:=RNum) m cB B1 B2 S in
  exists const, forall Q' S' g', nonneg_mat n r Q' -> nonneg_mat m r S' -> nonneg_vec r g' ->
  lr_kl n m r (lr_eps1 (N:=RNum) exp ln m r C1 C2 reg gm Q S g) (lr_eps2 (N:=RNum) exp ln n r C1 C2 reg gm Q S g) (lr_eps3 (N:=RNum) exp ln n m r C1 C2 reg gm Q S g) Q' S' g' =
  gm * (inner_m n r (gradQ m reg Q S g C) Q' + inner_m m r (gradR n reg Q S g C) S' + dot r (gradg n m reg Q S g C) g') + lr_kl n m r Q S g Q' S' g' + const.
Proof.
  intros n m cA cB r A1 A2 B1 B2 reg gm Q S g HQ HS Hg C C1 C2. destruct (C117_mirror_step n m r r C1 C2 reg gm Q S g HQ HS Hg) as (k & Hk). exists k. intros Q' S' g' H1 H2 H3.
  rewrite Hk by auto. assert (E : forall i j, rsum r (fun t => C1 i t * C2 j t) = C i j) by (intros; apply (cost_C n m cA cB r A1 A2 B1 B2 Q S g i j)).
  f_equal. f_equal. f_equal. f_equal; [f_equal|].
  - apply dsum_ext; intros. f_equal. apply gradQ_ext. exact E.
  - apply dsum_ext; intros. f_equal. apply gradR_ext. exact E.
  - apply rsum_ext; intros. f_equal. apply gradg_ext. exact E.
Qed.
Print Assumptions C160_mirror_step.
(** every iteration projects exactly these kernels: the arrays handed to Dykstra's algorithm satisfy the identity above, with the step of C160_step_size and the marginals a and b,
    and the new iterate is its result plus [tiny] *)
Theorem C160_iteration : forall nrm tiny n m cA cB r a b A1 A2 B1 B2 (reg alpha thr : R) gi it Q S g o e, pos_mat n r Q -> pos_mat m r S -> pos_vec r g ->
  gl_step (N:=RNum) exp ln cbrt nrm tiny n m cA cB r a b A1 A2 B1 B2 reg alpha thr gi it Q S g = Some (o, e) ->
  let C := lincost n m (structure (cA, (A1, A2))) (structure (cB, (B1, B2))) (low_rank_plan r Q S g) in
  let gm := gl_gamma (N:=RNum) ln nrm n m cA cB r A1 A2 B1 B2 reg alpha gi Q S g in
  exists K1 K2 K3 o1, lr_dykstra (N:=RNum) cbrt n m r K1 K2 K3 a b alpha thr it = Some o1 /\
    (forall i k, l_Q o i k = l_Q o1 i k + tiny) /\ (forall j k, l_R o j k = l_R o1 j k + tiny) /\ (forall k, l_g o k = l_g o1 k + tiny) /\
    exists const, forall Q' S' g', nonneg_mat n r Q' -> nonneg_mat m r S' -> nonneg_vec r g' ->
    lr_kl n m r K1 K2 K3 Q' S' g' =
    gm * (inner_m n r (gradQ m reg Q S g C) Q' + inner_m m r (gradR n reg Q S g C) S' + dot r (gradg n m reg Q S g C) g') + lr_kl n m r Q S g Q' S' g' + const.
Proof.
  intros nrm tiny n m cA cB r a b A1 A2 B1 B2 reg alpha thr gi it Q S g o e HQ HS Hg E C gm. unfold gl_step in E. cbv zeta in E. fold gm in E.
  destruct (C160_mirror_step n m cA cB r A1 A2 B1 B2 reg gm Q S g HQ HS Hg) as (k & Hk).
  match type of E with context [lr_dykstra _ _ _ _ ?x ?y ?z _ _ _ _ _] => exists x, y, z end.
  match type of E with context [match ?d with Some _ => _ | None => _ end] => destruct d as [o1|] eqn:Ed; [|discriminate] end.
  exists o1. split; [reflexivity|]. inversion E; subst o e. split; [reflexivity|split; [reflexivity|split; [reflexivity|]]]. exists k. exact Hk.
Qed.
Print Assumptions C160_iteration.
(** ... and G is the derivative of gw(Q diag(1/g) S^T) + reg times the entropies along every feasible direction *)
Theorem C160_gradient : forall n m r A B reg Q S g DQ DS Dg, sym_mat n A -> sym_mat m B -> pos_mat n r Q -> pos_mat m r S -> pos_vec r g ->
  (forall k, (k < r)%nat -> col_sum n Q k = g k /\ col_sum m S k = g k /\ col_sum n DQ k = Dg k /\ col_sum m DS k = Dg k) ->
  (forall i, (i < n)%nat -> row_sum r DQ i = 0) -> (forall j, (j < m)%nat -> row_sum r DS j = 0) ->
  let C := lincost n m A B (low_rank_plan r Q S g) in
  derivable_pt_lim (fun t => let Q' := fun i k => Q i k + t * DQ i k in let S' := fun j k => S j k + t * DS j k in let g' := fun k => g k + t * Dg k in
      gw n m A B (low_rank_plan r Q' S' g') + reg * entropies n m r 0 Q' S' g') 0
    (inner_m n r (gradQ m reg Q S g C) DQ + inner_m m r (gradR n reg Q S g C) DS + dot r (gradg n m reg Q S g C) Dg).
Proof.
  intros n m r A B reg Q S g DQ DS Dg HA HB HQ HS Hg CC RQ RS C. cbv zeta.
  assert (Z1 : dsum n r DQ = 0) by (unfold dsum; apply rsum_0; intros; apply RQ; auto). assert (Z2 : dsum m r DS = 0) by (unfold dsum; apply rsum_0; intros; apply RS; auto).
  assert (Z3 : rsum r Dg = 0). { rewrite (rsum_ext r Dg (fun k => col_sum n DQ k)) by (intros k Hk; symmetry; apply CC; auto). rewrite <- Z1. unfold col_sum, dsum. symmetry. apply rsum_swap. }
  apply (deriv_ext (fun t => gw n m A B (Pt r Q S g DQ DS Dg t) + reg * lr_ent n m r (fun i k => Q i k + t * DQ i k) (fun j k => S j k + t * DS j k) (fun k => g k + t * Dg k))).
  { intros t. f_equal. f_equal. unfold lr_ent, entropies. rewrite (dsum_ext n r (fun i k => (Q i k + t * DQ i k) * ln (Q i k + t * DQ i k + 0)) (fun i k => (Q i k + t * DQ i k) * ln (Q i k + t * DQ i k))) by (intros; rewrite Rplus_0_r; reflexivity).
    rewrite (dsum_ext m r (fun i k => (S i k + t * DS i k) * ln (S i k + t * DS i k + 0)) (fun i k => (S i k + t * DS i k) * ln (S i k + t * DS i k))) by (intros; rewrite Rplus_0_r; reflexivity).
    rewrite (rsum_ext r (fun k => (g k + t * Dg k) * ln (g k + t * Dg k + 0)) (fun k => (g k + t * Dg k) * ln (g k + t * Dg k))) by (intros; rewrite Rplus_0_r; reflexivity). ring. }
  eapply deriv_eq.
  { apply (derivable_pt_lim_plus (fun t => gw n m A B (Pt r Q S g DQ DS Dg t)) (fun t => reg * lr_ent n m r (fun i k => Q i k + t * DQ i k) (fun j k => S j k + t * DS j k) (fun k => g k + t * Dg k))).
    - apply gw_deriv; auto; intros k Hk; apply CC; auto.
    - apply (derivable_pt_lim_scal (fun t => lr_ent n m r (fun i k => Q i k + t * DQ i k) (fun j k => S j k + t * DS j k) (fun k => g k + t * Dg k))). apply lr_ent_deriv; auto. }
  fold C. rewrite Z1, Z2, Z3. unfold inner_m, dot, gradQ, gradR, gradg.
  rewrite (dsum_ext n r (fun i j => (rsum m (fun j0 => C i j0 * S j0 j) / g j + reg * ln (Q i j)) * DQ i j) (fun i k => rsum m (fun j => C i j * S j k) / g k * DQ i k + reg * (ln (Q i k) * DQ i k))) by (intros; ring).
  rewrite (dsum_ext m r (fun i j => (rsum n (fun i0 => C i0 i * Q i0 j) / g j + reg * ln (S i j)) * DS i j) (fun j k => rsum n (fun i => C i j * Q i k) / g k * DS j k + reg * (ln (S j k) * DS j k))) by (intros; ring).
  rewrite (rsum_ext r (fun k => (- dsum n m (fun i j => C i j * (Q i k * S j k)) / (g k * g k) + reg * ln (g k)) * Dg k) (fun k => - dsum n m (fun i j => C i j * (Q i k * S j k)) / (g k * g k) * Dg k + reg * (ln (g k) * Dg k))) by (intros; ring).
  rewrite !dsum_plus, !dsum_scal, rsum_plus, rsum_scal. ring.
Qed.
Print Assumptions C160_gradient.

(** ** the whole solver *)
Lemma gl_loop_last : forall ex lg cb nrm tiny n m cA cB r a b A1 A2 B1 B2 reg alpha thr thrd gi itd left s err dg o d st,
  gl_loop (N:=RNum) ex lg cb nrm tiny n m cA cB r a b A1 A2 B1 B2 reg alpha thr thrd gi itd left s err dg = Some (o, Some d, st) ->
  (o = s /\ dg = Some d) \/ exists p e, gl_step (N:=RNum) ex lg cb nrm tiny n m cA cB r a b A1 A2 B1 B2 reg alpha thrd gi itd (l_Q p) (l_R p) (l_g p) = Some (o, e) /\ d = (fun k => 1 / l_g p k).
Proof.
  intros ex lg cb nrm tiny n m cA cB r a b A1 A2 B1 B2 reg alpha thr thrd gi itd. induction left as [|left IH]; intros s err dg o d st; cbn [gl_loop].
  - intros [= -> -> _]. auto.
  - destruct (nltb (n:=RNum) thr err); [|intros [= -> -> _]; auto].
    destruct (gl_step (N:=RNum) ex lg cb nrm tiny n m cA cB r a b A1 A2 B1 B2 reg alpha thrd gi itd (l_Q s) (l_R s) (l_g s)) as [[s' e']|] eqn:Es; [|discriminate].
    intros H. destruct (IH _ _ _ _ _ _ H) as [(-> & [= <-])|H']; [|right; exact H']. right. exists s, e'. split; [exact Es|reflexivity].
Qed.
Lemma gl_open : forall nrm tiny n m dX dY X Y a b reg rank alpha gi rescale fX fY init thr it thrd itd o P v vq st,
  lowrank_gw (N:=RNum) exp ln sqrt cbrt nrm tiny n m dX dY X Y a b reg rank alpha gi rescale fX fY init thr it thrd itd = GlOk o P v vq st ->
  let r := eff_rank n m rank in let FX := factors n dX X rescale fX in let FY := factors m dY Y rescale fY in
  let A1 := fst (snd FX) in let A2 := snd (snd FX) in let B1 := fst (snd FY) in let B2 := snd (snd FY) in
  exists a' b' p e, (forall i, a' i = weights n a i) /\ (forall i, b' i = weights m b i) /\ (0 < r)%nat /\
  gl_step (N:=RNum) exp ln cbrt nrm tiny n m (fst FX) (fst FY) r a' b' A1 A2 B1 B2 reg alpha thrd gi itd (l_Q p) (l_R p) (l_g p) = Some (o, e) /\
  P = lr_plan (N:=RNum) r (l_Q o) (l_R o) (fun k => ndiv (n:=RNum) n1 (l_g o k)) /\
  v = gl_value (N:=RNum) ln tiny n m (fst FX) (fst FY) r a' b' A1 A2 B1 B2 reg (l_Q o) (l_R o) (l_g o) (fun k => 1 / l_g p k) /\
  vq = gl_value_quad (N:=RNum) n m (fst FX) (fst FY) r a' b' A1 A2 B1 B2 (l_Q o) (l_R o) (l_g o) (fun k => 1 / l_g p k).
Proof.
  intros nrm tiny n m dX dY X Y a b reg rank alpha gi rescale fX fY init thr it thrd itd o P v vq st. unfold lowrank_gw. cbv zeta. fold (eff_rank n m rank). set (r := eff_rank n m rank).
  destruct (Nat.eqb r 0) eqn:Er; [discriminate|]. apply Nat.eqb_neq in Er. destruct (nltb (n:=RNum) _ alpha); [destruct rank; discriminate|].
  change (match fX with Some f => f | None => ((dX + 2)%nat, lr_cost_factors (N:=RNum) sqrt n n dX X X rescale) end) with (factors n dX X rescale fX).
  change (match fY with Some f => f | None => ((dY + 2)%nat, lr_cost_factors (N:=RNum) sqrt m m dY Y Y rescale) end) with (factors m dY Y rescale fY).
  destruct (factors n dX X rescale fX) as (cA & A1 & A2). destruct (factors m dY Y rescale fY) as (cB & B1 & B2). cbn [fst snd].
  set (a' := match a with Some a => a | None => _ end). set (b' := match b with Some b => b | None => _ end).
  assert (Ea : forall i, a' i = weights n a i) by (intros i; unfold a', weights; destruct a; auto; cbn [ndiv n1 RNum]; rewrite nofnat_INR; reflexivity).
  assert (Eb : forall i, b' i = weights m b i) by (intros i; unfold b', weights; destruct b; auto; cbn [ndiv n1 RNum]; rewrite nofnat_INR; reflexivity).
  destruct (init r a' b') as [[Q S] g].
  assert (K : forall G, gi = G -> match gl_loop (N:=RNum) exp ln cbrt nrm tiny n m cA cB r a' b' A1 A2 B1 B2 reg alpha thr thrd G itd it (mkLr (N:=RNum) Q S g false) (n1 (n:=RNum)) None with
     | None => GlUnbound | Some (_, None, _) => GlUnbound | Some (o, Some dg, st) => GlOk o (lr_plan (N:=RNum) r (l_Q o) (l_R o) (fun k => ndiv (n:=RNum) n1 (l_g o k)))
        (gl_value (N:=RNum) ln tiny n m cA cB r a' b' A1 A2 B1 B2 reg (l_Q o) (l_R o) (l_g o) dg) (gl_value_quad (N:=RNum) n m cA cB r a' b' A1 A2 B1 B2 (l_Q o) (l_R o) (l_g o) dg) st end = GlOk o P v vq st ->
     exists a' b' p e, (forall i, a' i = weights n a i) /\ (forall i, b' i = weights m b i) /\ (0 < r)%nat /\
       gl_step (N:=RNum) exp ln cbrt nrm tiny n m cA cB r a' b' A1 A2 B1 B2 reg alpha thrd gi itd (l_Q p) (l_R p) (l_g p) = Some (o, e) /\
       P = lr_plan (N:=RNum) r (l_Q o) (l_R o) (fun k => ndiv (n:=RNum) n1 (l_g o k)) /\
       v = gl_value (N:=RNum) ln tiny n m cA cB r a' b' A1 A2 B1 B2 reg (l_Q o) (l_R o) (l_g o) (fun k => 1 / l_g p k) /\
       vq = gl_value_quad (N:=RNum) n m cA cB r a' b' A1 A2 B1 B2 (l_Q o) (l_R o) (l_g o) (fun k => 1 / l_g p k)).
  { intros G <-. destruct (gl_loop (N:=RNum) exp ln cbrt nrm tiny n m cA cB r a' b' A1 A2 B1 B2 reg alpha thr thrd gi itd it (mkLr (N:=RNum) Q S g false) (n1 (n:=RNum)) None) as [[[o' [d|]] st']|] eqn:El; try discriminate.
    intros [= -> <- <- <- _]. destruct (gl_loop_last _ _ _ _ _ _ _ _ _ _ _ _ _ _ _ _ _ _ _ _ _ _ _ _ _ _ _ _ _ El) as [(_ & H)|(p & e & H & ->)]; [discriminate|].
    exists a', b', p, e. repeat split; auto. lia. }
  destruct gi; [apply K; reflexivity|apply K; reflexivity|discriminate].
Qed.
Lemma selfsq_ext : forall n A a a', (forall i, a i = a' i) -> selfsq n A a = selfsq n A a'.
Proof. intros. unfold selfsq. apply rsum_ext; intros. apply rsum_ext; intros. rewrite !H. reflexivity. Qed.
(** The lazy plan is Q diag(1/g) R^T.  value_quad is the Gromov-Wasserstein objective with the quadratic term in mixed form: one factor is the
    returned plan, the other one uses the weights p before the last iteration; value adds reg times the entropies. *)
Theorem C160_value : forall nrm tiny n m dX dY X Y a b reg rank alpha gi rescale fX fY init thr it thrd itd o P v vq st,
  lowrank_gw (N:=RNum) exp ln sqrt cbrt nrm tiny n m dX dY X Y a b reg rank alpha gi rescale fX fY init thr it thrd itd = GlOk o P v vq st ->
  let r := eff_rank n m rank in let A := structure (factors n dX X rescale fX) in let B := structure (factors m dY Y rescale fY) in
  sym_mat m B ->
  (forall i j, P i j = low_rank_plan r (l_Q o) (l_R o) (l_g o) i j) /\ v = vq + reg * entropies n m r tiny (l_Q o) (l_R o) (l_g o) /\
  exists a' b' p e, (forall i, a' i = weights n a i) /\ (forall i, b' i = weights m b i) /\
   gl_step (N:=RNum) exp ln cbrt nrm tiny n m (fst (factors n dX X rescale fX)) (fst (factors m dY Y rescale fY)) r a' b'
     (fst (snd (factors n dX X rescale fX))) (snd (snd (factors n dX X rescale fX))) (fst (snd (factors m dY Y rescale fY))) (snd (snd (factors m dY Y rescale fY)))
     reg alpha thrd gi itd (l_Q p) (l_R p) (l_g p) = Some (o, e) /\
   vq = rsum n (fun i => rsum n (fun i' => A i i' * A i i' * weights n a i * weights n a i')) + rsum m (fun j => rsum m (fun j' => B j j' * B j j' * weights m b j * weights m b j'))
        - 2 * dsum n m (fun i j => dsum n m (fun i' j' => A i i' * B j j' * low_rank_plan r (l_Q o) (l_R o) (l_g p) i j * P i' j')) /\
   ((forall k, (k < r)%nat -> l_g p k = l_g o k) -> (forall i, (i < n)%nat -> row_sum m P i = weights n a i) -> (forall j, (j < m)%nat -> col_sum n P j = weights m b j) -> vq = gw n m A B P).
Proof.
  intros nrm tiny n m dX dY X Y a b reg rank alpha gi rescale fX fY init thr it thrd itd o P v vq st E r A B HB.
  destruct (gl_open _ _ _ _ _ _ _ _ _ _ _ _ _ _ _ _ _ _ _ _ _ _ _ _ _ _ _ E) as (a' & b' & p & e & Ea & Eb & Hr & St & EP & Ev & Eq). fold r in Hr, St, EP, Ev, Eq.
  assert (HP : forall i j, P i j = low_rank_plan r (l_Q o) (l_R o) (l_g o) i j) by (intros; rewrite EP; apply lr_plan_R).
  assert (V1 : vq = selfsq n A (weights n a) + selfsq m B (weights m b) - 2 * bil n m A B (low_rank_plan r (l_Q o) (l_R o) (l_g p)) P).
  { rewrite Eq, value_quad_R. rewrite (selfsq_ext n _ a' (weights n a) Ea), (selfsq_ext m _ b' (weights m b) Eb). rewrite lin_bil by (intros; apply HB; auto).
    replace (bil n m A B (low_rank_plan r (l_Q o) (l_R o) (l_g p)) P) with (bil n m A B (low_rank_plan r (l_Q o) (l_R o) (l_g p)) (low_rank_plan r (l_Q o) (l_R o) (l_g o))).
    2:{ unfold bil. apply dsum_ext; intros. apply dsum_ext; intros. rewrite HP. reflexivity. }
    change (fprod (fst (factors n dX X rescale fX)) (fst (snd (factors n dX X rescale fX))) (snd (snd (factors n dX X rescale fX)))) with A.
    change (fprod (fst (factors m dY Y rescale fY)) (fst (snd (factors m dY Y rescale fY))) (snd (snd (factors m dY Y rescale fY)))) with B. lra. }
  split; [exact HP|]. split.
  { rewrite Ev, Eq. unfold gl_value. cbv zeta. destruct (neqb (n:=RNum) reg n0) eqn:Er.
    - apply Reqb_true in Er. cbn [n0 RNum] in Er. rewrite Er. change (carrier RNum) with R. rewrite Rmult_0_l, Rplus_0_r. reflexivity.
    - rewrite !nsum_R. cbn [nadd nmul RNum]. f_equal. f_equal. unfold entropies, dsum. f_equal; [f_equal|]; apply rsum_ext; intros; try apply nsum_R; reflexivity. }
  exists a', b', p, e. split; [exact Ea|]. split; [exact Eb|]. split; [exact St|]. split; [exact V1|]. intros Eg Pr Pc.
  rewrite (gw_expand n m A B P (weights n a) (weights m b)) by auto. rewrite V1. f_equal. f_equal. unfold bil. apply dsum_ext; intros. apply dsum_ext; intros. f_equal. f_equal. rewrite HP. unfold low_rank_plan. apply rsum_ext; intros. rewrite Eg by auto. reflexivity.
Qed.
Print Assumptions C160_value.

Lemma gl_step_ok : forall nrm tiny n m cA cB r a b A1 A2 B1 B2 reg alpha thr gi it Q S g o e, (0 < n)%nat -> (0 < m)%nat -> (0 < r)%nat -> pos_vec n a -> pos_vec m b ->
  gl_step (N:=RNum) exp ln cbrt nrm tiny n m cA cB r a b A1 A2 B1 B2 reg alpha thr gi it Q S g = Some (o, e) -> step_ok n m r a b tiny thr o.
Proof.
  intros nrm tiny n m cA cB r a b A1 A2 B1 B2 reg alpha thr gi it Q S g o e Hn Hm Hr Ha Hb. unfold gl_step. cbv zeta.
  match goal with |- context [lr_dykstra cbrt n m r ?x ?y ?z a b alpha thr it] => destruct (lr_dykstra (N:=RNum) cbrt n m r x y z a b alpha thr it) as [o'|] eqn:E end; [|discriminate].
  intros [= <- _]. apply lr_dykstra_spec in E; auto; try (intros; apply exp_pos); [|intros k Hk; apply exp_pos]. destruct E.
  exists (l_Q o'), (l_R o'), (l_g o'). cbn [l_Q l_R l_g l_conv]. repeat split; auto.
Qed.
(** The plan is positive, and when the last inner solver converged its marginals are within the documented inner tolerance (and the additive
    safeguard tiny) of the weights. *)
Theorem C160_marginals : forall nrm tiny n m dX dY X Y a b reg rank alpha gi rescale fX fY init stop numit thr it o P v vq st,
  (0 < n)%nat -> (0 < m)%nat -> 0 <= tiny -> pos_vec n (weights n a) -> pos_vec m (weights m b) ->
  lowrank_gw (N:=RNum) exp ln sqrt cbrt nrm tiny n m dX dY X Y a b reg rank alpha gi rescale fX fY init stop numit thr it = GlOk o P v vq st ->
  pos_mat n m P /\
  (l_conv o = true -> row_gap n m P (weights n a) + row_gap m n (tpose P) (weights m b) <= thr + 2 * INR (eff_rank n m rank) * INR n * INR m * tiny).
Proof.
  intros nrm tiny n m dX dY X Y a b reg rank alpha gi rescale fX fY init stop numit thr it o P v vq st Hn Hm Ht Ha Hb E.
  destruct (gl_open _ _ _ _ _ _ _ _ _ _ _ _ _ _ _ _ _ _ _ _ _ _ _ _ _ _ _ E) as (a' & b' & p & e & Ea & Eb & Hr & St & -> & _).
  set (r := eff_rank n m rank) in *.
  assert (Pa : pos_vec n a') by (intros i Hi; rewrite Ea; auto). assert (Pb : pos_vec m b') by (intros i Hi; rewrite Eb; auto).
  apply gl_step_ok in St; auto. destruct St as (Q & S & g & A & B & G & C). split.
  - intros i j Hi Hj. rewrite lr_plan_R. apply rsum_pos; auto. intros k Hk. destruct (A i k Hi Hk) as (A1 & A2). destruct (B j k Hj Hk) as (B1 & B2).
    destruct (G k Hk) as (G1 & G2 & _). cbn [ndiv n1 RNum]. change (carrier RNum) with R in *. rewrite A2, B2, G2. apply Rmult_lt_0_compat; [|lra]. apply Rmult_lt_0_compat; [lra|].
    apply Rdiv_lt_0_compat; lra.
  - intros Hc. specialize (C Hc).
    assert (L1 := row_bound n m r Q S g (weights n a) tiny Hn Hm Ht (fun i k Hi Hk => proj1 (A i k Hi Hk)) (fun k Hk => proj1 (G k Hk))
       (fun k Hk => proj1 (proj2 (proj2 (G k Hk)))) (fun k Hk => proj2 (proj2 (proj2 (G k Hk))))).
    assert (L2 := row_bound m n r S Q g (weights m b) tiny Hm Hn Ht (fun i k Hi Hk => proj1 (B i k Hi Hk)) (fun k Hk => proj1 (G k Hk))
       (fun k Hk => proj2 (proj2 (proj2 (G k Hk)))) (fun k Hk => proj1 (proj2 (proj2 (G k Hk))))).
    unfold row_gap.
    rewrite (rsum_ext n (fun i => Rabs (row_sum m (lr_plan (N:=RNum) r (l_Q o) (l_R o) (fun k => ndiv (n:=RNum) n1 (l_g o k))) i - weights n a i))
      (fun i => Rabs (rsum m (fun j => rsum r (fun k => (Q i k + tiny) * (1 / (g k + tiny)) * (S j k + tiny))) - weights n a i))).
    2:{ intros i Hi. f_equal. f_equal. apply rsum_ext; intros j Hj. rewrite lr_plan_R. apply rsum_ext; intros k Hk.
        destruct (A i k Hi Hk) as (_ & A2). destruct (B j k Hj Hk) as (_ & B2). destruct (G k Hk) as (_ & G2 & _). cbn [ndiv n1 RNum].
        change (carrier RNum) with R in *. rewrite A2, B2, G2. reflexivity. }
    rewrite (rsum_ext m (fun i => Rabs (row_sum n (tpose (lr_plan (N:=RNum) r (l_Q o) (l_R o) (fun k => ndiv (n:=RNum) n1 (l_g o k)))) i - weights m b i))
      (fun i => Rabs (rsum n (fun j => rsum r (fun k => (S i k + tiny) * (1 / (g k + tiny)) * (Q j k + tiny))) - weights m b i))).
    2:{ intros i Hi. f_equal. f_equal. apply rsum_ext; intros j Hj. unfold tpose. rewrite lr_plan_R. apply rsum_ext; intros k Hk.
        destruct (A j k Hj Hk) as (_ & A2). destruct (B i k Hi Hk) as (_ & B2). destruct (G k Hk) as (_ & G2 & _). cbn [ndiv n1 RNum].
        change (carrier RNum) with R in *. rewrite A2, B2, G2. ring. }
    rewrite (rsum_ext n (fun i => Rabs (row_sum r Q i - a' i)) (fun i => Rabs (row_sum r Q i - weights n a i))) in C by (intros; rewrite Ea; reflexivity).
    rewrite (rsum_ext m (fun i => Rabs (row_sum r S i - b' i)) (fun i => Rabs (row_sum r S i - weights m b i))) in C by (intros; rewrite Eb; reflexivity).
    replace (2 * INR r * INR n * INR m * tiny) with (INR r * INR n * INR m * tiny + INR r * INR m * INR n * tiny) by ring. lra.
Qed.
Print Assumptions C160_marginals.
Lemma gl_step_some : forall nrm tiny n m cA cB r a b A1 A2 B1 B2 reg alpha thr gi it Q S g, (0 < n)%nat -> (0 < m)%nat -> (0 < r)%nat -> pos_vec n a -> pos_vec m b ->
  (0 < it)%nat -> thr < 1 ->
  exists o, gl_step (N:=RNum) exp ln cbrt nrm tiny n m cA cB r a b A1 A2 B1 B2 reg alpha thr gi it Q S g = Some o.
Proof.
  intros nrm tiny n m cA cB r a b A1 A2 B1 B2 reg alpha thr gi it Q S g Hn Hm Hr Ha Hb Hi Ht. unfold gl_step. cbv zeta.
  match goal with |- context [lr_dykstra cbrt n m r ?x ?y ?z a b alpha thr it] => destruct (lr_dykstra_ran n m r x y z a b alpha thr it) as (o & ->) end; auto; try (intros; apply exp_pos); [intros k Hk; apply exp_pos|eauto].
Qed.
Lemma gl_loop_some : forall nrm tiny n m cA cB r a b A1 A2 B1 B2 reg alpha stop thr gi it left s err d, (0 < n)%nat -> (0 < m)%nat -> (0 < r)%nat -> pos_vec n a -> pos_vec m b ->
  (0 < it)%nat -> thr < 1 ->
  exists o d' st, gl_loop (N:=RNum) exp ln cbrt nrm tiny n m cA cB r a b A1 A2 B1 B2 reg alpha stop thr gi it left s err (Some d) = Some (o, Some d', st).
Proof.
  intros nrm tiny n m cA cB r a b A1 A2 B1 B2 reg alpha stop thr gi it left s err d Hn Hm Hr Ha Hb Hi Ht. revert s err d. induction left as [|left IH]; intros s err d; cbn [gl_loop]; [eauto|].
  destruct (nltb (n:=RNum) stop err); [|eauto]. destruct (gl_step_some nrm tiny n m cA cB r a b A1 A2 B1 B2 reg alpha thr gi it (l_Q s) (l_R s) (l_g s)) as ((s' & e') & ->); auto.
Qed.
(** The solver returns for positive weights, a feasible alpha, a supported gamma_init and at least one iteration of both loops ... *)
Theorem C160_returns : forall nrm tiny n m dX dY X Y a b reg rank alpha gi rescale fX fY init stop numit thr it,
  (0 < n)%nat -> (0 < m)%nat -> pos_vec n (weights n a) -> pos_vec m (weights m b) -> (0 < eff_rank n m rank)%nat -> alpha <= 1 / INR (eff_rank n m rank) -> gi <> GlOther ->
  (0 < numit)%nat -> stop < 1 -> (0 < it)%nat -> thr < 1 ->
  exists o P v vq st, lowrank_gw (N:=RNum) exp ln sqrt cbrt nrm tiny n m dX dY X Y a b reg rank alpha gi rescale fX fY init stop numit thr it = GlOk o P v vq st.
Proof.
  intros nrm tiny n m dX dY X Y a b reg rank alpha gi rescale fX fY init stop numit thr it Hn Hm Ha Hb Hr Hal Hg Hnu Hs Hi Ht.
  unfold lowrank_gw. cbv zeta. fold (eff_rank n m rank). set (r := eff_rank n m rank) in *.
  destruct (Nat.eqb r 0) eqn:Er; [apply Nat.eqb_eq in Er; lia|].
  assert (Ll : nltb (n:=RNum) (ndiv (n:=RNum) n1 (nofnat r)) alpha = false) by (cbn [nltb ndiv n1 RNum]; rewrite nofnat_INR; apply Rltb_false; lra). rewrite Ll.
  set (FX := match fX with Some f => f | None => _ end). destruct FX as (cA & A1 & A2). set (FY := match fY with Some f => f | None => _ end). destruct FY as (cB & B1 & B2).
  match goal with |- context [init r ?x ?y] => set (a' := x); set (b' := y) end.
  assert (Pa : pos_vec n a') by (intros i H; specialize (Ha i H); unfold a', weights in *; destruct a; auto; cbn [ndiv n1 RNum]; rewrite nofnat_INR; exact Ha).
  assert (Pb : pos_vec m b') by (intros i H; specialize (Hb i H); unfold b', weights in *; destruct b; auto; cbn [ndiv n1 RNum]; rewrite nofnat_INR; exact Hb).
  destruct (init r a' b') as [[Q S] g]. destruct numit as [|numit]; [lia|].
  assert (K : exists o d st, gl_loop (N:=RNum) exp ln cbrt nrm tiny n m cA cB r a' b' A1 A2 B1 B2 reg alpha stop thr gi it (Datatypes.S numit) (mkLr (N:=RNum) Q S g false) (n1 (n:=RNum)) None = Some (o, Some d, st)).
  { cbn [gl_loop nltb n1 RNum]. rewrite (proj2 (Rltb_true _ _)) by exact Hs. cbn [l_Q l_R l_g].
    destruct (gl_step_some nrm tiny n m cA cB r a' b' A1 A2 B1 B2 reg alpha thr gi it Q S g) as ((s' & e') & ->); auto. apply gl_loop_some; auto. }
  destruct K as (o & d & st & K).
  destruct gi; [rewrite K; repeat eexists|rewrite K; repeat eexists|contradiction].
Qed.
Print Assumptions C160_returns.
(** ... and refuses or fails otherwise, in the following cases. *)
Theorem C160_refusals : forall (N : NumOps) ex lg sq cb nrm (tiny : N) n m dX dY X Y a b reg rank alpha gi rescale fX fY init stop numit thr it,
  let r := match rank with None => Nat.min n m | Some k => Nat.min (Nat.min n m) k end in
  let call := lowrank_gw (N:=N) ex lg sq cb nrm tiny n m dX dY X Y a b reg rank alpha gi rescale fX fY init stop numit thr it in
  (r = 0%nat -> call = GlValueError) /\
  ((0 < r)%nat -> nltb (ndiv n1 (nofnat r)) alpha = true -> call = match rank with None => GlTypeError | Some _ => GlValueError end) /\
  ((0 < r)%nat -> nltb (ndiv n1 (nofnat r)) alpha = false -> gi = GlOther -> call = GlNotImplemented) /\
  ((0 < r)%nat -> nltb (ndiv n1 (nofnat r)) alpha = false -> gi <> GlOther -> numit = 0%nat \/ nltb stop n1 = false -> call = GlUnbound) /\
  ((0 < r)%nat -> nltb (ndiv n1 (nofnat r)) alpha = false -> gi <> GlOther -> it = 0%nat \/ nltb thr n1 = false -> call = GlUnbound).
Proof.
  intros N ex lg sq cb nrm tiny n m dX dY X Y a b reg rank alpha gi rescale fX fY init stop numit thr it r. cbv zeta. unfold lowrank_gw. cbv zeta. fold r.
  assert (Z : forall T (x y : T), (0 < r)%nat -> (if Nat.eqb r 0 then x else y) = y) by (intros T x y H; destruct (Nat.eqb r 0) eqn:E; auto; apply Nat.eqb_eq in E; lia).
  split; [intros ->; reflexivity|]. split; [intros H E; rewrite (Z _ _ _ H), E; reflexivity|].
  set (FX := match fX with Some f => f | None => _ end). destruct FX as (cA & A1 & A2). set (FY := match fY with Some f => f | None => _ end). destruct FY as (cB & B1 & B2).
  destruct (init r _ _) as [[Q S] g].
  split; [intros H E ->; rewrite (Z _ _ _ H), E; reflexivity|].
  split; intros H E G K; rewrite (Z _ _ _ H), E; destruct gi; try contradiction; (destruct numit as [|numit]; [reflexivity|]); cbn [gl_loop];
    (destruct K as [K|K]; [|try rewrite K; try reflexivity]); try discriminate K; destruct (nltb stop n1); try reflexivity;
    unfold gl_step; cbv zeta; rewrite C116_unbound by auto; reflexivity.
Qed.
Print Assumptions C160_refusals.
(** A case: two clouds of 2 and 3 points on a line, uniform weights, rank 2, as many iterations as the defaults. *)
Example C160_case : let X := fun i _ : nat => INR i in let Y := fun j _ : nat => 2 * INR j in
  (exists o P v vq st, lowrank_gw (N:=RNum) exp ln sqrt cbrt (fun _ _ _ => 1) 0 2 3 1 1 X Y None None 0 (Some 2%nat) (1/10) GlRescale false None None
     (init_det (N:=RNum) 2 3) (1/10000) 1000 (1/1000) 1000 = GlOk o P v vq st /\ pos_mat 2 3 P) /\
  sym_mat 3 (structure (factors 3 1 Y false None)).
Proof.
  intros X Y. split.
  - destruct (C160_returns (fun _ _ _ => 1) 0 2 3 1 1 X Y None None 0 (Some 2%nat) (1/10) GlRescale false None None (init_det (N:=RNum) 2 3) (1/10000) 1000 (1/1000) 1000) as (o & P & v & vq & st & E);
      try lia; try discriminate; try lra; try (unfold eff_rank; cbn; lia); try (intros i Hi; unfold weights; cbn [INR]; lra). { unfold eff_rank. cbn [Nat.min INR]. lra. }
    exists o, P, v, vq, st. split; [exact E|]. apply C160_marginals in E; [apply E| | | | |]; try lia; try lra; intros i Hi; unfold weights; cbn [INR]; lra.
  - intros i j Hi Hj. rewrite (proj1 (C160_structure 3 1 Y i j ltac:(lia))), (proj1 (C160_structure 3 1 Y j i ltac:(lia))). apply rsum_ext; intros. ring.
Qed.
(** ** gamma_init = 'rescale' and the stopping rule *)
Lemma max2_ge : forall n k A i t, (i < n)%nat -> (t < k)%nat -> A i t <= Lowrank_model.max2 (N:=RNum) n k A.
Proof.
  intros n k A i t Hi Ht. unfold Lowrank_model.max2. eapply Rle_trans; [apply (Duals_proofs.nmaxk_ge (k - 1) (A i)); lia|].
  apply (Duals_proofs.nmaxk_ge (n - 1) (fun i => nmaxk (N:=RNum) (k - 1) (fun t => A i t))). lia.
Qed.
Lemma max2_In : forall n k A, (0 < n)%nat -> (0 < k)%nat -> exists i t, (i < n)%nat /\ (t < k)%nat /\ Lowrank_model.max2 (N:=RNum) n k A = A i t.
Proof.
  intros n k A Hn Hk. unfold Lowrank_model.max2. destruct (nmaxk_In (n - 1) (fun i => nmaxk (N:=RNum) (k - 1) (fun t => A i t))) as (i & Hi & E). destruct (nmaxk_In (k - 1) (A i)) as (t & Ht & F).
  exists i, t. split; [lia|]. split; [lia|]. etransitivity; [exact E|exact F].
Qed.
Lemma abs_sq : forall x y, Rabs x <= y -> x * x <= y * y.
Proof. intros x y H. assert (P := Rabs_pos x). rewrite (Rsqr_abs x : x * x = Rabs x * Rabs x). apply Rmult_le_compat; auto. Qed.
(** The step is 10 over the largest squared entry of the gradients in Q, in R and in g, the last one without its entropy part. *)
Theorem C160_step_size : forall nrm n m cA cB r A1 A2 B1 B2 reg alpha Q S g, (0 < n)%nat -> (0 < m)%nat -> (0 < r)%nat -> pos_vec r g ->
  let C := lincost n m (structure (cA, (A1, A2))) (structure (cB, (B1, B2))) (low_rank_plan r Q S g) in
  exists M, gl_gamma (N:=RNum) ln nrm n m cA cB r A1 A2 B1 B2 reg alpha GlRescale Q S g = 10 / M /\
    (forall i k, (i < n)%nat -> (k < r)%nat -> gradQ m reg Q S g C i k * gradQ m reg Q S g C i k <= M) /\
    (forall j k, (j < m)%nat -> (k < r)%nat -> gradR n reg Q S g C j k * gradR n reg Q S g C j k <= M) /\
    (forall k, (k < r)%nat -> gradg n m 0 Q S g C k * gradg n m 0 Q S g C k <= M) /\
    ((exists i k, (i < n)%nat /\ (k < r)%nat /\ M = gradQ m reg Q S g C i k * gradQ m reg Q S g C i k) \/
     (exists j k, (j < m)%nat /\ (k < r)%nat /\ M = gradR n reg Q S g C j k * gradR n reg Q S g C j k) \/
     (exists k, (k < r)%nat /\ M = gradg n m 0 Q S g C k * gradg n m 0 Q S g C k)).
Proof.
  intros nrm n m cA cB r A1 A2 B1 B2 reg alpha Q S g Hn Hm Hr Hg C. unfold gl_gamma. cbv zeta.
  set (C1 := gl_C1 (N:=RNum) n cA A1 A2 Q g). set (C2 := gl_C2 (N:=RNum) m cB B1 B2 S).
  assert (EC : forall i j, fprod r C1 C2 i j = C i j) by (intros; apply (cost_C n m cA cB r A1 A2 B1 B2 Q S g i j)).
  match goal with |- context [Lowrank_model.max2 n r ?f] => set (F1 := f) end. match goal with |- context [Lowrank_model.max2 m r ?f] => set (F2 := f) end.
  match goal with |- context [nmaxk (r - 1) ?f] => set (F3 := f) end.
  assert (H1 : forall i k, (k < r)%nat -> F1 i k = Rabs (gradQ m reg Q S g C i k)).
  { intros i k Hk. unfold F1. rewrite nabs_R. f_equal. rewrite fac_mul_R. rewrite <- (gradQ_ext m reg Q S g _ _ i k EC). unfold gradQ. cbn [nadd nmul ndiv n1 RNum]. unfold Rdiv. rewrite Rmult_1_l. reflexivity. }
  assert (H2 : forall j k, (k < r)%nat -> F2 j k = Rabs (gradR n reg Q S g C j k)).
  { intros j k Hk. unfold F2. rewrite nabs_R. f_equal. rewrite fac_mul_R. rewrite <- (gradR_ext n reg Q S g _ _ j k EC).
    rewrite (rsum_ext n (fun j0 => fprod r C2 C1 j j0 * Q j0 k) (fun i => fprod r C1 C2 i j * Q i k)) by (intros; rewrite fprod_tp; reflexivity). unfold gradR. cbn [nadd nmul ndiv n1 RNum]. unfold Rdiv. rewrite Rmult_1_l. reflexivity. }
  assert (H3 : forall k, (k < r)%nat -> F3 k = Rabs (gradg n m 0 Q S g C k)).
  { intros k Hk. unfold F3. rewrite nabs_R. f_equal. rewrite omega_R. rewrite <- (gradg_ext n m 0 Q S g _ _ k EC). specialize (Hg k Hk). unfold gradg, nopp. cbn [nsub nmul ndiv n0 n1 RNum carrier]. change (carrier RNum) with R in *. field. lra. }
  assert (N10 : nofnat (N:=RNum) 10 = 10) by (rewrite nofnat_INR; cbn [INR]; lra). rewrite N10.
  set (x1 := Lowrank_model.max2 n r F1). set (x2 := Lowrank_model.max2 m r F2). set (x3 := nmaxk (N:=RNum) (r - 1) F3). cbn [nmul ndiv RNum]. rewrite !nmax_R. exists (Rmax (Rmax (x1 * x1) (x2 * x2)) (x3 * x3)).
  split; [reflexivity|]. split; [|split; [|split]].
  - intros i k Hi Hk. apply Rle_trans with (x1 * x1); [|eapply Rle_trans; [apply Rmax_l|apply Rmax_l]]. apply abs_sq. rewrite <- H1 by auto. apply max2_ge; auto.
  - intros i k Hi Hk. apply Rle_trans with (x2 * x2); [|eapply Rle_trans; [apply Rmax_r|apply Rmax_l]]. apply abs_sq. rewrite <- H2 by auto. apply max2_ge; auto.
  - intros k Hk. apply Rle_trans with (x3 * x3); [|apply Rmax_r]. apply abs_sq. rewrite <- H3 by auto. apply (Duals_proofs.nmaxk_ge (r - 1) F3). lia.
  - assert (SQ : forall x y, x = Rabs y -> x * x = y * y) by (intros x y ->; symmetry; apply Rsqr_abs).
    destruct (max2_In n r F1 Hn Hr) as (i1 & k1 & I1 & J1 & E1). destruct (max2_In m r F2 Hm Hr) as (i2 & k2 & I2 & J2 & E2). destruct (nmaxk_In (r - 1) F3) as (k3 & J3 & E3).
    fold x1 in E1. fold x2 in E2. fold x3 in E3. rewrite H1 in E1 by auto. rewrite H2 in E2 by auto. rewrite H3 in E3 by lia.
    assert (MX : forall x y : R, Rmax x y = x \/ Rmax x y = y) by (intros x y; unfold Rmax; destruct (Rle_dec x y); auto).
    destruct (MX (Rmax (x1 * x1) (x2 * x2)) (x3 * x3)) as [-> | ->]; [destruct (MX (x1 * x1) (x2 * x2)) as [-> | ->]|].
    + left. exists i1, k1. auto.
    + right; left. exists i2, k2. auto.
    + right; right. exists k3. split; [lia|auto].
Qed.
Print Assumptions C160_step_size.

(** symmetrised Kullback-Leibler divergence of positive arrays *)
Definition jeff (x y : R) : R := (x - y) * (ln x - ln y).
Lemma jeff_nonneg : forall x y, 0 < x -> 0 < y -> 0 <= jeff x y.
Proof.
  intros x y Hx Hy. unfold jeff. destruct (Rtotal_order x y) as [H|[-> |H]]; [|lra|].
  - apply ln_increasing in H as L; auto. replace ((x - y) * (ln x - ln y)) with ((y - x) * (ln y - ln x)) by ring. apply Rmult_le_pos; lra.
  - apply ln_increasing in H as L; auto. apply Rmult_le_pos; lra.
Qed.
Lemma kl_jeff : forall x y, 0 < x -> 0 < y -> kl1 (N:=RNum) ln 0 x y + kl1 (N:=RNum) ln 0 y x = jeff x y.
Proof. intros x y Hx Hy. unfold kl1, jeff. cbn [nmul nadd ndiv RNum]. change (carrier RNum) with R in *. rewrite !Rplus_0_r. rewrite !ln_div by auto. ring. Qed.
(** Without the safeguard, the error of an iteration is (1/gamma)^2 times the symmetrised divergence between the old and the new factors ... *)
Theorem C160_error : forall nrm n m cA cB r a b A1 A2 B1 B2 reg alpha thr gi it Q S g o e, (0 < n)%nat -> (0 < m)%nat -> (0 < r)%nat -> pos_vec n a -> pos_vec m b ->
  pos_mat n r Q -> pos_mat m r S -> pos_vec r g ->
  gl_step (N:=RNum) exp ln cbrt nrm 0 n m cA cB r a b A1 A2 B1 B2 reg alpha thr gi it Q S g = Some (o, e) ->
  let gamma := gl_gamma (N:=RNum) ln nrm n m cA cB r A1 A2 B1 B2 reg alpha gi Q S g in
  e = (1 / gamma) * (1 / gamma) * (dsum n r (fun i k => jeff (l_Q o i k) (Q i k)) + dsum m r (fun j k => jeff (l_R o j k) (S j k)) + rsum r (fun k => jeff (l_g o k) (g k))) /\ 0 <= e.
Proof.
  intros nrm n m cA cB r a b A1 A2 B1 B2 reg alpha thr gi it Q S g o e Hn Hm Hr Ha Hb HQ HS Hg E gamma.
  assert (K := gl_step_ok _ _ _ _ _ _ _ _ _ _ _ _ _ _ _ _ _ _ _ _ _ _ _ Hn Hm Hr Ha Hb E). destruct K as (Q' & S' & g' & KQ & KS & Kg & _).
  assert (PQ : pos_mat n r (l_Q o)) by (intros i k Hi Hk; destruct (KQ i k Hi Hk) as (X & Y); change (carrier RNum) with R in *; rewrite Y; lra).
  assert (PS : pos_mat m r (l_R o)) by (intros i k Hi Hk; destruct (KS i k Hi Hk) as (X & Y); change (carrier RNum) with R in *; rewrite Y; lra).
  assert (Pg : pos_vec r (l_g o)) by (intros k Hk; destruct (Kg k Hk) as (X & Y & _); change (carrier RNum) with R in *; rewrite Y; lra).
  assert (Ee : e = (1 / gamma) * (1 / gamma) * (dsum n r (fun i k => jeff (l_Q o i k) (Q i k)) + dsum m r (fun j k => jeff (l_R o j k) (S j k)) + rsum r (fun k => jeff (l_g o k) (g k)))).
  { unfold gl_step in E. cbv zeta in E. fold gamma in E.
    match type of E with context [lr_dykstra cbrt n m r ?x ?y ?z a b alpha thr it] => destruct (lr_dykstra (N:=RNum) cbrt n m r x y z a b alpha thr it) as [o'|] end; [|discriminate].
    injection E as <- <-. cbn [l_Q l_R l_g] in PQ, PS, Pg |- *.
    assert (Z : forall x : R, nadd (n:=RNum) x 0 = x) by (intros x; cbn [nadd RNum]; apply Rplus_0_r).
    unfold gl_err. cbv beta zeta.
    assert (D2 : forall l (X Y : mat), pos_mat l r (fun i k => nadd (n:=RNum) (X i k) 0) -> pos_mat l r Y ->
       nadd (n:=RNum) (nsum (N:=RNum) l (fun i => nsum (N:=RNum) r (fun k => kl1 (N:=RNum) ln 0 (X i k) (Y i k)))) (nsum (N:=RNum) l (fun i => nsum (N:=RNum) r (fun k => kl1 (N:=RNum) ln 0 (Y i k) (X i k)))) = dsum l r (fun i k => jeff (nadd (n:=RNum) (X i k) 0) (Y i k))).
    { intros l X Y HX HY. rewrite !nsum_R. cbn [nadd RNum]. rewrite <- rsum_plus. apply rsum_ext; intros i Hi. rewrite !nsum_R, <- rsum_plus. apply rsum_ext; intros k Hk.
      specialize (HX i k Hi Hk). specialize (HY i k Hi Hk). cbn [nadd RNum] in HX. rewrite Rplus_0_r in HX. rewrite kl_jeff by auto. rewrite Rplus_0_r. reflexivity. }
    assert (DQ := D2 n (l_Q o') Q PQ HQ). assert (DS := D2 m (l_R o') S PS HS). unfold kl1 in DQ, DS. cbn [nadd nmul ndiv RNum] in DQ, DS |- *. rewrite DQ, DS. rewrite !nsum_R. cbn [nadd nmul ndiv n1 RNum]. rewrite <- rsum_plus. rewrite (rsum_ext r _ (fun k => jeff (l_g o' k + 0) (g k))).
    2:{ intros k Hk. specialize (Pg k Hk). specialize (Hg k Hk). cbn [nadd RNum] in Pg. rewrite Rplus_0_r in Pg. assert (J := kl_jeff _ _ Pg Hg). unfold kl1 in J. cbn [nadd nmul ndiv RNum] in J. change (carrier RNum) with R in *. rewrite J. rewrite Rplus_0_r. reflexivity. }
    change (carrier RNum) with R in *. fold (1 / gamma). ring. }
  split; [exact Ee|]. rewrite Ee. apply Rmult_le_pos; [apply Rle_0_sqr|]. assert (G := fun k Hk => jeff_nonneg _ _ (Pg k Hk) (Hg k Hk)).
  apply Rplus_le_le_0_compat; [apply Rplus_le_le_0_compat|apply rsum_nonneg; auto]; apply dsum_nonneg; intros; apply jeff_nonneg; auto.
Qed.
Print Assumptions C160_error.
Lemma gl_loop_stop : forall ex lg cb nrm tiny n m cA cB r a b A1 A2 B1 B2 reg alpha thr thrd gi itd left s err dg o d,
  gl_loop (N:=RNum) ex lg cb nrm tiny n m cA cB r a b A1 A2 B1 B2 reg alpha thr thrd gi itd left s err dg = Some (o, Some d, true) ->
  (o = s /\ dg = Some d /\ err <= thr) \/ exists p e, gl_step (N:=RNum) ex lg cb nrm tiny n m cA cB r a b A1 A2 B1 B2 reg alpha thrd gi itd (l_Q p) (l_R p) (l_g p) = Some (o, e) /\ e <= thr.
Proof.
  intros ex lg cb nrm tiny n m cA cB r a b A1 A2 B1 B2 reg alpha thr thrd gi itd. induction left as [|left IH]; intros s err dg o d; cbn [gl_loop]; [discriminate|].
  destruct (nltb (n:=RNum) thr err) eqn:L.
  - destruct (gl_step (N:=RNum) ex lg cb nrm tiny n m cA cB r a b A1 A2 B1 B2 reg alpha thrd gi itd (l_Q s) (l_R s) (l_g s)) as [[s' e']|] eqn:Es; [|discriminate].
    intros H. destruct (IH _ _ _ _ _ H) as [(-> & _ & G)|H']; [|right; exact H']. right. exists s, e'. split; [exact Es|exact G].
  - intros [= -> ->]. apply Rltb_false in L. auto.
Qed.
(** ... and no warning means that the last iteration moved by at most stopThr in this sense. *)
Theorem C160_stopped : forall nrm tiny n m dX dY X Y a b reg rank alpha gi rescale fX fY init thr it thrd itd o P v vq,
  lowrank_gw (N:=RNum) exp ln sqrt cbrt nrm tiny n m dX dY X Y a b reg rank alpha gi rescale fX fY init thr it thrd itd = GlOk o P v vq true ->
  let r := eff_rank n m rank in let FX := factors n dX X rescale fX in let FY := factors m dY Y rescale fY in
  exists a' b' p e, (forall i, a' i = weights n a i) /\ (forall i, b' i = weights m b i) /\
  gl_step (N:=RNum) exp ln cbrt nrm tiny n m (fst FX) (fst FY) r a' b' (fst (snd FX)) (snd (snd FX)) (fst (snd FY)) (snd (snd FY)) reg alpha thrd gi itd (l_Q p) (l_R p) (l_g p) = Some (o, e) /\ e <= thr.
Proof.
  intros nrm tiny n m dX dY X Y a b reg rank alpha gi rescale fX fY init thr it thrd itd o P v vq. unfold lowrank_gw. cbv zeta. fold (eff_rank n m rank). set (r := eff_rank n m rank).
  destruct (Nat.eqb r 0) eqn:Er; [discriminate|]. destruct (nltb (n:=RNum) _ alpha); [destruct rank; discriminate|].
  change (match fX with Some f => f | None => ((dX + 2)%nat, lr_cost_factors (N:=RNum) sqrt n n dX X X rescale) end) with (factors n dX X rescale fX).
  change (match fY with Some f => f | None => ((dY + 2)%nat, lr_cost_factors (N:=RNum) sqrt m m dY Y Y rescale) end) with (factors m dY Y rescale fY).
  destruct (factors n dX X rescale fX) as (cA & A1 & A2). destruct (factors m dY Y rescale fY) as (cB & B1 & B2). cbn [fst snd].
  set (a' := match a with Some a => a | None => _ end). set (b' := match b with Some b => b | None => _ end).
  assert (Ea : forall i, a' i = weights n a i) by (intros i; unfold a', weights; destruct a; auto; cbn [ndiv n1 RNum]; rewrite nofnat_INR; reflexivity).
  assert (Eb : forall i, b' i = weights m b i) by (intros i; unfold b', weights; destruct b; auto; cbn [ndiv n1 RNum]; rewrite nofnat_INR; reflexivity).
  destruct (init r a' b') as [[Q S] g]. intros H. exists a', b'.
  assert (K : exists d, gl_loop (N:=RNum) exp ln cbrt nrm tiny n m cA cB r a' b' A1 A2 B1 B2 reg alpha thr thrd gi itd it (mkLr (N:=RNum) Q S g false) (n1 (n:=RNum)) None = Some (o, Some d, true)).
  { destruct gi; try discriminate H; match type of H with (match ?x with _ => _ end) = _ => destruct x as [[[o' [d|]] st']|] end; try discriminate H; injection H as -> _ _ _ ->; exists d; reflexivity. }
  destruct K as (d & K). apply gl_loop_stop in K. destruct K as [(_ & C & _)|(p & e & P1 & P2)]; [discriminate|].
  exists p, e. auto.
Qed.
Print Assumptions C160_stopped.
