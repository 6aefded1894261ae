(** Facts about the low rank solvers (Lowrank_model.v) over the reals. *)
From Coq Require Import List Arith Bool Reals Lra Lia.
From Verif Require Import Num Sums Spec Duals_proofs Entropy Emd1d_model Emd1d_perm_proofs Optim_model Circle_proofs
  Sinkhorn_model Sinkhorn_proofs Lowrank_model.
Import ListNotations.
Local Open Scope R_scope.

Definition cbrt (x : R) : R := Rpower x (1 / 3).
Lemma cbrt_pos : forall x, 0 < cbrt x. Proof. intros; apply exp_pos. Qed.
Lemma cbrt_cube : forall x, 0 < x -> cbrt x * cbrt x * cbrt x = x.
Proof.
  intros x Hx. unfold cbrt. rewrite <- !Rpower_plus. replace (1/3 + 1/3 + 1/3) with 1 by lra. apply Rpower_1; auto.
Qed.

Section Dyk.
Variables (n m r : nat) (eps1 eps2 : mat) (eps3 p1 p2 : vec) (alpha thr : R).
Hypotheses (Hn : (0 < n)%nat) (Hm : (0 < m)%nat) (Hr : (0 < r)%nat).
Hypotheses (H1 : forall i k, (i < n)%nat -> (k < r)%nat -> 0 < eps1 i k)
           (H2 : forall j k, (j < m)%nat -> (k < r)%nat -> 0 < eps2 j k) (H3 : pos_vec r eps3)
           (P1 : pos_vec n p1) (P2 : pos_vec m p2).
Definition MV (A : mat) (v : vec) (i : nat) : R := rsum r (fun k => A i k * v k).
Definition MT (l : nat) (A : mat) (u : vec) (k : nat) : R := rsum l (fun i => A i k * u i).
Lemma MV_R : forall A v i, mvr (N:=RNum) r A v i = MV A v i. Proof. intros. unfold mvr. rewrite nsum_R. reflexivity. Qed.
Lemma MT_R : forall l A v i, mtv (N:=RNum) l A v i = MT l A v i. Proof. intros. unfold mtv. rewrite nsum_R. reflexivity. Qed.
Lemma MV_pos : forall l A v i, (forall i k, (i < l)%nat -> (k < r)%nat -> 0 < A i k) -> pos_vec r v -> (i < l)%nat -> 0 < MV A v i.
Proof. intros. apply rsum_pos; auto. intros; apply Rmult_lt_0_compat; auto. Qed.
Lemma MT_pos : forall l A u k, (0 < l)%nat -> (forall i k, (i < l)%nat -> (k < r)%nat -> 0 < A i k) -> pos_vec l u -> (k < r)%nat -> 0 < MT l A u k.
Proof. intros. apply rsum_pos; auto. intros; apply Rmult_lt_0_compat; auto. Qed.

(** what holds at the start of every iteration *)
Definition dpre (s : dyk (N:=RNum)) : Prop :=
  pos_vec r (d_g s) /\ pos_vec r (d_q31 s) /\ pos_vec r (d_q32 s) /\ pos_vec r (d_v1 s) /\ pos_vec r (d_v2 s) /\
  forall k, (k < r)%nat -> d_v1 s k * d_q1 s k = 1 /\ d_v2 s k * d_q2 s k = 1 /\ d_g s k * d_q31 s k * d_q32 s k = eps3 k.
(** what holds after one *)
Definition dpost (s : dyk (N:=RNum)) : Prop :=
  exists u1 u2, d_u s = Some (u1, u2) /\ pos_vec n u1 /\ pos_vec m u2 /\
  (forall k, (k < r)%nat -> d_v1 s k * MT n eps1 u1 k = d_g s k /\ d_v2 s k * MT m eps2 u2 k = d_g s k /\
     d_q32 s k = d_v1 s k * d_v2 s k /\ d_q31 s k <= 1 /\ (alpha <= 0 -> d_q31 s k = 1)) /\
  d_err s = rsum n (fun i => Rabs (u1 i * MV eps1 (d_v1 s) i - p1 i)) + rsum m (fun j => Rabs (u2 j * MV eps2 (d_v2 s) j - p2 j)).
Lemma dpre_init : dpre (dyk_init (N:=RNum) eps3).
Proof.
  unfold dpre, dyk_init, ones; cbn. repeat split; try (intros k Hk; cbn; auto; lra); lra.
Qed.
Lemma dyk_step_inv : forall s, dpre s -> dpre (dyk_step (N:=RNum) cbrt n m r eps1 eps2 p1 p2 alpha s) /\ dpost (dyk_step (N:=RNum) cbrt n m r eps1 eps2 p1 p2 alpha s).
Proof.
  intros s (Gp & A1 & A2 & V1 & V2 & E).
  set (t := dyk_step (N:=RNum) cbrt n m r eps1 eps2 p1 p2 alpha s).
  set (u1 := fun i => p1 i / MV eps1 (d_v1 s) i). set (u2 := fun j => p2 j / MV eps2 (d_v2 s) j).
  assert (U1 : pos_vec n u1) by (intros i Hi; apply Rdiv_lt_0_compat; [auto|apply (MV_pos n); auto]).
  assert (U2 : pos_vec m u2) by (intros i Hi; apply Rdiv_lt_0_compat; [auto|apply (MV_pos m); auto]).
  assert (T1 : forall k, (k < r)%nat -> 0 < MT n eps1 u1 k) by (intros; apply MT_pos; auto).
  assert (T2 : forall k, (k < r)%nat -> 0 < MT m eps2 u2 k) by (intros; apply MT_pos; auto).
  set (g_ := fun k => Rmax alpha (d_g s k * d_q31 s k)).
  assert (G_ : pos_vec r g_).
  { intros k Hk. unfold g_. eapply Rlt_le_trans; [|apply Rmax_r]. apply Rmult_lt_0_compat; auto. }
  assert (Eu1 : forall i, ndiv (n:=RNum) (p1 i) (mvr (N:=RNum) r eps1 (d_v1 s) i) = u1 i) by (intros; rewrite MV_R; reflexivity).
  assert (Eu2 : forall i, ndiv (n:=RNum) (p2 i) (mvr (N:=RNum) r eps2 (d_v2 s) i) = u2 i) by (intros; rewrite MV_R; reflexivity).
  assert (M1e : forall k, mtv (N:=RNum) n eps1 (fun i => ndiv (n:=RNum) (p1 i) (mvr (N:=RNum) r eps1 (d_v1 s) i)) k = MT n eps1 u1 k).
  { intros k. rewrite MT_R. unfold MT. apply rsum_ext; intros. rewrite Eu1. reflexivity. }
  assert (M2e : forall k, mtv (N:=RNum) m eps2 (fun i => ndiv (n:=RNum) (p2 i) (mvr (N:=RNum) r eps2 (d_v2 s) i)) k = MT m eps2 u2 k).
  { intros k. rewrite MT_R. unfold MT. apply rsum_ext; intros. rewrite Eu2. reflexivity. }
  assert (Ng : forall k, nmax (N:=RNum) alpha (nmul (n:=RNum) (d_g s k) (d_q31 s k)) = g_ k) by (intros; rewrite nmax_R; reflexivity).
  assert (Eg : forall k, d_g t k = cbrt (g_ k * d_q32 s k * (d_v1 s k * d_q1 s k * MT n eps1 u1 k) * (d_v2 s k * d_q2 s k * MT m eps2 u2 k))).
  { intros k. unfold t, dyk_step. cbn [d_g]. rewrite M1e, M2e, Ng. reflexivity. }
  assert (Gt : pos_vec r (d_g t)) by (intros k Hk; rewrite Eg; apply cbrt_pos).
  assert (Ev1 : forall k, d_v1 t k = d_g t k / MT n eps1 u1 k).
  { intros k. rewrite <- M1e. reflexivity. }
  assert (Ev2 : forall k, d_v2 t k = d_g t k / MT m eps2 u2 k).
  { intros k. rewrite <- M2e. reflexivity. }
  assert (E31 : forall k, d_q31 t k = d_g s k * d_q31 s k / g_ k).
  { intros k. rewrite <- Ng. reflexivity. }
  assert (E32 : forall k, d_q32 t k = g_ k * d_q32 s k / d_g t k).
  { intros k. rewrite <- Ng. reflexivity. }
  assert (Eq1 : forall k, d_q1 t k = d_v1 s k * d_q1 s k / d_v1 t k) by reflexivity.
  assert (Eq2 : forall k, d_q2 t k = d_v2 s k * d_q2 s k / d_v2 t k) by reflexivity.
  assert (Vt1 : pos_vec r (d_v1 t)) by (intros k Hk; rewrite Ev1; apply Rdiv_lt_0_compat; auto).
  assert (Vt2 : pos_vec r (d_v2 t)) by (intros k Hk; rewrite Ev2; apply Rdiv_lt_0_compat; auto).
  split.
  - repeat split; auto.
    + intros k Hk. rewrite E31. apply Rdiv_lt_0_compat; auto. apply Rmult_lt_0_compat; auto.
    + intros k Hk. rewrite E32. apply Rdiv_lt_0_compat; auto. apply Rmult_lt_0_compat; auto.
    + rewrite Eq1. destruct (E k H) as (-> & _). specialize (Vt1 k H). field. lra.
    + rewrite Eq2. destruct (E k H) as (_ & -> & _). specialize (Vt2 k H). field. lra.
    + rewrite E31, E32. destruct (E k H) as (_ & _ & <-). specialize (Gt k H). specialize (G_ k H). field. lra.
  - exists (fun i => ndiv (n:=RNum) (p1 i) (mvr (N:=RNum) r eps1 (d_v1 s) i)), (fun j => ndiv (n:=RNum) (p2 j) (mvr (N:=RNum) r eps2 (d_v2 s) j)).
    split; [reflexivity|]. split; [intros i Hi; rewrite Eu1; auto|]. split; [intros i Hi; rewrite Eu2; auto|]. split.
    + intros k Hk. rewrite <- (MT_R n), <- (MT_R m), M1e, M2e. rewrite Ev1, Ev2, E32, E31.
      specialize (T1 k Hk). specialize (T2 k Hk). specialize (Gt k Hk). specialize (G_ k Hk).
      split; [field; lra|]. split; [field; lra|]. split.
      * assert (C : d_g t k * d_g t k * d_g t k = g_ k * d_q32 s k * MT n eps1 u1 k * MT m eps2 u2 k).
        { rewrite Eg. destruct (E k Hk) as (-> & -> & _). rewrite cbrt_cube; [ring|].
          repeat apply Rmult_lt_0_compat; auto; lra. }
        apply Rmult_eq_reg_r with (d_g t k * MT n eps1 u1 k * MT m eps2 u2 k).
        -- field_simplify; [|lra..]. ring_simplify in C. lra.
        -- apply Rgt_not_eq. repeat apply Rmult_lt_0_compat; auto.
      * split; [|intros Ha; assert (Xp : 0 < d_g s k * d_q31 s k) by (apply Rmult_lt_0_compat; auto); replace (g_ k) with (d_g s k * d_q31 s k) by (symmetry; apply Rmax_right; lra); apply Rinv_r; lra].
        apply Rmult_le_reg_r with (g_ k); auto. unfold Rdiv. rewrite Rmult_assoc, Rinv_l, Rmult_1_r, Rmult_1_l by lra. apply Rmax_r.
    + unfold t, dyk_step at 1. cbn [d_err]. rewrite !nsum_R. cbn [nadd RNum]. f_equal; apply rsum_ext; intros i Hi; rewrite nabs_R, <- MV_R; reflexivity.
Qed.
Lemma dyk_loop_inv : forall left s, dpre s ->
  let o := dyk_loop (N:=RNum) cbrt n m r eps1 eps2 p1 p2 alpha thr left s in
  dpre (fst o) /\ (fst o = s \/ dpost (fst o)) /\ (snd o = true -> d_err (fst o) <= thr).
Proof.
  induction left; intros s Hs; cbn [dyk_loop].
  - cbn. repeat split; try apply Hs; auto; discriminate.
  - destruct (nltb (n:=RNum) thr (d_err s)) eqn:C.
    + destruct (dyk_step_inv s Hs) as (I & J). destruct (IHleft _ I) as (A & B & D). split; auto. split; auto.
      destruct B as [B|B]; auto. right. rewrite B. auto.
    + cbn. split; auto. split; auto. intros _. apply Rltb_false in C. lra.
Qed.
Lemma dyk_loop_ran : forall left (s : dyk (N:=RNum)), (0 < left)%nat -> thr < d_err s -> dpre s ->
  dpost (fst (dyk_loop (N:=RNum) cbrt n m r eps1 eps2 p1 p2 alpha thr left s)).
Proof.
  intros left s Hl He Hs. destruct left; [lia|]. cbn [dyk_loop]. assert (C : nltb (n:=RNum) thr (d_err s) = true) by (apply Rltb_true; auto).
  rewrite C. destruct (dyk_step_inv s Hs) as (I & J). destruct (dyk_loop_inv left _ I) as (_ & [B|B] & _); auto. rewrite B. auto.
Qed.
End Dyk.

(** ** the output of _LR_Dysktra: feasibility, and the optimality conditions it satisfies *)
Record dyk_spec (n m r : nat) (e1 e2 : mat) (e3 p1 p2 : vec) (alpha thr : R) (o : lr_out (N:=RNum)) : Prop := mkDS {
  ds_Q : forall i k, (i < n)%nat -> (k < r)%nat -> 0 < l_Q o i k;
  ds_R : forall j k, (j < m)%nat -> (k < r)%nat -> 0 < l_R o j k;
  ds_g : pos_vec r (l_g o);
  ds_cQ : forall k, (k < r)%nat -> col_sum n (l_Q o) k = l_g o k;
  ds_cR : forall k, (k < r)%nat -> col_sum m (l_R o) k = l_g o k;
  ds_conv : l_conv o = true -> rsum n (fun i => Rabs (row_sum r (l_Q o) i - p1 i)) + rsum m (fun j => Rabs (row_sum r (l_R o) j - p2 j)) <= thr;
  ds_kkt : exists u1 u2 v1 v2 mu, pos_vec n u1 /\ pos_vec m u2 /\ pos_vec r v1 /\ pos_vec r v2 /\ nonneg_vec r mu /\ (alpha <= 0 -> forall k, (k < r)%nat -> mu k = 0) /\
     (forall i k, (i < n)%nat -> (k < r)%nat -> ln (l_Q o i k / e1 i k) = ln (u1 i) + ln (v1 k)) /\
     (forall j k, (j < m)%nat -> (k < r)%nat -> ln (l_R o j k / e2 j k) = ln (u2 j) + ln (v2 k)) /\
     (forall k, (k < r)%nat -> ln (l_g o k / e3 k) = mu k - ln (v1 k) - ln (v2 k)) }.
Lemma lr_dykstra_spec : forall n m r e1 e2 e3 p1 p2 (alpha thr : R) it o,
  (0 < n)%nat -> (0 < m)%nat -> (0 < r)%nat ->
  (forall i k, (i < n)%nat -> (k < r)%nat -> 0 < e1 i k) -> (forall j k, (j < m)%nat -> (k < r)%nat -> 0 < e2 j k) ->
  pos_vec r e3 -> pos_vec n p1 -> pos_vec m p2 ->
  lr_dykstra (N:=RNum) cbrt n m r e1 e2 e3 p1 p2 alpha thr it = Some o -> dyk_spec n m r e1 e2 e3 p1 p2 alpha thr o.
Proof.
  intros n m r e1 e2 e3 p1 p2 alpha thr it o Hn Hm Hr H1 H2 H3 P1 P2. unfold lr_dykstra.
  assert (I := dyk_loop_inv n m r e1 e2 e3 p1 p2 alpha thr Hn Hm Hr H1 H2 P1 P2 it (dyk_init (N:=RNum) e3) (dpre_init r e3 H3)).
  destruct (dyk_loop (N:=RNum) cbrt n m r e1 e2 p1 p2 alpha thr it (dyk_init (N:=RNum) e3)) as [s c]. cbn [fst snd] in I.
  destruct I as ((Gp & A1 & A2 & V1 & V2 & E) & D & C).
  destruct (d_u s) as [[u1 u2]|] eqn:Eu; [|discriminate]. intros [= <-].
  destruct D as [-> |(u1' & u2' & Eu' & U1 & U2 & K & Er)]; [discriminate|]. rewrite Eu in Eu'. injection Eu' as <- <-.
  split; cbn [l_Q l_R l_g l_conv]; change (@nmul RNum) with Rmult in *.
  - intros. cbn. repeat apply Rmult_lt_0_compat; auto.
  - intros. cbn. repeat apply Rmult_lt_0_compat; auto.
  - auto.
  - intros k Hk. destruct (K k Hk) as (<- & _). unfold col_sum, MT. rewrite <- rsum_scal. apply rsum_ext; intros. cbn. ring.
  - intros k Hk. destruct (K k Hk) as (_ & <- & _). unfold col_sum, MT. rewrite <- rsum_scal. apply rsum_ext; intros. cbn. ring.
  - intros Hc. specialize (C Hc). rewrite Er in C. eapply Rle_trans; [|exact C]. right. f_equal; apply rsum_ext; intros i Hi; f_equal; f_equal; unfold row_sum, MV; rewrite <- rsum_scal; apply rsum_ext; intros; cbn; ring.
  - exists u1, u2, (d_v1 s), (d_v2 s), (fun k => - ln (d_q31 s k)). repeat split; auto.
    + intros k Hk. destruct (K k Hk) as (_ & _ & _ & Q & _). specialize (A1 k Hk).
      assert (L := ln_mono _ _ A1 Q). rewrite ln_1 in L. change (0 <= - ln (d_q31 s k)). lra.
    + intros Ha k Hk. destruct (K k Hk) as (_ & _ & _ & _ & Q). rewrite (Q Ha), ln_1. lra.
    + intros i k Hi Hk. specialize (H1 i k Hi Hk). specialize (U1 i Hi). specialize (V1 k Hk).
      rewrite <- ln_mult by auto. f_equal. cbn. field. lra.
    + intros i k Hi Hk. specialize (H2 i k Hi Hk). specialize (U2 i Hi). specialize (V2 k Hk).
      rewrite <- ln_mult by auto. f_equal. cbn. field. lra.
    + intros k Hk. destruct (K k Hk) as (_ & _ & Q & _). destruct (E k Hk) as (_ & _ & <-).
      specialize (A1 k Hk). specialize (A2 k Hk). specialize (V1 k Hk). specialize (V2 k Hk). specialize (Gp k Hk).
      change (carrier RNum) with R in *. rewrite Q in *.
      replace (d_g s k / (d_g s k * d_q31 s k * (d_v1 s k * d_v2 s k))) with (/ (d_q31 s k * (d_v1 s k * d_v2 s k))) by (field; lra).
      rewrite ln_Rinv by (apply Rmult_lt_0_compat; auto). rewrite !ln_mult by auto. ring.
Qed.
Lemma lr_dykstra_ran : forall n m r e1 e2 e3 p1 p2 (alpha thr : R) it,
  (0 < n)%nat -> (0 < m)%nat -> (0 < r)%nat ->
  (forall i k, (i < n)%nat -> (k < r)%nat -> 0 < e1 i k) -> (forall j k, (j < m)%nat -> (k < r)%nat -> 0 < e2 j k) ->
  pos_vec r e3 -> pos_vec n p1 -> pos_vec m p2 -> (0 < it)%nat -> thr < 1 ->
  exists o, lr_dykstra (N:=RNum) cbrt n m r e1 e2 e3 p1 p2 alpha thr it = Some o.
Proof.
  intros n m r e1 e2 e3 p1 p2 alpha thr it Hn Hm Hr H1 H2 H3 P1 P2 Hi Ht. unfold lr_dykstra.
  assert (I := dyk_loop_ran n m r e1 e2 e3 p1 p2 alpha thr Hn Hm Hr H1 H2 P1 P2 it (dyk_init (N:=RNum) e3) Hi Ht (dpre_init r e3 H3)).
  destruct (dyk_loop (N:=RNum) cbrt n m r e1 e2 p1 p2 alpha thr it (dyk_init (N:=RNum) e3)) as [s c]. cbn [fst] in I.
  destruct I as (u1 & u2 & -> & _). eauto.
Qed.

(** the certificate: convexity of KL at a point satisfying the conditions above *)
Definition klm (n m : nat) (P E : mat) : R := dsum n m (fun i k => P i k * ln (P i k / E i k) - P i k + E i k).
Lemma kl_tangent : forall x y e, 0 <= x -> 0 < y -> 0 < e ->
  x * ln (x / e) - x + e >= (y * ln (y / e) - y + e) + ln (y / e) * (x - y).
Proof.
  intros x y e Hx Hy He. assert (T := xlnx_div_ge x y Hx Hy).
  rewrite (xlnx_split x y Hx Hy) in T. rewrite (xlnx_split x e Hx He), (xlnx_split y e (Rlt_le _ _ Hy) He).
  rewrite (ln_div y e Hy He). unfold xlnx in *. nra.
Qed.
Lemma klm_tangent : forall n m P Q E, nonneg_mat n m P -> (forall i k, (i < n)%nat -> (k < m)%nat -> 0 < Q i k) ->
  (forall i k, (i < n)%nat -> (k < m)%nat -> 0 < E i k) ->
  klm n m Q E + dsum n m (fun i k => ln (Q i k / E i k) * (P i k - Q i k)) <= klm n m P E.
Proof.
  intros n m P Q E HP HQ HE. unfold klm. rewrite <- dsum_plus. apply dsum_le; intros i k Hi Hk.
  assert (T := kl_tangent (P i k) (Q i k) (E i k) (HP i k Hi Hk) (HQ i k Hi Hk) (HE i k Hi Hk)). lra.
Qed.
Lemma klv_tangent : forall n P Q E, nonneg_vec n P -> pos_vec n Q -> pos_vec n E ->
  kl n Q E + rsum n (fun k => ln (Q k / E k) * (P k - Q k)) <= kl n P E.
Proof.
  intros n P Q E HP HQ HE. unfold kl. rewrite <- rsum_plus. apply rsum_le; intros k Hk.
  assert (T := kl_tangent (P k) (Q k) (E k) (HP k Hk) (HQ k Hk) (HE k Hk)). lra.
Qed.
Lemma dsum_split_uv : forall n r u v (P Q : mat),
  dsum n r (fun i k => (ln (u i) + ln (v k)) * (P i k - Q i k)) =
  rsum n (fun i => ln (u i) * (row_sum r P i - row_sum r Q i)) + rsum r (fun k => ln (v k) * (col_sum n P k - col_sum n Q k)).
Proof.
  intros. rewrite (dsum_ext n r _ (fun i k => ln (u i) * (P i k - Q i k) + ln (v k) * (P i k - Q i k))) by (intros; ring).
  rewrite dsum_plus, (dsum_row n r (fun i => ln (u i)) (fun i k => P i k - Q i k)), (dsum_col n r (fun k => ln (v k)) (fun i k => P i k - Q i k)).
  unfold row_sum, col_sum. f_equal; apply rsum_ext; intros; rewrite rsum_minus; reflexivity.
Qed.
