From Coq Require Import List Arith Bool Reals Lra Lia.
From Verif Require Import Num Sums Spec Duals_model Duals_proofs NS_model NS_emd_model NS_enter NS_bip NS_dense Emd_model.
Import ListNotations.
Local Open Scope R_scope.

(** the solver's relative tolerance (network_simplex_simple.h:32) *)
Definition ns_eps : R := 22204460492503131 / 10000000000000000000000000000000.
Definition ns_tol (n m : nat) (C : R) : R := ns_eps * (INR (n + m) * (2 * C + 1)).
Definition bounded (n m : nat) (M : mat) (C : R) : Prop := forall i j, (i < n)%nat -> (j < m)%nat -> Rabs (M i j) <= C.

(** costs for which the artificial cost of init() dominates: non-negative ones, and
    those whose largest entry (among points with mass) is at least -1 *)
Definition benign (n m : nat) (a b : vec) (M : mat) : Prop :=
  nonneg_mat n m M \/
  (exists C, bounded n m M C /\ ns_tol n m C < 1 /\
     exists i j, (i < n)%nat /\ (j < m)%nat /\ a i <> 0 /\ b j <> 0 /\ -1 <= M i j).

(** cells carrying mass *)
Definition few_cells_spec (n m : nat) (G : mat) (k : nat) : Prop :=
  forall L : list (nat * nat), NoDup L ->
    (forall p, In p L -> (fst p < n)%nat /\ (snd p < m)%nat /\ 0 < G (fst p) (snd p)) -> (length L <= k)%nat.

Lemma tol_same : forall n m C, tol n m C = ns_tol n m C.
Proof. intros. unfold tol, ns_tol. rewrite EPSILON_R. reflexivity. Qed.
Lemma ns_tol_mono : forall n m n' m' C, 0 <= C -> (n' <= n)%nat -> (m' <= m)%nat -> ns_tol n' m' C <= ns_tol n m C.
Proof.
  intros. unfold ns_tol. apply Rmult_le_compat_l. { unfold ns_eps. lra. }
  apply Rmult_le_compat_r; [lra|]. apply le_INR. lia.
Qed.
Lemma ns_tol_pos : forall n m C, 0 <= C -> 0 <= ns_tol n m C.
Proof.
  intros. unfold ns_tol. apply Rmult_le_pos; [unfold ns_eps; lra|]. apply Rmult_le_pos; [apply pos_INR|lra].
Qed.

Record wrap_ok (n m : nat) (a b : vec) (M : mat) (it : nat) (o : @emd_out RNum) : Prop := {
  w_ty : eo_type o = NS_model.OPTIMAL \/ eo_type o = NS_model.INFEASIBLE \/
         (eo_type o = NS_model.MAX_ITER_REACHED /\ (0 < it)%nat);
  w_sub : eo_type o <> NS_model.INFEASIBLE -> subcoupling n m a b (eo_G o);
  w_cost : eo_type o <> NS_model.INFEASIBLE -> eo_cost o = cost n m M (eo_G o);
  w_tight : eo_type o <> NS_model.INFEASIBLE -> forall i j, (i < n)%nat -> (j < m)%nat -> 0 < eo_G o i j ->
     eo_alpha o i + eo_beta o j = M i j;
  w_near : eo_type o = NS_model.OPTIMAL ->
     (forall i, (i < n)%nat -> a i - 1 / 100000000 <= row_sum m (eo_G o) i) /\
     (forall j, (j < m)%nat -> b j - 1 / 100000000 <= col_sum n (eo_G o) j);
  w_cert : eo_type o = NS_model.OPTIMAL -> forall C, bounded n m M C ->
     forall i j, (i < n)%nat -> (j < m)%nat -> eo_alpha o i + eo_beta o j <= M i j + ns_tol n m C;
  w_exact : eo_type o = NS_model.OPTIMAL -> benign n m a b M -> coupling n m a b (eo_G o);
  w_feas : benign n m a b M -> eo_type o <> NS_model.INFEASIBLE;
  w_few : few_cells_spec n m (eo_G o) (n + m - 1)
}.

Lemma benign_margin : forall n m a b M, (0 < n)%nat -> (0 < m)%nat -> benign n m a b M ->
  exists C, bounded n m M C /\ tol n m C < INR (n + m) * (@dn_max RNum n m (fun k => M (k / m)%nat (k mod m)%nat) + 1) - @dn_max RNum n m (fun k => M (k / m)%nat (k mod m)%nat).
Proof.
  intros n m a b M Hn Hm HB. set (mx := @dn_max RNum n m (fun k => M (k / m)%nat (k mod m)%nat)).
  pose proof (mx_ge n m M Hn Hm) as G1. fold mx in G1. pose proof (mx_in n m M Hn Hm) as (i0 & j0 & Hi0 & Hj0 & E0). fold mx in E0.
  assert (HN : 2 <= INR (n + m)). { replace 2 with (INR 2) by (cbn; lra). apply le_INR. lia. }
  destruct HB as [H|(C & HC & HT & i & j & Hi & Hj & _ & _ & HM)].
  - exists mx. assert (M0 : 0 <= mx) by (rewrite <- E0; apply H; auto). split.
    + intros i j Hi Hj. rewrite Rabs_right by (apply Rle_ge, H; auto). apply G1; auto.
    + rewrite tol_same. unfold ns_tol. assert (T : ns_eps * (INR (n + m) * (2 * mx + 1)) <= (1/8) * (INR (n + m) * (2 * mx + 1))).
      { apply Rmult_le_compat_r; [|unfold ns_eps; lra]. apply Rmult_le_pos; lra. }
      assert (0 <= (INR (n + m) - 2) * mx) by (apply Rmult_le_pos; lra). nra.
  - exists C. split; auto. rewrite tol_same. specialize (G1 i j Hi Hj).
    assert (0 <= (INR (n + m) - 1) * (mx + 1)) by (apply Rmult_le_pos; lra). nra.
Qed.

Theorem emd_wrap_ok : forall fuel it n m a b M o, (0 < n)%nat -> (0 < m)%nat -> pos_vec n a -> pos_vec m b ->
  mass n a = mass m b -> @emd_wrap RNum fuel n m a b M it = Ret o -> wrap_ok n m a b M it o.
Proof.
  intros fuel it n m a b M o Hn Hm Ha Hb Hmass HO.
  destruct (dense_known n m a b M Hn Hm Ha Hb Hmass fuel it o HO) as (s & K).
  pose proof (kn_G _ _ _ _ _ _ _ _ K) as KG. pose proof (kn_pi _ _ _ _ _ _ _ _ K) as KP.
  assert (Zr : forall G G', (forall i j, (i < n)%nat -> (j < m)%nat -> G i j = G' i j) -> forall i, (i < n)%nat -> row_sum m G i = row_sum m G' i).
  { intros G G' HH i Hi. apply rsum_ext. intros; apply HH; auto. }
  assert (Zc : forall G G', (forall i j, (i < n)%nat -> (j < m)%nat -> G i j = G' i j) -> forall j, (j < m)%nat -> col_sum n G j = col_sum n G' j).
  { intros G G' HH i Hi. apply rsum_ext. intros; apply HH; auto. }
  assert (F0 : forall i j, (i < n)%nat -> (j < m)%nat -> 0 <= NS_model.flow s (eid n m i j)).
  { intros i j Hi Hj. apply (flow_nonneg n m a b M it o s _ K). pose proof (eid_lt n m i j Hi Hj). lia. }
  assert (A0 : forall u, (u < n + m)%nat -> 0 <= NS_model.flow s (n * m + u)).
  { intros u Hu. apply (flow_nonneg n m a b M it o s _ K). lia. }
  assert (Hr : forall i, (i < n)%nat -> (rn n m i < n + m)%nat) by (intros; unfold rn; lia).
  assert (Hc : forall i, (i < m)%nat -> (cn m i < n + m)%nat) by (intros; unfold cn; lia).
  pose proof (kn_ty _ _ _ _ _ _ _ _ K) as Ty.
  assert (Art : forall C : R, benign n m a b M -> eo_type o <> NS_model.MAX_ITER_REACHED -> forall u, (u < n + m)%nat -> NS_model.flow s (n * m + u) = 0).
  { intros _ HB Ht u Hu. destruct (benign_margin n m a b M Hn Hm HB) as (C & HC & HT).
    apply (art_zero n m a b M Hn Hm Ha Hb Hmass it o s C K (kn_cert _ _ _ _ _ _ _ _ K Ht) HC HT u Hu). }
  constructor.
  - exact Ty.
  - intros Ht. specialize (KG Ht). split; [|split].
    + intros i j Hi Hj. rewrite KG by auto. auto.
    + intros i Hi. rewrite (Zr _ _ KG) by auto. rewrite (row_art n m a b M Hn Hm Ha it o s i K Hi).
      specialize (A0 (rn n m i) (Hr i Hi)). lra.
    + intros j Hj. rewrite (Zc _ _ KG) by auto. rewrite (col_art n m a b M Hn Hm Hb it o s j K Hj).
      specialize (A0 (cn m j) (Hc j Hj)). lra.
  - apply (kn_cost _ _ _ _ _ _ _ _ K).
  - intros Ht i j Hi Hj Hp. rewrite (KP Ht) by auto. rewrite (KG Ht) in Hp by auto.
    pose proof (tight_cell n m a b M Hn Hm it o s i j K Hi Hj Hp). lra.
  - intros Ht. assert (Ht' : eo_type o <> NS_model.INFEASIBLE) by congruence. specialize (KG Ht').
    pose proof (kn_art _ _ _ _ _ _ _ _ K Ht) as KA. split.
    + intros i Hi. rewrite (Zr _ _ KG) by auto. rewrite (row_art n m a b M Hn Hm Ha it o s i K Hi).
      specialize (KA (rn n m i) (Hr i Hi)). lra.
    + intros j Hj. rewrite (Zc _ _ KG) by auto. rewrite (col_art n m a b M Hn Hm Hb it o s j K Hj).
      specialize (KA (cn m j) (Hc j Hj)). lra.
  - intros Ht C HC i j Hi Hj. rewrite KP by (auto; congruence).
    assert (Ht' : eo_type o <> NS_model.MAX_ITER_REACHED) by congruence.
    pose proof (cert_cell n m a b M Hn Hm it o s C K (kn_cert _ _ _ _ _ _ _ _ K Ht') HC i j Hi Hj) as Q.
    rewrite tol_same in Q. lra.
  - intros Ht HB. assert (Ht' : eo_type o <> NS_model.INFEASIBLE) by congruence. specialize (KG Ht').
    assert (Ht2 : eo_type o <> NS_model.MAX_ITER_REACHED) by congruence. specialize (Art 0 HB Ht2).
    split; [|split].
    + intros i j Hi Hj. rewrite KG by auto. auto.
    + intros i Hi. rewrite (Zr _ _ KG) by auto. rewrite (row_art n m a b M Hn Hm Ha it o s i K Hi), Art by auto. lra.
    + intros j Hj. rewrite (Zc _ _ KG) by auto. rewrite (col_art n m a b M Hn Hm Hb it o s j K Hj), Art by auto. lra.
  - intros HB Ht. destruct (kn_bad _ _ _ _ _ _ _ _ K Ht) as (u & Hu & Hp).
    assert (Ht2 : eo_type o <> NS_model.MAX_ITER_REACHED) by congruence. rewrite (Art 0 HB Ht2) in Hp by auto. lra.
  - intros L ND HL. destruct (eo_type o) eqn:Et.
    2:{ apply (few_cells n m a b M Hn Hm it o s L K ND). intros p Hp. destruct (HL p Hp) as (P1 & P2 & P3).
        rewrite KG in P3 by (auto; congruence). auto. }
    + destruct L as [|p L]; [cbn; lia|]. exfalso. destruct (HL p) as (_ & _ & P3); [cbn; auto|].
      unfold emd_wrap in HO. cbn zeta in HO. destruct (run _ _ _ _ _ _ _ _ _ _) as [r| |]; try discriminate. cbn [bind] in HO.
      destruct (rs_type r) eqn:Er; injection HO as HO; subst o; cbn in *; try congruence; lra.
    + destruct Ty as [?|[?|[? _]]]; congruence.
    + apply (few_cells n m a b M Hn Hm it o s L K ND). intros p Hp. destruct (HL p Hp) as (P1 & P2 & P3).
      rewrite KG in P3 by (auto; congruence). auto.
Qed.
