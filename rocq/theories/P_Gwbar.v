(** C49: the barycenter updates of Gromov-Wasserstein minimise the weighted objective.
    Specification: bary_obj C = sum_s lambda_s GW(C_s, C, T_s), GW the quadruple sum of gw_obj (with
    C first when target = False), feat_obj X = sum_s lambda_s sum_{k,i} T_s,ki |Y_s,k - X_i|^2. *)
From Coq Require Import Reals Lra Lia QArith List.
Import ListNotations.
From Verif Require Import Num Sums Spec Entropy Optim_model Duals_proofs Gw_model Gw_proofs Gw_more Gwbar_model Gwbar_proofs.
Local Open Scope R_scope.

Definition good_weights (S K : nat) (ns : nat -> nat) (target : bool) (lam : vec) (Ts : nat -> mat) : Prop :=
  (forall s, (s < S)%nat -> 0 <= lam s) /\
  (forall s k i, (s < S)%nat -> (k < ns s)%nat -> (i < K)%nat -> 0 <= if target then Ts s k i else Ts s i k).
(** every entry of the barycenter carries mass *)
Definition all_seen (S K : nat) (ns : nat -> nat) (target : bool) (lam : vec) (Ts : nat -> mat) : Prop :=
  forall i j, (i < K)%nat -> (j < K)%nat -> 0 < rsum S (fun s => lam s * (marg ns target Ts s i * marg ns target Ts s j)).

(** square loss: minimiser over all matrices, and the only one on entries that carry mass *)
Theorem C49_structure_square : forall S K ns target lam Ts Cs p lg ex cz floor,
  good_weights S K ns target lam Ts -> good_masses S K ns target lam Ts p ->
  let U := update_barycenter_structure (N:=RNum) S ns lg ex SquareLoss target cz floor lam Ts Cs p in
  (forall C, bary_obj S K ns target lam Ts Cs sq_loss U <= bary_obj S K ns target lam Ts Cs sq_loss C) /\
  (all_seen S K ns target lam Ts -> forall C, bary_obj S K ns target lam Ts Cs sq_loss C <= bary_obj S K ns target lam Ts Cs sq_loss U ->
     forall i j, (i < K)%nat -> (j < K)%nat -> C i j = U i j).
Proof.
  intros S K ns target lam Ts Cs p lg ex cz floor [Hl HT] Hm U.
  assert (D := sq_diff S K ns target lam Ts Cs p Hl HT Hm lg ex cz floor). cbv zeta in D. fold U in D.
  assert (Q : forall i j, (i < K)%nat -> (j < K)%nat -> 0 <= quot S ns target lam Ts i j) by (apply (quot_nonneg S K ns target lam Ts Hl HT)).
  assert (P : forall C i j, (i < K)%nat -> (j < K)%nat -> 0 <= quot S ns target lam Ts i j * (C i j - U i j) ^ 2) by (intros; apply Rmult_le_pos; [auto|apply pow2_ge_0]).
  split.
  - intro C. rewrite (D C). assert (0 <= dsum K K (fun i j => quot S ns target lam Ts i j * (C i j - U i j) ^ 2)) by (apply dsum_nonneg; auto). lra.
  - intros HS C HC i j Hi Hj. rewrite (D C) in HC.
    assert (0 <= dsum K K (fun i j => quot S ns target lam Ts i j * (C i j - U i j) ^ 2)) by (apply dsum_nonneg; auto).
    assert (Z : dsum K K (fun i j => quot S ns target lam Ts i j * (C i j - U i j) ^ 2) = 0) by lra.
    pose proof (dsum_zero K K _ (P C) Z i j Hi Hj) as Y. cbv beta in Y. specialize (HS i j Hi Hj). fold (quot S ns target lam Ts i j) in HS.
    apply Rmult_integral in Y. destruct Y as [Y|Y]; [lra|]. assert (C i j - U i j = 0) by (apply Rsqr_0_uniq; unfold Rsqr; nra). lra.
Qed.
Print Assumptions C49_structure_square.

(** kl loss: minimiser over the matrices with positive entries, for both target conventions; with
    target = false the entries of the C_s must be at least the floor 1e-16 of the code. *)
Theorem C49_structure_kl : forall S K ns (target : bool) lam Ts Cs p cz floor C,
  good_weights S K ns target lam Ts -> good_masses S K ns target lam Ts p -> 0 < floor ->
  (forall s k c, (s < S)%nat -> (k < ns s)%nat -> (c < ns s)%nat -> if target then 0 < Cs s k c else floor <= Cs s k c) ->
  (forall i j, (i < K)%nat -> (j < K)%nat -> 0 < C i j) ->
  bary_obj S K ns target lam Ts Cs (kl_loss ln 0) (update_barycenter_structure (N:=RNum) S ns ln exp KlLoss target cz floor lam Ts Cs p)
  <= bary_obj S K ns target lam Ts Cs (kl_loss ln 0) C.
Proof.
  intros S K ns target lam Ts Cs p cz floor C [Hl HT] Hm Hf HCs HC. destruct target.
  - apply (klt_diff S K ns true lam Ts Cs p Hl HT Hm ln exp cz floor C); auto.
  - apply (kls_diff S K ns false lam Ts Cs p Hl HT Hm cz floor C); auto.
Qed.
Print Assumptions C49_structure_kl.

Theorem C49_features : forall S K ns target lam Ts p d Ys cz X,
  good_weights S K ns target lam Ts -> good_masses S K ns target lam Ts p ->
  feat_obj S K ns target lam Ts d Ys (update_barycenter_feature (N:=RNum) S ns target cz lam Ts Ys p) <= feat_obj S K ns target lam Ts d Ys X.
Proof.
  intros S K ns target lam Ts p d Ys cz X [Hl HT] Hm.
  pose proof (feat_diff S K ns target lam Ts p Hl HT Hm d Ys cz X) as E. cbv zeta in E. rewrite E.
  match goal with |- ?a <= ?a + ?b => assert (0 <= b); [|lra] end. apply dsum_nonneg; intros i e Hi He. apply Rmult_le_pos; [|apply pow2_ge_0].
  unfold wsum. apply rsum_nonneg; intros s Hs. apply Rmult_le_pos; [auto|]. unfold marg. apply rsum_nonneg; intros; apply HT; auto.
Qed.
Print Assumptions C49_features.

(** The code accepts any nonnegative lambdas, but with one shared mass vector it divides by
    p_i p_j instead of (sum_s lambda_s) p_i p_j: weights not summing to 1 give a rescaled matrix.
    One space, one point, lambda = 2, C_1 = 1: the update is 2, the minimiser 1. *)
Theorem C49_unnormalised_weights_refuted : exists S K ns lam Ts Cs p,
  good_weights S K ns true lam Ts /\ (forall s i, (s < S)%nat -> (i < K)%nat -> marg ns true Ts s i = p i) /\
  exists C, bary_obj S K ns true lam Ts Cs sq_loss C
    < bary_obj S K ns true lam Ts Cs sq_loss (update_barycenter_structure (N:=RNum) S ns ln exp SquareLoss true true 0 lam Ts Cs (Shared (N:=RNum) p)).
Proof.
  exists 1%nat, 1%nat, (fun _ => 1%nat), (fun _ => 2), (fun _ _ _ => 1), (fun _ _ _ => 1), (fun _ => 1). split; [split; intros; lra|]. split.
  - intros. unfold marg, tau. cbn. lra.
  - exists (fun _ _ => 1). unfold bary_obj, gw_obj, gw_bil, sq_loss, update_barycenter_structure, pulled, prod_, inv_. cbn.
    rewrite (proj2 (Reqb_false 1 0)) by lra. lra.
Qed.
Print Assumptions C49_unnormalised_weights_refuted.

(** two spaces of two points, weights 1/4 and 3/4, plans with uniform marginals *)
Example C49_case : let T := fun s i j => if Nat.eqb s 0 then (if Nat.eqb i j then 1 # 2 else 0)%Q else (1 # 4)%Q in
  let C := fun s i j => if Nat.eqb i j then 0%Q else if Nat.eqb s 0 then 4%Q else 8%Q in
  let U := update_barycenter_structure (N:=QNum) 2 (fun _ => 2%nat) (fun x => x) (fun x => x) SquareLoss true true 0%Q (fun s => if Nat.eqb s 0 then 1 # 4 else 3 # 4)%Q T C (Shared (N:=QNum) (fun _ => 1 # 2)%Q) in
  (U 0%nat 0%nat == 3)%Q /\ (U 0%nat 1%nat == 4)%Q.
Proof. vm_compute. split; reflexivity. Qed.
Example C49_case_masses : good_masses 2 2 (fun _ => 2%nat) true (fun s => if Nat.eqb s 0 then 1 / 4 else 3 / 4)
   (fun s i j => if Nat.eqb s 0 then (if Nat.eqb i j then 1 / 2 else 0) else 1 / 4) (Shared (N:=RNum) (fun _ => 1 / 2)).
Proof. split; [cbn; lra|]. intros s i Hs Hi. destruct s as [|[|?]]; try lia; destruct i as [|[|?]]; try lia; cbn; lra. Qed.
