(** C60, C86, C88: discrete multi-marginal transport on the grid (ot/lp/dmmot.py).
    k+1 histograms of n bins.  A multi-marginal plan is a finite list of (multi-index, weight);
    [lsum (at_ c j) y] is its c-th marginal at bin j. *)
From Coq Require Import Reals Lra Lia QArith Arith Bool List.
Import ListNotations.
From Verif Require Import Num Sums Spec Duals_proofs Glue_proofs Dmmot_model Dmmot_proofs.
Local Open Scope R_scope.

(** specification *)
Definition spread (key : list nat) : nat := list_max key - fold_right Nat.min (hd 0%nat key) key.
Definition histograms (n k : nat) (m : R) (A : nat -> nat -> R) : Prop := (forall c j, (c <= k)%nat -> (j < n)%nat -> 0 <= A c j) /\ forall c, (c <= k)%nat -> rsum n (A c) = m.
Definition multi_plan (n k : nat) (A : nat -> nat -> R) (y : list (list nat * R)) : Prop :=
  (forall e, In e y -> length (fst e) = S k /\ Forall (fun j => (j < n)%nat) (fst e) /\ 0 <= snd e) /\ forall c j, (c <= k)%nat -> (j < n)%nat -> lsum (at_ c j) y = A c j.
Definition multi_cost (y : list (list nat * R)) : R := lsum (fun e => INR (spread (fst e)) * snd e) y.

Lemma spread_kfun : forall k key, length key = S k -> dist_monge_max_min k (kfun key) = spread key.
Proof.
  intros k key L. unfold dist_monge_max_min, spread. f_equal.
  - apply Nat.le_antisymm.
    + destruct (maxi_in k (kfun key)) as (c & Hc & <-). assert (I : In (kfun key c) key) by (apply nth_In; lia). pose proof (proj1 (list_max_le key (list_max key)) (le_n _)) as F. rewrite Forall_forall in F. apply F; auto.
    + apply list_max_le. apply Forall_forall. intros x Hx. destruct (In_nth _ _ 0%nat Hx) as (c & Hc & <-). apply (maxi_ge k (kfun key) c). lia.
  - assert (G : forall l d, (fold_right Nat.min d l <= d)%nat /\ (forall x, In x l -> (fold_right Nat.min d l <= x)%nat) /\ (fold_right Nat.min d l = d \/ In (fold_right Nat.min d l) l)).
    { induction l as [|x l IH]; intros d; cbn [fold_right]; [repeat split; auto; intros x []|]. destruct (IH d) as (I1 & I2 & I3). split; [lia|]. split.
      - intros y [-> | Hy]; [lia|specialize (I2 y Hy); lia].
      - destruct (Nat.min_spec x (fold_right Nat.min d l)) as [[_ ->]|[_ ->]]; [right; left; auto|]. destruct I3 as [-> | I3]; [left; auto|right; right; auto]. }
    destruct (G key (hd 0%nat key)) as (G1 & G2 & G3). assert (Hh : In (hd 0%nat key) key) by (destruct key; [discriminate|left; auto]).
    apply Nat.le_antisymm.
    + assert (I : In (fold_right Nat.min (hd 0%nat key) key) key) by (destruct G3 as [-> | G3]; auto). destruct (In_nth _ _ 0%nat I) as (c & Hc & <-). apply (mini_le k (kfun key) c). lia.
    + destruct (mini_in k (kfun key)) as (c & Hc & <-). apply G2. apply nth_In. lia.
Qed.
Lemma plan_keys : forall n k A y, multi_plan n k A y -> grid_keys n k y.
Proof. intros n k A y [H _] e He. destruct (H e He) as (L & F & _). split; auto. intros c Hc. rewrite Forall_forall in F. apply F. apply nth_In. lia. Qed.
Lemma cost_keys : forall n k y, grid_keys n k y -> lsum (fun e => dcost k (kfun (fst e)) * snd e) y = multi_cost y.
Proof. intros. apply lsum_ext. intros e He. unfold dcost. rewrite spread_kfun; auto. apply (H e He). Qed.

Section Run.
Variables (n k : nat) (A : nat -> nat -> R) (m : R).
Hypotheses (Hn : (1 <= n)%nat) (HA : histograms n k m A).
Lemma run_ok : exists st, dm_loop (N:=RNum) (S k * n) n k (mkD (N:=RNum) A (fun _ => 0%nat) [] 0 (fun _ _ => 0)) = Some st /\ dinv n k A st /\
  (forall c j, (c <= k)%nat -> (j < n)%nat -> d_A st c j = 0) /\ (length (d_x st) <= S k * (n - 1) + 1)%nat.
Proof.
  destruct HA as [A0 As]. pose proof (dinv_start n k A Hn A0) as I0.
  assert (Z0 : natsum (S k) (d_idx (mkD (N:=RNum) A (fun _ => 0%nat) [] 0 (fun _ _ => 0))) = 0%nat) by (symmetry; apply (v_len n k A _ I0)).
  destruct (dm_loop_ok n k A Hn (S k * n) _ I0) as (st & E & I & (i & Hi & Gi) & L).
  - rewrite Z0. destruct n as [|n']; [lia|]. replace (S n' - 1)%nat with n' by lia. rewrite (Nat.mul_succ_r (S k) n'). lia.
  - rewrite Z0. apply Nat.le_0_l.
  - exists st. split; [exact E|]. split; [exact I|]. split; [|rewrite (v_len n k A st I); exact L].
    assert (T : forall c, (c <= k)%nat -> rsum n (d_A st c) = m - lsum snd (d_x st)).
    { intros c Hc. rewrite <- (As c Hc), <- (mass_pairing n k (d_x st) c (v_keys n k A st I) Hc), <- rsum_minus. apply rsum_ext. intros j Hj. rewrite <- (v_Ax n k A st I c j Hc Hj).
      change (carrier RNum) with R. lra. }
    assert (Ti : rsum n (d_A st i) = 0) by (apply rsum_0; intros j Hj; apply (v_Az n k A st I); auto; lia).
    intros c j Hc Hj. apply (rsum_nonneg_zero n (d_A st c)); auto; [intros; apply (v_A0 n k A st I); auto|]. rewrite (T c Hc), <- (T i Hi). exact Ti.
Qed.
End Run.
Lemma run_values : forall n k A m, (1 <= n)%nat -> histograms n k m A -> exists st, dm_loop (N:=RNum) (S k * n) n k (mkD (N:=RNum) A (fun _ => 0%nat) [] 0 (fun _ _ => 0)) = Some st /\
  dinv n k A st /\ multi_plan n k A (d_x st) /\ d_obj st = multi_cost (d_x st) /\ (length (d_x st) <= S k * (n - 1) + 1)%nat /\
  (forall D, (forall c j, (c <= k)%nat -> (j <= place n (d_idx st) c)%nat -> D c j = d_dual st c j) -> rsum (S k) (fun c => rsum n (fun j => D c j * A c j)) = d_obj st) /\
  forall c j, (c <= k)%nat -> (j < n)%nat -> d_A st c j = 0.
Proof.
  intros n k A m Hn HA. destruct (run_ok n k A m Hn HA) as (st & E & I & Z & L). exists st. split; [exact E|]. split; [exact I|].
  assert (M : forall c j, (c <= k)%nat -> (j < n)%nat -> lsum (at_ c j) (d_x st) = A c j).
  { intros c j Hc Hj. rewrite <- (v_Ax n k A st I c j Hc Hj), (Z c j Hc Hj). change (carrier RNum) with R. lra. }
  assert (P : multi_plan n k A (d_x st)).
  { split; [|exact M]. intros e He. destruct (v_keys n k A st I e He) as [Lk Bk]. destruct (v_sum n k A st I e He) as [W _]. repeat split; auto.
    apply Forall_forall. intros x Hx. destruct (In_nth _ _ 0%nat Hx) as (c & Hc & <-). apply (Bk c). lia. }
  split; [exact P|]. split; [rewrite (v_obj n k A st I); apply (cost_keys n k); apply (v_keys n k A st I)|]. split; [exact L|]. split; [|exact Z].
  intros D HD. rewrite (v_obj n k A st I). rewrite (rsum_ext (S k) _ (fun c => rsum n (fun j => D c j * lsum (at_ c j) (d_x st)))).
  2:{ intros c Hc. apply rsum_ext. intros j Hj. rewrite M by (auto; lia). reflexivity. }
  rewrite <- (dual_pairing n k (d_x st) D (v_keys n k A st I)). apply lsum_ext. intros e He. destruct (v_sum n k A st I e He) as (_ & _ & B & V). apply (f_equal (fun z => z * snd e)). refine (eq_trans _ V). apply dval_ext. intros c Hc. apply HD; auto.
Qed.

(** C60.  For any k+1 nonnegative histograms of equal mass on n >= 1 bins: the loop stops within
    (k+1)(n-1)+1 passes, log["A"] has distinct keys and is a multi-marginal plan of the histograms,
    the returned objective is its cost, and no multi-marginal plan is cheaper. *)
Theorem C60_greedy_optimal : forall n k A m, (1 <= n)%nat -> histograms n k m A ->
  exists r, dmmot_monge_1dgrid_loss (N:=RNum) n k A = Some r /\ multi_plan n k A (r_x r) /\ NoDup (map fst (r_x r)) /\ (length (r_x r) <= S k * (n - 1) + 1)%nat /\
  r_obj r = multi_cost (r_x r) /\ forall y, multi_plan n k A y -> r_obj r <= multi_cost y.
Proof.
  intros n k A m Hn HA. destruct (run_values n k A m Hn HA) as (st & E & I & P & O & L & DO & _). unfold dmmot_monge_1dgrid_loss. change (n0 (n:=RNum)) with 0. rewrite E. eexists. split; [reflexivity|]. cbn [r_x r_obj].
  split; [exact P|]. split; [apply (v_nodup n k A st I)|]. split; [exact L|]. split; [exact O|]. intros y Hy.
  destruct (dfeas_extend k (n - 1) _ _ _ (v_dual n k A st I) (fun c Hc => Nat.le_min_r _ _) eq_refl) as (D & [F _] & Ag).
  rewrite <- (DO D Ag). pose proof (plan_keys n k A y Hy) as Ky. rewrite <- (cost_keys n k y Ky). destruct Hy as [Y1 Y2].
  rewrite (rsum_ext (S k) _ (fun c => rsum n (fun j => D c j * lsum (at_ c j) y))) by (intros c Hc; apply rsum_ext; intros j Hj; rewrite Y2 by (auto; lia); reflexivity).
  rewrite <- (dual_pairing n k y D Ky). clear - Y1 Ky F Hn. induction y as [|e y IH]; cbn [lsum]; [lra|]. apply Rplus_le_compat.
  - apply Rmult_le_compat_r; [apply (Y1 e); left; auto|]. apply F. intros c Hc. pose proof (proj2 (Ky e (or_introl eq_refl)) c Hc). lia.
  - apply IH; intros e' He'; [apply Y1|apply Ky]; right; auto.
Qed.
Print Assumptions C60_greedy_optimal.
(** three histograms on three bins *)
Example C60_case : exists r, dmmot_monge_1dgrid_loss (N:=QNum) 3 2 (fun c j => match c, j with O, O => 1 # 2 | O, 1%nat => 1 # 2 | 1%nat, O => 1 # 4 | 1%nat, 1%nat => 1 # 4 | 1%nat, 2%nat => 1 # 2 | 2%nat, 2%nat => 1 | _, _ => 0 end)%Q = Some r /\
  r_obj r = (3 # 2)%Q /\ filter (fun e => Qltb 0 (snd e)) (r_x r) = [([0; 0; 2], 1 # 4); ([0; 1; 2], 1 # 4); ([1; 2; 2], 1 # 2)]%nat /\ r_dualobj r = (3 # 2)%Q.
Proof. eexists. vm_compute. repeat split; reflexivity. Qed.

(** C86.  The reported dual objective always equals the primal one.  When the last bin of every
    histogram is occupied the reported dual variables are feasible, hence (they are the gradients
    given to autograd) a subgradient of the loss over all families of histograms. *)
Theorem C86_dual_value : forall n k A m, (1 <= n)%nat -> histograms n k m A -> exists r, dmmot_monge_1dgrid_loss (N:=RNum) n k A = Some r /\ r_dualobj r = r_obj r.
Proof.
  intros n k A m Hn HA. destruct (run_values n k A m Hn HA) as (st & E & I & P & O & L & DO & _). unfold dmmot_monge_1dgrid_loss. change (n0 (n:=RNum)) with 0. rewrite E. eexists. split; [reflexivity|]. cbn [r_dualobj r_obj].
  rewrite nsum_R. rewrite <- (DO (fill (N:=RNum) n (d_idx st) (d_dual st))).
  - apply rsum_ext. intros c Hc. rewrite nsum_R. apply rsum_ext. intros j Hj. cbn [nmul RNum]. apply Rmult_comm.
  - intros c j Hc Hj. unfold fill. destruct (Nat.ltb_spec (d_idx st c) n) as [B|B]; cbn [andb]; auto. destruct (Nat.leb_spec (d_idx st c) j) as [B'|B']; auto. unfold place in Hj. f_equal. lia.
Qed.
Print Assumptions C86_dual_value.
Theorem C86_dual_is_subgradient : forall n k A m, (1 <= n)%nat -> histograms n k m A -> (forall c, (c <= k)%nat -> 0 < A c (n - 1)%nat) ->
  exists r, dmmot_monge_1dgrid_loss (N:=RNum) n k A = Some r /\
  (forall key, length key = S k -> Forall (fun j => (j < n)%nat) key -> rsum (S k) (fun c => r_dual r c (nth c key 0%nat)) <= INR (spread key)) /\
  forall A' m', histograms n k m' A' -> exists r', dmmot_monge_1dgrid_loss (N:=RNum) n k A' = Some r' /\ r_obj r + rsum (S k) (fun c => rsum n (fun j => r_dual r c j * (A' c j - A c j))) <= r_obj r'.
Proof.
  intros n k A m Hn HA Hl. destruct (run_values n k A m Hn HA) as (st & E & I & P & O & L & DO & Z). unfold dmmot_monge_1dgrid_loss at 1. change (n0 (n:=RNum)) with 0. rewrite E. eexists. split; [reflexivity|]. cbn [r_dual r_obj].
  assert (Pl : forall c, (c <= k)%nat -> place n (d_idx st) c = (n - 1)%nat).
  { intros c Hc. unfold place. destruct (le_gt_dec (n - 1) (d_idx st c)) as [G|G]; [lia|]. exfalso. specialize (Hl c Hc).
    assert (S0 : lsum (at_ c (n - 1)%nat) (d_x st) = 0).
    { transitivity (lsum (fun _ : list nat * R => 0 * 0) (d_x st)); [|rewrite lsum_scal; lra]. apply lsum_ext. intros e He. destruct (v_sum n k A st I e He) as (_ & _ & B & _). specialize (B c Hc). unfold place in B.
      destruct (v_keys n k A st I e He) as [Lk _]. change (carrier RNum) with R in *. rewrite at_kfun by lia. destruct (Nat.eqb_spec (kfun (fst e) c) (n - 1)); [exfalso; lia|lra]. }
    pose proof (v_Ax n k A st I c (n - 1)%nat Hc ltac:(lia)) as V. rewrite (Z c (n - 1)%nat Hc ltac:(lia)) in V.
    assert (Q : A c (n - 1)%nat = 0) by (refine (eq_trans (eq_sym V) (eq_trans (f_equal (Rplus 0) S0) (Rplus_0_l 0)))). lra. }
  set (D := fill (N:=RNum) n (d_idx st) (d_dual st)).
  assert (Ag : forall c j, (c <= k)%nat -> (j <= n - 1)%nat -> D c j = d_dual st c j).
  { intros c j Hc Hj. unfold D, fill. specialize (Pl c Hc). unfold place in Pl. destruct (Nat.ltb_spec (d_idx st c) n) as [B|B]; cbn [andb]; auto. destruct (Nat.leb_spec (d_idx st c) j) as [B'|B']; auto. f_equal. lia. }
  assert (F : forall J, (forall c, (c <= k)%nat -> (J c <= n - 1)%nat) -> dval k D J <= dcost k J).
  { intros J HJ. rewrite (dval_ext k D (d_dual st) J J) by (intros; apply Ag; auto). apply (proj1 (v_dual n k A st I)). intros c Hc. rewrite Pl by auto. auto. }
  split.
  - intros key Lk Fk. pose proof (F (kfun key)) as Q. unfold dcost in Q. rewrite spread_kfun in Q by auto. apply Q. intros c Hc. rewrite Forall_forall in Fk. assert (In (kfun key c) key) by (apply nth_In; lia). specialize (Fk _ H). lia.
  - intros A' m' HA'. destruct (C60_greedy_optimal n k A' m' Hn HA') as (r' & E' & P' & _ & _ & O' & _). exists r'. split; [exact E'|].
    assert (DA : rsum (S k) (fun c => rsum n (fun j => D c j * A c j)) = d_obj st) by (apply DO; intros c j Hc Hj; apply Ag; auto; rewrite Pl in Hj by auto; auto).
    rewrite (rsum_ext (S k) _ (fun c => rsum n (fun j => D c j * A' c j) - rsum n (fun j => D c j * A c j))) by (intros c Hc; rewrite <- rsum_minus; apply rsum_ext; intros; change (carrier RNum) with R; lra).
    rewrite rsum_minus, DA. match goal with |- ?x + (?y - ?x') <= _ => change (x + (y - x) <= r_obj r') end. ring_simplify (d_obj st + (rsum (S k) (fun c => rsum n (fun j => D c j * A' c j)) - d_obj st)).
    pose proof (plan_keys n k A' _ P') as Ky. rewrite O'. rewrite <- (cost_keys n k _ Ky). destruct P' as [Y1 Y2].
    rewrite (rsum_ext (S k) _ (fun c => rsum n (fun j => D c j * lsum (at_ c j) (r_x r')))) by (intros c Hc; apply rsum_ext; intros j Hj; rewrite Y2 by (auto; lia); reflexivity).
    rewrite <- (dual_pairing n k _ D Ky). revert Y1 Ky. generalize (r_x r'). clear - F Hn. intros y Y1 Ky. induction y as [|e y IH]; cbn [lsum]; [lra|]. apply Rplus_le_compat.
    + apply Rmult_le_compat_r; [apply (Y1 e); left; auto|]. apply F. intros c Hc. pose proof (proj2 (Ky e (or_introl eq_refl)) c Hc). lia.
    + apply IH; intros e' He'; [apply Y1|apply Ky]; right; auto.
Qed.
Print Assumptions C86_dual_is_subgradient.
(** with an empty last bin the reported variables are neither feasible nor a subgradient: two
    histograms (1, 0); the pair (1, 1) costs 0 but its dual sum is 1, and moving both to (1/2, 1/2)
    leaves the loss at 0 although the gradient predicts 1/2 *)
Theorem C86_empty_last_bin_refuted :
  option_map (fun r : dmresult (N:=QNum) => ((r_obj r, Qred (r_dual r 0%nat 1%nat + r_dual r 1%nat 1%nat), Qred (r_obj r + nsum (N:=QNum) 2 (fun c => nsum (N:=QNum) 2 (fun j => (r_dual r c j * ((1 # 2) - match j with O => 1 | _ => 0 end))%Q)))) : Q * Q * Q))
    (dmmot_monge_1dgrid_loss (N:=QNum) 2 1 (fun _ j => match j with O => 1 | _ => 0 end)%Q) = Some (0, 1, 1 # 2)%Q /\
  spread [1%nat; 1%nat] = 0%nat /\ option_map (fun r => r_obj r) (dmmot_monge_1dgrid_loss (N:=QNum) 2 1 (fun _ _ => 1 # 2)%Q) = Some 0%Q.
Proof. repeat split; vm_compute; reflexivity. Qed.
Print Assumptions C86_empty_last_bin_refuted.

(** C88.  Every column that dmmot_monge_1dgrid_optimize returns is a probability histogram, unless
    the column it was normalised from is constant and nonpositive (division by zero). *)
Theorem C88_renormalize : forall n A c, (1 <= n)%nat -> (exists j, (j < n)%nat /\ (0 < A c j \/ exists i, (i < n)%nat /\ A c i <> A c j)) ->
  (forall j, (j < n)%nat -> 0 <= renormalize (N:=RNum) n A c j) /\ rsum n (renormalize (N:=RNum) n A c) = 1.
Proof.
  intros n A c Hn Hx. unfold renormalize. destruct (nmink_R n Hn (n - 1) (A c)) as [Lm (cm & Hcm & Em)]. set (mn := nmink (N:=RNum) (n - 1) (A c)) in *. cbv zeta. cbn [nltb nsub ndiv n0 RNum].
  set (v := if Rltb mn 0 then (fun j => A c j - mn) else A c).
  assert (V0 : forall j, (j < n)%nat -> 0 <= v j).
  { intros j Hj. specialize (Lm j ltac:(lia)). unfold v. destruct (Rltb mn 0) eqn:B; [lra|]. apply Rltb_false in B. change (carrier RNum) with R in *. lra. }
  assert (Vp : exists j, (j < n)%nat /\ 0 < v j).
  { destruct Hx as (j & Hj & [P|(i & Hi & Ne)]).
    - exists j. split; auto. unfold v. destruct (Rltb mn 0) eqn:B; auto. apply Rltb_true in B. lra.
    - pose proof (Lm i ltac:(lia)) as Li. pose proof (Lm j ltac:(lia)) as Lj. unfold v. destruct (Rltb mn 0) eqn:B.
      + destruct (Rlt_dec mn (A c i)) as [C|C]; [exists i; split; auto; lra|]. exists j. split; auto. change (carrier RNum) with R in *. destruct (Req_dec (A c j) mn); [exfalso; apply Ne|]; lra.
      + apply Rltb_false in B. change (carrier RNum) with R in *. destruct (Rlt_dec 0 (A c i)) as [C|C]; [exists i; split; auto|]. exists j. split; auto. destruct (Req_dec (A c j) 0); [exfalso; apply Ne|]; lra. }
  assert (S0 : 0 < rsum n v).
  { destruct Vp as (j & Hj & Pj). pose proof (rsum_nonneg n v V0) as G. destruct (Req_dec (rsum n v) 0) as [E|]; [|lra]. pose proof (rsum_nonneg_zero n v V0 E j Hj). lra. }
  change (carrier RNum) with R in *. rewrite nsum_R. split.
  - intros j Hj. apply Rmult_le_pos; [apply V0; auto|]. left. apply Rinv_0_lt_compat; auto.
  - rewrite rsum_div. change (rsum n v / rsum n v = 1). field. lra.
Qed.
Print Assumptions C88_renormalize.
Theorem C88_optimize_returns_histograms : forall niters n k lr dec A B, (1 <= n)%nat -> dm_optimize (N:=RNum) niters n k lr dec A = Some B ->
  exists A', B = renormalize (N:=RNum) n A' /\ forall c, ((forall j, (j < n)%nat -> 0 <= B c j) /\ rsum n (B c) = 1) \/ exists x, x <= 0 /\ forall j, (j < n)%nat -> A' c j = x.
Proof.
  induction niters; intros n k lr dec A B Hn E; cbn [dm_optimize] in E.
  - injection E as <-. exists A. split; auto. intros c. destruct (Rle_dec (A c 0%nat) 0) as [L|L].
    + assert (X : (exists j, (j < n)%nat /\ A c j <> A c 0%nat) \/ forall j, (j < n)%nat -> A c j = A c 0%nat).
      { clear. induction n; [right; intros; lia|]. destruct IHn as [(j & Hj & Ne)|H]; [left; exists j; split; auto|]. destruct (Req_dec (A c n) (A c 0%nat)) as [E|E]; [|left; exists n; split; auto].
        right. intros j Hj. destruct (Nat.eq_dec j n) as [->|]; auto. apply H; lia. }
      destruct X as [(j & Hj & Ne)|X]; [left|right; exists (A c 0%nat); split; auto]. apply C88_renormalize; auto. exists 0%nat. split; [lia|]. right. exists j. auto.
    + left. apply C88_renormalize; auto. exists 0%nat. split; [lia|]. left. lra.
  - cbv zeta in E. destruct (dmmot_monge_1dgrid_loss (N:=RNum) n k (renormalize (N:=RNum) n A)); [|discriminate]. apply IHniters in E; auto.
Qed.
Print Assumptions C88_optimize_returns_histograms.
Example C88_case : option_map (fun B => map (B 0%nat) (seq 0 3)) (dm_optimize (N:=QNum) 2 3 1 (1 # 4)%Q 1%Q (fun c j => match c, j with O, O => 1 | 1%nat, O => 1 # 2 | 1%nat, 2%nat => 1 # 2 | _, _ => 0 end)%Q) =
  Some [22 # 25; 3 # 25; 0]%Q.
Proof. vm_compute. reflexivity. Qed.
