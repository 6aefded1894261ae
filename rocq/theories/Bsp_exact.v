(** When the BSP bijection is optimal (exact reals). *)
From Coq Require Import List Arith Reals Lra Lia Bool Permutation.
From Verif Require Import Num Sums Spec Monge Emd1d_model Emd1d_proofs Emd1d_perm_proofs Duals_proofs Perm Sliced_proofs Estim_model Estim_proofs
  Bsp_model Bsp_proofs Bsp_cost Bsp_match.
Import ListNotations.
Local Open Scope R_scope.

(** ** one dimension *)
Definition comono (x y : vec) (a b : list nat) : Prop :=
  forall r q, (r < length a)%nat -> (q < length a)%nat ->
    0 <= (x (nth r a 0%nat) - x (nth q a 0%nat)) * (y (nth r b 0%nat) - y (nth q b 0%nat)).

Lemma comono_app : forall x y a1 b1 a2 b2 sg, sg <> 0 -> length a1 = length b1 -> length a2 = length b2 ->
  (forall u v, In u a1 -> In v a2 -> sg * x u <= sg * x v) ->
  (forall u v, In u b1 -> In v b2 -> sg * y u <= sg * y v) ->
  comono x y a1 b1 -> comono x y a2 b2 -> comono x y (a1 ++ a2) (b1 ++ b2).
Proof.
  intros x y a1 b1 a2 b2 sg Hs L1 L2 HA HB C1 C2 r q Hr Hq. rewrite app_length in *.
  assert (X : forall u v u' v', In u a1 -> In v a2 -> In u' b1 -> In v' b2 -> 0 <= (x u - x v) * (y u' - y v')).
  { intros u v u' v' H1 H2 H3 H4. pose proof (HA u v H1 H2). pose proof (HB u' v' H3 H4).
    assert (0 <= (sg * x v - sg * x u) * (sg * y v' - sg * y u')) by (apply Rmult_le_pos; lra).
    assert (0 < sg * sg) by nra.
    assert (E : (sg * x v - sg * x u) * (sg * y v' - sg * y u') = (sg * sg) * ((x u - x v) * (y u' - y v'))) by ring.
    rewrite E in *. apply Rmult_le_reg_l with (sg * sg); lra. }
  destruct (lt_dec r (length a1)), (lt_dec q (length a1)).
  - rewrite !app_nth1 by lia. apply C1; auto.
  - rewrite (app_nth1 a1 a2 0%nat (n:=r)), (app_nth2 a1 a2 0%nat (n:=q)), (app_nth1 b1 b2 0%nat (n:=r)), (app_nth2 b1 b2 0%nat (n:=q)) by lia.
    apply X; apply nth_In; lia.
  - rewrite (app_nth2 a1 a2 0%nat (n:=r)), (app_nth1 a1 a2 0%nat (n:=q)), (app_nth2 b1 b2 0%nat (n:=r)), (app_nth1 b1 b2 0%nat (n:=q)) by lia.
    match goal with |- 0 <= (?p - ?q) * (?s - ?t) => replace ((p - q) * (s - t)) with ((q - p) * (t - s)) by ring end.
    apply X; apply nth_In; lia.
  - rewrite !app_nth2 by lia. rewrite <- L1. apply C2; lia.
Qed.

Definition line_slices (x y : vec) (ch : bsp_choices RNum) : Prop :=
  forall path la lb, exists sg : R, sg <> 0 /\ (forall i, fst (ch_slice ch path la lb) i = sg * x i) /\
    (forall j, snd (ch_slice ch path la lb) j = sg * y j).

Lemma line_comono : forall n x y ch, (1 <= n)%nat -> choices_ok ch -> line_slices x y ch ->
  exists p, compute_matching n ch = Some p /\ perm_on n p /\
    forall i j, (i < n)%nat -> (j < n)%nat -> 0 <= (x i - x j) * (y (p i) - y (p j)).
Proof.
  intros n x y ch Hn Hc HL.
  destruct (compute_matching_gen n ch (fun _ _ => True) (fun a b => length a = length b /\ comono x y a b))
    as (p & a & b & E & PA & PB & [Lab O] & H); auto.
  - apply split_true.
  - intros u v _. split; [auto|]. intros r q Hr Hq. simpl in *. assert (r = 0%nat) by lia. assert (q = 0%nat) by lia. subst. lra.
  - intros path la lb a1 b1 a2 b2 _ L1 _ _ HA HB [_ C1] [L2 C2]. split; [rewrite !app_length; lia|].
    destruct (HL path la lb) as (sg & Hsg & Ea & Eb). apply (comono_app x y a1 b1 a2 b2 sg); auto.
    + intros u v Hu Hv. specialize (HA u v Hu Hv). rewrite !Ea in HA. apply Rltb_false in HA. exact HA.
    + intros u v Hu Hv. specialize (HB u v Hu Hv). rewrite !Eb in HB. apply Rltb_false in HB. exact HB.
  - exists p. split; [exact E|]. split; [exact (plan_perm n p a b PA PB H)|].
    assert (La : length a = n) by (rewrite (Permutation_length PA), seq_length; auto).
    assert (Ix : forall i, (i < n)%nat -> exists k, (k < n)%nat /\ nth k a 0%nat = i).
    { intros i Hi. destruct (In_nth a i 0%nat) as (k & Hk & Ek); [|exists k; split; auto; lia].
      eapply Permutation_in; [apply Permutation_sym; eauto|]. apply in_seq; lia. }
    intros i j Hi Hj. destruct (Ix i Hi) as (r & Hr & <-). destruct (Ix j Hj) as (q & Hq & <-).
    rewrite !H by auto. apply O; lia.
Qed.

Lemma match_cost : forall n (M : mat) s t, perm_on n s -> perm_on n t ->
  cost n n M (dmat (match_plan n 1 s t)) = rsum n (fun k => M (s k) (t k)).
Proof.
  intros n M s t Hs Ht. rewrite cost_dmat by (apply match_range; auto). rewrite esum_seq. apply rsum_ext; intros; ring.
Qed.

Lemma match_coupling : forall n q, perm_on n q ->
  coupling n n (fun _ => 1) (fun _ => 1) (dmat (match_plan n 1 (fun k => k) q)).
Proof.
  intros n q Hq.
  assert (O : optimal_coupling n n (fun _ => 1) (fun _ => 1) (fun i j => rpow (Rabs ((fun _ => 0) i - (fun _ => 0) j)) 1) (dmat (match_plan n 1 (fun k => k) q))).
  { apply (match_optimal n (fun _ => 0) (fun _ => 0)); auto; try lra; try (split; auto); intros; lra. }
  apply O.
Qed.

Lemma comono_optimal : forall n (x y : vec) p e, 1 <= e -> perm_on n p ->
  (forall i j, (i < n)%nat -> (j < n)%nat -> 0 <= (x i - x j) * (y (p i) - y (p j))) ->
  forall q, perm_on n q ->
  rsum n (fun i => rpow (Rabs (x i - y (p i))) e) <= rsum n (fun i => rpow (Rabs (x i - y (q i))) e).
Proof.
  intros n x y p e He Hp Hco q Hq.
  set (z := fun i => x i + y (p i)). set (zl := to_list (N:=RNum) n z).
  assert (Lz : length zl = n) by (unfold zl, to_list; rewrite map_length, seq_length; auto).
  destruct (argsort_sorts zl) as [PS SS]. rewrite Lz in PS.
  set (tau := pfun (argsort zl)). assert (Ht : perm_on n tau) by (apply perm_list_on; auto).
  assert (Hz : forall k, (S k < n)%nat -> z (tau k) <= z (tau (S k))).
  { intros k Hk. specialize (SS k ltac:(rewrite Lz; auto)).
    assert (A : forall k, (k < n)%nat -> lnth zl (tau k) = z (tau k)). { intros h Hh. apply lnth_to_list. apply Ht; auto. }
    rewrite <- !A by lia. exact SS. }
  assert (Hord : forall i j, (i < n)%nat -> (j < n)%nat -> z i <= z j -> x i <= x j /\ y (p i) <= y (p j)).
  { intros i j Hi Hj Hle. specialize (Hco i j Hi Hj). unfold z in Hle. split; apply Rnot_lt_le; intros Hlt; nra. }
  assert (Htp : perm_on n (fun k => p (tau k))).
  { split; [intros; apply Hp, Ht; auto|]. intros i j Hi Hj Eij. apply Ht; auto. apply Hp; auto; apply Ht; auto. }
  pose proof (match_optimal n x y tau (fun k => p (tau k)) 1 e Ht Htp ltac:(lra) He) as O.
  destruct O as [_ O].
  - intros k Hk. apply (Hord (tau k) (tau (S k))); auto; apply Ht; lia.
  - intros k Hk. apply (Hord (tau k) (tau (S k))); auto; apply Ht; lia.
  - specialize (O _ (match_coupling n q Hq)). rewrite !match_cost in O; auto; [|split; auto].
    rewrite (rsum_perm n tau (fun i => rpow (Rabs (x i - y (p i))) e) Ht) in O. exact O.
Qed.

(** ** scaled and translated clouds *)
Definition sq_dist (d : nat) (u v : vec) : R := rsum d (fun k => (u k - v k) * (u k - v k)).
Definition dotp (d : nat) (u v : vec) : R := rsum d (fun k => u k * v k).

Lemma similar_optimal : forall n d (X Y : nat -> vec) c (t : vec) s, 0 < c -> perm_on n s ->
  (forall i k, (i < n)%nat -> (k < d)%nat -> Y (s i) k = c * X i k + t k) ->
  forall q, perm_on n q ->
  rsum n (fun i => sq_dist d (X i) (Y (s i))) <= rsum n (fun i => sq_dist d (X i) (Y (q i))).
Proof.
  intros n d X Y c t s Hc Hs HY q Hq.
  pose (r := fun i => pinv n s (q i)).
  assert (Hr : perm_on n r).
  { pose proof (pinv_perm n s Hs) as Hi. split; [intros i Hi'; apply Hi, Hq; auto|].
    intros i j H1 H2 E. apply Hq; auto. apply Hi; auto; apply Hq; auto. }
  assert (Er : forall i, (i < n)%nat -> q i = s (r i)).
  { intros i Hi. unfold r. symmetry. apply pinv_spec; auto. apply Hq; auto. }
  assert (K : forall k, (k < d)%nat -> rsum n (fun i => (X i k - Y (s i) k) * (X i k - Y (s i) k)) <=
    rsum n (fun i => (X i k - Y (q i) k) * (X i k - Y (q i) k))).
  { intros k Hk.
    assert (D : rsum n (fun i => (X i k - Y (q i) k) * (X i k - Y (q i) k)) - rsum n (fun i => (X i k - Y (s i) k) * (X i k - Y (s i) k))
      = c * rsum n (fun i => (X i k - X (r i) k) * (X i k - X (r i) k))).
    { assert (A : rsum n (fun i => (c * c - c) * (X (r i) k * X (r i) k) + 2 * c * t k * X (r i) k) =
                  rsum n (fun i => (c * c - c) * (X i k * X i k) + 2 * c * t k * X i k)).
      { apply (rsum_perm n r (fun i => (c * c - c) * (X i k * X i k) + 2 * c * t k * X i k)); auto. }
      rewrite <- rsum_minus, <- rsum_scal.
      rewrite (rsum_ext n _ (fun i => c * ((X i k - X (r i) k) * (X i k - X (r i) k)) +
        (((c * c - c) * (X (r i) k * X (r i) k) + 2 * c * t k * X (r i) k) - ((c * c - c) * (X i k * X i k) + 2 * c * t k * X i k)))).
      - rewrite rsum_plus, rsum_minus, A. ring.
      - intros i Hi. rewrite (Er i Hi), !HY; auto; [ring|]. apply Hr; auto. }
    assert (0 <= rsum n (fun i => (X i k - X (r i) k) * (X i k - X (r i) k))) by (apply rsum_nonneg; intros i Hi; exact (Rle_0_sqr (X i k - X (r i) k))).
    nra. }
  unfold sq_dist. rewrite (rsum_swap n d), (rsum_swap n d (fun i k => (X i k - Y (q i) k) * (X i k - Y (q i) k))).
  apply rsum_le. auto.
Qed.

Definition proj_slices (d : nat) (X Y : nat -> vec) (n : nat) (ch : bsp_choices RNum) : Prop :=
  forall path la lb, exists u : vec,
    (forall i, fst (ch_slice ch path la lb) i = dotp d u (X i)) /\
    (forall j, snd (ch_slice ch path la lb) j = dotp d u (Y j)) /\
    (forall i j, (i < n)%nat -> (j < n)%nat -> i <> j -> dotp d u (X i) <> dotp d u (X j)).

Lemma similar_plan : forall n d (X Y : nat -> vec) c (t : vec) s ch, (1 <= n)%nat -> 0 < c -> perm_on n s ->
  (forall i k, (i < n)%nat -> (k < d)%nat -> Y (s i) k = c * X i k + t k) ->
  choices_ok ch -> proj_slices d X Y n ch ->
  exists p, compute_matching n ch = Some p /\ forall i, (i < n)%nat -> p i = s i.
Proof.
  intros n d X Y c t s ch Hn Hc Hs HY Hok HP. apply similar_matching; auto.
  intros path la lb Hla x y Hx Hy Hne Hlt. destruct (HP path la lb) as (u & Ea & Eb & Hd).
  apply Hla in Hx, Hy. apply in_seq in Hx, Hy.
  rewrite !Ea in Hlt. rewrite !Eb. apply Rltb_false in Hlt. apply Rltb_true.
  assert (L : dotp d u (X x) < dotp d u (X y)). { specialize (Hd x y ltac:(lia) ltac:(lia) Hne). lra. }
  assert (EY : forall i, (i < n)%nat -> dotp d u (Y (s i)) = c * dotp d u (X i) + dotp d u t).
  { intros i Hi. unfold dotp. rewrite <- rsum_scal, <- rsum_plus. apply rsum_ext; intros k Hk. rewrite HY; auto. ring. }
  rewrite !EY by lia. nra.
Qed.
