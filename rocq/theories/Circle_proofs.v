(** Proofs about the circle solvers *)
From Coq Require Import List Arith Bool Reals Lra Lia Permutation FunctionalExtensionality.
From Verif Require Import Num Sums Spec Monge Perm Duals_proofs Emd1d_model Emd1d_proofs Emd1d_perm_proofs W1d_model W1d_proofs Circle_model.
Import ListNotations.
Local Open Scope R_scope.

Lemma order_perm : forall n (key : nat -> R), perm_on n (order (N:=RNum) n key).
Proof. intros. apply (perm_list_on n (argsort_aux (N:=RNum) key n)). apply argsort_aux_perm. Qed.
Lemma order_sorted : forall n (key : nat -> R) k, (S k < n)%nat -> key (order (N:=RNum) n key k) <= key (order (N:=RNum) n key (S k)).
Proof.
  intros n key k Hk. unfold order. assert (H : forall k, lsorted key (argsort_aux (N:=RNum) key k)).
  { induction k0; [intros q Hq; simpl in Hq; lia|]. apply insert_idx_sorted; auto. }
  apply (H n k). rewrite (Permutation_length (argsort_aux_perm (N:=RNum) key n)), seq_length. auto.
Qed.
Lemma sorted_le : forall n (f : nat -> R), (forall k, (S k < n)%nat -> f k <= f (S k)) -> forall i j, (i <= j < n)%nat -> f i <= f j.
Proof. intros n f H i j [Hij Hj]. induction Hij; [lra|]. eapply Rle_trans; [apply IHHij; lia|apply H; lia]. Qed.

Lemma rsum_ind_lt : forall n k f, (k <= n)%nat -> rsum n (fun i => ind (Nat.ltb i k) * f i) = rsum k f.
Proof.
  intros n k f Hk. replace n with (k + (n - k))%nat by lia. rewrite rsum_split. rewrite (rsum_ext k _ f), (rsum_0 (n - k)); [lra| |].
  - intros i Hi. destruct (Nat.ltb_spec (k + i) k); [lia|]. unfold ind. lra.
  - intros i Hi. destruct (Nat.ltb_spec i k); [|lia]. unfold ind. lra.
Qed.
(** a monotone predicate on indices is a prefix *)
Lemma prefix_of : forall n (P : nat -> bool), (forall k, (S k < n)%nat -> P (S k) = true -> P k = true) -> exists k, (k <= n)%nat /\ forall i, (i < n)%nat -> P i = Nat.ltb i k.
Proof.
  induction n; intros P H; [exists 0%nat; split; [lia|intros; lia]|]. destruct (IHn P ltac:(intros; apply H; auto; lia)) as (k & Hk & E).
  destruct (P n) eqn:En.
  - exists (S n). split; [lia|]. intros i Hi. destruct (Nat.ltb_spec i (S n)); [|lia].
    assert (D : forall d, (d <= n)%nat -> P (n - d)%nat = true).
    { induction d; intros Hd; [rewrite Nat.sub_0_r; auto|]. apply H; [lia|]. replace (S (n - S d)) with (n - d)%nat by lia. apply IHd; lia. }
    replace i with (n - (n - i))%nat by lia. apply D; lia.
  - exists k. split; [lia|]. intros i Hi. destruct (Nat.eq_dec i n) as [-> | Hn]; [rewrite En; symmetry; apply Nat.ltb_ge; auto|apply E; lia].
Qed.

(** ** the monotone coupling for integer keys *)
Definition dst (P Q : nat -> bool) : mat := fun i j => Rabs (ind (P i) - ind (Q j)).
Lemma dst_form : forall x y, Rabs (ind x - ind y) = ind x + ind y - 2 * (ind x * ind y).
Proof. intros [] []; unfold ind; rewrite ?Rminus_diag_eq by lra; unfold Rabs; destruct (Rcase_abs _); lra. Qed.
Lemma monotone_coupling : forall n m a b (P Q : nat -> nat), (0 < n)%nat -> (0 < m)%nat -> nonneg_vec n a -> nonneg_vec m b -> mass n a = mass m b ->
  exists G, coupling n m a b G /\ forall T, cost n m (dst (fun i => Nat.leb (P i) T) (fun j => Nat.leb (Q j) T)) G = Rabs (rsum n (fun i => ind (Nat.leb (P i) T) * a i) - rsum m (fun j => ind (Nat.leb (Q j) T) * b j)).
Proof.
  intros n m a b P Q Hn Hm Ha Hb Hab. set (s := order (N:=RNum) n (fun i => INR (P i))). set (t := order (N:=RNum) m (fun j => INR (Q j))).
  pose proof (order_perm n (fun i => INR (P i))) as Ps. pose proof (order_perm m (fun j => INR (Q j))) as Pt. fold s in Ps. fold t in Pt.
  set (la := map (fun i => a (s i)) (seq 0 n)). set (lb := map (fun j => b (t j)) (seq 0 m)).
  assert (La : length la = n) by (unfold la; rewrite map_length, seq_length; auto). assert (Lb : length lb = m) by (unfold lb; rewrite map_length, seq_length; auto).
  assert (Na : forall i, (i < n)%nat -> lnth la i = a (s i)).
  { intros i Hi. unfold lnth, la. rewrite (nth_indep _ _ (a (s 0%nat))) by (rewrite map_length, seq_length; auto). rewrite (map_nth (fun i => a (s i)) (seq 0 n) 0%nat). rewrite seq_nth; auto. }
  assert (Nb : forall i, (i < m)%nat -> lnth lb i = b (t i)).
  { intros i Hi. unfold lnth, lb. rewrite (nth_indep _ _ (b (t 0%nat))) by (rewrite map_length, seq_length; auto). rewrite (map_nth (fun i => b (t i)) (seq 0 m) 0%nat). rewrite seq_nth; auto. }
  assert (Ra : forall k, (k <= n)%nat -> rsum k (lnth la) = rsum k (fun i => a (s i))) by (intros; apply rsum_ext; intros; apply Na; lia).
  assert (Rb : forall k, (k <= m)%nat -> rsum k (lnth lb) = rsum k (fun i => b (t i))) by (intros; apply rsum_ext; intros; apply Nb; lia).
  destruct (sorted_run la lb la lb SqEuclidean 1) as (es & _ & Rg & C & F).
  { change (nonneg_vec (length la) (lnth la)). rewrite La. intros i Hi. rewrite Na by auto. apply Ha. apply Ps; auto. }
  { change (nonneg_vec (length lb) (lnth lb)). rewrite Lb. intros i Hi. rewrite Nb by auto. apply Hb. apply Pt; auto. }
  { change (mass (length la) (lnth la) = mass (length lb) (lnth lb)). unfold mass in *. rewrite La, Lb, Ra, Rb by auto. rewrite (rsum_perm n s a Ps), (rsum_perm m t b Pt). auto. }
  { reflexivity. } { reflexivity. } { discriminate. } { change (0 < length la)%nat. lia. } { change (0 < length lb)%nat. lia. }
  change (length (A:=RNum) la) with (length la) in *. change (carrier RNum) with R in *. rewrite La, Lb in *.
  set (G' := dmat es) in *. exists (fun i j => G' (pinv n s i) (pinv m t j)).
  assert (E : forall i j, (i < n)%nat -> (j < m)%nat -> G' (pinv n s (s i)) (pinv m t (t j)) = G' i j) by (intros; rewrite !pinv_left; auto).
  split.
  - apply (coupling_relabel n m s t a b (fun i j => G' (pinv n s i) (pinv m t j)) Ps Pt). eapply coupling_ext; [apply Na|apply Nb| |exact C]. intros; cbv beta; rewrite E; auto.
  - intros T. rewrite <- (cost_relabel n m s t _ _ Ps Pt).
    destruct (prefix_of n (fun i => Nat.leb (P (s i)) T)) as (k & Hk & Ek).
    { intros k Hk E1. apply Nat.leb_le. apply Nat.leb_le in E1. pose proof (order_sorted n (fun i => INR (P i)) k Hk) as O. fold s in O. apply INR_le in O. lia. }
    destruct (prefix_of m (fun j => Nat.leb (Q (t j)) T)) as (l & Hl & El).
    { intros l Hl E1. apply Nat.leb_le. apply Nat.leb_le in E1. pose proof (order_sorted m (fun j => INR (Q j)) l Hl) as O. fold t in O. apply INR_le in O. lia. }
    rewrite <- (rsum_perm n s (fun i => ind (Nat.leb (P i) T) * a i) Ps), <- (rsum_perm m t (fun i => ind (Nat.leb (Q i) T) * b i) Pt). cbv beta.
    rewrite (rsum_ext n _ (fun i => ind (Nat.ltb i k) * a (s i))) by (intros; rewrite Ek; auto).
    rewrite (rsum_ext m _ (fun i => ind (Nat.ltb i l) * b (t i))) by (intros; rewrite El; auto).
    rewrite (rsum_ind_lt n k (fun i => a (s i))), (rsum_ind_lt m l (fun i => b (t i))) by auto.
    transitivity (rsum k (fun i => a (s i)) + rsum l (fun i => b (t i)) - 2 * cumF G' k l).
    + unfold cost. rewrite (rsum_ext n _ (fun i => ind (Nat.ltb i k) * rsum m (fun j => G' i j) + rsum m (fun j => ind (Nat.ltb j l) * G' i j) - 2 * (ind (Nat.ltb i k) * rsum l (fun j => G' i j)))).
      * rewrite rsum_minus, rsum_plus, rsum_scal, !rsum_ind_lt by auto. unfold cumF. f_equal. f_equal.
        -- apply rsum_ext; intros i Hi. destruct C as (_ & R1 & _). specialize (R1 i ltac:(lia)). rewrite Na in R1 by lia. exact R1.
        -- rewrite rsum_swap. rewrite (rsum_ext m _ (fun j => ind (Nat.ltb j l) * b (t j))); [apply rsum_ind_lt; auto|]. intros j Hj. rewrite rsum_scal. destruct C as (_ & _ & C1). specialize (C1 j Hj). rewrite Nb in C1 by auto. f_equal. exact C1.
      * intros i Hi. rewrite <- (rsum_ind_lt m l (fun j => G' i j)) by auto. rewrite <- !rsum_scal, <- rsum_plus, <- rsum_minus. apply rsum_ext; intros j Hj. unfold dst. rewrite E by auto. rewrite Ek, El by auto. rewrite dst_form. ring.
    + rewrite F by auto. rewrite Ra, Rb by auto. unfold Rabs, Rmin. destruct (Rle_dec _ _), (Rcase_abs _); lra.
Qed.

(** ** weighted level median *)
Lemma weighted_median : forall K (w D : vec) (t : nat -> nat) i0 c', perm_on K t -> (i0 < K)%nat -> nonneg_vec K w -> rsum K w = 1 ->
  (forall k, (S k < K)%nat -> D (t k) <= D (t (S k))) -> 1 / 2 <= rsum (S i0) (fun i => w (t i)) -> rsum i0 (fun i => w (t i)) <= 1 / 2 ->
  rsum K (fun k => w k * Rabs (D k - D (t i0))) <= rsum K (fun k => w k * Rabs (D k - c')).
Proof.
  intros K w D t i0 c' Ht Hi Hw Hs So H1 H2. set (c := D (t i0)).
  rewrite <- (rsum_perm K t (fun k => w k * Rabs (D k - c)) Ht), <- (rsum_perm K t (fun k => w k * Rabs (D k - c')) Ht).
  pose proof (rsum_perm K t w Ht) as Hs'. rewrite Hs in Hs'.
  assert (W : forall i, (i < K)%nat -> 0 <= w (t i)) by (intros; apply Hw; apply Ht; auto).
  assert (Lo : forall i, (i <= i0)%nat -> D (t i) <= c) by (intros; apply (sorted_le K (fun k => D (t k)) So); lia).
  assert (Up : forall i, (i0 <= i < K)%nat -> c <= D (t i)) by (intros; apply (sorted_le K (fun k => D (t k)) So); lia).
  destruct (Rle_dec c c') as [Hc | Hc].
  - apply Rle_trans with (rsum K (fun i => w (t i) * Rabs (D (t i) - c')) + (c' - c) * (rsum K (fun i => w (t i)) - 2 * rsum (S i0) (fun i => w (t i)))).
    + rewrite <- (rsum_ind_lt K (S i0)) by lia. rewrite <- rsum_scal, <- rsum_minus, <- rsum_scal, <- rsum_plus. apply rsum_le. intros i HiK. specialize (W i HiK).
      unfold ind. destruct (Nat.ltb_spec i (S i0)).
      * specialize (Lo i ltac:(lia)). rewrite (Rabs_left1 (D (t i) - c)), (Rabs_left1 (D (t i) - c')) by lra. nra.
      * assert (Rabs (D (t i) - c) <= Rabs (D (t i) - c') + (c' - c)) by (unfold Rabs; destruct (Rcase_abs _), (Rcase_abs _); lra). nra.
    + rewrite Hs'. nra.
  - apply Rle_trans with (rsum K (fun i => w (t i) * Rabs (D (t i) - c')) - (c - c') * (rsum K (fun i => w (t i)) - 2 * rsum i0 (fun i => w (t i)))).
    + rewrite <- (rsum_ind_lt K i0) by lia. rewrite <- rsum_scal, <- rsum_minus, <- rsum_scal, <- rsum_minus. apply rsum_le. intros i HiK. specialize (W i HiK).
      unfold ind. destruct (Nat.ltb_spec i i0).
      * assert (Rabs (D (t i) - c) <= Rabs (D (t i) - c') + (c - c')) by (unfold Rabs; destruct (Rcase_abs _), (Rcase_abs _); lra). nra.
      * specialize (Up i ltac:(lia)). rewrite (Rabs_right (D (t i) - c)), (Rabs_right (D (t i) - c')) by lra. nra.
    + rewrite Hs'. nra.
Qed.

(** argmin finds the first nonnegative entry of a nondecreasing sequence (negative ones are +inf) *)
Lemma argmin_first : forall K (g : nat -> R) j, (j < K)%nat -> (forall i, (i < j)%nat -> g i < 0) -> 0 <= g j -> (forall i, (j <= i < K)%nat -> g j <= g i) ->
  argmin (N:=RNum) K (fun l => if nltb (n:=RNum) (g l) 0 then None else Some (g l)) = j.
Proof.
  intros K g j Hj Hneg Hpos Hmin. set (f := fun l => if nltb (n:=RNum) (g l) 0 then None else Some (g l)). unfold argmin.
  assert (A : forall k i best y, y = g j -> best = j -> (j < i)%nat -> (i + k <= K)%nat -> argmin_from (N:=RNum) k i best (Some y) f = j).
  { induction k; intros i best y Ey Eb Hi HK; cbn [argmin_from]; [auto|]. unfold f at 1. cbn [nltb RNum]. destruct (Rltb (g i) 0) eqn:B; [apply IHk; auto; lia|].
    destruct (Rltb (g i) y) eqn:B2; [apply Rltb_true in B2; specialize (Hmin i ltac:(lia)); change (carrier RNum) with R in *; lra|apply IHk; auto; lia]. }
  assert (B : forall k i best, (i <= j)%nat -> (i + k = K)%nat -> argmin_from (N:=RNum) k i best None f = j).
  { induction k; intros i best Hi HK; [lia|]. cbn [argmin_from]. destruct (Nat.eq_dec i j) as [-> | Hn].
    - unfold f at 1. cbn [nltb RNum]. replace (Rltb (g j) 0) with false by (symmetry; apply Rltb_false; auto). apply A; auto; lia.
    - unfold f at 1. cbn [nltb RNum]. replace (Rltb (g i) 0) with true by (symmetry; apply Rltb_true; apply Hneg; lia). apply IHk; lia. }
  apply B; lia.
Qed.
Lemma first_reach : forall K (g : nat -> R), 0 <= g K -> exists j, (j <= K)%nat /\ (forall i, (i < j)%nat -> g i < 0) /\ 0 <= g j.
Proof.
  induction K; intros g H; [exists 0%nat; repeat split; auto; intros; lia|].
  destruct (Rle_dec 0 (g 0%nat)) as [H0 | H0]; [exists 0%nat; repeat split; auto; try lia; intros; lia|].
  destruct (IHK (fun i => g (S i)) H) as (j & Hj & A & B). exists (S j). split; [lia|]. split; [|auto]. intros [|i] Hi; [lra|apply A; lia].
Qed.

(** ** the level-median formula is the circular transport cost *)
Definition gap (x y : R) : R := Rmin (Rabs (x - y)) (1 - Rabs (x - y)).
Lemma nabs_R : forall x : R, nabs (N:=RNum) x = Rabs x.
Proof. intros x. unfold nabs, nopp. cbn [nltb nsub n0 RNum]. destruct (Rltb x 0) eqn:E; [apply Rltb_true in E; rewrite Rabs_left; lra|apply Rltb_false in E; rewrite Rabs_right; lra]. Qed.

Section W1C.
Variables (n m : nat) (z a b : vec).
Hypotheses (Hn : (0 < n)%nat) (Hm : (0 < m)%nat) (Ha : nonneg_vec n a) (Hb : nonneg_vec m b) (Hab : mass n a = mass m b).
Hypothesis Hz : forall i, (i < n + m)%nat -> 0 <= z i < 1.
Let K := (n + m)%nat.
Let e : vec := cat (N:=RNum) n a (fun j => nopp (N:=RNum) (b j)).
Let s := order (N:=RNum) K z.
Let zs := fun i => z (s i).
Let delta := fun i => (if Nat.ltb (S i) K then zs (S i) else 1) - zs i.
Let Dd := fun k => rsum (S k) (fun t => e (s t)).
Let pos := pinv K s.
Let P := fun i => pos i.
Let Q := fun j => pos (n + j)%nat.
Let I := fun (k : nat) (i : nat) => ind (Nat.leb i k).
Let Ps : perm_on K s := order_perm K z.

Lemma pos_lt : forall i, (i < K)%nat -> (pos i < K)%nat /\ zs (pos i) = z i.
Proof. intros i Hi. destruct (pinv_spec K s i Ps Hi) as [A B]. split; auto. unfold zs. f_equal. exact B. Qed.
Lemma zs_le : forall i j, (i <= j < K)%nat -> zs i <= zs j.
Proof. intros. apply (sorted_le K zs (fun k Hk => order_sorted K z k Hk)); auto. Qed.
Lemma delta_nonneg : nonneg_vec K delta.
Proof. intros i Hi. unfold delta. destruct (Nat.ltb_spec (S i) K); [pose proof (zs_le i (S i) ltac:(lia)); lra|]. unfold zs. pose proof (Hz (s i) (proj1 Ps i Hi)). lra. Qed.
Lemma delta_tail : forall p, (p < K)%nat -> rsum K (fun k => delta k * I k p) = 1 - zs p.
Proof.
  intros p Hp. replace K with (p + (K - p))%nat at 1 by lia. rewrite rsum_split. rewrite (rsum_0 p); [|intros i Hi; unfold I; destruct (Nat.leb_spec p i); [lia|unfold ind; lra]].
  rewrite (rsum_ext (K - p) _ (fun k => delta (p + k)%nat)) by (intros i Hi; unfold I; destruct (Nat.leb_spec p (p + i)); [unfold ind; lra|lia]).
  rewrite Rplus_0_l. assert (T : forall d, (p + S d <= K)%nat -> rsum (S d) (fun k => delta (p + k)%nat) = (if Nat.ltb (p + S d) K then zs (p + S d)%nat else 1) - zs p).
  { induction d; intros Hd.
    - cbn [rsum]. unfold delta. replace (p + 0)%nat with p by lia. replace (p + 1)%nat with (S p) by lia. lra.
    - cbn [rsum] in *. rewrite IHd by lia. destruct (Nat.ltb_spec (p + S d) K); [|lia]. unfold delta at 1. replace (S (p + S d)) with (p + S (S d))%nat by lia. lra. }
  replace (K - p)%nat with (S (K - p - 1)) by lia. rewrite T by lia. replace (p + S (K - p - 1))%nat with K by lia. rewrite Nat.ltb_irrefl. reflexivity.
Qed.
Lemma delta_dist : forall p q, (p < K)%nat -> (q < K)%nat -> rsum K (fun k => delta k * Rabs (I k p - I k q)) = Rabs (zs p - zs q).
Proof.
  assert (H : forall p q, (p <= q < K)%nat -> rsum K (fun k => delta k * Rabs (I k p - I k q)) = Rabs (zs p - zs q)).
  { intros p q Hpq. pose proof (zs_le p q Hpq). rewrite (Rabs_left1 (zs p - zs q)) by lra. transitivity ((1 - zs p) - (1 - zs q)); [|lra]. rewrite <- (delta_tail p), <- (delta_tail q) by lia. rewrite <- rsum_minus. apply rsum_ext. intros k Hk. unfold I, ind.
    destruct (Nat.leb_spec p k), (Nat.leb_spec q k); try lia; unfold Rabs; destruct (Rcase_abs _); lra. }
  intros p q Hp Hq. destruct (Nat.le_ge_cases p q); [apply H; lia|]. rewrite Rabs_minus_sym, <- (H q p) by lia. apply rsum_ext; intros. rewrite (Rabs_minus_sym (I i p)). reflexivity.
Qed.
Lemma Dd_eq : forall k, (k < K)%nat -> Dd k = rsum n (fun i => I k (P i) * a i) - rsum m (fun j => I k (Q j) * b j).
Proof.
  intros k Hk. transitivity (rsum K (fun i => I k (pos i) * e i)).
  - rewrite <- (rsum_perm K s (fun i => I k (pos i) * e i) Ps). unfold Dd. rewrite <- (rsum_ind_lt K (S k)) by lia. apply rsum_ext. intros i Hi. unfold pos. rewrite pinv_left by auto. unfold I. f_equal.
  - unfold K. rewrite rsum_split. rewrite <- (Ropp_involutive (rsum m (fun j => I k (Q j) * b j))), <- rsum_opp. unfold Rminus. rewrite Ropp_involutive. f_equal; apply rsum_ext; intros i Hi; unfold e, cat.
    + destruct (Nat.ltb_spec i n); [reflexivity|lia].
    + destruct (Nat.ltb_spec (n + i) n); [lia|]. replace (n + i - n)%nat with i by lia. unfold nopp, Q. cbn [nsub n0 RNum]. ring.
Qed.
Lemma Dd_coupling : forall G k c, coupling n m a b G -> (k < K)%nat -> (c = rsum n (fun i => rsum m (fun j => G i j * 0)) -> True) -> Dd k = rsum n (fun i => rsum m (fun j => G i j * (I k (P i) - I k (Q j)))).
Proof.
  intros G k c (_ & R1 & C1) Hk _. rewrite Dd_eq by auto. rewrite (rsum_ext n (fun i => rsum m (fun j => G i j * (I k (P i) - I k (Q j)))) (fun i => I k (P i) * a i - rsum m (fun j => I k (Q j) * G i j))).
  - rewrite rsum_minus. f_equal. rewrite rsum_swap. apply rsum_ext; intros j Hj. rewrite rsum_scal. f_equal. symmetry. apply (C1 j Hj).
  - intros i Hi. rewrite <- (R1 i Hi). unfold row_sum. rewrite <- rsum_scal, <- rsum_minus. apply rsum_ext; intros; ring.
Qed.
(** total variation through each arc, relative to the shift t, bounds the gap from above and attains it *)
Lemma gap_attained : rsum K delta = 1 -> forall i j, (i < n)%nat -> (j < m)%nat -> exists t, gap (z i) (z (n + j)%nat) = rsum K (fun k => delta k * Rabs (I k (P i) - I k (Q j) - t)).
Proof.
  intros H1 i j Hi Hj. destruct (pos_lt i ltac:(unfold K; lia)) as [A1 A2]. destruct (pos_lt (n + j)%nat ltac:(unfold K; lia)) as [B1 B2]. fold (P i) in A1, A2. fold (Q j) in B1, B2.
  pose proof (delta_dist (P i) (Q j) A1 B1) as D0. rewrite A2, B2 in D0. unfold gap, Rmin. destruct (Rle_dec _ _).
  - exists 0. rewrite <- D0. apply rsum_ext; intros. rewrite Rminus_0_r. reflexivity.
  - assert (E1 : forall x, 1 - x = rsum K delta - x) by (intros; lra). exists (if Nat.leb (P i) (Q j) then 1 else -1). rewrite <- D0, E1, <- rsum_minus. apply rsum_ext. intros k Hk. unfold I, ind.
    destruct (Nat.leb_spec (P i) (Q j)), (Nat.leb_spec (P i) k), (Nat.leb_spec (Q j) k); try lia; unfold Rabs; repeat destruct (Rcase_abs _); lra.
Qed.
Lemma gap_bound : rsum K delta = 1 -> forall i j k0, (i < n)%nat -> (j < m)%nat -> gap (z i) (z (n + j)%nat) <= rsum K (fun k => delta k * Rabs (I k (P i) - I k (Q j) - (I k0 (P i) - I k0 (Q j)))).
Proof.
  intros H1 i j k0 Hi Hj. destruct (pos_lt i ltac:(unfold K; lia)) as [A1 A2]. destruct (pos_lt (n + j)%nat ltac:(unfold K; lia)) as [B1 B2]. fold (P i) in A1, A2. fold (Q j) in B1, B2.
  pose proof (delta_dist (P i) (Q j) A1 B1) as D0. rewrite A2, B2 in D0. unfold gap. destruct (Req_dec (I k0 (P i) - I k0 (Q j)) 0) as [E | E].
  - eapply Rle_trans; [apply Rmin_l|]. rewrite <- D0. right. apply rsum_ext; intros. rewrite E, Rminus_0_r. reflexivity.
  - eapply Rle_trans; [apply Rmin_r|]. rewrite <- D0, <- H1, <- rsum_minus. right. apply rsum_ext. intros k Hk. revert E. unfold I, ind.
    destruct (Nat.leb_spec (P i) k0), (Nat.leb_spec (Q j) k0), (Nat.leb_spec (P i) k), (Nat.leb_spec (Q j) k); intros E; try lia; try lra; unfold Rabs; repeat destruct (Rcase_abs _); lra.
Qed.
(** flows: every coupling costs at least sum_k delta_k |D_k - c| for some c *)
Lemma coupling_lower : rsum K delta = 1 -> forall G, coupling n m a b G -> exists c, rsum K (fun k => delta k * Rabs (Dd k - c)) <= cost n m (fun i j => gap (z i) (z (n + j)%nat)) G.
Proof.
  intros H1 G HG. assert (CT : forall i j, exists t, ((i < n)%nat -> (j < m)%nat -> gap (z i) (z (n + j)%nat) = rsum K (fun k => delta k * Rabs (I k (P i) - I k (Q j) - t)))).
  { intros i j. destruct (Nat.lt_ge_cases i n); [|exists 0; intros; lia]. destruct (Nat.lt_ge_cases j m); [|exists 0; intros; lia]. destruct (gap_attained H1 i j) as [t Ht]; auto. exists t. auto. }
  assert (CF : exists T : mat, forall i j, (i < n)%nat -> (j < m)%nat -> gap (z i) (z (n + j)%nat) = rsum K (fun k => delta k * Rabs (I k (P i) - I k (Q j) - T i j))).
  { assert (RW : forall i N, exists T : vec, forall j, (j < N)%nat -> (i < n)%nat -> (j < m)%nat -> gap (z i) (z (n + j)%nat) = rsum K (fun k => delta k * Rabs (I k (P i) - I k (Q j) - T j))).
    { intros i. induction N; [exists (fun _ => 0); intros; lia|]. destruct IHN as [T HT]. destruct (CT i N) as [t Ht]. exists (fun j => if Nat.eqb j N then t else T j). intros j Hj Hi' Hj'. destruct (Nat.eqb_spec j N) as [-> | Hne]; [auto|apply HT; auto; lia]. }
    assert (RM : forall N, exists T : mat, forall i j, (i < N)%nat -> (i < n)%nat -> (j < m)%nat -> gap (z i) (z (n + j)%nat) = rsum K (fun k => delta k * Rabs (I k (P i) - I k (Q j) - T i j))).
    { induction N; [exists (fun _ _ => 0); intros; lia|]. destruct IHN as [T HT]. destruct (RW N m) as [t Ht]. exists (fun i j => if Nat.eqb i N then t j else T i j). intros i j Hi Hi' Hj'. destruct (Nat.eqb_spec i N) as [-> | Hne]; [auto|apply HT; auto; lia]. }
    destruct (RM n) as [T HT]. exists T. auto. }
  destruct CF as [T HT]. exists (rsum n (fun i => rsum m (fun j => G i j * T i j))). unfold cost.
  rewrite (rsum_ext n (fun i => rsum m (fun j => gap (z i) (z (n + j)%nat) * G i j)) (fun i => rsum m (fun j => rsum K (fun k => delta k * (G i j * Rabs (I k (P i) - I k (Q j) - T i j)))))).
  2:{ intros i Hi. apply rsum_ext; intros j Hj. rewrite (HT i j Hi Hj), <- rsum_scal_r. apply rsum_ext; intros; ring. }
  apply Rle_trans with (rsum K (fun k => delta k * rsum n (fun i => rsum m (fun j => G i j * Rabs (I k (P i) - I k (Q j) - T i j))))).
  2:{ right. etransitivity; [|apply rsum_ext; intros i Hi; apply rsum_swap]. etransitivity; [|apply rsum_swap]. apply rsum_ext; intros k Hk. rewrite <- rsum_scal. apply rsum_ext; intros i Hi. rewrite <- rsum_scal. reflexivity. }
  apply rsum_le. intros k Hk.
  apply Rmult_le_compat_l; [apply delta_nonneg; auto|]. rewrite (Dd_coupling G k 0 HG Hk (fun _ => Logic.I)). rewrite <- rsum_minus.
  eapply Rle_trans; [apply rsum_abs|]. apply rsum_le. intros i Hi. rewrite <- rsum_minus. eapply Rle_trans; [apply rsum_abs|]. apply rsum_le. intros j Hj. destruct HG as (G0 & _). specialize (G0 i j Hi Hj).
  rewrite <- Rmult_minus_distr_l, Rabs_mult, (Rabs_right (G i j)) by lra. lra.
Qed.
(** cutting the circle at an arc: a coupling of cost at most sum_k delta_k |D_k - D_k0| *)
Lemma coupling_upper : rsum K delta = 1 -> forall k0, (k0 < K)%nat -> exists G, coupling n m a b G /\ cost n m (fun i j => gap (z i) (z (n + j)%nat)) G <= rsum K (fun k => delta k * Rabs (Dd k - Dd k0)).
Proof.
  intros H1 k0 Hk0. set (cut := fun p => if Nat.leb p k0 then (p + K)%nat else p).
  destruct (monotone_coupling n m a b (fun i => cut (P i)) (fun j => cut (Q j)) Hn Hm Ha Hb Hab) as (G & HG & HT). exists G. split; auto.
  assert (HK : forall k, (k < K)%nat -> rsum n (fun i => rsum m (fun j => G i j * Rabs (I k (P i) - I k (Q j) - (I k0 (P i) - I k0 (Q j))))) = Rabs (Dd k - Dd k0)).
  { intros k Hk. set (T := if Nat.leb k k0 then (K + k)%nat else k).
    assert (EI : forall p, (p < K)%nat -> ind (Nat.leb (cut p) T) = I k p - I k0 p + (if Nat.leb k k0 then 1 else 0)).
    { intros p Hp. unfold cut, T, I, ind. destruct (Nat.leb_spec k k0), (Nat.leb_spec p k0), (Nat.leb_spec p k); try lia; try match goal with |- context [Nat.leb ?x ?y] => destruct (Nat.leb_spec x y) end; try lia; lra. }
    assert (PP : forall i, (i < n)%nat -> (P i < K)%nat) by (intros; apply pos_lt; unfold K; lia). assert (QQ : forall j, (j < m)%nat -> (Q j < K)%nat) by (intros; apply pos_lt; unfold K; lia).
    specialize (HT T). transitivity (cost n m (dst (fun i => Nat.leb (cut (P i)) T) (fun j => Nat.leb (cut (Q j)) T)) G).
    - apply rsum_ext; intros i Hi. apply rsum_ext; intros j Hj. unfold dst. rewrite !EI by auto. rewrite Rmult_comm. f_equal. f_equal. ring.
    - rewrite HT. f_equal. rewrite (Dd_eq k), (Dd_eq k0) by auto.
      rewrite (rsum_ext n _ (fun i => I k (P i) * a i - I k0 (P i) * a i + (if Nat.leb k k0 then 1 else 0) * a i)) by (intros; rewrite EI by auto; ring).
      rewrite (rsum_ext m _ (fun i => I k (Q i) * b i - I k0 (Q i) * b i + (if Nat.leb k k0 then 1 else 0) * b i)) by (intros; rewrite EI by auto; ring).
      rewrite !rsum_plus, !rsum_minus, !rsum_scal. fold (mass n a) (mass m b). rewrite Hab. ring. }
  rewrite <- (rsum_ext K (fun k => rsum n (fun i => rsum m (fun j => delta k * (G i j * Rabs (I k (P i) - I k (Q j) - (I k0 (P i) - I k0 (Q j)))))))).
  2:{ intros k Hk. rewrite <- HK by auto. rewrite <- rsum_scal. apply rsum_ext; intros. rewrite rsum_scal. reflexivity. }
  rewrite rsum_swap. apply rsum_le. intros i Hi. rewrite rsum_swap. apply rsum_le. intros j Hj. destruct HG as (G0 & _). specialize (G0 i j Hi Hj).
  rewrite (rsum_ext K _ (fun k => delta k * Rabs (I k (P i) - I k (Q j) - (I k0 (P i) - I k0 (Q j))) * G i j)) by (intros; ring). rewrite rsum_scal_r. apply Rmult_le_compat_r; auto. apply gap_bound; auto.
Qed.
Lemma w1c_level_optimal : (exists i, (i < K)%nat /\ z i = 0) ->
  let V := w1c_level (N:=RNum) K z e in let C := fun i j => gap (z i) (z (n + j)%nat) in
  (forall G, coupling n m a b G -> V <= cost n m C G) /\ exists G, coupling n m a b G /\ cost n m C G = V.
Proof.
  intros (i0 & Hi0 & Z0). intros V C.
  assert (Zs0 : zs 0%nat = 0).
  { destruct (pos_lt i0 Hi0) as [A B]. pose proof (zs_le 0%nat (pos i0) ltac:(lia)) as L. rewrite B, Z0 in L. pose proof (Hz (s 0%nat) (proj1 Ps 0%nat ltac:(unfold K; lia))). fold (zs 0%nat) in H. lra. }
  assert (H1 : rsum K delta = 1).
  { transitivity (1 - zs 0%nat); [|lra]. rewrite <- (delta_tail 0%nat) by (unfold K; lia). apply rsum_ext; intros. unfold I, ind. cbn [Nat.leb]. lra. }
  set (t := order (N:=RNum) K Dd). pose proof (order_perm K Dd) as Pt. fold t in Pt.
  set (g := fun l => rsum (S l) (fun i => delta (t i)) - 1 / 2).
  assert (DN : forall i, (i < K)%nat -> 0 <= delta (t i)) by (intros; apply delta_nonneg; apply Pt; auto).
  destruct (first_reach (K - 1) g) as (j & Hj & A & B).
  { unfold g. replace (S (K - 1)) with K by (unfold K; lia). rewrite (rsum_perm K t delta Pt), H1. lra. }
  assert (EV : V = rsum K (fun k => delta k * Rabs (Dd k - Dd (t j)))).
  { unfold V, w1c_level. fold s.
    assert (EC : (fun i => nsum (N:=RNum) (S i) (fun t0 => e (s t0))) = Dd) by (apply functional_extensionality; intro; apply nsum_R). cbv zeta. rewrite EC. unfold w1c_from. fold t. rewrite nsum_R.
    match goal with |- context [argmin (N:=RNum) K ?f] => replace (argmin (N:=RNum) K f) with j end.
    - apply rsum_ext. intros k Hk. rewrite nabs_R. reflexivity.
    - symmetry. rewrite <- (argmin_first K g j); [f_equal; apply functional_extensionality; intro l| unfold K in *; lia|auto|auto|].
      + assert (Eg : nsub (n:=RNum) (nsum (N:=RNum) (S l) (fun i => nsub (n:=RNum) (if Nat.ltb (S (t i)) K then z (s (S (t i))) else n1 (n:=RNum)) (z (s (t i))))) (nhalf (N:=RNum)) = g l).
        { rewrite nsum_R. unfold g, nhalf. cbn [ndiv nadd n1 RNum nsub]. replace (1 + 1) with 2 by lra. reflexivity. }
        exact (f_equal (fun x : RNum => if nltb (n:=RNum) x (n0 (n:=RNum)) then None else Some x) Eg).
      + intros i Hi. unfold g. pose proof (rsum_mono_n (S j) (S i) (fun i => delta (t i)) ltac:(lia) ltac:(intros; apply DN; lia)). lra. }
  assert (MED : forall c', V <= rsum K (fun k => delta k * Rabs (Dd k - c'))).
  { intros c'. rewrite EV. apply (weighted_median K delta Dd t j c'); auto; [unfold K in *; lia|apply delta_nonneg|intros k Hk; apply (order_sorted K Dd k Hk)|unfold g in B; lra|].
    destruct j as [|j]; [cbn [rsum]; lra|]. specialize (A j ltac:(lia)). unfold g in A. lra. }
  assert (LOW : forall G, coupling n m a b G -> V <= cost n m C G).
  { intros G HG. destruct (coupling_lower H1 G HG) as [c Hc]. eapply Rle_trans; [apply (MED c)|exact Hc]. }
  split; auto. destruct (coupling_upper H1 (t j)) as (G & HG & U); [apply Pt; unfold K in *; lia|]. exists G. split; auto. apply Rle_antisym; [rewrite EV; exact U|apply LOW; auto].
Qed.
End W1C.
