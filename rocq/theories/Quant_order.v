(** The order in which the quantized solver lists the nodes. *)
From Coq Require Import List Arith Bool Reals Lra Lia Permutation Sorted.
From Verif Require Import Num Sums Spec Perm Monge Emd1d_model Emd1d_proofs Emd1d_perm_proofs W1d_model Emd1d_final
  Duals_proofs Optim_model Gw_model Gw_proofs Quant_model Quant_proofs.
Import ListNotations.

Lemma in_where : forall n part k i, In i (where_ n part k) <-> (i < n)%nat /\ part i = k.
Proof. intros. unfold where_. rewrite filter_In, in_seq, Nat.eqb_eq. intuition lia. Qed.
Lemma fold_max_ge : forall l x, In x l -> (x <= fold_right Nat.max 0 l)%nat.
Proof. induction l as [|y l IH]; intros x H; [easy|]. cbn. destruct H as [->|H]; [lia|]. specialize (IH x H). lia. Qed.
Lemma in_ids : forall n part k, In k (part_ids n part) <-> exists i, (i < n)%nat /\ part i = k.
Proof.
  intros. unfold part_ids. rewrite filter_In, in_seq, existsb_exists. split.
  - intros (_ & i & H & E). apply in_seq in H. apply Nat.eqb_eq in E. exists i; split; [lia|auto].
  - intros (i & H & E). split.
    + split; [lia|]. assert (part i <= fold_right Nat.max 0 (map part (seq 0 n)))%nat by (apply fold_max_ge, in_map, in_seq; lia). lia.
    + exists i. split; [apply in_seq; lia|apply Nat.eqb_eq; auto].
Qed.
Lemma ssorted_seq : forall k a, StronglySorted lt (seq a k).
Proof. induction k as [|k IH]; intros a; cbn; constructor; auto. apply Forall_forall. intros x H. apply in_seq in H. lia. Qed.
Lemma ssorted_filter : forall A (R : A -> A -> Prop) f l, StronglySorted R l -> StronglySorted R (filter f l).
Proof.
  intros A R f l H. induction H as [|x l H IH F]; cbn; [constructor|]. destruct (f x); auto. constructor; auto.
  apply Forall_forall. intros y Hy. apply filter_In in Hy. rewrite Forall_forall in F. apply F. tauto.
Qed.
Lemma ssorted_app : forall A (R : A -> A -> Prop) l l', StronglySorted R l -> StronglySorted R l' -> (forall x y, In x l -> In y l' -> R x y) -> StronglySorted R (l ++ l').
Proof.
  intros A R l l' H H' C. induction H as [|x l H IH F]; cbn; auto. constructor.
  - apply IH. intros; apply C; [right|]; auto.
  - apply Forall_forall. intros y Hy. apply in_app_or in Hy. rewrite Forall_forall in F. destruct Hy; [auto|]. apply C; [left|]; auto.
Qed.
Lemma ssorted_impl : forall A (R S : A -> A -> Prop) l, (forall x y, In x l -> In y l -> R x y -> S x y) -> StronglySorted R l -> StronglySorted S l.
Proof.
  intros A R S l C H. induction H as [|x l H IH F]; constructor.
  - apply IH. intros; apply C; auto; right; auto.
  - rewrite Forall_forall in *. intros y Hy. apply C; auto; [left|right]; auto.
Qed.
Lemma ssorted_nth : forall A (R : A -> A -> Prop) l d i j, StronglySorted R l -> (i < j)%nat -> (j < length l)%nat -> R (nth i l d) (nth j l d).
Proof.
  intros A R l d i j H. revert i j. induction H as [|x l H IH F]; intros i j Hij Hj; [cbn in Hj; lia|].
  destruct j as [|j]; [lia|]. cbn in Hj. destruct i as [|i]; cbn [nth].
  - rewrite Forall_forall in F. apply F, nth_In. lia.
  - apply IH; lia.
Qed.

(** before part a b: node a is listed before node b *)
Definition before (part : nat -> nat) (a b : nat) : Prop := (part a < part b)%nat \/ (part a = part b /\ (a < b)%nat).
Definition order (n : nat) (part : nat -> nat) : list nat := concat (map (where_ n part) (part_ids n part)).
Lemma in_order : forall n part i, In i (order n part) <-> (i < n)%nat.
Proof.
  intros. unfold order. rewrite in_concat. split.
  - intros (l & H & Hi). apply in_map_iff in H. destruct H as (k & <- & _). apply in_where in Hi. tauto.
  - intros H. exists (where_ n part (part i)). split; [|apply in_where; auto]. apply in_map, in_ids. exists i; auto.
Qed.
Lemma ssorted_order : forall n part, StronglySorted (before part) (order n part).
Proof.
  intros. unfold order. assert (H : StronglySorted lt (part_ids n part)) by (apply ssorted_filter, ssorted_seq).
  induction H as [|k l H IH F]; cbn; [constructor|]. apply ssorted_app; auto.
  - apply ssorted_impl with (R := lt); [|apply ssorted_filter, ssorted_seq]. intros x y Hx Hy L. apply in_where in Hx, Hy. right. lia.
  - intros x y Hx Hy. apply in_concat in Hy. destruct Hy as (l' & Hl & Hy). apply in_map_iff in Hl. destruct Hl as (k' & <- & Hk).
    apply in_where in Hx, Hy. rewrite Forall_forall in F. specialize (F k' Hk). left. lia.
Qed.
Lemma before_irrefl : forall part a, ~ before part a a.
Proof. unfold before; intros; lia. Qed.
Lemma nodup_order : forall n part, NoDup (order n part).
Proof.
  intros. generalize (ssorted_order n part). generalize (order n part). intros l H. induction H as [|x l H IH F]; constructor; auto.
  intros C. rewrite Forall_forall in F. exact (before_irrefl part x (F x C)).
Qed.
Lemma order_perm : forall n part, Permutation (order n part) (seq 0 n).
Proof. intros. apply NoDup_Permutation; [apply nodup_order|apply seq_NoDup|]. intros i. rewrite in_order, in_seq. lia. Qed.
Lemma order_len : forall n part, length (order n part) = n.
Proof. intros. rewrite (Permutation_length (order_perm n part)), seq_length. reflexivity. Qed.

(** specification of the node order *)
Definition listing (n : nat) (part s : nat -> nat) : Prop :=
  perm_on n s /\ forall r r', (r < r')%nat -> (r' < n)%nat -> before part (s r) (s r').
Definition sigma (n : nat) (part : nat -> nat) (r : nat) : nat := nth r (order n part) 0.
Lemma sigma_before : forall n part r r', (r < r')%nat -> (r' < n)%nat -> before part (sigma n part r) (sigma n part r').
Proof. intros. apply (ssorted_nth _ (before part) (order n part) 0 r r'); [apply ssorted_order|auto|rewrite order_len; auto]. Qed.
Lemma sigma_listing : forall n part, listing n part (sigma n part).
Proof.
  intros. split; [|apply sigma_before]. split.
  - intros i Hi. apply (in_order n part). unfold sigma. apply nth_In. rewrite order_len; auto.
  - intros i j Hi Hj E. destruct (Nat.lt_trichotomy i j) as [L|[L|L]]; auto; exfalso.
    + pose proof (sigma_before n part i j L Hj) as B. rewrite E in B. exact (before_irrefl _ _ B).
    + pose proof (sigma_before n part j i L Hi) as B. rewrite E in B. exact (before_irrefl _ _ B).
Qed.
Lemma incr_id : forall n s, (forall i, (i < n)%nat -> (s i < n)%nat) -> (forall i j, (i < j)%nat -> (j < n)%nat -> (s i < s j)%nat) -> forall i, (i < n)%nat -> s i = i.
Proof.
  intros n s B I.
  assert (L : forall i, (i < n)%nat -> (i <= s i)%nat).
  { induction i as [|i IH]; intros Hi; [lia|]. assert (s i < s (S i))%nat by (apply I; lia). assert (i <= s i)%nat by (apply IH; lia). lia. }
  assert (U : forall k i, (i + k = n - 1)%nat -> (i < n)%nat -> (s i <= i)%nat).
  { induction k as [|k IH]; intros i E Hi; [specialize (B i Hi); lia|]. assert (s i < s (S i))%nat by (apply I; lia). assert (s (S i) <= S i)%nat by (apply IH; lia). lia. }
  intros i Hi. assert (s i <= i)%nat by (apply (U (n - 1 - i)%nat); lia). specialize (L i Hi). lia.
Qed.
Definition sorted_labels (n : nat) (part : nat -> nat) : Prop := forall i j, (i < j)%nat -> (j < n)%nat -> (part i <= part j)%nat.
Lemma listing_sorted : forall n part s, listing n part s -> sorted_labels n part -> forall i, (i < n)%nat -> s i = i.
Proof.
  intros n part s ((B & _) & H) S. apply incr_id; auto. intros i j Hij Hj. specialize (H i j Hij Hj).
  destruct (Nat.lt_ge_cases (s i) (s j)) as [L|L]; auto. exfalso. destruct H as [H|(H & H')]; [|lia].
  destruct (Nat.eq_dec (s j) (s i)) as [E|E]; [rewrite E in H; lia|]. assert (part (s j) <= part (s i))%nat by (apply S; [lia|apply B; lia]). lia.
Qed.
Lemma listing_unique : forall n part s s', listing n part s -> listing n part s' -> forall i, (i < n)%nat -> s i = s' i.
Proof.
  intros n part s s' (Ps & Hs) (Ps' & Hs').
  set (t := fun i => pinv n s' (s i)).
  assert (T1 : forall i, (i < n)%nat -> (t i < n)%nat) by (intros i Hi; apply pinv_spec; auto; apply Ps; auto).
  assert (T2 : forall i, (i < n)%nat -> s' (t i) = s i) by (intros i Hi; apply pinv_spec; auto; apply Ps; auto).
  assert (T3 : forall i, (i < n)%nat -> t i = i).
  { apply incr_id; auto. intros i j Hij Hj. specialize (Hs i j Hij Hj). rewrite <- (T2 i), <- (T2 j) in Hs by lia.
    destruct (Nat.lt_trichotomy (t i) (t j)) as [L|[L|L]]; auto; exfalso.
    - rewrite L in Hs. exact (before_irrefl _ _ Hs).
    - specialize (Hs' (t j) (t i) L (T1 i ltac:(lia))). unfold before in *. lia. }
  intros i Hi. rewrite <- (T2 i Hi), (T3 i Hi). reflexivity.
Qed.

(** ** format_partitioned_graph *)
Local Open Scope R_scope.
Section Format.
Variables (n : nat) (C : nat -> nat -> R) (p : nat -> R) (part : nat -> nat) (rep : list nat) (M : option (nat -> nat -> R)) (alpha : R).
Variable F : formatted (N:=RNum).
Hypothesis HF : format_partitioned_graph (N:=RNum) n C p part rep M alpha = QOk F.
Let ids := part_ids n part.
Lemma fmt_p : f_p F = map (fun k => map p (where_ n part k)) ids.
Proof. unfold format_partitioned_graph in HF. destruct (_ && _)%bool; [discriminate|]. inversion HF; subst. reflexivity. Qed.
Lemma fmt_R : f_R F = map (fun x => map (fun i => mix (N:=RNum) alpha C M (nth (fst x) rep 0%nat) i) (where_ n part (snd x))) (combine (seq 0 (length ids)) ids).
Proof. unfold format_partitioned_graph in HF. destruct (_ && _)%bool; [discriminate|]. inversion HF; subst. reflexivity. Qed.
Lemma fmt_C : f_C F = fun i j => C (nth i rep 0%nat) (nth j rep 0%nat).
Proof. unfold format_partitioned_graph in HF. destruct (_ && _)%bool; [discriminate|]. inversion HF; subst. reflexivity. Qed.
Lemma map_snd_combine : forall A B (l : list A) (l' : list B), length l = length l' -> map snd (combine l l') = l'.
Proof. induction l as [|x l IH]; intros [|y l'] H; try discriminate; cbn; auto. f_equal. apply IH. cbn in H; lia. Qed.
Lemma fmt_shape : same_shape (f_R F) (f_p F).
Proof.
  unfold same_shape. rewrite fmt_p, fmt_R, !map_map.
  rewrite <- (map_snd_combine _ _ (seq 0 (length ids)) ids) at 3 by (rewrite seq_length; auto). rewrite map_map.
  apply map_ext. intros x. rewrite !map_length. reflexivity.
Qed.
Lemma fmt_joined : forall r, (r < n)%nat -> joined (f_p F) r = p (sigma n part r).
Proof.
  intros r Hr. unfold joined, lnth, sigma, order. rewrite fmt_p. fold ids.
  replace (map (fun k => map p (where_ n part k)) ids) with (map (map p) (map (where_ n part) ids)) by (rewrite map_map; reflexivity).
  rewrite <- concat_map. change (concat (map (where_ n part) ids)) with (order n part).
  rewrite (nth_indep _ _ (p 0%nat)) by (rewrite map_length, order_len; exact Hr). exact (map_nth p (order n part) 0%nat r).
Qed.
Lemma fmt_len : length (concat (f_R F)) = n.
Proof.
  destruct (shape_len _ _ _ _ fmt_shape) as (_ & -> & _). rewrite fmt_p.
  replace (map (fun k => map p (where_ n part k)) ids) with (map (map p) (map (where_ n part) ids)) by (rewrite map_map; reflexivity).
  rewrite <- concat_map, map_length. apply order_len.
Qed.
(** entry of list_R at the row of node sigma r: its distance to the representant of its partition *)
Definition to_rep (x : nat) (rp : nat) : R := match M with Some M => alpha * C rp x + (1 - alpha) * M rp x | None => C rp x end.
Lemma mix_to_rep : forall x rp, mix (N:=RNum) alpha C M rp x = to_rep x rp.
Proof.
  intros x rp. unfold mix, to_rep. destruct M as [D|]; [|reflexivity]. change (@neqb RNum alpha n1) with (Reqb alpha 1).
  destruct (Reqb alpha 1) eqn:E; cbn [negb]; [|reflexivity]. apply Reqb_true in E. rewrite E. lra.
Qed.
Lemma fmt_R_at : forall r, (r < n)%nat -> joined (f_R F) r = to_rep (sigma n part r) (nth (fst (locate (f_R F) r)) rep 0%nat).
Proof.
  intros r Hr. unfold joined, lnth.
  set (g := fun x : nat * nat => map (fun i => mix (N:=RNum) alpha C M (nth (fst x) rep 0%nat) i) (where_ n part (snd x))).
  set (cs := combine (seq 0 (length ids)) ids). assert (LC : length cs = length ids) by (unfold cs; rewrite combine_length, seq_length; lia).
  rewrite nth_concat by (rewrite fmt_len; exact Hr). destruct (locate_lt _ (f_R F) r) as (A1 & A2 & A3); [rewrite fmt_len; exact Hr|].
  set (i := fst (locate (f_R F) r)) in *. set (k := snd (locate (f_R F) r)) in *.
  assert (Li : (i < length ids)%nat) by (rewrite fmt_R in A1; rewrite map_length in A1; fold cs in A1; lia).
  assert (E : nth i (f_R F) [] = g (i, nth i ids 0%nat)).
  { rewrite fmt_R. fold g cs. rewrite (nth_indep _ [] (g (0%nat, 0%nat))) by (rewrite map_length; lia). rewrite map_nth. f_equal. unfold cs. rewrite combine_nth by apply seq_length. rewrite seq_nth by auto. reflexivity. }
  assert (SH : same_shape (f_R F) (map (where_ n part) ids)).
  { unfold same_shape. rewrite fmt_R, !map_map. rewrite <- (map_snd_combine _ _ (seq 0 (length ids)) ids) at 3 by (rewrite seq_length; auto). rewrite map_map. apply map_ext. intros x. rewrite !map_length. reflexivity. }
  assert (ES : sigma n part r = nth k (where_ n part (nth i ids 0%nat)) 0%nat).
  { unfold sigma, order. fold ids. destruct (shape_len _ _ _ _ SH) as (_ & SL & _ & LOC). rewrite nth_concat by (rewrite <- SL, fmt_len; exact Hr). rewrite <- LOC. fold i k.
    rewrite (nth_indep _ [] (where_ n part 0%nat)) by (rewrite map_length; exact Li). rewrite map_nth. reflexivity. }
  unfold blen in A2. rewrite E in A2 |- *. unfold g in A2 |- *. cbn [fst snd] in *. rewrite map_length in A2.
  rewrite (nth_indep _ _ (mix (N:=RNum) alpha C M (nth i rep 0%nat) 0%nat)) by (rewrite map_length; exact A2).
  rewrite (map_nth (fun x => mix (N:=RNum) alpha C M (nth i rep 0%nat) x)). rewrite <- ES. apply mix_to_rep.
Qed.
(** nonnegative weights, every partition in use has some mass *)
Definition weights_ok : Prop := nonneg_vec n p /\ forall i, (i < n)%nat -> exists j, (j < n)%nat /\ part j = part i /\ 0 < p j.
Lemma fmt_good : weights_ok -> good_weights (f_p F).
Proof.
  intros (Hn & Hp) i Hi. rewrite fmt_p in *. rewrite map_length in Hi.
  assert (E : nth i (map (fun k => map p (where_ n part k)) ids) [] = map p (where_ n part (nth i ids 0%nat))).
  { rewrite (nth_indep _ [] (map p (where_ n part 0%nat))) by (rewrite map_length; auto). apply (map_nth (fun k => map p (where_ n part k))). }
  unfold blen. change (carrier RNum) with R in *. rewrite E. set (w := where_ n part (nth i ids 0%nat)) in *.
  assert (V : forall r, (r < length w)%nat -> lnth (map p w) r = p (nth r w 0%nat)).
  { intros r Hr. unfold lnth. rewrite (nth_indep _ _ (p 0%nat)) by (rewrite map_length; exact Hr). exact (map_nth p w 0%nat r). }
  assert (VN : forall r, (r < length w)%nat -> 0 <= lnth (map p w) r).
  { intros r Hr. rewrite V by auto. apply Hn. assert (In (nth r w 0%nat) w) by (apply nth_In; auto). apply in_where in H. tauto. }
  split; [intros r Hr; rewrite map_length in Hr; apply VN; auto|].
  assert (K : In (nth i ids 0%nat) ids) by (apply nth_In; auto). apply in_ids in K. destruct K as (x & Hx & Ex).
  destruct (Hp x Hx) as (y & Hy & Ey & Py). assert (Iy : In y w) by (apply in_where; split; [auto|congruence]).
  destruct (In_nth w y 0%nat Iy) as (r & Hr & Er). rewrite map_length.
  apply Rlt_le_trans with (lnth (map p w) r); [rewrite V, Er by auto; auto|]. apply rsum_le_one; auto.
Qed.
Lemma fmt_mass : rsum (length (f_R F)) (fun i => rsum (length (nth i (f_p F) [])) (lnth (nth i (f_p F) []))) = mass n p.
Proof.
  destruct (shape_len _ _ _ _ fmt_shape) as (L1 & L2 & _). rewrite L1.
  transitivity (rsum (length (concat (f_p F))) (joined (f_p F))).
  - etransitivity; [symmetry; exact (rsum_blocks _ (f_p F) (fun i r => lnth (nth i (f_p F) []) r))|]. apply rsum_ext. intros r Hr. unfold joined, lnth. rewrite nth_concat by auto. reflexivity.
  - rewrite <- L2, fmt_len. rewrite (rsum_ext n _ (fun r => p (sigma n part r))) by (intros; apply fmt_joined; auto). apply rsum_perm. apply sigma_listing.
Qed.
End Format.
