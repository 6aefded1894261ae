(** emd_1d in the caller's order *)
From Coq Require Import List Arith Bool Reals Lra Lia Permutation.
From Verif Require Import Num Sums Spec Monge Perm Emd1d_model Emd1d_proofs.
Import ListNotations.
Local Open Scope R_scope.

Lemma take_ok : forall A (d : A) (xs : list A) perm,
  (forall k, In k perm -> (k < length xs)%nat) ->
  take xs perm = Some (map (fun k => nth k xs d) perm).
Proof.
  induction perm as [|k perm IH]; intros H; [reflexivity|].
  cbn [take map]. rewrite (nth_error_nth' xs d) by (apply H; simpl; auto).
  rewrite IH; auto. intros; apply H; simpl; auto.
Qed.

Definition pfun (p : list nat) (i : nat) : nat := nth i p 0%nat.

Lemma perm_list_on : forall n p, Permutation p (seq 0 n) -> perm_on n (pfun p).
Proof.
  intros n p H.
  assert (L : length p = n) by (rewrite (Permutation_length H), seq_length; auto).
  split.
  - intros i Hi. assert (In (pfun p i) p) by (apply nth_In; lia).
    apply (Permutation_in _ H), in_seq in H0. lia.
  - intros i j Hi Hj E. assert (NoDup p) by (eapply Permutation_NoDup; [apply Permutation_sym, H|apply seq_NoDup]).
    apply (NoDup_nth p 0%nat); auto; lia.
Qed.

Lemma lsum_rsum : forall (l : list RNum), @lsum RNum l = rsum (length l) (lnth l).
Proof.
  intros l. unfold lsum.
  assert (G : forall (l : list R) acc, fold_left Rplus l acc = acc + rsum (length l) (fun i => nth i l 0)).
  { clear. induction l as [|x l IH]; intros acc; [simpl; lra|]. cbn [fold_left length].
    rewrite IH, rsum_first. cbn [nth]. lra. }
  rewrite (G l). apply Rplus_0_l.
Qed.

Lemma dmat_relabel : forall n m (s t : nat -> nat) es,
  perm_on n s -> perm_on m t ->
  Forall (fun e : @entry RNum => (snd (fst e) < n)%nat /\ (snd e < m)%nat) es ->
  forall i j, (i < n)%nat -> (j < m)%nat ->
  dmat (map (fun e : @entry RNum => match e with (w, i, j) => (w, s i, t j) end) es) (s i) (t j) = dmat es i j.
Proof.
  intros n m s t es Hs Ht H i j Hi Hj. induction H as [|[[w i0] j0] es [H1 H2] H IH]; [reflexivity|].
  cbn [map]. rewrite !dmat_cons, IH. simpl in H1, H2. f_equal. f_equal. f_equal. f_equal.
  - destruct (Nat.eqb_spec i0 i) as [->|Hne]; [rewrite Nat.eqb_refl; auto|].
    apply Nat.eqb_neq. intros E. apply Hne. apply Hs; auto.
  - destruct (Nat.eqb_spec j0 j) as [->|Hne]; [rewrite Nat.eqb_refl; auto|].
    apply Nat.eqb_neq. intros E. apply Hne. apply Ht; auto.
Qed.

Definition sorts (x : list RNum) (p : list nat) : Prop :=
  Permutation p (seq 0 (length x)) /\
  forall k, (S k < length x)%nat -> lnth x (pfun p k) <= lnth x (pfun p (S k)).

Lemma lnth_take : forall (x : list RNum) p i, (i < length p)%nat ->
  lnth (map (fun k => nth k x 0) p) i = lnth x (pfun p i).
Proof.
  intros x p i Hi. unfold lnth, pfun.
  rewrite (nth_indep _ 0 ((fun k => nth k x 0) 0%nat)) by (rewrite map_length; auto).
  apply (map_nth (fun k => nth k x 0) p 0%nat i).
Qed.

Section WithPerm.
Variables (xa xb a b : list RNum) (mt : metric) (p : R) (pa pb : list nat).
Let n := length xa.
Let m := length xb.
Let sb := rsum n (lnth a) / rsum m (lnth b).
(** the second histogram after the rescaling *)
Definition rescaled_b : vec := fun j => lnth b j * rsum n (lnth a) / rsum m (lnth b).
Definition gcost : mat := fun i j => gfun mt p (lnth xa i) (lnth xb j).

Hypothesis Hla : length a = n.
Hypothesis Hlb : length b = m.
Hypothesis Hn : (0 < n)%nat.
Hypothesis Hm : (0 < m)%nat.
Hypothesis Ha : nonneg_vec n (lnth a).
Hypothesis Hb : nonneg_vec m (lnth b).
Hypothesis Hsb : 0 < rsum m (lnth b).
Hypothesis Hmt : mt <> MOther.
Hypothesis Hpa : Permutation pa (seq 0 n).
Hypothesis Hpb : Permutation pb (seq 0 m).

Lemma with_perm_run :
  exists es, emd_1d_with_perm (N:=RNum) rpow xa xb a b mt p pa pb = Ok (es, cost n m gcost (dmat es))
    /\ coupling n m (lnth a) rescaled_b (dmat es)
    /\ Forall (fun e : @entry RNum => (snd (fst e) < n)%nat /\ (snd e < m)%nat) es
    /\ ((forall k, (S k < n)%nat -> lnth xa (pfun pa k) <= lnth xa (pfun pa (S k))) ->
        (forall k, (S k < m)%nat -> lnth xb (pfun pb k) <= lnth xb (pfun pb (S k))) ->
        (mt = Minkowski -> 1 <= p) ->
        optimal_coupling n m (lnth a) rescaled_b gcost (dmat es)).
Proof.
  pose proof (perm_list_on n pa Hpa) as Sa. pose proof (perm_list_on m pb Hpb) as Sb.
  assert (La : length pa = n) by (rewrite (Permutation_length Hpa), seq_length; auto).
  assert (Lb : length pb = m) by (rewrite (Permutation_length Hpb), seq_length; auto).
  assert (Ia : forall k, In k pa -> (k < n)%nat) by (intros k Hk; apply (Permutation_in _ Hpa), in_seq in Hk; lia).
  assert (Ib : forall k, In k pb -> (k < m)%nat) by (intros k Hk; apply (Permutation_in _ Hpb), in_seq in Hk; lia).
  unfold emd_1d_with_perm.
  set (b' := map (fun y => ndiv (nmul y (lsum a)) (lsum b)) b).
  assert (Lb' : length b' = m) by (unfold b'; rewrite map_length; auto).
  assert (Eb' : forall j, (j < m)%nat -> lnth b' j = rescaled_b j).
  { intros j Hj. unfold lnth at 1, b', rescaled_b.
    rewrite (nth_indep _ _ (ndiv (nmul (n:=RNum) 0 (lsum a)) (lsum b))) by (rewrite map_length, Hlb; auto).
    rewrite (map_nth (fun y : RNum => ndiv (nmul y (lsum a)) (lsum b))).
    rewrite !lsum_rsum, Hla, Hlb. reflexivity. }
  rewrite (take_ok _ (0 : RNum) a pa), (take_ok _ (0 : RNum) b' pb),
    (take_ok _ (0 : RNum) xa pa), (take_ok _ (0 : RNum) xb pb)
    by (intros; rewrite ?Hla, ?Lb'; auto).
  set (A := map (fun k => nth k a 0) pa). set (B := map (fun k => nth k b' 0) pb).
  set (U := map (fun k => nth k xa 0) pa). set (V := map (fun k => nth k xb 0) pb).
  assert (LA : length A = n) by (unfold A; rewrite map_length; auto).
  assert (LB : length B = m) by (unfold B; rewrite map_length; auto).
  assert (LU : length U = n) by (unfold U; rewrite map_length; auto).
  assert (LV : length V = m) by (unfold V; rewrite map_length; auto).
  assert (EA : forall i, (i < n)%nat -> lnth A i = lnth a (pfun pa i)) by (intros; apply lnth_take; lia).
  assert (EB : forall j, (j < m)%nat -> lnth B j = rescaled_b (pfun pb j)).
  { intros j Hj. rewrite <- Eb' by (apply Sb; auto). apply lnth_take; lia. }
  assert (EU : forall i, (i < n)%nat -> lnth U i = lnth xa (pfun pa i)) by (intros; apply lnth_take; lia).
  assert (EV : forall j, (j < m)%nat -> lnth V j = lnth xb (pfun pb j)) by (intros; apply lnth_take; lia).
  assert (Pa : nonneg_vec n (lnth A)) by (intros i Hi; rewrite EA by auto; apply Ha; apply Sa; auto).
  assert (Qa : 0 <= rsum n (lnth a)) by (apply rsum_nonneg; auto).
  assert (Pb : nonneg_vec m (lnth B)).
  { intros j Hj; rewrite EB by auto. unfold rescaled_b. apply Rle_mult_inv_pos; auto.
    apply Rmult_le_pos; auto. apply Hb; apply Sb; auto. }
  assert (M : mass n (lnth A) = mass m (lnth B)).
  { unfold mass. rewrite (rsum_ext n (lnth A) (fun i => lnth a (pfun pa i))), (rsum_ext m (lnth B) (fun j => rescaled_b (pfun pb j))) by auto.
    rewrite (rsum_perm n (pfun pa)), (rsum_perm m (pfun pb)) by auto.
    unfold rescaled_b. rewrite rsum_div, rsum_scal_r. field. lra. }
  destruct (sorted_run A B U V mt p) as (es & E & R & C & F); rewrite ?LA, ?LB; auto.
  assert (OP : (forall k, (S k < n)%nat -> lnth xa (pfun pa k) <= lnth xa (pfun pa (S k))) ->
        (forall k, (S k < m)%nat -> lnth xb (pfun pb k) <= lnth xb (pfun pb (S k))) ->
        (mt = Minkowski -> 1 <= p) ->
        optimal_coupling n m (lnth A) (lnth B) (fun i j => gfun mt p (lnth U i) (lnth V j)) (dmat es)).
  { intros S1 S2 Hp. rewrite LA, LB in *. apply monge_min_optimal; auto.
    destruct (gfun_convex mt p Hmt Hp) as (h & Hc & Hh).
    intros k l Hk Hl. rewrite !Hh. apply (convex_monge n m (lnth U) (lnth V) h); auto.
    - intros k' Hk'; rewrite !EU by lia; auto. - intros k' Hk'; rewrite !EV by lia; auto. }
  rewrite LA, LB in *. rewrite E.
  set (es' := map (fun e : @entry RNum => match e with (w, i, j) => (w, nth i pa 0%nat, nth j pb 0%nat) end) es).
  assert (D : forall i j, (i < n)%nat -> (j < m)%nat -> dmat es' (pfun pa i) (pfun pb j) = dmat es i j).
  { intros; apply (dmat_relabel n m); auto. }
  exists es'. split; [|split; [|split]].
  - f_equal. f_equal. rewrite <- (cost_relabel n m (pfun pa) (pfun pb) gcost (dmat es')) by auto.
    apply cost_ext; intros i j Hi Hj; [|symmetry; apply D; auto].
    unfold gcost. rewrite EU, EV; auto.
  - apply (coupling_relabel n m (pfun pa) (pfun pb)); auto.
    eapply coupling_ext; [| | |exact C]; auto. intros; symmetry; apply D; auto.
  - unfold es'. apply Forall_map. eapply Forall_impl; [|exact R]. intros [[w i] j] [H1 H2]. simpl in *.
    split; [apply Sa|apply Sb]; auto.
  - intros S1 S2 Hp. apply (optimal_relabel n m (pfun pa) (pfun pb)); auto.
    eapply optimal_ext; [| | | |exact (OP S1 S2 Hp)]; auto.
    + intros i j Hi Hj. unfold gcost; rewrite EU, EV; auto.
    + intros; symmetry; apply D; auto.
Qed.
End WithPerm.

(** the model's argsort is a sorting permutation *)
Lemma insert_idx_perm : forall {N : NumOps} (key : nat -> N) x l, Permutation (insert_idx key x l) (x :: l).
Proof.
  induction l as [|y l IH]; simpl; auto. destruct (nltb (key x) (key y)); auto.
  rewrite IH. apply perm_swap.
Qed.
Lemma argsort_aux_perm : forall {N : NumOps} (key : nat -> N) k, Permutation (argsort_aux key k) (seq 0 k).
Proof.
  induction k; [constructor|]. cbn [argsort_aux]. rewrite insert_idx_perm, IHk, seq_S.
  apply Permutation_cons_append.
Qed.

Definition lsorted (key : nat -> R) (l : list nat) : Prop :=
  forall k, (S k < length l)%nat -> key (nth k l 0%nat) <= key (nth (S k) l 0%nat).

Lemma insert_idx_sorted : forall (key : nat -> R) x l,
  lsorted key l -> lsorted key (insert_idx (N:=RNum) key x l).
Proof.
  induction l as [|y l IH]; intros H.
  - intros k Hk; simpl in Hk; lia.
  - cbn [insert_idx]. change (@nltb RNum) with Rltb. destruct (Rltb (key x) (key y)) eqn:E.
    + apply Rltb_true in E. intros [|k] Hk; [simpl; lra|]. apply (H k). simpl in *; lia.
    + apply Rltb_false in E.
      assert (Ht : lsorted key l) by (intros k Hk; apply (H (S k)); simpl; lia).
      specialize (IH Ht).
      intros [|k] Hk.
      * cbn [nth]. destruct l as [|z l]; [simpl; auto|].
        cbn [insert_idx]. change (@nltb RNum) with Rltb. destruct (Rltb (key x) (key z)); [simpl; auto|].
        apply (H 0%nat). simpl; lia.
      * apply (IH k). simpl in *; lia.
Qed.

Lemma argsort_sorts : forall x : list RNum, sorts x (argsort x).
Proof.
  intros x. split; [apply argsort_aux_perm|].
  assert (forall k, lsorted (fun i => lnth x i) (argsort_aux (N:=RNum) (fun i => lnth x i) k)).
  { induction k; [intros k Hk; simpl in Hk; lia|]. apply insert_idx_sorted; auto. }
  intros k Hk. apply (H (length x) k).
  rewrite (Permutation_length (argsort_aux_perm (N:=RNum) _ _)), seq_length; auto.
Qed.

Lemma emd_1d_run : forall close chk (xa xb : list RNum) (oa ob : option (list RNum)) mt p,
  let n := length xa in let m := length xb in
  let a := weights oa n in let b := weights ob m in
  length a = n -> length b = m -> (0 < n)%nat -> (0 < m)%nat ->
  nonneg_vec n (lnth a) -> nonneg_vec m (lnth b) -> 0 < rsum m (lnth b) ->
  mt <> MOther -> (mt = Minkowski -> 1 <= p) ->
  (chk = false \/ close (rsum n (lnth a)) (rsum m (lnth b)) = true) ->
  exists es, emd_1d (N:=RNum) rpow close chk xa xb oa ob mt p
               = Ok (es, cost n m (gcost xa xb mt p) (dmat es))
    /\ optimal_coupling n m (lnth a) (rescaled_b xa xb a b) (gcost xa xb mt p) (dmat es).
Proof.
  intros close chk xa xb oa ob mt p n m a b La Lb Hn Hm Ha Hb Hs Hmt Hp Hc.
  destruct (argsort_sorts xa) as [P1 S1]. destruct (argsort_sorts xb) as [P2 S2].
  destruct (with_perm_run xa xb a b mt p (argsort xa) (argsort xb)) as (es & E & C & _ & O); auto.
  exists es. split; [|apply O; auto].
  etransitivity; [|exact E]. unfold emd_1d. fold n m a b.
  rewrite !lsum_rsum, La, Lb.
  assert (B : (negb chk || close (rsum n (lnth a)) (rsum m (lnth b)))%bool = true)
   by (destruct Hc as [->| ->]; [auto|apply orb_true_r]).
  change (carrier RNum) with R. rewrite B. destruct mt; try congruence.
Qed.

Lemma nofnat_INR : forall k, @nofnat RNum k = INR k.
Proof. induction k; [reflexivity|]. rewrite S_INR, <- IHk. reflexivity. Qed.

Lemma lnth_repeat : forall (x : R) k i, (i < k)%nat -> lnth (repeat (x : RNum) k) i = x.
Proof. induction k; intros [|i] H; try lia; [reflexivity|]. apply IHk; lia. Qed.

(** the default weights are uniform *)
Lemma weights_none : forall k, (0 < k)%nat ->
  length (weights (N:=RNum) None k) = k /\
  (forall i, (i < k)%nat -> lnth (weights (N:=RNum) None k) i = 1 / INR k) /\
  rsum k (lnth (weights (N:=RNum) None k)) = 1.
Proof.
  intros k Hk. assert (E : forall i, (i < k)%nat -> lnth (weights (N:=RNum) None k) i = 1 / INR k).
  { intros i Hi. unfold weights. rewrite nofnat_INR. apply (lnth_repeat (1 / INR k)); auto. }
  split; [apply repeat_length|]. split; auto.
  rewrite (rsum_ext k _ (fun _ => 1 / INR k)) by auto. rewrite rsum_const.
  assert (0 < INR k) by (apply lt_0_INR; auto). field; lra.
Qed.
