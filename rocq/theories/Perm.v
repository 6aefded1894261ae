(** Permutations of an initial segment and relabelling of transport problems. *)
From Coq Require Import List Arith Reals Lra Lia Permutation.
From Verif Require Import Sums Spec.
Import ListNotations.
Local Open Scope R_scope.

Definition perm_on (n : nat) (s : nat -> nat) : Prop :=
  (forall i, (i < n)%nat -> (s i < n)%nat) /\
  (forall i j, (i < n)%nat -> (j < n)%nat -> s i = s j -> i = j).

Definition lfold (l : list R) : R := fold_right Rplus 0 l.

Lemma lfold_app : forall l l', lfold (l ++ l') = lfold l + lfold l'.
Proof. induction l; intros; simpl; [lra|]. rewrite IHl; lra. Qed.

Lemma lfold_perm : forall l l', Permutation l l' -> lfold l = lfold l'.
Proof. induction 1; simpl; lra. Qed.

Lemma rsum_lfold : forall n f, rsum n f = lfold (map f (seq 0 n)).
Proof.
  induction n; intros; [reflexivity|]. rewrite seq_S, map_app, lfold_app, <- IHn. simpl; lra.
Qed.

Lemma perm_on_list : forall n s, perm_on n s -> Permutation (map s (seq 0 n)) (seq 0 n).
Proof.
  intros n s [Hr Hi]. apply NoDup_Permutation_bis.
  - assert (H : forall l, (forall x, In x l -> (x < n)%nat) -> NoDup l -> NoDup (map s l)).
    { induction l; intros Hl Hd; simpl; [constructor|]. inversion Hd; subst. constructor.
      - intros Hin. apply in_map_iff in Hin. destruct Hin as (y & Hy & Hin).
        assert (y = a) by (apply Hi; auto; apply Hl; simpl; auto). subst; auto.
      - apply IHl; auto. intros; apply Hl; simpl; auto. }
    apply H; [intros x Hx; apply in_seq in Hx; lia | apply seq_NoDup].
  - rewrite map_length, seq_length; auto.
  - intros x Hx. apply in_map_iff in Hx. destruct Hx as (y & <- & Hy). apply in_seq in Hy.
    apply in_seq. specialize (Hr y). lia.
Qed.

Lemma rsum_perm : forall n s f, perm_on n s -> rsum n (fun i => f (s i)) = rsum n f.
Proof.
  intros n s f H. rewrite !rsum_lfold. rewrite <- (map_map s f).
  apply lfold_perm. apply Permutation_map. apply perm_on_list; auto.
Qed.

Lemma perm_on_surj : forall n s k, perm_on n s -> (k < n)%nat -> exists i, (i < n)%nat /\ s i = k.
Proof.
  intros n s k H Hk.
  assert (Hin : In k (map s (seq 0 n))).
  { eapply Permutation_in; [apply Permutation_sym, perm_on_list; auto|]. apply in_seq; lia. }
  apply in_map_iff in Hin. destruct Hin as (i & E & Hi). apply in_seq in Hi. exists i; split; auto; lia.
Qed.

Definition pinv (n : nat) (s : nat -> nat) (k : nat) : nat :=
  match find (fun i => Nat.eqb (s i) k) (seq 0 n) with Some i => i | None => 0%nat end.

Lemma pinv_spec : forall n s k, perm_on n s -> (k < n)%nat -> (pinv n s k < n)%nat /\ s (pinv n s k) = k.
Proof.
  intros n s k H Hk. unfold pinv. destruct (find _ _) as [i|] eqn:E.
  - apply find_some in E. destruct E as [E1 E2]. apply in_seq in E1. apply Nat.eqb_eq in E2. split; [lia|auto].
  - destruct (perm_on_surj n s k H Hk) as (i & Hi & Hs).
    pose proof (find_none _ _ E i) as F. simpl in F. rewrite Hs, Nat.eqb_refl in F.
    discriminate F. apply in_seq; lia.
Qed.

Lemma pinv_left : forall n s i, perm_on n s -> (i < n)%nat -> pinv n s (s i) = i.
Proof.
  intros n s i H Hi. destruct H as [Hr Hj]. destruct (pinv_spec n s (s i)) as [A B]; [split; auto|auto|].
  apply Hj; auto.
Qed.

Lemma pinv_perm : forall n s, perm_on n s -> perm_on n (pinv n s).
Proof.
  intros n s H. split.
  - intros; apply pinv_spec; auto.
  - intros i j Hi Hj E. destruct (pinv_spec n s i H Hi) as [_ A]. destruct (pinv_spec n s j H Hj) as [_ B].
    rewrite <- A, <- B, E; auto.
Qed.

(** relabelling a transport problem *)
Lemma coupling_relabel : forall n m s t a b G, perm_on n s -> perm_on m t ->
  (coupling n m (fun i => a (s i)) (fun j => b (t j)) (fun i j => G (s i) (t j)) <-> coupling n m a b G).
Proof.
  intros n m s t a b G Hs Ht.
  assert (R : forall i, row_sum m (fun i j => G (s i) (t j)) i = row_sum m G (s i)).
  { intros; unfold row_sum. apply (rsum_perm m t (fun j => G (s i) j)); auto. }
  assert (C : forall j, col_sum n (fun i j => G (s i) (t j)) j = col_sum n G (t j)).
  { intros; unfold col_sum. apply (rsum_perm n s (fun i => G i (t j))); auto. }
  split; intros (HG & Hr & Hc); (split; [|split]).
  - intros k l Hk Hl. destruct (perm_on_surj n s k Hs Hk) as (i & Hi & <-).
    destruct (perm_on_surj m t l Ht Hl) as (j & Hj & <-). apply HG; auto.
  - intros k Hk. destruct (perm_on_surj n s k Hs Hk) as (i & Hi & <-). rewrite <- R. apply Hr; auto.
  - intros l Hl. destruct (perm_on_surj m t l Ht Hl) as (j & Hj & <-). rewrite <- C. apply Hc; auto.
  - intros i j Hi Hj. apply HG; [apply Hs|apply Ht]; auto.
  - intros i Hi. rewrite R. apply Hr. apply Hs; auto.
  - intros j Hj. rewrite C. apply Hc. apply Ht; auto.
Qed.

Lemma cost_relabel : forall n m s t M G, perm_on n s -> perm_on m t ->
  cost n m (fun i j => M (s i) (t j)) (fun i j => G (s i) (t j)) = cost n m M G.
Proof.
  intros n m s t M G Hs Ht. unfold cost.
  rewrite <- (rsum_perm n s (fun i => rsum m (fun j => M i j * G i j))) by auto.
  apply rsum_ext; intros i Hi. apply (rsum_perm m t (fun j => M (s i) j * G (s i) j)); auto.
Qed.

Lemma optimal_relabel : forall n m s t a b M G, perm_on n s -> perm_on m t ->
  optimal_coupling n m (fun i => a (s i)) (fun j => b (t j)) (fun i j => M (s i) (t j)) (fun i j => G (s i) (t j)) ->
  optimal_coupling n m a b M G.
Proof.
  intros n m s t a b M G Hs Ht [HC HO]. split; [apply (coupling_relabel n m s t); auto|].
  intros G' HG'. rewrite <- (cost_relabel n m s t M G), <- (cost_relabel n m s t M G') by auto.
  apply HO. apply coupling_relabel; auto.
Qed.

(** everything only depends on the values inside the n x m box *)
Lemma coupling_ext : forall n m a a' b b' G G',
  (forall i, (i < n)%nat -> a i = a' i) -> (forall j, (j < m)%nat -> b j = b' j) ->
  (forall i j, (i < n)%nat -> (j < m)%nat -> G i j = G' i j) ->
  coupling n m a b G -> coupling n m a' b' G'.
Proof.
  intros n m a a' b b' G G' Ha Hb HG (H1 & H2 & H3). split; [|split].
  - intros i j Hi Hj; rewrite <- HG; auto.
  - intros i Hi. rewrite <- Ha, <- H2 by auto. apply rsum_ext; intros; symmetry; auto.
  - intros j Hj. rewrite <- Hb, <- H3 by auto. apply rsum_ext; intros; symmetry; auto.
Qed.
Lemma cost_ext : forall n m M M' G G',
  (forall i j, (i < n)%nat -> (j < m)%nat -> M i j = M' i j) ->
  (forall i j, (i < n)%nat -> (j < m)%nat -> G i j = G' i j) -> cost n m M G = cost n m M' G'.
Proof.
  intros n m M M' G G' HM HG. apply rsum_ext; intros i Hi; apply rsum_ext; intros j Hj.
  rewrite HM, HG; auto.
Qed.
Lemma optimal_ext : forall n m a a' b b' M M' G G',
  (forall i, (i < n)%nat -> a i = a' i) -> (forall j, (j < m)%nat -> b j = b' j) ->
  (forall i j, (i < n)%nat -> (j < m)%nat -> M i j = M' i j) ->
  (forall i j, (i < n)%nat -> (j < m)%nat -> G i j = G' i j) ->
  optimal_coupling n m a b M G -> optimal_coupling n m a' b' M' G'.
Proof.
  intros n m a a' b b' M M' G G' Ha Hb HM HG [HC HO]. split.
  - eapply coupling_ext; [| | |exact HC]; auto.
  - intros P HP. rewrite <- (cost_ext n m M M' G G'), <- (cost_ext n m M M' P P) by auto.
    apply HO. eapply coupling_ext; [| | |exact HP]; auto; intros; symmetry; auto.
Qed.
