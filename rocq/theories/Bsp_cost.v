(** Merging bijections: the cost never increases (exact reals). *)
From Coq Require Import List Arith Reals Lra Lia Bool Permutation.
From Verif Require Import Num Sums Emd1d_model Duals_proofs Perm Bsp_model Bsp_proofs.
Import ListNotations.
Local Open Scope R_scope.

Lemma bupd_sum : forall n (f : nat -> R) a x, (a < n)%nat -> rsum n (bupd f a x) = rsum n f - f a + x.
Proof.
  intros n f a x Ha. assert (E : rsum n (bupd f a x) - rsum n f = x - f a); [|lra].
  rewrite <- rsum_minus. rewrite (rsum_ext n _ (fun i => if Nat.eqb i a then x - f a else 0)).
  - rewrite (rsum_single n a); auto.
    + rewrite Nat.eqb_refl; auto.
    + intros j Hj Hn. destruct (Nat.eqb_spec j a); [congruence|auto].
  - intros i Hi. unfold bupd. destruct (Nat.eqb_spec i a); subst; lra.
Qed.

Lemma rsum_inb : forall n (f : nat -> R) l, NoDup l -> (forall k, In k l -> (k < n)%nat) ->
  rsum n (fun i => if inb i l then f i else 0) = lfold (map f l).
Proof.
  intros n f l. induction l as [|x l IH]; intros Hd Hl.
  - apply rsum_0. auto.
  - inversion Hd; subst. simpl. rewrite <- IH; auto; [|intros; apply Hl; simpl; auto].
    assert (Hx : (x < n)%nat) by (apply Hl; simpl; auto).
    rewrite (rsum_ext n _ (fun i => (if Nat.eqb i x then f i else 0) + (if inb i l then f i else 0))).
    + rewrite rsum_plus. f_equal. rewrite (rsum_single n x); auto.
      * rewrite Nat.eqb_refl; auto.
      * intros j _ Hn. destruct (Nat.eqb_spec j x); [congruence|auto].
    + intros i Hi. unfold inb at 1. simpl. fold (inb i l). destruct (Nat.eqb_spec i x) as [->|]; simpl; [|lra].
      assert (inb x l = false) by (apply inb_false; auto). rewrite H. lra.
Qed.

Lemma fold_add : forall l (f : nat -> R) a, fold_left (fun a j => a + f j) l a = a + lfold (map f l).
Proof. induction l; intros; simpl; [lra|]. rewrite IHl. lra. Qed.

Definition vsum (n : nat) (vis : nat -> bool) (f : nat -> R) : R := rsum n (fun i => if vis i then f i else 0).

Lemma vsum_ext : forall n vis f g, (forall i, (i < n)%nat -> vis i = true -> f i = g i) -> vsum n vis f = vsum n vis g.
Proof. intros; apply rsum_ext; intros. destruct (vis i) eqn:E; auto. Qed.

Lemma vsum_add : forall n vis vis' f cc, NoDup cc -> (forall k, In k cc -> (k < n)%nat /\ vis k = false) ->
  (forall k, vis' k = vis k || inb k cc) -> vsum n vis' f = vsum n vis f + lfold (map f cc).
Proof.
  intros n vis vis' f cc Hd Hc Hv. rewrite <- (rsum_inb n f cc Hd) by apply Hc. unfold vsum.
  rewrite <- rsum_plus. apply rsum_ext. intros i Hi. rewrite Hv. destruct (inb i cc) eqn:I.
  - apply inb_In in I. apply Hc in I. destruct I as [_ ->]. simpl; lra.
  - rewrite orb_false_r. lra.
Qed.

Lemma vsum_all : forall n vis f, rsum n f = vsum n vis f + vsum n (fun i => negb (vis i)) f.
Proof. intros. unfold vsum. rewrite <- rsum_plus. apply rsum_ext. intros. destruct (vis i); simpl; lra. Qed.

Definition tcost (n : nat) (cost : nat -> nat -> R) (T : bmap) : R := rsum n (fun i => cost i (T i)).

Lemma merge_round_cost : forall n (cost : nat -> nat -> R) (Tp T TI : bmap) (C : nat -> R),
  perm_on n Tp -> pinv_ok (N:=RNum) n cost T TI C ->
  exists T' TI' (C' : nat -> R), merge_round (N:=RNum) n cost Tp T TI C = Some (T', TI', C') /\
    pinv_ok (N:=RNum) n cost T' TI' C' /\ tcost n cost T' <= tcost n cost T /\ tcost n cost T' <= tcost n cost Tp.
Proof.
  intros n cost Tp T TI C HTp (HT & HI & HC).
  set (Cp := fun i => cost i (Tp i)).
  pose (J := fun (vis : nat -> bool) (st : mst RNum) =>
    vsum n vis (m_C st) <= vsum n vis C /\ vsum n vis (m_C st) <= vsum n vis Cp).
  pose (K := fun st : mst RNum => rsum n (m_C st) <= rsum n C /\ rsum n (m_C st) <= rsum n Cp).
  destruct (round_ok (N:=RNum) n cost T Tp HT HTp C HC J K TI) as (st & E & P & HK1 & HK2); auto.
  - intros vis st ccs vis' st' HP [J1 J2] [[-> ->]|(cc & Hd & Hc & Hv & HC' & HCc)]; [split; auto|].
    assert (E1 : vsum n vis (m_C st') = vsum n vis (m_C st)).
    { apply vsum_ext. intros i Hi V. rewrite HC'; auto. destruct (inb i cc) eqn:I; auto.
      apply inb_In in I. apply Hc in I. destruct I; congruence. }
    unfold J. rewrite !(vsum_add n vis vis' _ cc Hd Hc Hv). rewrite E1.
    match type of HC' with context [nltb ?x ?y] => remember (nltb x y) as lt eqn:L in HC' end.
    symmetry in L. destruct lt.
    + assert (E2 : @map nat R (m_C st') cc = @map nat R Cp cc).
      { apply map_ext_in. intros k Hk. rewrite HC' by (apply Hc; auto). rewrite (proj2 (inb_In k cc) Hk). reflexivity. }
      rewrite E2. apply Rltb_true in L.
      change (fold_left (fun a j => a + Cp j) cc 0 < fold_left (fun a j => a + C j) cc 0) in L.
      rewrite !(fold_add cc) in L.
      split; lra.
    + assert (E2 : @map nat R (m_C st') cc = @map nat R C cc).
      { apply map_ext_in. intros k Hk. rewrite HC' by (apply Hc; auto). rewrite andb_false_r. apply HCc; auto. }
      rewrite E2. apply Rltb_false in L.
      change (fold_left (fun a j => a + C j) cc 0 <= fold_left (fun a j => a + Cp j) cc 0) in L.
      rewrite !(fold_add cc) in L.
      split; lra.
  - intros st st' HP [K1 K2] [->|(a & ap & capb & Ha & Hap & Hne & E & L)]; [split; auto|].
    apply Rltb_true in L. cbn [nadd RNum] in L. unfold K. rewrite E.
    assert (Z : rsum n (bupd (bupd (m_C st) a (m_Cp st a)) ap capb) <= rsum n (m_C st)); [|lra].
    rewrite (bupd_sum n _ ap), (bupd_sum n _ a) by auto. rewrite bupd_other by auto.
    change (carrier RNum) with R in *. lra.
  - unfold J. simpl. assert (Z : forall f, vsum n (fun _ => false) f = 0) by (intros; apply rsum_0; auto).
    rewrite !Z. lra.
  - intros vis st ccs HP [J1 J2] Hd. unfold K. rewrite !(vsum_all n vis).
    destruct HP as ((s & S1 & S2 & S3 & S4 & S5 & S6) & _).
    assert (E1 : vsum n (fun i => negb (vis i)) (m_C st) = vsum n (fun i => negb (vis i)) C).
    { apply vsum_ext. intros i Hi V. apply negb_true_iff in V. rewrite S4, S6; auto. }
    assert (E2 : vsum n (fun i => negb (vis i)) Cp = vsum n (fun i => negb (vis i)) C).
    { apply vsum_ext. intros i Hi V. apply negb_true_iff in V. rewrite HC by auto. unfold Cp.
      f_equal. symmetry. apply (sig_fix n T Tp); auto. destruct (Hd i Hi); [congruence|auto]. }
    rewrite E1, E2. lra.
  - exists (m_T st), (m_TI st), (m_C st). split; [auto|]. destruct P as (A & B & D & _). split; [split; auto|].
    assert (EC : rsum n (m_C st) = tcost n cost (m_T st)) by (apply rsum_ext; auto).
    assert (E0 : rsum n C = tcost n cost T) by (apply rsum_ext; auto).
    rewrite <- EC, <- E0. split; auto.
Qed.

Lemma merge_plans_cost : forall n (cost : nat -> nat -> R) rank plans T0, rank_ok (N:=RNum) rank -> plans <> [] ->
  (forall p, In p plans -> perm_on n p) -> (forall T, T0 = Some T -> perm_on n T) ->
  exists T', merge_plans (N:=RNum) n rank cost plans T0 = MOk T' /\ perm_on n T' /\
    (forall p, In p plans -> tcost n cost T' <= tcost n cost p) /\
    (forall T, T0 = Some T -> tcost n cost T' <= tcost n cost T).
Proof.
  intros n cost rank plans T0 Hr Hn Hp HT.
  apply (merge_plans_gen (N:=RNum) n cost rank (fun P T => tcost n cost T <= tcost n cost P)); auto.
  - intros Tp T TI C A B. destruct (merge_round_cost n cost Tp T TI C A B) as (T' & TI' & C' & E & F & G & H).
    exists T', TI', C'. repeat split; auto; try apply F. intros P HP. lra.
  - intros; lra.
Qed.
