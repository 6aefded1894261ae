(** Failures and stopping of the unbalanced barycenter loops, for any arithmetic. *)
From Coq Require Import List Arith Bool Lia.
From Verif Require Import Num Sinkhorn_model Emd1d_model Unb_model Ubary_model.
Import ListNotations.

Section More.
Context {N : NumOps}.
Variables (ex lg : N -> N) (pw : N -> N -> N) (bad : N -> bool) (dim H : nat).
Notation mat := (nat -> nat -> N).
Notation vec := (nat -> N).
(** no entry of the dim x H array is NaN or infinite *)
Definition finite (x : mat) : Prop := forall i h, i < dim -> h < H -> bad (x i h) = false.
Lemma any_finite : forall k f, any k f = false -> forall i, i < k -> f i = false.
Proof.
  induction k as [|k IH]; cbn; intros f E i Hi; [lia|]. apply orb_false_iff in E. destruct E as (E1 & E2).
  destruct (Nat.eq_dec i k) as [->|]; [auto|]. apply IH; auto; lia.
Qed.
Lemma bad_finite : forall Ktu u v, ub_bad bad dim H Ktu u v = false -> finite u /\ finite v.
Proof.
  intros Ktu u v E. unfold ub_bad in E. apply orb_false_iff in E. destruct E as (E & E3). apply orb_false_iff in E. destruct E as (_ & E2).
  split; intros i h Hi Hh.
  - exact (any_finite _ _ (any_finite _ _ E2 i Hi) h Hh).
  - exact (any_finite _ _ (any_finite _ _ E3 i Hi) h Hh).
Qed.

Lemma plain_exit : forall (A K : mat) (w : vec) (f stopThr : N) left i s, finite (st_u s) -> finite (st_v s) ->
  let r := ub_loop pw bad dim H A K w f stopThr left i s in
  finite (st_u r) /\ finite (st_v r) /\
  (left <> 0 -> exists k, st_i r = Some k /\ i <= k < i + left /\
    (S k = i + left \/ st_numerr r = true \/ (nltb (st_err r) stopThr = true /\ 10 < k))).
Proof.
  intros A K w f stopThr. induction left as [|left IH]; intros i s Fu Fv; cbn [ub_loop]; cbv zeta.
  - split; auto. split; auto. intros C; contradiction.
  - set (u := ub_u pw dim A K f (st_v s)). set (q := ub_q pw dim H K w f u). set (v := ub_v pw dim K f u q).
    destruct (ub_bad bad dim H (ub_Ktu dim K u) u v) eqn:EB.
    + cbn. split; auto. split; auto. intros _. exists i. split; auto. split; [lia|]. auto.
    + apply bad_finite in EB. destruct EB as (B1 & B2). destruct (nltb (rel_err dim q (st_q s)) stopThr && (10 <? i))%bool eqn:ES.
      * cbn. split; auto. split; auto. intros _. apply andb_true_iff in ES. destruct ES as (ES1 & ES2). apply Nat.ltb_lt in ES2.
        exists i. split; auto. split; [lia|]. auto.
      * set (s' := UbState _ _ _ _ _ _ _). destruct (IH (S i) s' B1 B2) as (R1 & R2 & R3). split; auto. split; auto. intros _.
        destruct left as [|left].
        -- exists i. split; [reflexivity|]. split; [lia|]. left; lia.
        -- destruct R3 as (k & K1 & K2 & K3); [lia|]. exists k. split; auto. split; [lia|]. destruct K3 as [K3|K3]; [left; lia|right; exact K3].
Qed.

Lemma stab_exit : forall (A M : mat) (w : vec) (reg reg_m tau guard stopThr : N) left i s,
  let r := ss_loop ex lg pw bad dim H A M w reg reg_m tau guard stopThr left i s in
  (ss_q r = ss_q s \/ exists s', let u := ss_newu ex pw dim A reg reg_m guard s' in ss_q r = ss_newq ex pw dim H w reg reg_m s' u /\ finite u) /\
  (left <> 0 -> exists k, ss_i r = Some k /\ i <= k < i + left /\
    (S k = i + left \/ (exists Ktu, ub_bad bad dim H Ktu (ss_u r) (ss_v r) = true) \/ (nltb (ss_err r) stopThr = true /\ Nat.modulo k 10 = 0))).
Proof.
  intros A M w reg reg_m tau guard stopThr. induction left as [|left IH]; intros i s; cbn [ss_loop]; cbv zeta.
  - split; auto. intros C; contradiction.
  - set (u := ss_newu ex pw dim A reg reg_m guard s). set (q := ss_newq ex pw dim H w reg reg_m s u). set (v := ss_newv ex pw dim reg reg_m guard s u q).
    set (s1 := absorb ex lg dim H M reg tau s u v q i).
    assert (Eu : ss_u s1 = u) by (unfold s1, absorb; destruct (_ || _)%bool; reflexivity).
    assert (Eq : ss_q s1 = q) by (unfold s1, absorb; destruct (_ || _)%bool; reflexivity).
    assert (Ei : ss_i s1 = Some i) by (unfold s1, absorb; destruct (_ || _)%bool; reflexivity).
    destruct (ub_bad bad dim H (ub_Ktu dim (ss_K s) u) (ss_u s1) (ss_v s1)) eqn:EB.
    + cbn [ss_q ss_i ss_u ss_v ss_err]. split; [left; reflexivity|]. intros _. exists i. split; auto. split; [lia|]. right. left. eexists. exact EB.
    + pose proof EB as EF. apply bad_finite in EF. destruct EF as (FU & _). rewrite Eu in FU.
      assert (GO : forall s2, ss_q s2 = q -> ss_i s2 = Some i -> let r := ss_loop ex lg pw bad dim H A M w reg reg_m tau guard stopThr left (S i) s2 in
        (ss_q r = ss_q s \/ exists s', let u := ss_newu ex pw dim A reg reg_m guard s' in ss_q r = ss_newq ex pw dim H w reg reg_m s' u /\ finite u) /\
        (S left <> 0 -> exists k, ss_i r = Some k /\ i <= k < i + S left /\
          (S k = i + S left \/ (exists Ktu, ub_bad bad dim H Ktu (ss_u r) (ss_v r) = true) \/ (nltb (ss_err r) stopThr = true /\ Nat.modulo k 10 = 0)))).
      { intros s2 Q2 I2. cbv zeta. destruct (IH (S i) s2) as (R1 & R2). split.
        - destruct R1 as [R1|R1]; [|right; exact R1]. right. exists s. cbv zeta. rewrite R1, Q2. split; [reflexivity|exact FU].
        - intros _. destruct left as [|left].
          + exists i. split; [exact I2|]. split; [lia|]. left; lia.
          + destruct R2 as (k & K1 & K2 & K3); [lia|]. exists k. split; auto. split; [lia|]. destruct K3 as [K3|K3]; [left; lia|right; exact K3]. }
      destruct ((Nat.modulo i 10 =? 0) && negb (ss_absorbed s1) || (i =? 0))%bool eqn:EM.
      * destruct (nltb (rel_err dim q (ss_q s)) stopThr) eqn:ES; [|apply GO; cbn; auto].
        cbn [ss_q ss_i ss_u ss_v ss_err]. split.
        -- right. exists s. cbv zeta. rewrite Eq. split; [reflexivity|exact FU].
        -- intros _. exists i. split; auto. split; [lia|]. right. right. split; [exact ES|].
           apply orb_true_iff in EM. destruct EM as [EM|EM].
           ++ apply andb_true_iff in EM. destruct EM as (EM & _). apply Nat.eqb_eq in EM. exact EM.
           ++ apply Nat.eqb_eq in EM. rewrite EM. reflexivity.
      * apply GO; auto.
Qed.
End More.
