(** findEnteringArc (network_simplex_simple.h:791-829) over the exact reals: it
    returns an arc with negative reduced cost, or certifies that every arc's
    reduced cost is at least -EPSILON * scale. *)
From Coq Require Import List Arith Bool Lia Reals Lra.
Import ListNotations.
From Verif Require Import Num Spec Sums NS_model NS_list NS_tree NS_update NS_walk NS_pivot NS_inv.
Local Open Scope R_scope.

Lemma nabs_R : forall x : R, @nabs RNum x = Rabs x.
Proof.
  intros x. unfold nabs, nopp. cbn [nltb RNum n0 nsub]. destruct (Rltb x 0) eqn:E.
  - apply Rltb_true in E. rewrite Rabs_left; auto. lra.
  - apply Rltb_false in E. rewrite Rabs_right; lra.
Qed.

Lemma nofpos_R : forall p, @nofpos RNum p = IZR (Zpos p).
Proof.
  intros p. unfold nofpos. replace (@nadd RNum) with Rplus by auto. replace (@n1 RNum) with 1 by auto.
  induction p as [|p IH] using Pos.peano_ind.
  - auto.
  - rewrite Pos.iter_op_succ by (intros; lra). rewrite IH. rewrite Pos2Z.inj_succ, succ_IZR. cbn. lra.
Qed.
#[global] Arguments EPSILON : simpl never.
#[global] Arguments EPSILON_feas : simpl never.
#[global] Arguments nofpos : simpl never.
Lemma EPSILON_R : @EPSILON RNum = (22204460492503131 / 10000000000000000000000000000000)%R.
Proof. unfold EPSILON. rewrite !nofpos_R. auto. Qed.
Lemma EPSILON_pos : 0 < @EPSILON RNum.
Proof. rewrite EPSILON_R. apply Rdiv_lt_0_compat; lra. Qed.
Lemma EPSfeas_R : @EPSILON_feas RNum = (1 / 100000000)%R.
Proof. unfold EPSILON_feas. rewrite !nofpos_R. auto. Qed.
Lemma EPSfeas_pos : 0 < @EPSILON_feas RNum.
Proof. rewrite EPSfeas_R. lra. Qed.

Notation EPS := (@EPSILON RNum).

Section Enter.
Variables (g : net) (s : ns).
Definition cst (e : nat) : R := smul (state s e) (red_cost g s e).

Lemma scale_ge : forall e, Rabs (pi s (a_src g e)) <= scale g s e /\ Rabs (pi s (a_tgt g e)) <= scale g s e /\
   Rabs (a_cost g e) <= scale g s e.
Proof.
  intros e. unfold scale. cbn zeta. rewrite !nabs_R.
  set (x := Rabs (pi s (a_src g e))). set (y := Rabs (pi s (a_tgt g e))). set (z := Rabs (a_cost g e)).
  cbn [nltb RNum]. destruct (Rltb y x) eqn:E1; [apply Rltb_true in E1|apply Rltb_false in E1].
  - destruct (Rltb z x) eqn:E2; [apply Rltb_true in E2|apply Rltb_false in E2]; lra.
  - destruct (Rltb z y) eqn:E2; [apply Rltb_true in E2|apply Rltb_false in E2]; lra.
Qed.
Lemma scale_le : forall e A, Rabs (pi s (a_src g e)) <= A -> Rabs (pi s (a_tgt g e)) <= A ->
   Rabs (a_cost g e) <= A -> scale g s e <= A.
Proof.
  intros e A. unfold scale. cbn zeta. rewrite !nabs_R.
  set (x := Rabs (pi s (a_src g e))). set (y := Rabs (pi s (a_tgt g e))). set (z := Rabs (a_cost g e)).
  cbn [nltb RNum]. destruct (Rltb y x); [destruct (Rltb z x)|destruct (Rltb z y)]; auto.
Qed.
Lemma scale_pos : forall e, 0 <= scale g s e.
Proof. intros e. destruct (scale_ge e) as [H _]. eapply Rle_trans; [|exact H]. apply Rabs_pos. Qed.

Record zok (P : nat -> Prop) (z : @scan RNum) : Prop := {
  zk_neg : sc_min z <= 0;
  zk_min : forall e, P e -> sc_min z <= cst e;
  zk_some : sc_in z <> None;
  zk_arg : (sc_min z : R) = 0 \/ exists ia, sc_in z = Some ia /\ (ia < arc_num g)%nat /\ cst ia = sc_min z /\ cst ia < 0
}.

Lemma thr : forall e, @nopp RNum (nmul EPSILON (scale g s e)) = - (EPS * scale g s e).
Proof. intros e. unfold nopp. cbn. lra. Qed.
Lemma thr_le : forall e, @nopp RNum (nmul EPSILON (scale g s e)) <= 0.
Proof.
  intros e. rewrite thr. pose proof EPSILON_pos. pose proof (scale_pos e).
  assert (0 <= EPS * scale g s e) by (apply Rmult_le_pos; cbn in *; lra). cbn in *; lra.
Qed.

Lemma scan_spec : forall len e z P, zok P z -> (e + len <= arc_num g)%nat ->
  (exists z', scan_loop len g s e z = Ret (inl z') /\ zok (fun x => P x \/ (e <= x < e + len)%nat) z') \/
  (exists e' z' ia, scan_loop len g s e z = Ret (inr (e', z')) /\ (e' < arc_num g)%nat /\ sc_in z' = Some ia /\
     (ia < arc_num g)%nat /\ cst ia < 0).
Proof.
  induction len as [|len IH]; intros e z P HZ Hle; cbn [scan_loop].
  - left. exists z. split; auto. destruct HZ. constructor; auto. intros x [Hx|Hx]; auto; lia.
  - fold (cst e).
    set (z1 := if @nltb RNum (cst e) (sc_min z) then @mkScan RNum (cst e) (Some e) (sc_cnt z) else z).
    assert (H1 : zok (fun x => P x \/ x = e) z1).
    { unfold z1. destruct (@nltb RNum (cst e) (sc_min z)) eqn:E.
      - apply Rltb_true in E. destruct HZ as [A B C D]. constructor; cbn [sc_min sc_in].
        + cbn in *; lra.
        + intros x [Hx| ->]; [|right; auto]. specialize (B x Hx). cbn in *; lra.
        + discriminate.
        + right. exists e. repeat split; auto; [lia|]. cbn in *; lra.
      - apply Rltb_false in E. destruct HZ as [A B C D]. constructor; auto. intros x [Hx| ->]; auto. }
    assert (Hk : forall c', zok (fun x => P x \/ x = e) (mkScan (sc_min z1) (sc_in z1) c')).
    { intros c'. destruct H1. constructor; auto. }
    assert (REC : forall c', 
      (exists z', scan_loop len g s (S e) (mkScan (sc_min z1) (sc_in z1) c') = Ret (inl z') /\
          zok (fun x => P x \/ (e <= x < e + S len)%nat) z') \/
      (exists e' z' ia, scan_loop len g s (S e) (mkScan (sc_min z1) (sc_in z1) c') = Ret (inr (e', z')) /\
         (e' < arc_num g)%nat /\ sc_in z' = Some ia /\ (ia < arc_num g)%nat /\ cst ia < 0)).
    { intros c'. destruct (IH (S e) _ _ (Hk c')) as [(z' & E & HZ')|H]; [lia| |right; auto].
      left. exists z'. split; auto. destruct HZ'. constructor; auto.
      intros x [Hx|Hx]; apply zk_min0; auto. destruct (Nat.eq_dec x e); auto. right; lia. }
    assert (TEST : (exists z', match sc_in z1 with
        | None => Uninitialized
        | Some ia => if nltb (sc_min z1) (nopp (nmul EPSILON (scale g s ia)))
           then Ret (inr (e, z1))
           else scan_loop len g s (S e) (mkScan (sc_min z1) (sc_in z1) (block_size g)) end = Ret (inl z') /\
          zok (fun x => P x \/ (e <= x < e + S len)%nat) z') \/
      (exists e' z' ia, match sc_in z1 with
        | None => Uninitialized
        | Some ia => if nltb (sc_min z1) (nopp (nmul EPSILON (scale g s ia)))
           then Ret (inr (e, z1))
           else scan_loop len g s (S e) (mkScan (sc_min z1) (sc_in z1) (block_size g)) end = Ret (inr (e', z')) /\
         (e' < arc_num g)%nat /\ sc_in z' = Some ia /\ (ia < arc_num g)%nat /\ cst ia < 0)).
    { destruct (sc_in z1) as [ia|] eqn:Ei; [|exfalso; apply (zk_some _ _ H1); auto].
      destruct (@nltb RNum (sc_min z1) (nopp (nmul EPSILON (scale g s ia)))) eqn:E.
      - right. apply Rltb_true in E. exists e, z1, ia. split; auto. split; [lia|]. split; auto.
        destruct (zk_arg _ _ H1) as [H|(ia' & E' & A & B & C)].
        + pose proof (thr_le ia). cbn in *; lra.
        + rewrite Ei in E'. injection E' as <-. auto.
      - specialize (REC (block_size g)). try rewrite Ei in REC. exact REC. }
    destruct (sc_cnt z1) as [|[|c']]; auto.
Qed.

Theorem find_entering_spec : in_arc s <> None -> (next_arc s <= arc_num g)%nat ->
  (exists na ia, find_entering g s = Ret (true, set_entering s (Some ia) na) /\ (na <= arc_num g)%nat /\
     (ia < arc_num g)%nat /\ cst ia < 0) \/
  (exists oia, find_entering g s = Ret (false, set_entering s oia (next_arc s)) /\ oia <> None /\
     forall A, 0 <= A -> (forall e, (e < arc_num g)%nat -> scale g s e <= A) ->
       forall e, (e < arc_num g)%nat -> - (EPS * A) <= cst e).
Proof.
  intros Hin Hna. unfold find_entering. cbn zeta.
  assert (Z0 : zok (fun _ => False) (mkScan (@n0 RNum) (in_arc s) (block_size g))).
  { constructor; cbn [sc_min sc_in]; auto. - apply Rle_refl. - contradiction. }
  destruct (scan_spec (arc_num g - next_arc s) (next_arc s) _ _ Z0) as [(z1 & E1 & H1)|(e' & z' & ia & E1 & A & B & C & D)]; [lia| |].
  2:{ left. exists e', ia. rewrite E1. cbn [bind]. rewrite B. repeat split; auto. lia. }
  rewrite E1. cbn [bind].
  destruct (scan_spec (next_arc s) 0 _ _ H1) as [(z2 & E2 & H2)|(e' & z' & ia & E2 & A & B & C & D)]; [lia| |].
  2:{ left. exists e', ia. rewrite E2. cbn [bind]. rewrite B. repeat split; auto. lia. }
  rewrite E2. cbn [bind]. destruct (sc_in z2) as [ia|] eqn:Ei; [|exfalso; apply (zk_some _ _ H2); auto].
  assert (All : forall e, (e < arc_num g)%nat -> sc_min z2 <= cst e).
  { intros e He. apply (zk_min _ _ H2). lia. }
  destruct (@nleb RNum (nopp (nmul EPSILON (scale g s ia))) (sc_min z2)) eqn:E.
  - right. apply Rleb_true in E. exists (Some ia). repeat split; auto; [discriminate|].
    intros A HA Hsc e He. specialize (All e He). pose proof EPSILON_pos as HE.
    destruct (zk_arg _ _ H2) as [H|(ia' & E' & B & C & D)].
    + rewrite H in All. assert (0 <= EPS * A) by (apply Rmult_le_pos; cbn in *; lra). cbn in *; lra.
    + rewrite Ei in E'. injection E' as <-. rewrite thr in E.
      assert (EPS * scale g s ia <= EPS * A).
      { apply Rmult_le_compat_l; [cbn in *; lra|]. auto. }
      cbn in *; lra.
  - left. apply Rleb_false in E. exists (next_arc s), ia. repeat split; auto.
    + destruct (zk_arg _ _ H2) as [H|(ia' & E' & B & C & D)].
      * pose proof (thr_le ia). cbn in *; lra.
      * rewrite Ei in E'. injection E' as <-. auto.
    + destruct (zk_arg _ _ H2) as [H|(ia' & E' & B & C & D)].
      * pose proof (thr_le ia). cbn in *; lra.
      * rewrite Ei in E'. injection E' as <-. auto.
Qed.
End Enter.
