(** The thread and rev_thread arrays after updateTreeStructure
    (network_simplex_simple.h:2025-2087) describe the new preorder list. *)
From Coq Require Import List Arith Bool Lia Permutation.
Import ListNotations.
From Verif Require Import Num NS_model NS_list.

Lemma hd_error_In : forall (l : list nat) x, hd_error l = Some x -> In x l.
Proof. destruct l; cbn; intros; [discriminate|]. inversion H; auto. Qed.

Section Thread.
Variables (th rv par ls : nat -> nat) (F : list lframe) (t0 P Q : list nat).
Variables (r0 uin uout v fuel : nat).
Let seg := LL F ++ t0 ++ RR F.
Let OUTL := t0 ++ OUT F.
Let L := P ++ seg ++ Q.
Hypothesis Hfuel : length F <= fuel.
Hypothesis HP0 : hd_error P = Some r0.
Hypothesis ND : NoDup L.
Hypothesis HT : links (fun x y => th x = y) (L ++ [r0]).
Hypothesis HR : links (fun x y => rv y = x) (L ++ [r0]).
Hypothesis Hhd : hd_error t0 = Some uin.
Hypothesis Hls0 : lasto t0 = Some (ls uin).
Hypothesis Huo : lasto (uin :: map fnode F) = Some uout.
Hypothesis Hpar : links (fun x y => par x = y) (uin :: map fnode F).
Hypothesis Hlsok : lsok ls uin F.
Hypothesis Hlsuo : lasto seg = Some (ls uout).
Hypothesis Hhdseg : hd_error seg = Some uout.
Hypothesis Hv : ~ In v seg.

Let u0 := ls uin.
Let z0 := mkStem (upd th v uin) rv par u0 (th u0) v [v].
Let old_rev := rv uout.
Let lastn := if old_rev =? v then th (ls uout) else th v.

Definition newlist (L' : list nat) : Prop :=
  (exists P1 P2, P = P1 ++ v :: P2 /\ L' = P1 ++ v :: OUTL ++ P2 ++ Q) \/
  (exists Q1 Q2, Q = Q1 ++ v :: Q2 /\ L' = P ++ Q1 ++ v :: OUTL ++ Q2).

Lemma seg_in_out : forall x, In x OUTL <-> In x seg.
Proof.
  intros x. unfold OUTL, seg. rewrite !in_app_iff, in_OUT. tauto.
Qed.

Lemma OUT_NoDup : forall G, NoDup (LL G ++ RR G) -> NoDup (OUT G).
Proof.
  induction G as [|[[s A] B] G IH]; intros H; cbn [OUT LL RR] in *; auto.
  assert (Pm : Permutation ((LL G ++ s :: A) ++ B ++ RR G) ((s :: A ++ B) ++ (LL G ++ RR G))).
  { rewrite <- app_assoc. etransitivity; [apply Permutation_app_comm|].
    cbn [app]. apply perm_skip. rewrite <- !app_assoc. apply Permutation_app_head.
    apply Permutation_app_head. apply Permutation_app_comm. }
  apply (Permutation_NoDup Pm) in H. change (s :: A ++ B ++ OUT G) with ((s :: A) ++ (B ++ OUT G)).
  assert (E : (s :: A) ++ B ++ OUT G = (s :: A ++ B) ++ OUT G) by (cbn [app]; rewrite <- app_assoc; auto).
  rewrite E. apply NoDup_app_inv in H as (H1 & H2 & H3). apply NoDup_app_intro; auto.
  intros x Hx Hy. apply in_OUT in Hy. apply (H3 x); auto. rewrite in_app_iff; auto.
Qed.

Lemma OUTL_perm : Permutation OUTL seg.
Proof.
  unfold OUTL, seg. clear.
  assert (PO : forall G, Permutation (OUT G) (LL G ++ RR G)).
  { induction G as [|[[s A] B] G IH]; cbn [OUT LL RR]; auto.
    etransitivity. { apply perm_skip. apply Permutation_app_head. apply Permutation_app_head. exact IH. }
    symmetry. rewrite <- app_assoc. etransitivity; [apply Permutation_app_comm|].
    cbn [app]. apply perm_skip. rewrite <- !app_assoc. apply Permutation_app_head.
    apply Permutation_app_head. apply Permutation_app_comm. }
  rewrite PO. rewrite !app_assoc. apply Permutation_app_tail. apply Permutation_app_comm.
Qed.

Lemma newlist_perm : forall L', newlist L' -> Permutation L' L.
Proof.
  intros L' [(P1 & P2 & EP & ->)|(Q1 & Q2 & EQ & ->)]; unfold L.
  - rewrite EP. rewrite <- app_assoc. cbn [app]. apply Permutation_app_head.
    apply perm_skip. rewrite !app_assoc. apply Permutation_app_tail.
    rewrite OUTL_perm. apply Permutation_app_comm.
  - rewrite EQ. apply Permutation_app_head.
    transitivity (Q1 ++ OUTL ++ v :: Q2).
    { apply Permutation_app_head. change (v :: OUTL ++ Q2) with ((v :: OUTL) ++ Q2).
      rewrite (Permutation_app_comm (v :: OUTL) Q2).
      rewrite (Permutation_app_comm OUTL (v :: Q2)). cbn [app].
      rewrite <- Permutation_middle. auto. }
    rewrite !app_assoc. rewrite OUTL_perm at 1.
    rewrite (Permutation_app_comm Q1 seg). auto.
Qed.

Theorem thread_update :
  exists z, stem_loop fuel ls uout uin z0 = Ret z /\
  s_u z = last OUTL 0 /\
  rpath (upd (s_par z) uout (s_pstem z)) v (uin :: map fnode F) /\
  (forall x, ~ In x (uin :: map fnode F) -> s_par z x = par x) /\
  forall L', newlist L' ->
  let th1 := upd (s_th z) (s_u z) lastn in
  let rv1 := upd (s_rv z) lastn (s_u z) in
  let detached := negb (old_rev =? v) in
  let th2 := if detached then upd th1 old_rev (s_right z) else th1 in
  let rv2 := if detached then upd rv1 (s_right z) old_rev else rv1 in
  let rv3 := fix_revs th2 (s_dirty z) rv2 in
  links (fun x y => th2 x = y) (L' ++ [r0]) /\ links (fun x y => rv3 y = x) (L' ++ [r0]).
Proof.
  pose proof ND as ND0. unfold L in ND0.
  apply NoDup_app_inv in ND0 as (NDP & ND1 & DP).
  apply NoDup_app_inv in ND1 as (NDseg & NDQ & DQ).
  assert (Hr0P : In r0 P) by (apply hd_error_In; auto).
  destruct (Q ++ [r0]) as [|q0 Q'] eqn:EQ; [destruct Q; discriminate|].
  assert (Hq0 : ~ In q0 seg).
  { destruct Q as [|q Q2]; cbn in EQ; inversion EQ; subst.
    - intros H; apply (DP q0); auto. apply in_or_app; auto.
    - intros H; apply (DQ q0); cbn; auto. }
  assert (Huinseg : In uin seg).
  { unfold seg. rewrite !in_app_iff. right; left. apply hd_error_In; auto. }
  assert (Huoseg : In uout seg) by (apply hd_error_In; auto).
  assert (Hu0seg : In u0 seg).
  { unfold seg. rewrite !in_app_iff. right; left. apply lasto_In; auto. }
  (* split the old links *)
  pose proof HT as HT'. pose proof HR as HR'. unfold L in HT', HR'.
  rewrite <- !app_assoc in HT', HR'. rewrite links_app in HT', HR'.
  destruct HT' as (HTP & HTs & HTj), HR' as (HRP & HRs & HRj).
  rewrite links_app in HTs, HRs.
  destruct HTs as (HTs & HTQ & HTj2), HRs as (HRs & HRQ & HRj2).
  rewrite EQ in HTj2, HRj2.
  assert (Hsegq : forall (R : nat -> nat -> Prop), links R seg -> junction R seg (q0 :: Q') ->
            links R (LL F ++ t0 ++ RR F ++ [q0])).
  { intros R H1 H2. replace (LL F ++ t0 ++ RR F ++ [q0]) with (seg ++ [q0]).
    2:{ unfold seg. rewrite <- !app_assoc; auto. }
    rewrite links_app. split; auto. split; cbn; auto. }
  assert (NDsq : NoDup (LL F ++ t0 ++ RR F ++ [q0])).
  { replace (LL F ++ t0 ++ RR F ++ [q0]) with (seg ++ [q0]).
    2:{ unfold seg. rewrite <- !app_assoc; auto. }
    apply NoDup_app_intro; auto. { repeat constructor; intros []. }
    intros x Hx [<-|[]]; auto. }
  assert (Hold : lasto P = Some old_rev).
  { destruct (lasto P) as [p|] eqn:E.
    - f_equal. symmetry. unfold old_rev. apply HRj; auto. rewrite hd_error_app, Hhdseg; auto.
    - apply lasto_none in E. subst P; cbn in HP0; discriminate. }
  assert (HoldP : In old_rev P) by (apply lasto_In; auto).
  destruct (stem_loop_spec F fuel ls uout q0 uin t0 z0) as
    (z & dn & R1 & R2 & R3 & R4 & R5 & R6 & R7 & R8 & R9 & R10 & R11 & R12); auto.
  { cbn [s_right s_th s_u z0]. rewrite upd_other; auto. intros E; apply Hv; rewrite <- E; auto. }
  { cbn [s_th z0]. eapply links_ext_fst; [|apply Hsegq; [exact HTs|exact HTj2]].
    intros x Hx. replace (LL F ++ t0 ++ RR F ++ [q0]) with (seg ++ [q0]) in Hx.
    2:{ unfold seg. rewrite <- !app_assoc; auto. }
    rewrite removelast_snoc in Hx. apply upd_other. intros ->; auto. }
  exists z. split; auto.
  split. { symmetry. apply lasto_last; auto. }
  split; auto. split; auto.
  fold seg in R7. fold OUTL in R2, R3, R5, R6.
  assert (R8' : forall y, ~ In y seg -> y <> q0 -> s_rv z y = rv y).
  { intros y H1 H2. apply R8. intros H. replace (LL F ++ t0 ++ RR F ++ [q0]) with (seg ++ [q0]) in H.
    2:{ unfold seg. rewrite <- !app_assoc; auto. }
    rewrite in_app_iff in H. cbn in H. intuition. }
  cbn [s_th s_rv s_dirty z0] in R4, R7.
  assert (HzuO : In (s_u z) OUTL) by (apply lasto_In; auto).
  assert (Hzuseg : In (s_u z) seg) by (apply seg_in_out; auto).
  assert (HhdO : hd_error OUTL = Some uin).
  { unfold OUTL. rewrite hd_error_app, Hhd; auto. }
  assert (NDO : NoDup OUTL).
  { apply (Permutation_NoDup (l := seg)); auto. symmetry; apply OUTL_perm. }
  intros L' HL' th1 rv1 detached th2 rv2 rv3.
  assert (NDL' : NoDup L').
  { apply (Permutation_NoDup (l := L)); auto. symmetry. apply newlist_perm; auto. }
  assert (HL'0 : hd_error L' = Some r0).
  { destruct HL' as [(P1 & P2 & EP & ->)|(Q1 & Q2 & EQ2 & ->)].
    - rewrite EP in HP0. rewrite hd_error_app in *. destruct (hd_error P1); auto.
    - rewrite hd_error_app, HP0; auto. }
  assert (Hth2 : forall x, ~ In x seg -> x <> v -> x <> old_rev -> th2 x = th x).
  { intros x H1 H2 H3. unfold th2, th1. assert (x <> s_u z) by (intros ->; auto).
    destruct detached; rewrite ?upd_other; auto; rewrite R7; auto; apply upd_other; auto. }
  assert (Hth2O : forall x, In x (removelast OUTL) -> th2 x = s_th z x).
  { intros x Hx. assert (Hs : In x seg) by (apply seg_in_out; apply In_removelast; auto).
    assert (x <> s_u z). { intros ->. revert Hx. apply NoDup_lasto_removelast; auto. }
    assert (x <> old_rev). { intros ->. apply (DP old_rev); auto. apply in_or_app; auto. }
    unfold th2, th1. destruct detached; rewrite ?upd_other; auto. }
  assert (Hth2v : th2 v = uin).
  { unfold th2, th1. assert (v <> s_u z) by (intros E; apply Hv; rewrite E; auto).
    unfold detached. destruct (Nat.eqb_spec old_rev v); cbn [negb].
    - rewrite upd_other by auto. rewrite R7 by auto. apply upd_same.
    - rewrite upd_other by auto. rewrite upd_other by auto. rewrite R7 by auto. apply upd_same. }
  assert (Hth2u : th2 (s_u z) = lastn).
  { unfold th2, th1. assert (s_u z <> old_rev).
    { intros E. apply (DP old_rev); auto. apply in_or_app; left. rewrite <- E; auto. }
    destruct detached; [rewrite upd_other by auto|]; apply upd_same. }
  assert (Hth2p : old_rev <> v -> th2 old_rev = q0).
  { intros E. unfold th2, th1, detached. destruct (Nat.eqb_spec old_rev v); [contradiction|].
    cbn [negb]. rewrite upd_same; auto. }
  assert (Hlastq : th (ls uout) = q0).
  { apply HTj2; auto. }
  (* rv2 facts *)
  assert (Hrv2 : forall y, ~ In y seg -> y <> q0 -> y <> lastn -> rv2 y = rv y).
  { intros y H1 H2 H3. unfold rv2, rv1. rewrite R10.
    destruct detached; rewrite ?upd_other; auto. }
  assert (Hlastn : ~ In lastn seg /\ (old_rev = v -> lastn = q0) /\
                   (old_rev <> v -> lastn = th v)).
  { unfold lastn. destruct (Nat.eqb_spec old_rev v) as [E|E].
    - split; [rewrite Hlastq; auto|]. split; auto. intros; contradiction.
    - split; [|split; auto; intros; contradiction].
      intros Hin.
      (* the predecessor of a segment element other than uout is in the segment *)
      destruct HL' as [(P1 & P2 & EP & _)|(Q1 & Q2 & EQ2 & _)].
      + destruct (lasto P2) eqn:EP2.
        * assert (HJ : th v = match P2 with a :: _ => a | [] => 0 end).
          { rewrite EP in HTP. rewrite links_app in HTP. destruct HTP as (_ & HTP & _).
            cbn [links] in HTP. destruct HTP as [HTP _]. destruct P2; [discriminate|]. auto. }
          destruct P2 as [|a P2]; [discriminate|]. rewrite HJ in Hin.
          apply (DP a). { rewrite EP. rewrite in_app_iff; cbn; auto. }
          apply in_or_app; auto.
        * apply lasto_none in EP2. subst P2. rewrite EP, lasto_snoc in Hold. congruence.
      + assert (HJ : In (th v) (Q ++ [r0])).
        { rewrite EQ2 in HTQ. rewrite <- app_assoc in HTQ. rewrite links_app in HTQ.
          destruct HTQ as (_ & HTQ & _). cbn [app links] in HTQ. destruct HTQ as [HTQ _].
          rewrite EQ2, <- app_assoc, in_app_iff. cbn [app In]. right; right.
          destruct (Q2 ++ [r0]) eqn:E2; [destruct Q2; discriminate|]. rewrite HTQ; cbn; auto. }
        rewrite in_app_iff in HJ. destruct HJ as [HJ|[HJ|[]]].
        * apply (DQ (th v)); auto.
        * apply (DP r0); auto. rewrite HJ. apply in_or_app; auto. }
  destruct Hlastn as (Hln1 & Hln2 & Hln3).
  assert (Hrv2O : forall y, In y seg -> rv2 y = s_rv z y).
  { intros y Hy. assert (y <> lastn) by (intros ->; auto).
    assert (y <> q0) by (intros ->; auto).
    unfold rv2, rv1. rewrite R10. destruct detached; rewrite ?upd_other; auto. }
  (* new thread links *)
  assert (NEW : links (fun x y => th2 x = y /\ (rv2 y = x \/ In x (s_dirty z))) (L' ++ [r0])).
  { set (R := fun x y => th2 x = y /\ (rv2 y = x \/ In x (s_dirty z))).
    assert (RO : links R OUTL).
    { assert (H2 : links (fun x y => s_th z x = y /\ (s_rv z y = x \/ In x dn)) OUTL).
      { clear - R2 R6. induction OUTL as [|x k IH]; auto. cbn [links] in *.
        destruct R2 as [A B], R6 as [C D]. split; auto. destruct k; auto. }
      eapply links_impl_keys; [|exact H2]. cbn beta. intros x y Hx Hy (E1 & E2). split.
      - rewrite Hth2O; auto.
      - rewrite Hrv2O. 2:{ apply seg_in_out. apply In_tl; auto. }
        rewrite R4. destruct E2; auto. right. cbn; auto. }
    assert (Rv : R v uin).
    { split; auto. right. rewrite R4. cbn; auto. }
    assert (Plain : forall l, (forall x, In x (removelast l) -> ~ In x seg /\ x <> v /\ x <> old_rev) ->
              (forall y, In y (tl l) -> ~ In y seg /\ y <> q0 /\ y <> lastn) ->
              links (fun x y => th x = y) l -> links (fun x y => rv y = x) l -> links R l).
    { intros l H1 H2 H3 H4.
      assert (H5 : links (fun x y => th x = y /\ rv y = x) l).
      { clear - H3 H4. induction l as [|x k IH]; auto. cbn [links] in *.
        destruct H3 as [A B], H4 as [C D]. split; auto. destruct k; auto. }
      eapply links_impl_keys; [|exact H5]. cbn beta. intros x y Hx Hy (E1 & E2).
      destruct (H1 x Hx) as (A1 & A2 & A3). destruct (H2 y Hy) as (B1 & B2 & B3). split.
      - rewrite Hth2; auto.
      - left. rewrite Hrv2; auto. }
    assert (Ptl : forall y, In y (tl P) -> y <> r0).
    { intros y Hy ->. revert Hy. apply NoDup_hd_tl; auto. }
    assert (PQ : forall x, In x P -> In x Q -> False).
    { intros x H1 H2. apply (DP x); auto. apply in_or_app; auto. }
    assert (Pq0 : forall y, In y (tl P) -> y <> q0).
    { intros y Hy E. assert (Hh : hd_error (Q ++ [r0]) = Some y) by (rewrite EQ, E; auto).
      rewrite hd_error_app in Hh. destruct (hd_error Q) as [q|] eqn:E2; inversion Hh.
      - apply (PQ y); [apply In_tl; auto|]. apply hd_error_In; congruence.
      - apply (Ptl y); auto. }
    assert (Pseg : forall x, In x P -> ~ In x seg).
    { intros x H1 H2. apply (DP x); auto. apply in_or_app; auto. }
    assert (Qseg : forall x, In x Q -> ~ In x seg).
    { intros x H1 H2. apply (DQ x); auto. }
    assert (EQ' : Q' = tl (Q ++ [r0])). { rewrite EQ; auto. }
    assert (NDq : NoDup (Q ++ [r0])).
    { apply NoDup_app_intro; auto. { repeat constructor; intros []. }
      intros x Hx [<-|[]]. apply (PQ r0); auto. }
    destruct HL' as [(P1 & P2 & EP & ->)|(Q1 & Q2 & EQ2 & ->)].
    - (* v in P *)
      replace ((P1 ++ v :: OUTL ++ P2 ++ Q) ++ [r0]) with
        ((P1 ++ [v]) ++ OUTL ++ P2 ++ (Q ++ [r0])).
      2:{ rewrite <- !app_assoc. cbn [app]. rewrite <- !app_assoc. auto. }
      destruct P2 as [|a P2].
      + (* old_rev = v *)
        assert (Ev : old_rev = v) by (rewrite EP, lasto_snoc in Hold; congruence).
        specialize (Hln2 Ev). cbn [app]. rewrite links_app. split; [|split].
        * apply Plain.
          -- intros x Hx. rewrite removelast_snoc in Hx.
             assert (In x P) by (rewrite EP, in_app_iff; auto).
             assert (x <> v). { intros ->. rewrite EP in NDP. apply NoDup_app_inv in NDP as (_ & _ & D).
                                apply (D v); cbn; auto. }
             repeat split; auto. congruence.
          -- intros y Hy. rewrite <- EP in Hy. rewrite Hln2.
             repeat split; auto. apply Pseg. apply In_tl; auto.
          -- rewrite <- EP; auto.
          -- rewrite <- EP; auto.
        * rewrite links_app. split; [|split]; auto.
          -- apply Plain; auto.
             ++ rewrite removelast_snoc. intros x Hx. repeat split; auto.
                ** intros ->. apply (PQ v); auto. rewrite EP, in_app_iff; cbn; auto.
                ** rewrite Ev. intros ->. apply (PQ v); auto. rewrite EP, in_app_iff; cbn; auto.
             ++ intros y Hy. rewrite Hln2. assert (y <> q0).
                { intros ->. revert Hy. apply NoDup_hd_tl; auto. rewrite EQ; auto. }
                repeat split; auto. apply In_tl in Hy. rewrite in_app_iff in Hy.
                destruct Hy as [Hy|[<-|[]]]; auto.
          -- intros x y Hx Hy. rewrite R3 in Hx. inversion Hx; subst x.
             rewrite EQ in Hy. cbn in Hy. inversion Hy; subst y. split.
             ++ rewrite Hth2u; auto.
             ++ left. unfold rv2, rv1, detached. rewrite Ev, Nat.eqb_refl. cbn [negb].
                rewrite Hln2. apply upd_same.
        * intros x y Hx Hy. rewrite lasto_snoc in Hx. inversion Hx; subst x.
          rewrite hd_error_app, HhdO in Hy. inversion Hy; subst y. auto.
      + (* v inside P, not last *)
        assert (Ev : old_rev <> v).
        { rewrite EP in Hold, NDP. change (v :: a :: P2) with ([v] ++ (a :: P2)) in Hold, NDP.
          rewrite app_assoc in Hold, NDP. rewrite lasto_app in Hold.
          destruct (lasto_cons a P2) as [w Hw]. rewrite Hw in Hold. inversion Hold; subst w.
          apply lasto_In in Hw. apply NoDup_app_inv in NDP as (_ & _ & D).
          intros ->. apply (D v); auto. apply in_or_app; cbn; auto. }
        specialize (Hln3 Ev).
        assert (Ela : lastn = a).
        { rewrite Hln3. rewrite EP in HTP. rewrite links_app in HTP.
          destruct HTP as (_ & HTP & _). cbn [links] in HTP. apply HTP. }
        assert (Hold2 : lasto (a :: P2) = Some old_rev).
        { rewrite EP in Hold. change (v :: a :: P2) with ([v] ++ (a :: P2)) in Hold.
          rewrite app_assoc in Hold. rewrite lasto_app in Hold.
          destruct (lasto_cons a P2) as [w Hw]. rewrite Hw in Hold. congruence. }
        assert (NDP' := NDP). rewrite EP in NDP'. change (v :: a :: P2) with ([v] ++ (a :: P2)) in NDP'.
        rewrite app_assoc in NDP'. apply NoDup_app_inv in NDP' as (NDv & NDa & Dva).
        assert (HTP' := HTP). assert (HRP' := HRP). rewrite EP in HTP', HRP'.
        change (v :: a :: P2) with ([v] ++ (a :: P2)) in HTP', HRP'.
        rewrite app_assoc in HTP', HRP'. rewrite links_app in HTP', HRP'.
        destruct HTP' as (HTv & HTa & _), HRP' as (HRv & HRa & _).
        assert (InP : forall x, In x (P1 ++ [v]) \/ In x (a :: P2) -> In x P).
        { intros x H. rewrite EP. change (v :: a :: P2) with ([v] ++ (a :: P2)).
          rewrite app_assoc. apply in_or_app; auto. }
        assert (Htla : forall y, In y (a :: P2) -> In y (tl P)).
        { intros y Hy. rewrite EP. destruct P1; cbn [app tl]; auto. rewrite in_app_iff. cbn. auto. }
        assert (Htlv : forall y, In y (tl (P1 ++ [v])) -> In y (tl P)).
        { intros y Hy. rewrite EP. destruct P1; cbn [app tl] in *; [contradiction|].
          rewrite in_app_iff in *. cbn in *. tauto. }
        assert (Aq : a <> q0) by (apply Pq0; apply Htla; cbn; auto).
        rewrite links_app. split; [|split].
        * apply Plain; auto.
          -- intros x Hx. rewrite removelast_snoc in Hx.
             assert (In x P) by (apply InP; left; apply in_or_app; auto).
             repeat split; auto.
             ++ intros ->. apply NoDup_app_inv in NDv as (_ & _ & D). apply (D v); cbn; auto.
             ++ intros ->. apply (Dva old_rev); [apply in_or_app; auto|]. apply lasto_In; auto.
          -- intros y Hy. rewrite Ela. repeat split.
             ++ apply Pseg. apply In_tl. apply Htlv; auto.
             ++ apply Pq0. apply Htlv; auto.
             ++ intros ->. apply (Dva a); [apply In_tl; auto|cbn; auto].
        * rewrite links_app. split; [|split]; auto.
          -- rewrite links_app. split; [|split].
             ++ apply Plain; auto.
                ** intros x Hx. assert (x <> old_rev).
                   { intros ->. revert Hx. apply NoDup_lasto_removelast; auto. }
                   apply In_removelast in Hx. repeat split; auto.
                   intros ->. apply (Dva v); auto. apply in_or_app; cbn; auto.
                ** intros y Hy. rewrite Ela. repeat split.
                   --- apply Pseg. apply InP. right. apply In_tl; auto.
                   --- apply Pq0. apply Htla. apply In_tl; auto.
                   --- intros ->. revert Hy. apply NoDup_hd_tl; auto.
             ++ apply Plain; auto.
                ** rewrite removelast_snoc. intros x Hx. repeat split; auto.
                   --- intros ->. apply (PQ v); auto. apply InP; left; apply in_or_app; cbn; auto.
                   --- intros ->. apply (PQ old_rev); auto.
                ** intros y Hy. rewrite Ela. repeat split.
                   --- apply In_tl in Hy. rewrite in_app_iff in Hy.
                       destruct Hy as [Hy|[<-|[]]]; auto.
                   --- intros ->. revert Hy. apply NoDup_hd_tl; auto. rewrite EQ; auto.
                   --- intros ->. apply In_tl in Hy. rewrite in_app_iff in Hy.
                       destruct Hy as [Hy|[Hy|[]]].
                       +++ apply (PQ a); auto. apply InP; right; cbn; auto.
                       +++ apply (Ptl a); auto. apply Htla; cbn; auto.
             ++ intros x y Hx Hy. rewrite Hold2 in Hx. inversion Hx; subst x.
                rewrite EQ in Hy. cbn in Hy. inversion Hy; subst y. split; auto.
                left. unfold rv2, detached. destruct (Nat.eqb_spec old_rev v); [contradiction|].
                cbn [negb]. rewrite R10. apply upd_same.
          -- intros x y Hx Hy. rewrite R3 in Hx. inversion Hx; subst x.
             cbn in Hy. inversion Hy; subst y. split.
             ++ rewrite Hth2u; auto.
             ++ left. unfold rv2, rv1, detached. destruct (Nat.eqb_spec old_rev v); [contradiction|].
                cbn [negb]. rewrite R10. rewrite upd_other by auto. rewrite Ela. apply upd_same.
        * intros x y Hx Hy. rewrite lasto_snoc in Hx. inversion Hx; subst x.
          rewrite hd_error_app, HhdO in Hy. inversion Hy; subst y. auto.
    - (* v in Q *)
      assert (HvQ : In v Q) by (rewrite EQ2, in_app_iff; cbn; auto).
      assert (Ev : old_rev <> v). { intros E. apply (PQ v); auto. rewrite <- E; auto. }
      specialize (Hln3 Ev).
      replace ((P ++ Q1 ++ v :: OUTL ++ Q2) ++ [r0]) with
        (P ++ (Q1 ++ [v]) ++ OUTL ++ (Q2 ++ [r0])).
      2:{ rewrite <- !app_assoc. cbn [app]. rewrite <- !app_assoc. auto. }
      assert (EQr : Q ++ [r0] = (Q1 ++ [v]) ++ (Q2 ++ [r0])).
      { rewrite EQ2. rewrite <- !app_assoc. cbn [app]. auto. }
      assert (Ela : hd_error (Q2 ++ [r0]) = Some lastn).
      { rewrite Hln3. rewrite EQr in HTQ. rewrite links_app in HTQ. destruct HTQ as (_ & _ & HJ).
        destruct (Q2 ++ [r0]) as [|b Q3] eqn:E3; [destruct Q2; discriminate|]. cbn. f_equal.
        symmetry. apply HJ; auto. apply lasto_snoc. }
      rewrite EQr in NDq. pose proof NDq as NDq2. apply NoDup_app_inv in NDq2 as (NDv & ND2 & Dv2).
      rewrite EQr in HTQ, HRQ. rewrite links_app in HTQ, HRQ.
      destruct HTQ as (HTv & HT2 & _), HRQ as (HRv & HR2 & _).
      assert (InQ : forall x, In x (Q1 ++ [v]) \/ In x Q2 -> In x Q).
      { intros x H. rewrite EQ2. rewrite in_app_iff in *. cbn in *. tauto. }
      assert (Hq0v : hd_error (Q1 ++ [v]) = Some q0).
      { rewrite EQr in EQ. destruct (Q1 ++ [v]) eqn:E4; [destruct Q1; discriminate|].
        cbn in EQ. inversion EQ; auto. }
      assert (Hl2 : In lastn (Q2 ++ [r0])) by (apply hd_error_In; auto).
      assert (Hlq : lastn <> q0).
      { intros E. apply (Dv2 q0); [apply hd_error_In; auto|]. rewrite <- E; auto. }
      rewrite links_app. split; [|split].
      + apply Plain; auto.
        * intros x Hx. assert (x <> old_rev).
          { intros ->. revert Hx. apply NoDup_lasto_removelast; auto. }
          apply In_removelast in Hx. repeat split; auto. intros ->. apply (PQ v); auto.
        * intros y Hy. repeat split; auto.
          -- apply Pseg. apply In_tl; auto.
          -- intros ->. rewrite in_app_iff in Hl2. destruct Hl2 as [H|[H|[]]].
             ++ apply (PQ lastn); auto. apply In_tl; auto.
             ++ apply (Ptl lastn); auto.
      + rewrite links_app. split; [|split].
        * apply Plain; auto.
          -- rewrite removelast_snoc. intros x Hx.
             assert (In x Q) by (apply InQ; left; apply in_or_app; auto). repeat split; auto.
             ++ intros ->. apply NoDup_app_inv in NDv as (_ & _ & D). apply (D v); cbn; auto.
             ++ intros ->. apply (PQ old_rev); auto.
          -- intros y Hy. repeat split.
             ++ apply Qseg. apply InQ; left; apply In_tl; auto.
             ++ intros ->. revert Hy. apply NoDup_hd_tl; auto.
             ++ intros ->. apply (Dv2 lastn); auto. apply In_tl; auto.
        * rewrite links_app. split; [|split]; auto.
          -- apply Plain; auto.
             ++ rewrite removelast_snoc. intros x Hx.
                assert (In x Q) by (apply InQ; auto). repeat split; auto.
                ** intros ->. apply (Dv2 v); apply in_or_app; cbn; auto.
                ** intros ->. apply (PQ old_rev); auto.
             ++ intros y Hy. repeat split.
                ** apply In_tl in Hy. rewrite in_app_iff in Hy. destruct Hy as [Hy|[<-|[]]]; auto.
                ** intros ->. apply In_tl in Hy. apply (Dv2 q0); auto. apply hd_error_In; auto.
                ** intros ->. revert Hy. apply NoDup_hd_tl; auto.
          -- intros x y Hx Hy. rewrite R3 in Hx. inversion Hx; subst x.
             rewrite Ela in Hy. inversion Hy; subst y. split; auto.
             left. unfold rv2, rv1, detached. destruct (Nat.eqb_spec old_rev v); [contradiction|].
             cbn [negb]. rewrite R10. rewrite upd_other by auto. apply upd_same.
        * intros x y Hx Hy. rewrite lasto_snoc in Hx. inversion Hx; subst x.
          rewrite hd_error_app, HhdO in Hy. inversion Hy; subst y. auto.
      + intros x y Hx Hy. rewrite Hold in Hx. inversion Hx; subst x.
        rewrite hd_error_app, Hq0v in Hy. inversion Hy; subst y. split; auto.
        left. unfold rv2, detached. destruct (Nat.eqb_spec old_rev v); [contradiction|].
        cbn [negb]. rewrite R10. apply upd_same. }
  assert (NT : links (fun x y => th2 x = y) (L' ++ [r0])).
  { eapply links_impl; [|exact NEW]. cbn beta; tauto. }
  split; auto.
  apply fix_revs_links; auto.
  - eapply links_impl; [|exact NEW]. cbn beta; tauto.
  - intros d Hd. rewrite R4 in Hd. cbn [app] in Hd.
    assert (Hm : forall x, x = v \/ In x OUTL -> In x L').
    { intros x Hx. destruct HL' as [(P1 & P2 & EP & ->)|(Q1 & Q2 & EQ2 & ->)].
      - rewrite in_app_iff. cbn [In]. rewrite in_app_iff. intuition.
      - rewrite !in_app_iff. cbn [In]. rewrite in_app_iff. intuition. }
    destruct Hd as [<-|Hd]; apply Hm; auto.
Qed.

End Thread.
