(** Doubly linked lists stored in arrays: the thread/rev_thread surgery of
    updateTreeStructure (network_simplex_simple.h:2025-2087) at the level of the
    preorder list. *)
From Coq Require Import List Arith Bool Lia Permutation.
Import ListNotations.
From Verif Require Import Num NS_model.

Lemma upd_same : forall A (f : nat -> A) i v, upd f i v i = v.
Proof. intros; unfold upd; rewrite Nat.eqb_refl; auto. Qed.
Lemma upd_other : forall A (f : nat -> A) i v j, j <> i -> upd f i v j = f j.
Proof. intros; unfold upd. destruct (Nat.eqb_spec j i); congruence. Qed.

(** consecutive elements are related *)
Fixpoint links (R : nat -> nat -> Prop) (l : list nat) : Prop :=
  match l with
  | x :: l' => match l' with y :: _ => R x y | [] => True end /\ links R l'
  | [] => True
  end.

Fixpoint lasto (l : list nat) : option nat :=
  match l with [] => None | x :: l' => match lasto l' with None => Some x | Some y => Some y end end.

Definition junction (R : nat -> nat -> Prop) (l1 l2 : list nat) : Prop :=
  forall x y, lasto l1 = Some x -> hd_error l2 = Some y -> R x y.

Lemma lasto_app : forall l1 l2, lasto (l1 ++ l2) = match lasto l2 with None => lasto l1 | o => o end.
Proof.
  induction l1 as [|x l1 IH]; intros; cbn [app lasto].
  - destruct (lasto l2); auto.
  - rewrite IH. destruct (lasto l2); auto.
Qed.
Lemma lasto_snoc : forall l x, lasto (l ++ [x]) = Some x.
Proof. intros; rewrite lasto_app; auto. Qed.
Lemma lasto_cons : forall x l, exists y, lasto (x :: l) = Some y.
Proof. intros; cbn. destruct (lasto l); eauto. Qed.
Lemma lasto_In : forall l x, lasto l = Some x -> In x l.
Proof.
  induction l as [|y l IH]; cbn; intros x H; [discriminate|].
  destruct (lasto l); inversion H; subst; auto.
Qed.
Lemma lasto_split : forall l x, lasto l = Some x -> exists l', l = l' ++ [x].
Proof.
  induction l as [|y l IH]; cbn; intros x H; [discriminate|].
  destruct (lasto l) as [z|] eqn:E.
  - inversion H; subst. destruct (IH _ eq_refl) as [l' ->]. exists (y :: l'); auto.
  - inversion H; subst. destruct l; [exists []; auto|]. destruct (lasto_cons n l); congruence.
Qed.
Lemma lasto_none : forall l, lasto l = None -> l = [].
Proof. destruct l; auto. intros H. destruct (lasto_cons n l); congruence. Qed.
Lemma lasto_last : forall l x d, lasto l = Some x -> last l d = x.
Proof.
  intros l x d H. destruct (lasto_split _ _ H) as [l' ->]. apply last_last.
Qed.
Lemma lasto_last' : forall l d, l <> [] -> lasto l = Some (last l d).
Proof.
  intros l d H. destruct (lasto l) eqn:E. { rewrite (lasto_last _ _ d E); auto. }
  apply lasto_none in E; contradiction.
Qed.

Lemma hd_error_app : forall (l1 l2 : list nat),
  hd_error (l1 ++ l2) = match hd_error l1 with None => hd_error l2 | o => o end.
Proof. destruct l1; auto. Qed.

Lemma links_app : forall R l1 l2,
  links R (l1 ++ l2) <-> links R l1 /\ links R l2 /\ junction R l1 l2.
Proof.
  intros R; induction l1 as [|x l1 IH]; intros l2; cbn [app links].
  - unfold junction; cbn [lasto]. intuition discriminate.
  - rewrite IH. destruct l1 as [|z l1].
    + cbn [app]. destruct l2 as [|y l2].
      * unfold junction; cbn. intuition discriminate.
      * unfold junction; cbn [lasto hd_error links]. split.
        -- intros (H1 & _ & H2 & _). repeat split; auto; try apply H2.
           intros a b Ha Hb; inversion Ha; inversion Hb; subst; auto.
        -- intros ((_ & _) & H2 & H3). repeat split; auto; try apply H2.
           intros; discriminate.
    + cbn [app]. assert (E : junction R (x :: z :: l1) l2 <-> junction R (z :: l1) l2).
      { unfold junction. destruct (lasto_cons z l1) as [w Hw].
        assert (Hx : lasto (x :: z :: l1) = Some w).
        { change (match lasto (z :: l1) with None => Some x | Some y => Some y end = Some w).
          rewrite Hw; auto. }
        rewrite Hx, Hw. tauto. }
      rewrite E. tauto.
Qed.

Lemma links_impl : forall (R R' : nat -> nat -> Prop) l,
  (forall x y, In x l -> In y (tl l) -> R x y -> R' x y) -> links R l -> links R' l.
Proof.
  intros R R'; induction l as [|x l IH]; intros H HL; auto.
  cbn [links] in *. destruct HL as [H1 H2]. split.
  - destruct l as [|y l]; auto. apply H; cbn; auto.
  - apply IH; auto. intros a b Ha Hb. apply H; cbn; auto.
    destruct l; cbn in *; auto; contradiction.
Qed.

(** the precise key sets: first components are [removelast], second ones [tl] *)
Lemma links_impl_keys : forall (R R' : nat -> nat -> Prop) l,
  (forall x y, In x (removelast l) -> In y (tl l) -> R x y -> R' x y) -> links R l -> links R' l.
Proof.
  intros R R'; induction l as [|x l IH]; intros H HL; auto.
  cbn [links] in *. destruct HL as [H1 H2]. split.
  - destruct l as [|y l]; auto. apply H; cbn; auto.
  - apply IH; auto. intros a b Ha Hb. apply H.
    + destruct l; [contradiction|]. cbn [removelast] in *; right; auto.
    + destruct l; [contradiction|]. cbn [tl] in *; right; auto.
Qed.

Lemma removelast_snoc : forall (l : list nat) x, removelast (l ++ [x]) = l.
Proof. intros; apply removelast_last. Qed.

Lemma links_In_fst : forall R l r x, links R (l ++ [r]) -> In x l ->
  exists y, In y (tl (l ++ [r])) /\ R x y.
Proof.
  intros R l r x HL Hx. apply in_split in Hx as (l1 & l2 & ->).
  rewrite <- app_assoc in HL. cbn [app] in HL. rewrite links_app in HL.
  destruct HL as (_ & HL & _). cbn [links] in HL. destruct HL as [HL _].
  destruct (l2 ++ [r]) as [|y l3] eqn:E. { destruct l2; discriminate. }
  exists y; split; auto. rewrite <- app_assoc. cbn [app]. rewrite E.
  destruct l1; cbn; auto. rewrite in_app_iff. cbn; auto.
Qed.

Lemma links_fun_map : forall (f : nat -> nat) l r,
  links (fun x y => f x = y) (l ++ [r]) -> map f l = tl (l ++ [r]).
Proof.
  induction l as [|x l IH]; intros r H; auto.
  cbn [app links] in H. destruct H as [H1 H2]. cbn [map app tl].
  rewrite (IH r H2). destruct (l ++ [r]) eqn:E; [destruct l; discriminate|].
  cbn [tl]. rewrite H1; auto.
Qed.

Lemma NoDup_map_inj : forall (f : nat -> nat) l, NoDup (map f l) ->
  forall x y, In x l -> In y l -> f x = f y -> x = y.
Proof.
  induction l as [|a l IH]; cbn; intros ND x y Hx Hy E; [contradiction|].
  inversion ND; subst.
  destruct Hx as [->|Hx], Hy as [->|Hy]; auto.
  - exfalso; apply H1; rewrite E; apply in_map; auto.
  - exfalso; apply H1; rewrite <- E; apply in_map; auto.
Qed.

Lemma NoDup_rot : forall (l : list nat) r, NoDup l -> hd_error l = Some r -> NoDup (tl (l ++ [r])).
Proof.
  intros [|x l] r ND H; cbn in *; [discriminate|]. inversion H; subst.
  inversion ND; subst.
  apply (Permutation.Permutation_NoDup (l := r :: l)); auto.
  apply Permutation.Permutation_cons_append.
Qed.

Lemma links_inj : forall (th : nat -> nat) l r, NoDup l -> hd_error l = Some r ->
  links (fun x y => th x = y) (l ++ [r]) ->
  forall x y, In x l -> In y l -> th x = th y -> x = y.
Proof.
  intros th l r ND Hr HL. apply NoDup_map_inj.
  rewrite (links_fun_map _ _ _ HL). apply NoDup_rot; auto.
Qed.

(** *** fix_revs *)
Lemma fix_revs_spec : forall th dirty rv y,
  (exists d, In d dirty /\ th d = y /\ fix_revs th dirty rv y = d) \/
  ((forall d, In d dirty -> th d <> y) /\ fix_revs th dirty rv y = rv y).
Proof.
  intros th; induction dirty as [|d dirty IH]; intros rv y.
  - right; split; auto.
  - cbn [fix_revs fold_left]. destruct (IH (upd rv (th d) d) y) as [(d' & H1 & H2 & H3)|[H1 H2]].
    + left; exists d'; cbn; auto.
    + destruct (Nat.eq_dec (th d) y) as [E|E].
      * left; exists d. split; [cbn; auto|]. split; auto.
        unfold fix_revs in H2. rewrite H2. subst y. apply upd_same.
      * right. split.
        -- intros d' [->|Hd]; auto.
        -- unfold fix_revs in H2. rewrite H2. apply upd_other; auto.
Qed.

Lemma fix_revs_links : forall th dirty rv l r, NoDup l -> hd_error l = Some r ->
  links (fun x y => th x = y) (l ++ [r]) ->
  links (fun x y => rv y = x \/ In x dirty) (l ++ [r]) ->
  (forall d, In d dirty -> In d l) ->
  links (fun x y => fix_revs th dirty rv y = x) (l ++ [r]).
Proof.
  intros th dirty rv l r ND Hr HT HR HD.
  assert (H2 : links (fun x y => th x = y /\ (rv y = x \/ In x dirty)) (l ++ [r])).
  { clear - HT HR. induction (l ++ [r]) as [|x k IH]; auto. cbn [links] in *.
    destruct HT as [A B], HR as [C D]. split; auto. destruct k; auto. }
  eapply links_impl_keys; [|exact H2]. rewrite removelast_snoc.
  cbn beta. intros x y Hx _ (E & H).
  destruct (fix_revs_spec th dirty rv y) as [(d & D1 & D2 & D3)|[D1 D2]].
  - rewrite D3. apply (links_inj th l r); auto. congruence.
  - rewrite D2. destruct H; auto. exfalso; apply (D1 x); auto.
Qed.

(** *** the stem loop *)
(** a stem frame: node, preorder of its children left / right of the stem *)
Definition lframe := (nat * list nat * list nat)%type.
Definition fnode (f : lframe) : nat := fst (fst f).
Fixpoint LL (F : list lframe) : list nat :=
  match F with [] => [] | (s, A, B) :: F' => LL F' ++ s :: A end.
Fixpoint RR (F : list lframe) : list nat :=
  match F with [] => [] | (s, A, B) :: F' => B ++ RR F' end.
Fixpoint OUT (F : list lframe) : list nat :=
  match F with [] => [] | (s, A, B) :: F' => s :: A ++ B ++ OUT F' end.

(** last_succ along the stem *)
Fixpoint lsok (ls : nat -> nat) (prev : nat) (F : list lframe) : Prop :=
  match F with
  | [] => True
  | (s, A, B) :: F' =>
    (match lasto B with
     | None => ls s = ls prev
     | Some x => ls s = x /\ ls s <> ls prev
     end) /\ lsok ls s F'
  end.

Fixpoint rpath (par : nat -> nat) (p : nat) (l : list nat) : Prop :=
  match l with [] => True | x :: l' => par x = p /\ rpath par x l' end.

Lemma rpath_ext : forall par par' l p, (forall x, In x l -> par' x = par x) ->
  rpath par p l -> rpath par' p l.
Proof.
  induction l; cbn; intros p H HP; auto. destruct HP. split.
  - rewrite H; auto.
  - apply IHl; auto.
Qed.

Lemma in_LL : forall x s A B F, In x (LL ((s, A, B) :: F)) <-> In x (LL F) \/ x = s \/ In x A.
Proof. intros; cbn; rewrite in_app_iff; cbn; intuition. Qed.
Lemma in_RR : forall x s A B F, In x (RR ((s, A, B) :: F)) <-> In x B \/ In x (RR F).
Proof. intros; cbn; rewrite in_app_iff; cbn; intuition. Qed.
Lemma in_OUT : forall F x, In x (OUT F) <-> In x (LL F) \/ In x (RR F).
Proof.
  induction F as [|[[s A] B] F IH]; intros x.
  - cbn; tauto.
  - rewrite in_LL, in_RR. cbn [OUT In]. rewrite !in_app_iff, IH. intuition.
Qed.

Lemma links_upd_fst : forall (th : nat -> nat) u w l (C : nat -> Prop),
  ~ In u (removelast l) ->
  links (fun x y => C x -> th x = y) l -> links (fun x y => C x -> upd th u w x = y) l.
Proof.
  intros th u w l C Hu. apply links_impl_keys. intros x y Hx _ H Hc.
  rewrite upd_other; auto. intros ->; auto.
Qed.

Lemma NoDup_app_inv : forall (l1 l2 : list nat), NoDup (l1 ++ l2) ->
  NoDup l1 /\ NoDup l2 /\ (forall x, In x l1 -> In x l2 -> False).
Proof.
  induction l1 as [|x l1 IH]; cbn; intros l2 H.
  - repeat split; auto; constructor.
  - inversion H; subst. destruct (IH _ H3) as (A & B & C). repeat split; auto.
    + constructor; auto. intros Hx; apply H2; apply in_or_app; auto.
    + intros y [->|Hy] Hy2; [apply H2; apply in_or_app; auto|eauto].
Qed.
Lemma NoDup_app_intro : forall (l1 l2 : list nat), NoDup l1 -> NoDup l2 ->
  (forall x, In x l1 -> In x l2 -> False) -> NoDup (l1 ++ l2).
Proof.
  induction l1 as [|x l1 IH]; cbn; intros l2 H1 H2 H3; auto.
  inversion H1; subst. constructor.
  - rewrite in_app_iff. intros [A|A]; auto. apply (H3 x); auto.
  - apply IH; auto. intros y A B; apply (H3 y); auto.
Qed.

Ltac inapp := repeat (rewrite in_app_iff in * || cbn [In] in * ).

Lemma links_ext_fst : forall (th th' : nat -> nat) l,
  (forall x, In x (removelast l) -> th' x = th x) ->
  links (fun x y => th x = y) l -> links (fun x y => th' x = y) l.
Proof.
  intros th th' l H. apply links_impl_keys. intros x y Hx _ E. rewrite H; auto.
Qed.
Lemma links_ext_snd : forall (rv rv' : nat -> nat) l,
  (forall y, In y (tl l) -> rv' y = rv y) ->
  links (fun x y => rv y = x) l -> links (fun x y => rv' y = x) l.
Proof.
  intros th th' l H. apply links_impl_keys. intros x y _ Hy E. rewrite H; auto.
Qed.
Lemma In_removelast : forall (l : list nat) x, In x (removelast l) -> In x l.
Proof.
  induction l as [|y l IH]; cbn; intros x H; auto. destruct l; [contradiction|].
  cbn [In] in H. destruct H; auto.
Qed.
Lemma In_tl : forall (l : list nat) x, In x (tl l) -> In x l.
Proof. destruct l; cbn; auto. Qed.
Lemma NoDup_lasto_removelast : forall l x, NoDup l -> lasto l = Some x -> ~ In x (removelast l).
Proof.
  intros l x ND H. destruct (lasto_split _ _ H) as [l' ->]. rewrite removelast_snoc.
  apply NoDup_app_inv in ND as (_ & _ & D). intros Hx; apply (D x); cbn; auto.
Qed.
Lemma NoDup_hd_tl : forall (l : list nat) x, NoDup l -> hd_error l = Some x -> ~ In x (tl l).
Proof. intros [|y l] x ND H; cbn in *; [discriminate|]. inversion H; subst. inversion ND; auto. Qed.

Lemma stem_loop_spec : forall F fuel ls uout q0 stem cur z,
  length F <= fuel ->
  NoDup (LL F ++ cur ++ RR F ++ [q0]) ->
  hd_error cur = Some stem -> lasto cur = Some (s_u z) ->
  s_right z = s_th z (s_u z) ->
  lasto (stem :: map fnode F) = Some uout ->
  links (fun x y => s_th z x = y) (LL F ++ cur ++ RR F ++ [q0]) ->
  links (fun x y => s_rv z y = x) (LL F ++ cur ++ RR F ++ [q0]) ->
  links (fun x y => s_par z x = y) (stem :: map fnode F) ->
  lsok ls stem F ->
  exists z' dn, stem_loop fuel ls uout stem z = Ret z' /\
    links (fun x y => s_th z' x = y) (cur ++ OUT F) /\
    lasto (cur ++ OUT F) = Some (s_u z') /\
    s_dirty z' = s_dirty z ++ dn /\ (forall d, In d dn -> In d (cur ++ OUT F)) /\
    links (fun x y => s_rv z' y = x \/ In x dn) (cur ++ OUT F) /\
    (forall x, ~ In x (LL F ++ cur ++ RR F) -> s_th z' x = s_th z x) /\
    (forall y, ~ In y (LL F ++ cur ++ RR F ++ [q0]) -> s_rv z' y = s_rv z y) /\
    s_rv z' q0 = s_u z' /\ s_right z' = q0 /\
    rpath (upd (s_par z') uout (s_pstem z')) (s_pstem z) (stem :: map fnode F) /\
    (forall x, ~ In x (stem :: map fnode F) -> s_par z' x = s_par z x).
Proof.
  induction F as [|[[s A] B] F IH]; intros fuel ls uout q0 stem cur z Hf ND Hhd Hlast Hright Huo HT HR HP HL.
  - cbn [map LL RR OUT app] in *. cbn [lasto] in Huo. inversion Huo; subst uout.
    exists z, []. rewrite !app_nil_r.
    rewrite links_app in HT, HR. destruct HT as (HT1 & _ & HT2), HR as (HR1 & _ & HR2).
    split. { destruct fuel; cbn [stem_loop]; rewrite Nat.eqb_refl; auto. }
    split; auto. split; auto. split; auto. split. { intros d []. }
    split. { eapply links_impl; [|exact HR1]. cbn; auto. }
    split; auto. split; auto.
    split. { apply HR2; auto. }
    split. { rewrite Hright. apply HT2; auto. }
    split; auto. cbn [rpath]. split; auto. apply upd_same.
  - (* facts *)
    assert (Hstemcur : In stem cur).
    { destruct cur; cbn in Hhd; [discriminate|]. inversion Hhd; subst; cbn; auto. }
    assert (Hucur : In (s_u z) cur) by (apply lasto_In; auto).
    cbn [LL RR] in *.
    set (w1 := s :: A) in *.
    assert (EM : (LL F ++ w1) ++ cur ++ (B ++ RR F) ++ [q0] =
                 (LL F ++ w1) ++ cur ++ (B ++ RR F ++ [q0])).
    { rewrite <- !app_assoc; auto. }
    rewrite EM in ND, HT, HR. clear EM.
    set (tail := B ++ RR F ++ [q0]) in *.
    apply NoDup_app_inv in ND as (NDl & ND2 & Dl).
    apply NoDup_app_inv in ND2 as (NDc & NDt & Dc).
    rewrite links_app in HT, HR.
    destruct HT as (HTl & HT2 & HTj), HR as (HRl & HR2 & HRj).
    rewrite links_app in HT2, HR2.
    destruct HT2 as (HTc & HTt & HTj2), HR2 as (HRc & HRt & HRj2).
    (* w = last of s::A *)
    destruct (lasto_cons s A) as [w Hw]. fold w1 in Hw.
    assert (Ew : s_rv z stem = w).
    { apply HRj. { rewrite lasto_app, Hw; auto. }
      rewrite hd_error_app, Hhd; auto. }
    assert (Hwl : In w (LL F ++ w1)). { apply in_or_app; right; apply lasto_In; auto. }
    destruct tail as [|t0 tl0] eqn:Etail. { destruct B; [destruct (RR F); discriminate|discriminate]. }
    rewrite <- Etail in *.
    assert (Ehdt : hd_error tail = Some t0) by (rewrite Etail; auto).
    assert (Eright : s_right z = t0).
    { rewrite Hright. apply HTj2; auto. }
    assert (Ht0t : In t0 tail) by (rewrite Etail; cbn; auto).
    assert (Enew : s_par z stem = s).
    { cbn [map links] in HP. destruct HP as [HP _]. exact HP. }
    assert (Huoin : In uout (map fnode ((s, A, B) :: F))).
    { change (match lasto (map fnode ((s, A, B) :: F)) with
              | None => Some stem | Some y => Some y end = Some uout) in Huo.
      destruct (lasto (map fnode ((s, A, B) :: F))) eqn:E.
      - inversion Huo; subst. apply lasto_In; auto.
      - apply lasto_none in E; discriminate. }
    assert (Hnodes : forall G x, In x (map fnode G) -> In x (LL G)).
    { clear. induction G as [|[[s A] B] G IHG]; intros x; cbn [map In LL]; auto.
      rewrite in_app_iff. cbn [In fnode fst]. intuition. }
    assert (Huoll : In uout (LL F ++ w1)).
    { apply (Hnodes ((s, A, B) :: F)); auto. }
    destruct fuel as [|fuel]; [cbn in Hf; lia|].
    cbn [stem_loop].
    destruct (Nat.eqb_spec stem uout) as [E|_].
    { exfalso. apply (Dl uout); auto. subst. apply in_or_app; auto. }
    rewrite Enew, Ew, Eright.
    set (th2 := upd (upd (s_th z) (s_u z) s) w t0).
    set (rv1 := upd (s_rv z) t0 w).
    set (u' := if ls s =? ls stem then rv1 stem else ls s).
    set (z1 := mkStem th2 rv1 (upd (s_par z) stem (s_pstem z)) u' (th2 u') stem
                      (s_dirty z ++ [s_u z])).
    assert (Hwu : w <> s_u z).
    { intros E. apply (Dl w); auto. rewrite E. apply in_or_app; auto. }
    assert (Hst0 : stem <> t0). { intros E. apply (Dc stem); auto. congruence. }
    assert (Eu' : lasto (s :: A ++ B) = Some u').
    { cbn [lsok] in HL. destruct HL as [HL _].
      change (s :: A ++ B) with (w1 ++ B). rewrite lasto_app.
      destruct (lasto B) as [x|] eqn:EB.
      - destruct HL as [HL1 HL2]. unfold u'.
        destruct (Nat.eqb_spec (ls s) (ls stem)); [contradiction|]. congruence.
      - rewrite Hw. unfold u'. rewrite HL, Nat.eqb_refl. unfold rv1.
        rewrite upd_other by auto. congruence. }
    assert (Hlink_t : forall (P : nat -> nat -> Prop), links P tail -> links P (B ++ RR F ++ [q0])).
    { intros; auto. }
    assert (HT1 : links (fun x y => th2 x = y) ((LL F ++ w1) ++ tail)).
    { rewrite links_app. split; [|split].
      - eapply links_ext_fst; [|exact HTl]. intros x Hx. unfold th2.
        assert (x <> w).
        { intros ->. revert Hx. apply NoDup_lasto_removelast; auto. rewrite lasto_app, Hw; auto. }
        assert (x <> s_u z).
        { intros ->. apply (Dl (s_u z)). apply In_removelast; auto. apply in_or_app; auto. }
        rewrite !upd_other; auto.
      - eapply links_ext_fst; [|exact HTt]. intros x Hx. apply In_removelast in Hx. unfold th2.
        assert (x <> w). { intros ->. apply (Dl w); auto. apply in_or_app; auto. }
        assert (x <> s_u z). { intros ->. apply (Dc (s_u z)); auto. }
        rewrite !upd_other; auto.
      - intros x y Hx Hy. rewrite lasto_app, Hw in Hx. inversion Hx; subst x.
        rewrite Ehdt in Hy; inversion Hy; subst y. unfold th2. apply upd_same. }
    assert (HR1 : links (fun x y => rv1 y = x) ((LL F ++ w1) ++ tail)).
    { rewrite links_app. split; [|split].
      - eapply links_ext_snd; [|exact HRl]. intros y Hy. apply In_tl in Hy. unfold rv1.
        rewrite upd_other; auto. intros ->. apply (Dl t0); auto. apply in_or_app; auto.
      - eapply links_ext_snd; [|exact HRt]. intros y Hy. unfold rv1.
        rewrite upd_other; auto. intros ->. revert Hy. apply NoDup_hd_tl; auto.
      - intros x y Hx Hy. rewrite lasto_app, Hw in Hx. inversion Hx; subst x.
        rewrite Ehdt in Hy; inversion Hy; subst y. unfold rv1. apply upd_same. }
    assert (EM' : (LL F ++ w1) ++ tail = LL F ++ (s :: A ++ B) ++ RR F ++ [q0]).
    { unfold tail, w1. rewrite <- !app_assoc. cbn [app]. rewrite <- !app_assoc. auto. }
    assert (NDM : NoDup ((LL F ++ w1) ++ tail)).
    { apply NoDup_app_intro; auto. intros x H1 H2. apply (Dl x); auto. apply in_or_app; auto. }
    rewrite EM' in HT1, HR1, NDM.
    assert (Hstemnodes : ~ In stem (map fnode ((s, A, B) :: F))).
    { intros H. apply (Dl stem); [|apply in_or_app; auto]. apply (Hnodes ((s, A, B) :: F)); auto. }
    destruct (IH fuel ls uout q0 s (s :: A ++ B) z1) as
      (z' & dn & R1 & R2 & R3 & R4 & R5 & R6 & R7 & R8 & R9 & R10 & R11 & R12); auto.
    { cbn in Hf; lia. }
    { cbn [map fnode fst] in Huo. cbn [lasto] in Huo |- *.
      destruct (lasto (map fnode F)); auto. }
    { cbn [map links] in HP. destruct HP as [_ HP].
      cbn [s_par z1]. eapply links_impl; [|exact HP]. cbn beta. intros x y Hx _ E.
      rewrite upd_other; auto. intros ->. apply Hstemnodes. exact Hx. }
    { cbn [lsok] in HL. apply HL. }
    exists z', (s_u z :: dn).
    cbn [OUT]. change (s :: A ++ B ++ OUT F) with (w1 ++ B ++ OUT F).
    assert (EO : (s :: A ++ B) ++ OUT F = w1 ++ B ++ OUT F).
    { unfold w1. cbn [app]. rewrite <- app_assoc; auto. }
    rewrite EO in R2, R3, R5, R6.
    assert (Hcur' : forall x, In x cur -> ~ In x (LL F ++ (s :: A ++ B) ++ RR F)).
    { intros x Hx Hn. assert (In x (LL F ++ w1) \/ In x tail).
      { unfold w1, tail. inapp. tauto. }
      destruct H as [H|H]; [apply (Dl x); auto; apply in_or_app; auto|apply (Dc x); auto]. }
    assert (Hcur2 : forall x, In x cur -> ~ In x (LL F ++ (s :: A ++ B) ++ RR F ++ [q0])).
    { intros x Hx Hn. assert (In x (LL F ++ w1) \/ In x tail).
      { unfold w1, tail. inapp. tauto. }
      destruct H as [H|H]; [apply (Dl x); auto; apply in_or_app; auto|apply (Dc x); auto]. }
    split; [exact R1|].
    split.
    { rewrite links_app. split; [|split]; auto.
      - eapply links_ext_fst; [|exact HTc]. intros x Hx.
        assert (Hxc : In x cur) by (apply In_removelast; auto).
        rewrite R7 by (apply Hcur'; auto). cbn [s_th z1]. unfold th2.
        assert (x <> w). { intros ->. apply (Dl w); auto. apply in_or_app; auto. }
        assert (x <> s_u z). { intros ->. revert Hx. apply NoDup_lasto_removelast; auto. }
        rewrite !upd_other; auto.
      - intros x y Hx Hy. rewrite Hlast in Hx; inversion Hx; subst x.
        cbn in Hy; inversion Hy; subst y.
        rewrite R7 by (apply Hcur'; auto). cbn [s_th z1]. unfold th2.
        rewrite upd_other by auto. apply upd_same. }
    split.
    { rewrite lasto_app, R3. auto. }
    split. { rewrite R4. cbn [s_dirty z1]. rewrite <- app_assoc; auto. }
    split.
    { intros d [<-|Hd]; [apply in_or_app; auto|]. apply in_or_app; right. apply R5; auto. }
    split.
    { rewrite links_app. split; [|split].
      - eapply links_impl; [|exact HRc]. cbn beta. intros x y _ Hy E. left.
        apply In_tl in Hy. rewrite R8 by (apply Hcur2; auto). cbn [s_rv z1]. unfold rv1.
        rewrite upd_other; auto. intros ->. apply (Dc t0); auto.
      - eapply links_impl; [|exact R6]. cbn beta. intros x y _ _ [E|E]; auto. right; cbn; auto.
      - intros x y Hx Hy. rewrite Hlast in Hx; inversion Hx; subst x. right; cbn; auto. }
    split.
    { intros x Hx. rewrite R7.
      - cbn [s_th z1]. unfold th2. 
        rewrite !upd_other; auto; intros ->; apply Hx.
        + rewrite in_app_iff; right; rewrite in_app_iff; auto.
        + rewrite in_app_iff; auto.
      - intros H; apply Hx. unfold w1. inapp. tauto. }
    split.
    { intros y Hy. rewrite R8.
      - cbn [s_rv z1]. unfold rv1. rewrite upd_other; auto. intros ->.
        apply Hy. unfold tail in Ht0t. inapp. tauto.
      - intros H; apply Hy. unfold w1. inapp. tauto. }
    split; auto. split; auto.
    split.
    { cbn [rpath map]. cbn [rpath map] in R11. split; [|exact R11].
      rewrite upd_other.
      - rewrite R12.
        + cbn [s_par z1]. apply upd_same.
        + exact Hstemnodes.
      - intros E. apply Hstemnodes. rewrite E. exact Huoin. }
    { intros x Hx. rewrite R12.
      - cbn [s_par z1]. apply upd_other. intros ->. apply Hx; cbn; auto.
      - intros H; apply Hx. right. exact H. }
Qed.
