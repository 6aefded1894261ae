(** BSP matchings. *)
From Coq Require Import List Arith Lia Bool Permutation.
From Verif Require Import Num Emd1d_model Perm Bsp_model Bsp_proofs.
Import ListNotations.

Section Match.
Context {N : NumOps}.

(** what std::nth_element guarantees: the same elements, and nothing in the
    first part is greater than something in the second part *)
Definition nth_spec (key : nat -> N) (l l' : list nat) (k : nat) : Prop :=
  Permutation l' l /\ forall x y, In x (firstn k l') -> In y (skipn k l') -> nltb (key y) (key x) = false.

(** admissible random choices: nth_element does its work and the pivot is
    strictly inside the range *)
Definition choices_ok (ch : bsp_choices N) : Prop :=
  (forall path la lb, let k := ch_pivot ch path la lb in let ka := fst (ch_slice ch path la lb) in
     let kb := snd (ch_slice ch path la lb) in
     nth_spec ka la (ch_nth ch path ka la k) k /\ nth_spec kb lb (ch_nth ch path kb lb k) k) /\
  (forall path la lb, 2 <= length la -> 1 <= ch_pivot ch path la lb < length la).

(** a relation between matched ids that every split preserves holds at the leaves *)
Definition split_ok (ch : bsp_choices N) (Rel : list nat -> list nat -> Prop) : Prop :=
  forall path la lb la' lb', Rel la lb -> length la = length lb -> 2 <= length la ->
    nth_spec (fst (ch_slice ch path la lb)) la la' (ch_pivot ch path la lb) ->
    nth_spec (snd (ch_slice ch path la lb)) lb lb' (ch_pivot ch path la lb) ->
    Rel (firstn (ch_pivot ch path la lb) la') (firstn (ch_pivot ch path la lb) lb') /\
    Rel (skipn (ch_pivot ch path la lb) la') (skipn (ch_pivot ch path la lb) lb').

Lemma partial_bsp_ok : forall ch (Rel : list nat -> list nat -> Prop) (Out : list nat -> list nat -> Prop),
  choices_ok ch -> split_ok ch Rel ->
  (forall x y, Rel [x] [y] -> Out [x] [y]) ->
  (forall path la lb a1 b1 a2 b2, Rel la lb -> length a1 = length b1 ->
     Permutation (a1 ++ a2) la -> Permutation (b1 ++ b2) lb ->
     (forall x y, In x a1 -> In y a2 -> nltb (fst (ch_slice ch path la lb) y) (fst (ch_slice ch path la lb) x) = false) ->
     (forall x y, In x b1 -> In y b2 -> nltb (snd (ch_slice ch path la lb) y) (snd (ch_slice ch path la lb) x) = false) ->
     Out a1 b1 -> Out a2 b2 -> Out (a1 ++ a2) (b1 ++ b2)) ->
  forall fuel path la lb, length la <= fuel -> 1 <= length la -> length la = length lb -> Rel la lb ->
  exists a b, partial_bsp fuel ch path la lb = Some (a, b) /\ Permutation a la /\ Permutation b lb /\ Out a b.
Proof.
  intros ch Rel Out [Hn Hp] HS Hleaf Hnode. induction fuel; intros path la lb Hf H1 Hl HR; [lia|].
  simpl. destruct (Nat.eqb_spec (length la) 1) as [E|E].
  - exists la, lb. repeat split; auto. destruct la as [|x [|]]; try discriminate. destruct lb as [|y [|]]; try discriminate.
    auto.
  - destruct (ch_slice ch path la lb) as [ka kb] eqn:ES. set (k := ch_pivot ch path la lb).
    assert (Hk : 1 <= k < length la) by (apply Hp; lia).
    destruct (Hn path la lb) as [SA SB]. rewrite ES in SA, SB. cbn [fst snd] in SA, SB. fold k in SA, SB.
    set (la' := ch_nth ch path ka la k) in *. set (lb' := ch_nth ch path kb lb k) in *.
    assert (La : length la' = length la) by (apply Permutation_length, SA).
    assert (Lb : length lb' = length lb) by (apply Permutation_length, SB).
    destruct (HS path la lb la' lb' HR Hl) as [R1 R2]; [lia|rewrite ES; exact SA|rewrite ES; exact SB|].
    fold k in R1, R2.
    destruct (IHfuel (path ++ [false]) (firstn k la') (firstn k lb')) as (a1 & b1 & E1 & P1 & Q1 & O1); auto;
      try (rewrite ?firstn_length; lia).
    destruct (IHfuel (path ++ [true]) (skipn k la') (skipn k lb')) as (a2 & b2 & E2 & P2 & Q2 & O2); auto;
      try (rewrite ?skipn_length; lia).
    rewrite E1, E2. exists (a1 ++ a2), (b1 ++ b2). split; [auto|].
    assert (PA : Permutation (a1 ++ a2) la).
    { eapply perm_trans; [apply Permutation_app; eauto|]. rewrite firstn_skipn. apply SA. }
    assert (PB : Permutation (b1 ++ b2) lb).
    { eapply perm_trans; [apply Permutation_app; eauto|]. rewrite firstn_skipn. apply SB. }
    split; [auto|]. split; [auto|].
    apply (Hnode path la lb); auto.
    + rewrite (Permutation_length P1), (Permutation_length Q1), !firstn_length. lia.
    + rewrite ES. simpl. intros x y Hx Hy. apply SA; eapply Permutation_in; eauto.
    + rewrite ES. simpl. intros x y Hx Hy. apply SB; eapply Permutation_in; eauto.
Qed.

Lemma split_true : forall ch : bsp_choices N, split_ok ch (fun _ _ => True).
Proof. intros ch path la lb la' lb' _ _ _ _ _. auto. Qed.

(** reading the plan from the two final arrays *)
Lemma plan_read : forall la lb (p0 : bmap) i, NoDup la -> length la = length lb -> i < length la ->
  fold_left (fun p ab => bupd p (fst ab) (snd ab)) (combine la lb) p0 (nth i la 0) = nth i lb 0.
Proof.
  induction la as [|x la IH]; intros lb p0 i Hd Hl Hi; [simpl in Hi; lia|].
  destruct lb as [|y lb]; [discriminate|]. inversion Hd; subst. simpl in Hl, Hi. cbn [combine fold_left fst snd].
  destruct i; cbn [nth].
  - assert (G : forall la lb (p : bmap), ~ In x la ->
      fold_left (fun p ab => bupd p (fst ab) (snd ab)) (combine la lb) p x = p x).
    { clear. induction la as [|z la IH]; intros lb p Hx; [auto|]. destruct lb; [auto|]. cbn [combine fold_left fst snd].
      rewrite IH; [|intros H; apply Hx; simpl; auto]. apply bupd_other. intros ->. apply Hx; simpl; auto. }
    rewrite G by auto. apply bupd_same.
  - apply IH; auto; lia.
Qed.

Lemma compute_matching_gen : forall n ch (Rel Out : list nat -> list nat -> Prop), 1 <= n -> choices_ok ch -> split_ok ch Rel ->
  (forall x y, Rel [x] [y] -> Out [x] [y]) ->
  (forall path la lb a1 b1 a2 b2, Rel la lb -> length a1 = length b1 ->
     Permutation (a1 ++ a2) la -> Permutation (b1 ++ b2) lb ->
     (forall x y, In x a1 -> In y a2 -> nltb (fst (ch_slice ch path la lb) y) (fst (ch_slice ch path la lb) x) = false) ->
     (forall x y, In x b1 -> In y b2 -> nltb (snd (ch_slice ch path la lb) y) (snd (ch_slice ch path la lb) x) = false) ->
     Out a1 b1 -> Out a2 b2 -> Out (a1 ++ a2) (b1 ++ b2)) ->
  Rel (seq 0 n) (seq 0 n) ->
  exists p a b, compute_matching n ch = Some p /\ Permutation a (seq 0 n) /\ Permutation b (seq 0 n) /\ Out a b /\
    (forall i, i < n -> p (nth i a 0) = nth i b 0).
Proof.
  intros n ch Rel Out Hn Hc HS H1 H2 HR. unfold compute_matching.
  destruct (partial_bsp_ok ch Rel Out Hc HS H1 H2 n [] (seq 0 n) (seq 0 n)) as (a & b & E & PA & PB & O); auto;
    try (rewrite seq_length; lia).
  rewrite E. eexists. exists a, b. split; [reflexivity|]. split; [auto|]. split; [auto|]. split; [auto|].
  intros i Hi. apply plan_read.
  - eapply Permutation_NoDup; [apply Permutation_sym; eauto|apply seq_NoDup].
  - rewrite (Permutation_length PA), (Permutation_length PB); auto.
  - rewrite (Permutation_length PA), seq_length; auto.
Qed.

Lemma plan_perm : forall n (p : bmap) a b, Permutation a (seq 0 n) -> Permutation b (seq 0 n) ->
  (forall i, i < n -> p (nth i a 0) = nth i b 0) -> perm_on n p.
Proof.
  intros n p a b PA PB H.
  assert (La : length a = n) by (rewrite (Permutation_length PA), seq_length; auto).
  assert (Lb : length b = n) by (rewrite (Permutation_length PB), seq_length; auto).
  assert (Ix : forall i, i < n -> exists k, k < n /\ nth k a 0 = i).
  { intros i Hi. destruct (In_nth a i 0) as (k & Hk & E); [|exists k; split; auto; lia].
    eapply Permutation_in; [apply Permutation_sym; eauto|]. apply in_seq; lia. }
  split.
  - intros i Hi. destruct (Ix i Hi) as (k & Hk & <-). rewrite H; auto.
    assert (In (nth k b 0) (seq 0 n)). { eapply Permutation_in; [eauto|]. apply nth_In; lia. }
    apply in_seq in H0. lia.
  - intros i j Hi Hj E. destruct (Ix i Hi) as (k & Hk & <-). destruct (Ix j Hj) as (l & Hl & <-).
    rewrite !H in E by auto. assert (k = l); [|subst; auto].
    eapply (proj1 (NoDup_nth b 0)); eauto; try lia. eapply Permutation_NoDup; [apply Permutation_sym; eauto|apply seq_NoDup].
Qed.

Lemma compute_matching_perm : forall n ch, 1 <= n -> choices_ok ch ->
  exists p, compute_matching n ch = Some p /\ perm_on n p.
Proof.
  intros n ch Hn Hc.
  destruct (compute_matching_gen n ch (fun _ _ => True) (fun _ _ => True)) as (p & a & b & E & PA & PB & _ & H); [auto|auto|apply split_true|auto|auto|auto|].
  exists p. split; [exact E|]. exact (plan_perm n p a b PA PB H).
Qed.

Lemma all_matchings_ok : forall n (chs : list (bsp_choices N)) (Q : bmap -> Prop),
  (forall ch, In ch chs -> exists p, compute_matching n ch = Some p /\ Q p) ->
  exists l, all_matchings n chs = Some l /\ length l = length chs /\ (forall p, In p l -> Q p).
Proof.
  intros n. induction chs as [|c r IH]; intros Q H.
  - exists []. repeat split; auto. intros p [].
  - destruct (H c) as (p & E & Hq); [simpl; auto|]. destruct (IH Q) as (l & E2 & L & Hl); [intros; apply H; simpl; auto|].
    exists (p :: l). simpl. rewrite E, E2. repeat split; simpl; auto. intros q [<-|Hi]; auto.
Qed.

(** ** clouds that every slice orders in the same way *)
Definition same_order (s : nat -> nat) (ka kb : nat -> N) (la : list nat) : Prop :=
  forall x y, In x la -> In y la -> x <> y ->
    nltb (ka y) (ka x) = false -> nltb (kb (s x)) (kb (s y)) = true.

Lemma similar_split : forall s (ka kb : nat -> N) la lb la' lb' k,
  NoDup la -> Permutation lb (map s la) -> k <= length la ->
  (forall x y, In x la -> In y la -> s x = s y -> x = y) ->
  same_order s ka kb la -> nth_spec ka la la' k -> nth_spec kb lb lb' k ->
  Permutation (firstn k lb') (map s (firstn k la')) /\ Permutation (skipn k lb') (map s (skipn k la')).
Proof.
  intros s ka kb la lb la' lb' k Hd HP Hk Hinj Hso [PA HA] [PB HB].
  set (A1 := firstn k la') in *. set (A2 := skipn k la') in *.
  set (B1 := firstn k lb') in *. set (B2 := skipn k lb') in *.
  assert (EA : A1 ++ A2 = la') by apply firstn_skipn. assert (EB : B1 ++ B2 = lb') by apply firstn_skipn.
  assert (La : length la' = length la) by (apply Permutation_length; auto).
  assert (Lb : length lb' = length la). { rewrite (Permutation_length PB), (Permutation_length HP), map_length; auto. }
  assert (LA1 : length A1 = k) by (unfold A1; rewrite firstn_length; lia).
  assert (LB1 : length B1 = k) by (unfold B1; rewrite firstn_length; lia).
  assert (LA2 : length A2 = length la - k) by (unfold A2; rewrite skipn_length; lia).
  assert (LB2 : length B2 = length la - k) by (unfold B2; rewrite skipn_length; lia).
  clearbody A1 A2 B1 B2.
  assert (InA : forall x, In x A1 \/ In x A2 <-> In x la).
  { intros x. rewrite <- in_app_iff, EA. split; apply Permutation_in; auto. apply Permutation_sym; auto. }
  assert (PBall : Permutation (B1 ++ B2) (map s (A1 ++ A2))).
  { rewrite EA, EB. rewrite PB, HP. apply Permutation_map. apply Permutation_sym; auto. }
  assert (NA : NoDup (A1 ++ A2)). { rewrite EA. eapply Permutation_NoDup; [apply Permutation_sym; eauto|auto]. }
  assert (NS : NoDup (map s (A1 ++ A2))).
  { assert (G : forall l, NoDup l -> (forall x, In x l -> In x la) -> NoDup (map s l)).
    { induction l as [|x l IH]; intros D Il; simpl; [constructor|]. inversion D; subst. constructor.
      - intros Hin. apply in_map_iff in Hin. destruct Hin as (y & Ey & Hy).
        assert (y = x) by (apply Hinj; auto; apply Il; simpl; auto). subst; auto.
      - apply IH; auto. intros; apply Il; simpl; auto. }
    apply G; auto. intros x Hx. apply InA. apply in_app_iff; auto. }
  assert (NB : NoDup (B1 ++ B2)). { eapply Permutation_NoDup; [apply Permutation_sym; eauto|auto]. }
  (* no element of the left part lands on the right *)
  assert (C1 : incl (map s A1) B1).
  { intros z Hz. apply in_map_iff in Hz. destruct Hz as (x & <- & Hx).
    assert (Hin : In (s x) (B1 ++ B2)).
    { eapply Permutation_in; [apply Permutation_sym; eauto|]. apply in_map. apply in_app_iff; auto. }
    apply in_app_iff in Hin. destruct Hin as [|Hin]; auto. exfalso.
    destruct (Exists_dec (fun y => In (s y) B1) A2 (fun y => in_dec Nat.eq_dec (s y) B1)) as [Ex|Ex].
    - apply Exists_exists in Ex. destruct Ex as (y & Hy & Hsy).
      assert (x <> y). { intros ->. clear - NA Hx Hy. induction A1; simpl in *; [auto|]. inversion NA; subst.
        destruct Hx as [->|Hx]; [apply H1, in_app_iff; auto|auto]. }
      pose proof (Hso x y) as F. rewrite (HB (s y) (s x)) in F; auto.
      assert (false = true); [|discriminate]. apply F; auto; apply InA; auto.
    - assert (I2 : incl (map s A2) B2).
      { intros z Hz. apply in_map_iff in Hz. destruct Hz as (y & <- & Hy).
        assert (Hin2 : In (s y) (B1 ++ B2)).
        { eapply Permutation_in; [apply Permutation_sym; eauto|]. apply in_map. apply in_app_iff; auto. }
        apply in_app_iff in Hin2. destruct Hin2 as [Hin2|]; auto. exfalso. apply Ex. apply Exists_exists. eauto. }
      assert (J2 : incl B2 (map s A2)).
      { apply NoDup_length_incl; auto; [|rewrite map_length; lia]. rewrite map_app in NS.
        clear - NS. induction (map s A1); simpl in *; auto. inversion NS; auto. }
      apply J2 in Hin. apply in_map_iff in Hin. destruct Hin as (y & Ey & Hy).
      assert (y = x) by (apply Hinj; auto; apply InA; auto). subst y.
      clear - NA Hx Hy. induction A1; simpl in *; [auto|]. inversion NA; subst.
      destruct Hx as [->|Hx]; [apply H1, in_app_iff; auto|auto]. }
  assert (N1 : NoDup (map s A1)).
  { rewrite map_app in NS. clear - NS. induction (map s A1); simpl in *; [constructor|]. inversion NS; subst. constructor.
    - intros H; apply H1, in_app_iff; auto.
    - auto. }
  assert (P1 : Permutation B1 (map s A1)).
  { apply Permutation_sym. apply NoDup_Permutation_bis; auto. rewrite map_length; lia. }
  split; [exact P1|].
  rewrite map_app in PBall. eapply Permutation_app_inv_l with (l := B1).
  eapply perm_trans; [exact PBall|]. apply Permutation_app_tail. apply Permutation_sym; auto.
Qed.

(** the plan is the bijection that respects all the slices *)
Lemma similar_matching : forall n ch s, 1 <= n -> choices_ok ch -> perm_on n s ->
  (forall path la lb, incl la (seq 0 n) -> same_order s (fst (ch_slice ch path la lb)) (snd (ch_slice ch path la lb)) la) ->
  exists p, compute_matching n ch = Some p /\ forall i, i < n -> p i = s i.
Proof.
  intros n ch s Hn Hc Hs Hso.
  set (Rel := fun la lb => NoDup la /\ incl la (seq 0 n) /\ Permutation lb (map s la)).
  destruct (compute_matching_gen n ch Rel (fun a b => b = map s a)) as (p & a & b & E & PA & PB & O & H); auto.
  - intros path la lb la' lb' (R1 & R2 & R3) Hl H2 SA SB.
    assert (Hk : ch_pivot ch path la lb <= length la) by (apply Nat.lt_le_incl, Hc; auto).
    assert (Hinj : forall x y, In x la -> In y la -> s x = s y -> x = y).
    { intros x y Hx Hy Exy. apply R2 in Hx, Hy. apply in_seq in Hx, Hy. apply (proj2 Hs); auto; lia. }
    destruct (similar_split s _ _ la lb la' lb' _ R1 R3 Hk Hinj (Hso path la lb R2) SA SB) as [Q1 Q2].
    destruct SA as [PA _].
    assert (ND : NoDup la') by (eapply Permutation_NoDup; [apply Permutation_sym; eauto|auto]).
    rewrite <- (firstn_skipn (ch_pivot ch path la lb) la') in ND, PA.
    split; (split; [|split; [|auto]]).
    + clear - ND. induction (firstn _ la'); [constructor|]. simpl in ND. inversion ND; subst. constructor; auto.
      intros X; apply H1, in_app_iff; auto.
    + intros x Hx. apply R2. eapply Permutation_in; [exact PA|]. apply in_app_iff; auto.
    + clear - ND. induction (firstn _ la'); auto. simpl in ND. inversion ND; auto.
    + intros x Hx. apply R2. eapply Permutation_in; [exact PA|]. apply in_app_iff; auto.
  - intros x y (_ & _ & R3). simpl in *. apply Permutation_length_1_inv in R3 || (apply Permutation_sym, Permutation_length_1_inv in R3). 
    auto.
  - intros path la lb a1 b1 a2 b2 _ _ _ _ _ _ -> ->. rewrite map_app; auto.
  - split; [apply seq_NoDup|]. split; [apply incl_refl|]. apply Permutation_sym, perm_on_list; auto.
  - exists p. split; [auto|]. intros i Hi.
    assert (La : length a = n) by (rewrite (Permutation_length PA), seq_length; auto).
    destruct (In_nth a i 0) as (k & Hk & Ek). { eapply Permutation_in; [apply Permutation_sym; eauto|]. apply in_seq; lia. }
    rewrite <- Ek, H by lia. rewrite O. rewrite (nth_indep _ 0 (s 0)) by (rewrite map_length; lia). apply map_nth.
Qed.
End Match.
