(** How size / last-node information of a context changes when its hole changes. *)
From Coq Require Import List Arith Bool Lia Permutation.
Import ListNotations.
From Verif Require Import Num NS_model NS_list NS_tree NS_path.

Definition ffor (f : frame) : list nat := preF (snd (fst f)) ++ preF (snd f).
Definition fnodes (c : ctx) : list nat := flat_map ffor c.

Lemma ctx_perm : forall c, Permutation (preL c ++ preR c) (map nodeof c ++ fnodes c).
Proof.
  induction c as [|[[x l] r] c IH]; [constructor|].
  cbn [preL preR map fnodes flat_map nodeof fst]. unfold ffor at 1; cbn [fst snd].
  rewrite <- !app_assoc. cbn [app].
  transitivity (x :: (preF l ++ preF r) ++ (preL c ++ preR c)).
  - transitivity (x :: preL c ++ preF l ++ preF r ++ preR c).
    { symmetry. apply Permutation_middle. }
    constructor. rewrite <- !app_assoc. rewrite !app_assoc. apply Permutation_app_tail.
    rewrite <- !app_assoc. rewrite (app_assoc (preF l)). apply Permutation_app_comm.
  - constructor. transitivity ((preF l ++ preF r) ++ map nodeof c ++ fnodes c).
    + apply Permutation_app_head; auto.
    + rewrite !app_assoc. apply Permutation_app_tail. rewrite <- !app_assoc.
      rewrite (app_assoc (preF l)). apply Permutation_app_comm.
Qed.

Lemma plug_perm : forall c t, Permutation (pre (plug t c)) (pre t ++ map nodeof c ++ fnodes c).
Proof.
  intros c t. rewrite pre_plug. transitivity (pre t ++ preL c ++ preR c).
  - rewrite !app_assoc. apply Permutation_app_tail. apply Permutation_app_comm.
  - apply Permutation_app_head. apply ctx_perm.
Qed.

Lemma size_plug : forall c t, size (plug t c) = size t + length (map nodeof c ++ fnodes c).
Proof.
  intros. unfold size. rewrite (Permutation_length (plug_perm c t)). rewrite app_length; auto.
Qed.

Lemma last_in : forall (l : list nat) d, l <> [] -> In (last l d) l.
Proof. intros l d H. apply lasto_In. apply lasto_last'; auto. Qed.

Lemma repC_change : forall (I I' : nat -> nat -> nat -> nat -> Prop) p0 c sz la sz' la',
  NoDup (preR c) -> ~ In la (preR c) ->
  (forall x p s l, In x (fnodes c) -> I x p s l -> I' x p s l) ->
  (forall x p s l s', In x (map nodeof c) -> I x p s l -> (l = la \/ In l (preR c)) ->
     sz <= s -> s' + sz = s + sz' -> I' x p s' (if l =? la then la' else l)) ->
  repC I p0 c sz la -> repC I' p0 c sz' la'.
Proof.
  intros I I' p0; induction c as [|[[x l] r] c IH]; intros sz la sz' la' ND Hla HF HN HR; auto.
  cbn [repC] in *. destruct HR as (H1 & H2 & H3 & H4).
  cbn [preR] in *. apply NoDup_app_inv in ND as (NDr & NDc & Drc).
  rewrite in_app_iff in Hla.
  assert (HFl : forall y, In y (preF l) -> In y (fnodes ((x, l, r) :: c))).
  { intros y Hy. cbn. unfold ffor; cbn. rewrite !in_app_iff; auto. }
  assert (HFr : forall y, In y (preF r) -> In y (fnodes ((x, l, r) :: c))).
  { intros y Hy. cbn. unfold ffor; cbn. rewrite !in_app_iff; auto. }
  assert (HFc : forall y, In y (fnodes c) -> In y (fnodes ((x, l, r) :: c))).
  { intros y Hy. cbn. unfold ffor; cbn. rewrite !in_app_iff; auto. }
  assert (Hcases : (preF r = [] /\ last (preF r) la = la /\ last (preF r) la' = la') \/
                   (exists q, In q (preF r) /\ last (preF r) la = q /\ last (preF r) la' = q)).
  { destruct (preF r) as [|q r'] eqn:E; [left; auto|]. right.
    exists (last (q :: r') la). split; [apply last_in; discriminate|]. split; auto.
    apply last_indep; discriminate. }
  split; [|split; [|split]].
  - specialize (HN x (ptop p0 c) (S (length (preF l) + sz + length (preF r))) (last (preF r) la)
       (S (length (preF l) + sz' + length (preF r)))).
    assert (HI : I' x (ptop p0 c) (S (length (preF l) + sz' + length (preF r)))
       (if last (preF r) la =? la then la' else last (preF r) la)).
    { apply HN; auto; try lia. cbn; auto.
      destruct Hcases as [(_ & -> & _)|(q & Hq & -> & _)]; auto. rewrite in_app_iff; auto. }
    destruct Hcases as [(_ & E1 & E2)|(q & Hq & E1 & E2)]; rewrite E1, ?E2 in *.
    + rewrite Nat.eqb_refl in HI. auto.
    + destruct (Nat.eqb_spec q la) as [E|E]; auto. exfalso; apply Hla; left; rewrite <- E; auto.
  - eapply repF_impl; [|exact H2]. intros; apply HF; auto.
  - eapply repF_impl; [|exact H3]. intros; apply HF; auto.
  - destruct Hcases as [(_ & E1 & E2)|(q & Hq & E1 & E2)]; rewrite E1, ?E2 in *.
    + eapply IH; [auto| |auto| |exact H4]; [tauto|].
      intros y p s k s' Hy HI Hk Hle Es. apply HN with (s := s); auto; try lia.
      * cbn; auto.
      * destruct Hk; auto. right; rewrite in_app_iff; auto.
    + eapply IH; [auto| |auto| |exact H4]; [exact (Drc q Hq)|].
      intros y p s k s' Hy HI Hk Hle Es.
      assert (Hk2 : In k (preF r ++ preR c)).
      { rewrite in_app_iff. destruct Hk as [->|Hk]; auto. }
      assert (Hne : k <> la). { intros ->. rewrite in_app_iff in Hk2. tauto. }
      assert (HI2 : I' y p s' (if k =? la then la' else k)).
      { apply HN with (s := s); auto; try lia. cbn; auto. }
      destruct (Nat.eqb_spec k la); [contradiction|].
      destruct (Nat.eqb_spec k q) as [<-|]; auto.
Qed.

(** membership form of the last-node values along a context *)
Lemma repC_lasts : forall (I : nat -> nat -> nat -> nat -> Prop) (ls : nat -> nat),
  (forall x p s l, I x p s l -> ls x = l) ->
  forall p0 c sz la, repC I p0 c sz la ->
  forall x, In x (map nodeof c) -> ls x = la \/ In (ls x) (preR c).
Proof.
  intros I ls HI p0; induction c as [|[[y l] r] c IH]; intros sz la HR x Hx; [contradiction|].
  cbn [repC] in HR. destruct HR as (H1 & _ & _ & H4). cbn [preR].
  assert (Hl : last (preF r) la = la \/ In (last (preF r) la) (preF r)).
  { destruct (preF r) eqn:E; [left; auto|right]. apply last_in; discriminate. }
  cbn in Hx. destruct Hx as [<-|Hx].
  - apply HI in H1. rewrite H1. rewrite in_app_iff. tauto.
  - destruct (IH _ _ H4 x Hx) as [E|E]; rewrite in_app_iff; [|tauto].
    rewrite E. tauto.
Qed.

Lemma repC_mono : forall (I : nat -> nat -> nat -> nat -> Prop) (ls : nat -> nat) old,
  (forall x p s l, I x p s l -> ls x = l) ->
  forall p0 c sz la, repC I p0 c sz la -> ~ In old (preR c) ->
  mono_ls ls old (map nodeof c) /\
  (la <> old -> forall y, In y (map nodeof c) -> ls y <> old).
Proof.
  intros I ls old HI p0; induction c as [|[[y l] r] c IH]; intros sz la HR Ho.
  - split; [|contradiction]. intros l1 x l2 E. destruct l1; discriminate.
  - pose proof HR as HR0. cbn [repC] in HR. destruct HR as (H1 & _ & _ & H4).
    cbn [preR] in Ho. rewrite in_app_iff in Ho.
    destruct (IH _ _ H4) as [M1 M2]; [tauto|].
    assert (Hy : ls y = last (preF r) la) by (apply HI in H1; auto).
    split.
    + intros l1 x l2 E Hx w Hw. destruct l1 as [|z l1]; cbn [map app nodeof fst] in E; inversion E; subst.
      * apply M2; auto. congruence.
      * apply (M1 l1 x l2); auto.
    + intros Hla w Hw E.
      destruct (repC_lasts I ls HI p0 ((y, l, r) :: c) sz la HR0 w Hw) as [E2|E2].
      * congruence.
      * rewrite E in E2. cbn [preR] in E2. rewrite in_app_iff in E2. tauto.
Qed.

Lemma mono_path : forall (I : nat -> nat -> nat -> nat -> Prop) (ls : nat -> nat) old p0 tx c,
  (forall x p s l, I x p s l -> ls x = l) ->
  rep I p0 (plug tx c) -> NoDup (pre (plug tx c)) -> In old (pre tx) ->
  mono_ls ls old (rt tx :: map nodeof c).
Proof.
  intros I ls old p0 tx c HI HR ND Ho.
  rewrite rep_plug in HR. destruct HR as [H1 H2].
  rewrite pre_plug in ND. apply NoDup_app_inv in ND as (_ & ND & _).
  apply NoDup_app_inv in ND as (_ & _ & D).
  destruct (repC_mono I ls old HI p0 c _ _ H2) as [M1 M2]; [intros H; apply (D old); auto|].
  assert (Hr : ls (rt tx) = lst tx).
  { destruct tx as [x cs]. rewrite rep_T in H1. destruct H1 as [H1 _]. apply HI in H1. auto. }
  intros l1 x l2 E Hx y Hy. destruct l1 as [|z l1]; cbn [app] in E; inversion E; subst.
  - apply M2; auto. congruence.
  - apply (M1 l1 x l2); auto.
Qed.

(** ** the re-rooted stem *)
Fixpoint chainT (F : ctx) : list tree :=
  match F with [] => [] | (s, A, B) :: F' => [T s (A ++ B ++ chainT F')] end.
Definition lf (f : frame) : lframe := (fst (fst f), preF (snd (fst f)), preF (snd f)).

Lemma preF_chain : forall F, preF (chainT F) = OUT (map lf F).
Proof.
  induction F as [|[[s A] B] F IH]; auto. cbn [chainT map lf fst snd OUT].
  rewrite preF_cons, pre_T, !preF_app, IH. cbn [preF flat_map]. rewrite app_nil_r. auto.
Qed.
Lemma LL_preL : forall F, LL (map lf F) = preL F.
Proof. induction F as [|[[s A] B] F IH]; auto. cbn. rewrite IH. auto. Qed.
Lemma RR_preR : forall F, RR (map lf F) = preR F.
Proof. induction F as [|[[s A] B] F IH]; auto. cbn. rewrite IH. auto. Qed.
Lemma map_fnode : forall F, map fnode (map lf F) = map nodeof F.
Proof. intros. rewrite map_map. apply map_ext. intros [[? ?] ?]; auto. Qed.
Lemma chain_perm : forall F, Permutation (preF (chainT F)) (map nodeof F ++ fnodes F).
Proof.
  induction F as [|[[s A] B] F IH]; [constructor|].
  cbn [chainT]. rewrite preF_cons, pre_T, !preF_app. cbn [preF flat_map]. rewrite app_nil_r.
  cbn [map nodeof fst app fnodes flat_map]. constructor.
  unfold ffor at 1; cbn [fst snd].
  fold (preF A) (preF B) (preF (chainT F)) (fnodes F).
  transitivity ((preF A ++ preF B) ++ map nodeof F ++ fnodes F).
  - rewrite app_assoc. apply Permutation_app_head; auto.
  - rewrite (app_assoc (preF A ++ preF B) (map nodeof F)).
    rewrite (app_assoc (map nodeof F) (preF A ++ preF B)).
    apply Permutation_app_tail. apply Permutation_app_comm.
Qed.

Lemma rep_chain : forall (I I' : nat -> nat -> nat -> nat -> Prop) (par' sn sn' ls' : nat -> nat) K q F prev szp la p,
  (forall x p s l, I x p s l -> sn x = s) ->
  (forall x p s l, par' x = p -> sn' x = s -> ls' x = l -> I' x p s l) ->
  (forall x p s l, In x (fnodes F) -> I x p s l -> I' x p s l) ->
  repC I q F szp la -> sn prev = szp ->
  rpath par' p (map nodeof F) -> links (fun w u => sn' u = K - sn w) (prev :: map nodeof F) ->
  K = szp + length (preF (chainT F)) ->
  (forall x, In x (map nodeof F) -> ls' x = last (preF (chainT F)) 0) ->
  repF I' p (chainT F).
Proof.
  intros I I' par' sn sn' ls' K q; induction F as [|[[s A] B] F IH];
    intros prev szp la p HI HI' HF HC Hp HP HL HK Hls; [apply repF_nil|].
  cbn [chainT]. rewrite repF_cons. split; [|apply repF_nil].
  cbn [repC] in HC. destruct HC as (C1 & C2 & C3 & C4).
  cbn [map nodeof fst rpath] in HP. destruct HP as [P1 P2].
  cbn [map nodeof fst] in HL. cbn [links] in HL. destruct HL as [L1 L2].
  cbn [chainT] in HK, Hls. rewrite preF_cons in HK, Hls. cbn [preF flat_map] in HK, Hls.
  rewrite app_nil_r in HK, Hls.
  rewrite rep_T. split; [|rewrite !repF_app; split; [|split]].
  - apply HI'; auto.
    + rewrite L1, Hp, HK. unfold size. lia.
    + rewrite Hls by (cbn; auto). unfold lst. apply last_indep. discriminate.
  - eapply repF_impl; [|exact C2]. intros; apply HF; auto. cbn. unfold ffor; cbn. rewrite !in_app_iff; auto.
  - eapply repF_impl; [|exact C3]. intros; apply HF; auto. cbn. unfold ffor; cbn. rewrite !in_app_iff; auto.
  - eapply (IH s); eauto.
    + intros; apply HF; auto. cbn. rewrite in_app_iff; auto.
    + rewrite HK. rewrite pre_T, !preF_app. cbn [length]. rewrite !app_length. lia.
    + intros x Hx. rewrite Hls by (cbn; auto). rewrite pre_T, !preF_app.
      destruct F as [|f F]; [contradiction|].
      assert (Hne : preF (chainT (f :: F)) <> []). { destruct f as [[? ?] ?]; discriminate. }
      change (s :: preF A ++ preF B ++ preF (chainT (f :: F))) with ((s :: preF A) ++ preF B ++ preF (chainT (f :: F))).
      rewrite app_assoc, last_app_r; auto.
Qed.

Lemma lsok_of_repC : forall (I : nat -> nat -> nat -> nat -> Prop) (ls : nat -> nat) q F prev sz la,
  (forall x p s l, I x p s l -> ls x = l) ->
  repC I q F sz la -> ls prev = la -> ~ In la (preR F) -> NoDup (preR F) ->
  lsok ls prev (map lf F).
Proof.
  intros I ls q; induction F as [|[[s A] B] F IH]; intros prev sz la HI HC Hp Hla ND; cbn [map lf lsok fst snd]; auto.
  cbn [repC] in HC. destruct HC as (C1 & C2 & C3 & C4). apply HI in C1.
  cbn [preR] in *. rewrite in_app_iff in Hla. apply NoDup_app_inv in ND as (N1 & N2 & D).
  split.
  - destruct (lasto (preF B)) as [x|] eqn:E.
    + rewrite (lasto_last _ _ la E) in C1. split; auto. rewrite C1, Hp. intros ->.
      apply lasto_In in E. tauto.
    + apply lasto_none in E. rewrite E in C1. cbn in C1. congruence.
  - eapply (IH s); eauto. destruct (lasto (preF B)) as [x|] eqn:E.
    + rewrite (lasto_last _ _ la E). apply lasto_In in E. exact (D x E).
    + apply lasto_none in E. rewrite E. cbn. tauto.
Qed.
