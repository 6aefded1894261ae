(** The arrays parent / succ_num / last_succ after updateTreeStructure describe
    the re-hung tree: pure tree part. *)
From Coq Require Import List Arith Bool Lia Permutation.
Import ListNotations.
From Verif Require Import Num NS_model NS_list NS_tree NS_path NS_ctx.

Definition Iof (par sn ls : nat -> nat) : nat -> nat -> nat -> nat -> Prop :=
  fun x p s l => par x = p /\ sn x = s /\ ls x = l.

(** what remains of the chain above u_out once its subtree is cut off *)
Definition cutG (G : ctx) : list tree :=
  match G with [] => [] | (vo, gl, gr) :: G' => [plug (T vo (gl ++ gr)) G'] end.

Lemma preF_cutG : forall G, preF (cutG G) = preL G ++ preR G.
Proof.
  destruct G as [|[[vo gl] gr] G]; auto. cbn [cutG]. rewrite preF_cons. cbn [preF flat_map].
  rewrite app_nil_r, pre_plug, pre_T, preF_app. cbn [preL preR].
  rewrite <- !app_assoc. cbn [app]. rewrite <- !app_assoc. auto.
Qed.

Lemma NoDup_hd_last : forall (x : nat) k, NoDup (x :: k) -> lasto (x :: k) = Some x -> k = [].
Proof.
  intros x k N L. destruct k as [|y k]; auto. exfalso. inversion N; subst. apply H1.
  change (match lasto (y :: k) with None => Some x | Some y => Some y end = Some x) in L.
  destruct (lasto (y :: k)) as [w|] eqn:E; [|destruct (lasto_cons y k); congruence].
  injection L as ->. apply lasto_In; auto.
Qed.

Lemma rep_cutG_gen : forall (par sn ls par' sn' ls' : nat -> nat) j G K old_ls old_rev,
  repC (Iof par sn ls) j G K old_ls ->
  NoDup (preR G) -> ~ In old_ls (preR G) ->
  (G <> [] -> lasto (preL G) = Some old_rev) ->
  (forall x p s k, In x (fnodes G) -> Iof par sn ls x p s k -> Iof par' sn' ls' x p s k) ->
  (forall x, In x (map nodeof G) -> par' x = par x /\ sn' x = sn x - K /\
     ls' x = if ls x =? old_ls then old_rev else ls x) ->
  repF (Iof par' sn' ls') j (cutG G).
Proof.
  intros par sn ls par' sn' ls' j G K old_ls old_rev HC NR Nol Hrev keep HA.
  destruct G as [|[[vo gl] gr] G']; [apply repF_nil|].
  cbn [cutG]. rewrite repF_cons. split; [|apply repF_nil].
  cbn [repC] in HC. destruct HC as (C1 & C2 & C3 & C4).
  assert (Hor2 : lasto (vo :: preF gl) = Some old_rev).
  { specialize (Hrev ltac:(discriminate)). cbn [preL] in Hrev. rewrite lasto_app in Hrev.
    destruct (lasto_cons vo (preF gl)) as [y Hy]. rewrite Hy in *. auto. }
  cbn [preR] in NR, Nol. apply NoDup_app_inv in NR as (Ngr & NG' & Dgr).
  assert (Hol : forall y, In y (preF gr) \/ In y (preR G') -> y <> old_ls).
  { intros y Hy ->. apply Nol. rewrite !in_app_iff. tauto. }
  assert (El : lst (T vo (gl ++ gr)) = last (preF gr) old_rev).
  { unfold lst. cbn [rt]. rewrite pre_T, preF_app.
    change (vo :: preF gl ++ preF gr) with ((vo :: preF gl) ++ preF gr). rewrite last_app_l.
    rewrite (lasto_last _ _ vo Hor2). auto. }
  assert (HF1 : forall x, In x (preF gl) \/ In x (preF gr) \/ In x (fnodes G') -> In x (fnodes ((vo, gl, gr) :: G'))).
  { intros x Hx. cbn [fnodes flat_map]. unfold ffor at 1; cbn [fst snd]. rewrite !in_app_iff.
    unfold fnodes in Hx. tauto. }
  rewrite rep_plug. split.
  - rewrite rep_T. split; [|rewrite repF_app; split].
    + destruct C1 as (E1 & E2 & E3). destruct (HA vo) as (A1 & A2 & A3); [cbn; auto|].
      split; [|split].
      * rewrite A1; auto.
      * rewrite A2, E2. unfold size. rewrite pre_T, preF_app. cbn [length]. rewrite app_length. lia.
      * rewrite A3, E3, El.
        destruct (preF gr) as [|q k] eqn:Egr.
        -- cbn. rewrite Nat.eqb_refl; auto.
        -- destruct (Nat.eqb_spec (last (q :: k) old_ls) old_ls) as [E|E].
           { exfalso. apply (Hol (last (q :: k) old_ls)); auto. left. apply last_in. discriminate. }
           apply last_indep; discriminate.
    + eapply repF_impl; [|exact C2]. intros x p s k Hx; apply keep. auto.
    + eapply repF_impl; [|exact C3]. intros x p s k Hx; apply keep. auto.
  - eapply repC_change; [| | | |exact C4].
    + auto.
    + destruct (preF gr) as [|q k] eqn:Egr.
      * cbn. intros H. apply (Hol old_ls); auto.
      * intros H. apply (Dgr (last (q :: k) old_ls)); auto. apply last_in; discriminate.
    + intros x p s k Hx; apply keep. auto.
    + intros x p s k s' Hx (E1 & E2 & E3) Hk Hle Es.
      destruct (HA x) as (A1 & A2 & A3); [cbn; auto|].
      assert (Hsz : size (T vo (gl ++ gr)) + K = S (length (preF gl) + K + length (preF gr))).
      { unfold size. rewrite pre_T, preF_app. cbn [length]. rewrite app_length. lia. }
      split; [|split].
      * rewrite A1; auto.
      * rewrite A2. lia.
      * rewrite A3, E3, El.
        destruct (preF gr) as [|q k'] eqn:Egr; [auto|].
        assert (Hkne : k <> old_ls).
        { destruct Hk as [->|Hk]; [|apply Hol; auto]. apply Hol. left. apply last_in; discriminate. }
        destruct (Nat.eqb_spec k old_ls); [contradiction|].
        destruct (Nat.eqb_spec k (last (q :: k') old_ls)) as [->|]; auto.
        apply last_indep; discriminate.
Qed.

Section Assemble.
Variables (par sn ls par' sn' ls' : nat -> nat) (p0 : nat).
Notation I := (Iof par sn ls).
Notation I' := (Iof par' sn' ls').
Variables (j uin v : nat) (l r cs : list tree) (F G C : ctx) (b : list nat).
Let tin := T uin cs.
Let tout := plug tin F.
Let h := plug tout G.
Let tj := T j (l ++ h :: r).
Let t := plug tj C.
Let T' := T uin (cs ++ chainT F).
Let K := size tout.
Let lam := lst T'.
Let old_ls := lst tout.
Let Pj := j :: preF l ++ preL G.
Let Qj := preR G ++ preF r.
Variable old_rev : nat.
Hypothesis HR : rep I p0 t.
Hypothesis ND : NoDup (pre t).
Hypothesis Hrev : lasto Pj = Some old_rev.
Variables (l' r' : list tree).
Let tj' := T j (l' ++ cutG G ++ r').
Hypothesis Hnew :
  (exists P1 P2, Pj = P1 ++ v :: P2 /\ pre tj' = P1 ++ v :: pre T' ++ P2 ++ Qj) \/
  (exists Q1 Q2, Qj = Q1 ++ v :: Q2 /\ pre tj' = Pj ++ Q1 ++ v :: pre T' ++ Q2).

Let stems := uin :: map nodeof F.
Let X := if negb (j =? old_rev) && negb (v =? old_rev) then old_rev else lam.
Variable Fo : list nat.
Hypothesis HSp : NoDup (stems ++ b ++ map nodeof G ++ j :: map nodeof C).
Hypothesis HFo : forall x, In x Fo -> ~ In x (stems ++ b ++ map nodeof G ++ j :: map nodeof C).
Hypothesis Fo_cs : incl (preF cs) Fo.
Hypothesis Fo_F : incl (fnodes F) Fo.
Hypothesis Fo_G : incl (fnodes G) Fo.
Hypothesis Fo_C : incl (fnodes C) Fo.

Hypothesis A_par_s : rpath par' v stems.
Hypothesis A_par_o : forall x, ~ In x stems -> par' x = par x.
Hypothesis A_sn_u : sn' uin = K.
Hypothesis A_sn_s : links (fun w u => sn' u = K - sn w) stems.
Hypothesis A_sn_b : forall x, In x b -> sn' x = sn x + K.
Hypothesis A_sn_G : forall x, In x (map nodeof G) -> sn' x = sn x - K.
Hypothesis A_sn_o : forall x, ~ In x (stems ++ b ++ map nodeof G) -> sn' x = sn x.
Hypothesis A_ls_s : forall x, In x stems -> ls' x = lam.
Hypothesis A_ls_b : forall x, In x b -> ls' x = if ls x =? v then lam else ls x.
Hypothesis A_ls_G : forall x, In x (map nodeof G) -> ls' x = if ls x =? old_ls then X else ls x.
Hypothesis A_ls_C : forall x, In x (j :: map nodeof C) ->
  ls' x = if ls j =? v then (if ls x =? v then lam else ls x)
          else (if ls x =? old_ls then X else ls x).
Hypothesis A_ls_o : forall x, ~ In x (stems ++ b ++ map nodeof G ++ j :: map nodeof C) -> ls' x = ls x.

Lemma keep : forall x p s k, In x Fo -> I x p s k -> I' x p s k.
Proof.
  intros x p s k Hx (H1 & H2 & H3). specialize (HFo x Hx). rewrite !in_app_iff in HFo. cbn [In] in HFo.
  unfold Iof. rewrite A_par_o, A_sn_o, A_ls_o; auto; rewrite ?in_app_iff; cbn [In]; tauto.
Qed.

Lemma tj_pre : pre tj = Pj ++ pre tout ++ Qj.
Proof.
  unfold tj, Pj, Qj, h. rewrite pre_T, preF_app, preF_cons, pre_plug. cbn [app].
  rewrite <- !app_assoc. auto.
Qed.
Lemma NDtj : NoDup (pre tj).
Proof.
  pose proof ND as H. unfold t in H. rewrite pre_plug in H.
  apply NoDup_app_inv in H as (_ & H & _). apply NoDup_app_inv in H as (H & _). auto.
Qed.
Lemma tj_C : forall x, In x (pre tj) -> ~ In x (preR C).
Proof.
  pose proof ND as H. unfold t in H. rewrite pre_plug in H.
  apply NoDup_app_inv in H as (_ & H & _). apply NoDup_app_inv in H as (_ & _ & H). exact H.
Qed.
Lemma T'_pre : pre T' = pre tin ++ OUT (map lf F).
Proof. unfold T', tin. rewrite !pre_T, preF_app, preF_chain. auto. Qed.
Lemma T'_perm : Permutation (pre T') (pre tout).
Proof.
  unfold tout. rewrite plug_perm. unfold T', tin. rewrite !pre_T, preF_app. cbn [app]. constructor.
  apply Permutation_app_head. apply chain_perm.
Qed.
Lemma T'_size : size T' = K.
Proof. unfold size, K. rewrite (Permutation_length T'_perm). auto. Qed.

Lemma rep_tj : rep I (ptop p0 C) tj /\ repC I p0 C (size tj) (lst tj).
Proof. apply rep_plug. exact HR. Qed.
Lemma rep_j : I j (ptop p0 C) (size tj) (lst tj).
Proof. destruct rep_tj as [H _]. unfold tj in H. rewrite rep_T in H. apply H. Qed.
Lemma rep_ch : repF I j l /\ rep I j h /\ repF I j r.
Proof.
  destruct rep_tj as [H _]. unfold tj in H. rewrite rep_T, repF_app, repF_cons in H. tauto.
Qed.
Lemma rep_tout : rep I (ptop j G) tout /\ repC I j G K old_ls.
Proof. destruct rep_ch as (_ & H & _). unfold h in H. rewrite rep_plug in H. auto. Qed.
Lemma rep_tin : rep I (ptop (ptop j G) F) tin /\ repC I (ptop j G) F (size tin) (lst tin).
Proof. destruct rep_tout as (H & _). unfold tout in H. rewrite rep_plug in H. auto. Qed.

(** the re-rooted subtree *)
Lemma rep_T' : rep I' v T'.
Proof.
  destruct rep_tin as [H1 H2]. unfold tin in H1. rewrite rep_T in H1. destruct H1 as [H1 H3].
  unfold T'. rewrite rep_T. fold T'. split; [|rewrite repF_app; split].
  - split; [|split].
    + apply A_par_s.
    + rewrite A_sn_u. symmetry. apply T'_size.
    + apply A_ls_s. cbn; auto.
  - eapply repF_impl; [|exact H3]. intros; apply keep; auto.
  - destruct A_par_s as [_ HP].
    eapply (rep_chain I I' par' sn sn' ls' K _ F uin).
    + intros x p s k Hi; apply Hi.
    + intros; split; auto.
    + intros x p s k Hx; apply keep; auto.
    + exact H2.
    + destruct H1 as (_ & -> & _). auto.
    + exact HP.
    + exact A_sn_s.
    + rewrite <- T'_size. unfold T', size, tin. rewrite !pre_T, preF_app. cbn [length]. rewrite app_length. lia.
    + intros x Hx. rewrite A_ls_s by (cbn; auto). unfold lam, lst, T'.
      rewrite pre_T, preF_app. destruct F as [|f F']; [contradiction|].
      assert (Hne : preF (chainT (f :: F')) <> []). { destruct f as [[? ?] ?]; discriminate. }
      change (uin :: preF cs ++ preF (chainT (f :: F'))) with ((uin :: preF cs) ++ preF (chainT (f :: F'))).
      rewrite last_app_r by auto. apply last_indep; auto.
Qed.

Lemma in_old_ls : In old_ls (pre tout).
Proof. apply lst_in. Qed.

Lemma lasts : lst tj' =
  if lst tj =? v then lam
  else if lst tj =? old_ls then (if v =? old_rev then lam else old_rev)
  else lst tj.
Proof.
  pose proof NDtj as N. rewrite tj_pre in N.
  apply NoDup_app_inv in N as (NP & N & DP). apply NoDup_app_inv in N as (NT & NQ & DQ).
  pose proof (pre_lasto tj) as L. rewrite tj_pre in L.
  pose proof (pre_lasto tj') as L'.
  assert (Lt : lasto (pre tout) = Some old_ls) by apply pre_lasto.
  assert (LT : lasto (pre T') = Some lam) by apply pre_lasto.
  destruct Hnew as [(P1 & P2 & EP & E)|(Q1 & Q2 & EQ & E)]; rewrite E in L'.
  - assert (HvP : In v Pj). { rewrite EP. apply in_or_app; cbn; auto. }
    destruct (lasto Qj) as [q|] eqn:Eq.
    + rewrite !lasto_app, Eq in L. inversion L as [Lq].
      change (P1 ++ v :: pre T' ++ P2 ++ Qj) with (P1 ++ [v] ++ pre T' ++ P2 ++ Qj) in L'.
      rewrite !lasto_app, Eq in L'. inversion L' as [Lq'].
      apply lasto_In in Eq.
      destruct (Nat.eqb_spec (lst tj) v) as [Ev|]; [exfalso; apply (DP v); auto; apply in_or_app; right; congruence|].
      destruct (Nat.eqb_spec (lst tj) old_ls) as [Ev|]; [exfalso; apply (DQ q); auto; pose proof in_old_ls; congruence|].
      congruence.
    + apply lasto_none in Eq. rewrite Eq, app_nil_r in L. rewrite lasto_app, Lt in L. inversion L as [Lo].
      rewrite Eq, app_nil_r in L'.
      destruct (Nat.eqb_spec old_ls v) as [Ev|].
      { exfalso; apply (DP v); auto. apply in_or_app; left. rewrite <- Ev. apply in_old_ls. }
      rewrite Nat.eqb_refl.
      change (P1 ++ v :: pre T' ++ P2) with (P1 ++ [v] ++ pre T' ++ P2) in L'.
      rewrite EP in Hrev. change (P1 ++ v :: P2) with (P1 ++ [v] ++ P2) in Hrev.
      rewrite !lasto_app in Hrev. rewrite !lasto_app in L'.
      destruct (lasto P2) as [q|] eqn:E2; rewrite ?E2 in Hrev, L'; cbn [lasto] in Hrev, L'.
      * injection Hrev as Hq. injection L' as Hq'.
        destruct (Nat.eqb_spec v old_rev) as [Ev|]; [|congruence].
        exfalso. rewrite EP in NP. apply NoDup_app_inv in NP as (_ & NP & _).
        inversion NP as [|? ? N1 N2]. apply N1. rewrite Ev, <- Hq. apply lasto_In; auto.
      * cbn in Hrev. injection Hrev as Hq. rewrite Hq, Nat.eqb_refl.
        rewrite LT in L'. injection L' as Hl. congruence.
  - assert (HvQ : In v Qj). { rewrite EQ. apply in_or_app; cbn; auto. }
    rewrite !lasto_app in L. rewrite EQ in L.
    change (Pj ++ Q1 ++ v :: pre T' ++ Q2) with (Pj ++ Q1 ++ [v] ++ pre T' ++ Q2) in L'.
    change (Q1 ++ v :: Q2) with (Q1 ++ [v] ++ Q2) in L.
    rewrite !lasto_app in L. rewrite !lasto_app in L'.
    destruct (lasto Q2) as [q|] eqn:E2; rewrite ?E2 in L, L'; cbn [lasto] in L, L'.
    + inversion L as [Lq]. inversion L' as [Lq']. apply lasto_In in E2.
      destruct (Nat.eqb_spec (lst tj) v) as [Ev|].
      { exfalso. rewrite EQ in NQ. apply NoDup_app_inv in NQ as (_ & NQ & _). inversion NQ; subst.
        apply H1. congruence. }
      destruct (Nat.eqb_spec (lst tj) old_ls) as [Ev|]; [|congruence].
      exfalso; apply (DQ q); [pose proof in_old_ls; congruence|].
      rewrite EQ. apply in_or_app; cbn; auto.
    + cbn in L. inversion L as [Lq]. rewrite Nat.eqb_refl.
      rewrite LT in L'. inversion L'; auto.
Qed.

Lemma X_ok : lst tj = old_ls -> X = if v =? old_rev then lam else old_rev.
Proof.
  intros E. unfold X. destruct (Nat.eqb_spec j old_rev) as [Ej|Ej]; cbn [negb andb].
  2:{ destruct (v =? old_rev); auto. }
  pose proof NDtj as N. rewrite tj_pre in N.
  apply NoDup_app_inv in N as (NP & N & DP). apply NoDup_app_inv in N as (NT & NQ & DQ).
  pose proof (pre_lasto tj) as L. rewrite tj_pre, !lasto_app in L.
  destruct (lasto Qj) as [q|] eqn:Eq.
  { exfalso. inversion L as [Lq]. apply lasto_In in Eq. apply (DQ q); auto.
    rewrite Lq, E. apply in_old_ls. }
  apply lasto_none in Eq.
  destruct Hnew as [(P1 & P2 & EP & _)|(Q1 & Q2 & EQ & _)].
  2:{ rewrite Eq in EQ. destruct Q1; discriminate. }
  assert (EPj : preF l ++ preL G = []).
  { apply (NoDup_hd_last j); auto. rewrite Ej at 2. exact Hrev. }
  unfold Pj in EP. rewrite EPj in EP. destruct P1 as [|? [|]]; inversion EP; subst; try discriminate.
  rewrite Nat.eqb_refl. auto.
Qed.

Lemma in_v_tj : In v (pre tj).
Proof.
  rewrite tj_pre, !in_app_iff.
  destruct Hnew as [(P1 & P2 & EP & _)|(Q1 & Q2 & EQ & _)].
  - rewrite EP. rewrite !in_app_iff; cbn; auto.
  - rewrite EQ. rewrite !in_app_iff; cbn; auto.
Qed.

Lemma jC_ls : forall x, In x (j :: map nodeof C) -> (ls x = lst tj \/ In (ls x) (preR C)) ->
  ls' x = if ls x =? lst tj then lst tj' else ls x.
Proof.
  intros x Hx Hl. rewrite A_ls_C by auto. destruct rep_j as (_ & _ & Ej). rewrite Ej.
  pose proof lasts as HL.
  destruct Hl as [E|E].
  - rewrite E, Nat.eqb_refl, HL. destruct (Nat.eqb_spec (lst tj) v); auto.
    destruct (Nat.eqb_spec (lst tj) old_ls); auto. apply X_ok; auto.
  - destruct (Nat.eqb_spec (ls x) (lst tj)) as [E2|_].
    { exfalso. apply (tj_C (lst tj)); [apply lst_in|congruence]. }
    destruct (Nat.eqb_spec (ls x) v) as [E2|_].
    { exfalso. apply (tj_C v); [apply in_v_tj|congruence]. }
    destruct (Nat.eqb_spec (ls x) old_ls) as [E2|_].
    { exfalso. apply (tj_C old_ls); [|congruence]. rewrite tj_pre, !in_app_iff. pose proof in_old_ls; auto. }
    destruct (lst tj =? v); auto.
Qed.

Lemma tj_perm : Permutation (pre tj') (pre tj).
Proof.
  rewrite tj_pre.
  destruct Hnew as [(P1 & P2 & EP & ->)|(Q1 & Q2 & EQ & ->)].
  - rewrite EP. rewrite <- !app_assoc. apply Permutation_app_head. cbn [app]. constructor.
    rewrite !app_assoc. apply Permutation_app_tail. rewrite T'_perm. apply Permutation_app_comm.
  - rewrite EQ. apply Permutation_app_head. rewrite T'_perm.
    transitivity ((pre tout ++ Q1 ++ [v]) ++ Q2).
    + change (v :: pre tout ++ Q2) with ([v] ++ pre tout ++ Q2). rewrite !app_assoc.
      apply Permutation_app_tail. rewrite <- (app_assoc (pre tout)). apply Permutation_app_comm.
    + rewrite <- !app_assoc. auto.
Qed.
Lemma tj_size : size tj' = size tj.
Proof. unfold size. apply Permutation_length. apply tj_perm. Qed.

Lemma Sp_parts : forall x, (In x stems -> ~ In x b /\ ~ In x (map nodeof G) /\ ~ In x (j :: map nodeof C)) /\
  (In x b -> ~ In x stems /\ ~ In x (map nodeof G) /\ ~ In x (j :: map nodeof C)) /\
  (In x (map nodeof G) -> ~ In x stems /\ ~ In x b /\ ~ In x (j :: map nodeof C)) /\
  (In x (j :: map nodeof C) -> ~ In x stems /\ ~ In x b /\ ~ In x (map nodeof G)).
Proof.
  intros x. pose proof HSp as N.
  apply NoDup_app_inv in N as (N1 & N & D1). apply NoDup_app_inv in N as (N2 & N & D2).
  apply NoDup_app_inv in N as (N3 & N4 & D3).
  specialize (D1 x); specialize (D2 x); specialize (D3 x). rewrite !in_app_iff in *. tauto.
Qed.

Lemma I'_j : I' j (ptop p0 C) (size tj') (lst tj').
Proof.
  destruct rep_j as (H1 & H2 & H3). destruct (Sp_parts j) as (_ & _ & _ & S4).
  destruct S4 as (S1 & S2 & S3); [cbn; auto|].
  split; [|split].
  - rewrite A_par_o; auto.
  - rewrite A_sn_o; [rewrite tj_size; auto|]. rewrite !in_app_iff; tauto.
  - rewrite jC_ls; [|cbn; auto|auto]. rewrite H3, Nat.eqb_refl; auto.
Qed.

Lemma repC_C : repC I' p0 C (size tj') (lst tj').
Proof.
  destruct rep_tj as [_ H]. eapply repC_change; [| | | |exact H].
  - pose proof ND as N. unfold t in N. rewrite pre_plug in N.
    apply NoDup_app_inv in N as (_ & N & _). apply NoDup_app_inv in N as (_ & N & _). auto.
  - apply tj_C. apply lst_in.
  - intros x p s k Hx; apply keep; auto.
  - intros x p s k s' Hx (H1 & H2 & H3) Hk Hle Es.
    destruct (Sp_parts x) as (_ & _ & _ & S4). destruct S4 as (S1 & S2 & S3); [cbn; auto|].
    rewrite tj_size in Es. split; [|split].
    + rewrite A_par_o; auto.
    + rewrite A_sn_o; [lia|]. rewrite !in_app_iff; tauto.
    + rewrite jC_ls; [|cbn; auto|rewrite H3; auto]. rewrite H3; auto.
Qed.

(** the remaining chain above u_out *)
Hypothesis v_out_G : ~ In v (preL G).

Lemma rep_cutG : repF I' j (cutG G).
Proof.
  destruct rep_tout as [_ HC].
  pose proof NDtj as N. rewrite tj_pre in N.
  apply NoDup_app_inv in N as (NP & N & DP). apply NoDup_app_inv in N as (NT & NQ & DQ).
  unfold Qj in NQ. apply NoDup_app_inv in NQ as (NRG & _ & _).
  assert (HG : G <> [] -> lasto (preL G) = Some old_rev).
  { intros Hne. pose proof Hrev as H. unfold Pj in H.
    change (j :: preF l ++ preL G) with ((j :: preF l) ++ preL G) in H. rewrite lasto_app in H.
    destruct (lasto (preL G)) as [y|] eqn:Ey; auto. apply lasto_none in Ey.
    exfalso. clear - Hne Ey. destruct G as [|[[vo gl] gr] G']; auto. cbn in Ey.
    destruct (preL G'); discriminate. }
  eapply rep_cutG_gen; eauto.
  - intros H. apply (DQ old_ls in_old_ls). unfold Qj. rewrite in_app_iff; auto.
  - intros x p s k Hx. apply keep; auto.
  - intros x Hx. destruct (Sp_parts x) as (_ & _ & S3 & _). destruct (S3 Hx) as (S1 & S2 & _).
    split; [apply A_par_o; auto|]. split; [apply A_sn_G; auto|].
    rewrite A_ls_G by auto.
    assert (EX : X = old_rev); [|rewrite EX; auto].
    assert (Hor : In old_rev (preL G)).
    { apply lasto_In. apply HG. intros E. rewrite E in Hx. contradiction. }
    unfold X. destruct (Nat.eqb_spec j old_rev) as [E|_].
    { exfalso. unfold Pj in NP. inversion NP as [|? ? N1 N2]. apply N1. rewrite in_app_iff, E; auto. }
    destruct (Nat.eqb_spec v old_rev) as [E|_]; auto.
    exfalso. apply v_out_G. rewrite E; auto.
Qed.

(** the subtree that receives the moved one, when v is below the join *)
Lemma rep_tv : forall csv D, rep I j (plug (T v csv) D) -> NoDup (pre (plug (T v csv) D)) ->
  b = v :: map nodeof D -> incl (preF csv) Fo -> incl (fnodes D) Fo ->
  rep I' j (plug (T v (T' :: csv)) D).
Proof.
  intros csv D HV NV Eb F1 F2. rewrite rep_plug in HV. destruct HV as [V1 V2].
  rewrite rep_T in V1. destruct V1 as [(E1 & E2 & E3) V3].
  rewrite pre_plug in NV. apply NoDup_app_inv in NV as (_ & NV & _).
  apply NoDup_app_inv in NV as (NV & NR & DR). rewrite pre_T in NV, DR.
  assert (Hsz : size (T v (T' :: csv)) = size (T v csv) + K).
  { unfold size. rewrite !pre_T, preF_cons. cbn [length]. rewrite app_length.
    pose proof T'_size as E. unfold size in E. lia. }
  assert (Hla : lst (T v (T' :: csv)) = last (preF csv) lam).
  { change (T' :: csv) with ([] ++ T' :: csv). rewrite lst_hole. auto. }
  assert (Hlv : lst (T v csv) = last (preF csv) v).
  { unfold lst. cbn [rt]. rewrite pre_T. change (v :: preF csv) with ([v] ++ preF csv). rewrite last_app_l. auto. }
  assert (Hin : forall x, In x (v :: map nodeof D) -> In x b /\ ~ In x stems).
  { intros x Hx. rewrite <- Eb in Hx. destruct (Sp_parts x) as (_ & S2 & _). tauto. }
  rewrite rep_plug. split.
  - rewrite rep_T. split; [|rewrite repF_cons; split].
    + destruct (Hin v) as (B1 & B2); [cbn; auto|]. split; [|split].
      * rewrite A_par_o; auto.
      * rewrite A_sn_b by auto. rewrite E2, Hsz. auto.
      * rewrite A_ls_b by auto. rewrite E3, Hla, Hlv.
        destruct (preF csv) as [|q k] eqn:Ec. { cbn. rewrite Nat.eqb_refl; auto. }
        destruct (Nat.eqb_spec (last (q :: k) v) v) as [E|E].
        { exfalso. inversion NV; subst. apply H1. rewrite <- E at 1. apply last_in; discriminate. }
        apply last_indep; discriminate.
    + apply rep_T'.
    + eapply repF_impl; [|exact V3]. intros x p s k Hx; apply keep; auto.
  - eapply repC_change; [| | | |exact V2].
    + auto.
    + intros H. apply (DR (lst (T v csv))); auto. rewrite <- pre_T. apply lst_in.
    + intros x p s k Hx; apply keep; auto.
    + intros x p s k s' Hx (D1 & D2 & D3) Hk Hle Es.
      destruct (Hin x) as (B1 & B2); [cbn; auto|]. split; [|split].
      * rewrite A_par_o; auto.
      * rewrite A_sn_b by auto. rewrite Hsz in Es. lia.
      * rewrite A_ls_b by auto. rewrite D3, Hla, Hlv.
        destruct (preF csv) as [|q k'] eqn:Ec; [auto|].
        rewrite Hlv in Hk.
        assert (Hkne : k <> v).
        { intros ->. destruct Hk as [Hk|Hk].
          - inversion NV; subst. apply H1. rewrite Hk at 1. apply last_in; discriminate.
          - apply (DR v); cbn; auto. }
        destruct (Nat.eqb_spec k v); [contradiction|].
        destruct (Nat.eqb_spec k (last (q :: k') v)) as [->|]; auto.
        apply last_indep; discriminate.
Qed.

Theorem assembled : repF I' j l' -> repF I' j r' -> rep I' p0 (plug tj' C).
Proof.
  intros H1 H2. rewrite rep_plug. split; [|apply repC_C].
  unfold tj'. rewrite rep_T, !repF_app. fold tj'. split; [apply I'_j|].
  split; auto. split; auto. apply rep_cutG.
Qed.
End Assemble.
