(** Paths to the root, common ancestors, and the array walks of the solver. *)
From Coq Require Import List Arith Bool Lia Permutation.
Import ListNotations.
From Verif Require Import Num NS_model NS_list NS_tree.

Definition plinks (par : nat -> nat) := links (fun x y => par x = y).

Lemma path_det : forall par p l1 l2,
  plinks par (l1 ++ [p]) -> plinks par (l2 ++ [p]) -> ~ In p l1 -> ~ In p l2 ->
  hd_error (l1 ++ [p]) = hd_error (l2 ++ [p]) -> l1 = l2.
Proof.
  intros par p; induction l1 as [|x l1 IH]; intros l2 H1 H2 N1 N2 Hh.
  - destruct l2; auto. cbn in Hh. inversion Hh; subst. exfalso; apply N2; cbn; auto.
  - destruct l2 as [|y l2].
    + cbn in Hh. inversion Hh; subst. exfalso; apply N1; cbn; auto.
    + cbn in Hh. inversion Hh; subst y. f_equal.
      cbn [app] in H1, H2. unfold plinks in *. cbn [links] in H1, H2.
      destruct H1 as [A1 B1], H2 as [A2 B2].
      apply IH; auto.
      * intros H; apply N1; cbn; auto.
      * intros H; apply N2; cbn; auto.
      * destruct (l1 ++ [p]) eqn:E1; [destruct l1; discriminate|].
        destruct (l2 ++ [p]) eqn:E2; [destruct l2; discriminate|]. cbn. congruence.
Qed.

(** common ancestor of two full paths *)
Lemma lca : forall par p r l1 l2,
  plinks par (l1 ++ [p]) -> plinks par (l2 ++ [p]) -> ~ In p l1 -> ~ In p l2 ->
  NoDup l1 -> NoDup l2 -> lasto l1 = Some r -> lasto l2 = Some r ->
  exists a1 a2 j tail, l1 = a1 ++ j :: tail /\ l2 = a2 ++ j :: tail /\
    (forall x, In x a1 -> ~ In x l2) /\ (forall x, In x a2 -> ~ In x l1).
Proof.
  intros par p r; induction l1 as [|x l1 IH]; intros l2 H1 H2 N1 N2 D1 D2 L1 L2; [discriminate|].
  destruct (in_dec Nat.eq_dec x l2) as [Hin|Hin].
  - apply in_split in Hin as (a2 & tail & ->).
    assert (E : x :: l1 = x :: tail).
    { apply (path_det par p); auto.
      - rewrite <- app_assoc in H2. unfold plinks in H2. rewrite links_app in H2. apply H2.
      - intros H; apply N2; apply in_or_app; auto. }
    exists [], a2, x, l1. inversion E; subst. repeat split; auto.
    intros y Hy Hy2. apply NoDup_app_inv in D2 as (_ & _ & D). apply (D y); auto.
  - destruct l1 as [|x' l1].
    + cbn in L1. inversion L1; subst. exfalso; apply Hin. apply lasto_In; auto.
    + destruct (IH l2) as (a1 & a2 & j & tail & E1 & E2 & A1 & A2); auto.
      * unfold plinks in *. cbn [app links] in H1. apply H1.
      * intros H; apply N1; cbn; auto.
      * inversion D1; auto.
      * change (match lasto (x' :: l1) with None => Some x | Some y => Some y end = Some r) in L1.
        destruct (lasto_cons x' l1) as [y Hy]. rewrite Hy in *. auto.
      * exists (x :: a1), a2, j, tail. rewrite E1. repeat split; auto.
        -- intros y [<-|Hy]; auto.
        -- intros y Hy [<-|Hy2].
           ++ apply Hin. rewrite E2. apply in_or_app; auto.
           ++ apply (A2 y); auto. rewrite E1; auto.
Qed.

Lemma size_path : forall (par sn : nat -> nat) a j x,
  plinks par (a ++ [j]) -> (forall y, In y a -> sn y < sn (par y)) ->
  In x a -> sn x < sn j.
Proof.
  intros par sn; induction a as [|y a IH]; intros j x HL HS Hx; [contradiction|].
  unfold plinks in HL. cbn [app links] in HL. destruct HL as [A B].
  assert (Hy : sn y < sn (par y)) by (apply HS; cbn; auto).
  assert (Hyj : sn y < sn j).
  { destruct a as [|z a]; cbn [app] in A.
    - congruence.
    - rewrite A in Hy. assert (sn z < sn j). { apply IH; auto; cbn; auto. intros; apply HS; cbn; auto. } lia. }
  destruct Hx as [<-|Hx]; auto. apply IH; auto. intros; apply HS; cbn; auto.
Qed.

Lemma join_loop_spec : forall (par sn : nat -> nat) fuel a1 a2 j u v,
  plinks par (a1 ++ [j]) -> plinks par (a2 ++ [j]) ->
  hd_error (a1 ++ [j]) = Some u -> hd_error (a2 ++ [j]) = Some v ->
  ~ In j a1 -> ~ In j a2 -> (forall x, In x a1 -> In x a2 -> False) ->
  (forall y, In y a1 \/ In y a2 -> sn y < sn (par y)) ->
  length a1 + length a2 < fuel ->
  join_loop fuel sn par u v = Ret j.
Proof.
  intros par sn; induction fuel as [|fuel IH]; intros a1 a2 j u v L1 L2 H1 H2 N1 N2 D S Hf; [lia|].
  cbn [join_loop]. destruct (Nat.eqb_spec u v) as [E|E].
  - f_equal. destruct a1 as [|x a1], a2 as [|y a2]; cbn in H1, H2; inversion H1; inversion H2; subst; try congruence;
      exfalso; first [solve [apply (D v); cbn; auto] | solve [apply N2; cbn; auto] | solve [apply N1; cbn; auto]].
  - destruct (Nat.ltb_spec (sn u) (sn v)) as [Hlt|Hge].
    + destruct a1 as [|x a1].
      * cbn in H1. inversion H1; subst u. destruct a2 as [|y a2]; [cbn in H2; congruence|].
        cbn in H2; inversion H2; subst y.
        assert (sn v < sn j). { apply (size_path par sn (v :: a2)); auto. cbn; auto. } lia.
      * cbn in H1; inversion H1; subst x. unfold plinks in L1. cbn [app links] in L1.
        destruct L1 as [A B]. apply (IH a1 a2); auto.
        -- destruct (a1 ++ [j]) eqn:E1; [destruct a1; discriminate|]. cbn; congruence.
        -- intros H; apply N1; cbn; auto.
        -- intros x Hx; apply D; cbn; auto.
        -- intros y [Hy|Hy]; apply S; cbn; auto.
        -- cbn in Hf; lia.
    + destruct a2 as [|y a2].
      * cbn in H2. inversion H2; subst v. destruct a1 as [|x a1]; [cbn in H1; congruence|].
        cbn in H1; inversion H1; subst x.
        assert (sn u < sn j). { apply (size_path par sn (u :: a1)); auto. cbn; auto. } lia.
      * cbn in H2; inversion H2; subst y. unfold plinks in L2. cbn [app links] in L2.
        destruct L2 as [A B]. apply (IH a1 a2); auto.
        -- destruct (a2 ++ [j]) eqn:E1; [destruct a2; discriminate|]. cbn; congruence.
        -- intros H; apply N2; cbn; auto.
        -- intros x Hx Hx2; apply (D x); cbn; auto.
        -- intros y [Hy|Hy]; apply S; cbn; auto.
        -- cbn in Hf; lia.
Qed.

(** the path of a located node *)
Lemma rep_path : forall (I : nat -> nat -> nat -> nat -> Prop) (par : nat -> nat) p0 tx c,
  (forall x p s l, I x p s l -> par x = p) ->
  rep I p0 (plug tx c) -> plinks par (rt tx :: map nodeof c ++ [p0]).
Proof.
  intros I par p0 tx c HI HR. rewrite rep_plug in HR. destruct HR as [H1 H2].
  unfold plinks. change (rt tx :: map nodeof c ++ [p0]) with ([rt tx] ++ (map nodeof c ++ [p0])).
  rewrite links_app. split; [cbn; auto|]. split.
  - eapply repC_path; eauto.
  - intros x y Hx Hy. cbn in Hx; inversion Hx; subst x.
    destruct tx as [x cs]. rewrite rep_T in H1. destruct H1 as [H1 _]. apply HI in H1. cbn [rt].
    rewrite H1. destruct c as [|f c]; cbn in Hy; inversion Hy; auto.
Qed.

Lemma plug_rt_last : forall c t, lasto (rt t :: map nodeof c) = Some (rt (plug t c)).
Proof.
  induction c as [|[[x l] r] c IH]; intros t; cbn [plug map]; auto.
  rewrite <- IH. cbn [rt]. change (nodeof (x, l, r)) with x.
  change (match lasto (x :: map nodeof c) with None => Some (rt t) | Some y => Some y end
          = lasto (x :: map nodeof c)).
  destruct (lasto_cons x (map nodeof c)) as [y ->]; auto.
Qed.

(** ** decomposition of the tree around a pivot *)
Lemma walk_in : forall (I : nat -> nat -> nat -> nat -> Prop) (par : nat -> nat) p0 tj C a,
  (forall x p s l, I x p s l -> par x = p) ->
  rep I p0 (plug tj C) -> NoDup (pre (plug tj C)) -> ~ In p0 (pre (plug tj C)) ->
  plinks par (a ++ [rt tj]) -> (forall x, In x a -> In x (pre (plug tj C))) ->
  forall x, In x a -> In x (pre tj).
Proof.
  intros I par p0 tj C a HI HR ND Hp0. rewrite pre_plug in ND, Hp0.
  rewrite rep_plug in HR. destruct HR as [_ HC].
  pose proof (repC_outside I par HI p0 C _ _ HC) as HO.
  assert (step : forall x, In x (pre (plug tj C)) -> In (par x) (pre tj) -> In x (pre tj)).
  { intros x Hx Hpx. rewrite pre_plug, !in_app_iff in Hx.
    assert (Hc : In x (preL C ++ preR C) -> In x (pre tj)).
    { intros Hin. exfalso. destruct (HO x Hin) as [E|E].
      - apply Hp0. rewrite !in_app_iff. rewrite <- E. auto.
      - apply NoDup_app_inv in ND as (_ & N2 & D1). apply NoDup_app_inv in N2 as (_ & _ & D2).
        rewrite in_app_iff in E. destruct E as [E|E].
        + apply (D1 (par x)); auto. apply in_or_app; auto.
        + apply (D2 (par x)); auto. }
    destruct Hx as [Hx|[Hx|Hx]]; auto; apply Hc; apply in_or_app; auto. }
  induction a as [|y a IH]; intros HL Ha x Hx; [contradiction|].
  unfold plinks in HL. cbn [app links] in HL. destruct HL as [A B].
  assert (IHa : forall x, In x a -> In x (pre tj)). { apply IH; auto. intros; apply Ha; cbn; auto. }
  destruct Hx as [<-|Hx]; auto. apply step. { apply Ha; cbn; auto. }
  destruct (a ++ [rt tj]) as [|z k] eqn:E; [destruct a; discriminate|]. rewrite A.
  destruct a as [|z' a]; cbn in E; inversion E; subst.
  - apply rt_in.
  - apply IHa; cbn; auto.
Qed.

Record decomp (t : tree) (j uin vin uout : nat) (a1 a2 b : list nat)
  (l r : list tree) (cs : list tree) (F G C : ctx) : Prop := {
  dc_tree : t = plug (T j (l ++ plug (T uin cs) (F ++ G) :: r)) C;
  dc_F : uin :: map nodeof F = a1 ++ [uout];
  dc_G : map nodeof G = a2;
  dc_v : (b = [] /\ vin = j) \/
         (exists l1 l2 csv D, l = l1 ++ plug (T vin csv) D :: l2 /\ vin :: map nodeof D = b) \/
         (exists r1 r2 csv D, r = r1 ++ plug (T vin csv) D :: r2 /\ vin :: map nodeof D = b)
}.

Lemma decompose : forall (I : nat -> nat -> nat -> nat -> Prop) (par : nat -> nat) p0 t j uin vin uout a1 a2 b,
  (forall x p s l, I x p s l -> par x = p) ->
  rep I p0 t -> NoDup (pre t) -> ~ In p0 (pre t) ->
  In j (pre t) -> (forall x, In x ((a1 ++ uout :: a2) ++ b) -> In x (pre t)) ->
  plinks par ((a1 ++ uout :: a2) ++ [j]) -> plinks par (b ++ [j]) ->
  hd_error (a1 ++ uout :: a2) = Some uin -> hd_error (b ++ [j]) = Some vin ->
  ~ In j (a1 ++ uout :: a2) -> ~ In j b ->
  (forall x, In x (a1 ++ uout :: a2) -> In x b -> False) ->
  exists l r cs F G C, decomp t j uin vin uout a1 a2 b l r cs F G C.
Proof.
  intros I par p0 t j uin vin uout a1 a2 b HI HR ND Hp0 Hj Hin La Lb Ha Hb Nja Njb Dab.
  set (a := a1 ++ uout :: a2) in *.
  destruct (locate t j Hj) as (C & ch & Et).
  assert (Wa : forall x, In x a -> In x (pre (T j ch))).
  { apply (walk_in I par p0 (T j ch) C a); auto; try (rewrite <- Et; auto; fail).
    intros x Hx. rewrite <- Et. apply Hin. apply in_or_app; auto. }
  assert (Wb : forall x, In x b -> In x (pre (T j ch))).
  { apply (walk_in I par p0 (T j ch) C b); auto; try (rewrite <- Et; auto; fail).
    intros x Hx. rewrite <- Et. apply Hin. apply in_or_app; auto. }
  assert (Rj : repF I j ch).
  { rewrite Et in HR. rewrite rep_plug in HR. destruct HR as [HR _]. rewrite rep_T in HR. apply HR. }
  assert (NDj : NoDup (pre (T j ch))).
  { rewrite Et in ND. rewrite pre_plug in ND. apply NoDup_app_inv in ND as (_ & ND & _).
    apply NoDup_app_inv in ND as (ND & _). auto. }
  rewrite pre_T in NDj. inversion NDj as [|? ? Njch NDch]; subst.
  assert (Huin : In uin a). { destruct a; cbn in Ha; inversion Ha; subst; cbn; auto. }
  assert (Huinch : In uin (preF ch)).
  { specialize (Wa uin Huin). rewrite pre_T in Wa. cbn [In] in Wa. destruct Wa as [E|Wa]; auto.
    exfalso; apply Nja; rewrite E; auto. }
  apply in_flat_map in Huinch as (h & Hh & Huinh).
  destruct (locate h uin Huinh) as (c & cs & Eh).
  pose proof Hh as Hh'. apply in_split in Hh' as (l & r & Ech).
  (* path inside h *)
  assert (Path : forall x t', In t' ch -> In x (pre t') -> forall c' cs', t' = plug (T x cs') c' ->
     forall k, plinks par (k ++ [j]) -> ~ In j k -> hd_error k = Some x -> x :: map nodeof c' = k).
  { intros x t' Ht' Hx c' cs' E k Lk Nk Hk.
    pose proof (Rj t' Ht') as Rt. rewrite E in Rt.
    apply (rep_path I par j _ c' HI) in Rt. cbn [rt] in Rt.
    apply (path_det par j); auto.
    - intros Hjin. apply Njch. apply in_flat_map. exists t'; split; auto.
      rewrite E, pre_plug. destruct Hjin as [->|Hjin].
      + rewrite !in_app_iff. cbn; auto.
      + apply in_or_app; left. apply nodes_in_preL; auto.
    - destruct k as [|k0 k]; [discriminate|]. cbn in *. congruence. }
  assert (Ea : uin :: map nodeof c = a) by (apply (Path uin h Hh Huinh c cs Eh a); auto).
  (* split c *)
  assert (Hs : exists F G, c = F ++ G /\ uin :: map nodeof F = a1 ++ [uout] /\ map nodeof G = a2).
  { unfold a in Ea. destruct a1 as [|x a1].
    - cbn in Ea. inversion Ea; subst. exists [], c. cbn; auto.
    - cbn in Ea. inversion Ea as [[E1 E2]]. subst x.
      change (uout :: a2) with ([uout] ++ a2) in E2. rewrite app_assoc in E2.
      apply map_eq_app in E2 as (F & G & -> & EF & EG).
      exists F, G. repeat split; auto. rewrite EF. auto. }
  destruct Hs as (F & G & -> & EF & EG).
  exists l, r, cs, F, G, C. constructor; auto.
  { rewrite <- Eh, <- Ech; auto. }
  destruct b as [|v b].
  { left. cbn in Hb. inversion Hb; auto. }
  right. cbn in Hb. inversion Hb; subst v.
  assert (Hvb : In vin (vin :: b)) by (cbn; auto).
  assert (Hvch : In vin (preF ch)).
  { specialize (Wb vin Hvb). rewrite pre_T in Wb. cbn [In] in Wb. destruct Wb as [E|Wb]; auto.
    exfalso; apply Njb; rewrite E; auto. }
  apply in_flat_map in Hvch as (h2 & Hh2 & Hvh2).
  destruct (locate h2 vin Hvh2) as (D & csv & Eh2).
  assert (Eb : vin :: map nodeof D = vin :: b) by (apply (Path vin h2 Hh2 Hvh2 D csv Eh2); auto).
  rewrite Ech in Hh2. apply in_app_or in Hh2 as [Hl|[E|Hr]].
  - left. apply in_split in Hl as (l1 & l2 & El). exists l1, l2, csv, D. rewrite <- Eh2; auto.
  - exfalso. subst h2. apply (Dab (rt h)).
    + rewrite <- Ea. apply lasto_In. rewrite Eh. change (lasto (rt (T uin cs) :: map nodeof (F ++ G)) = Some (rt (plug (T uin cs) (F ++ G)))). apply plug_rt_last.
    + rewrite <- Eb. apply lasto_In. rewrite Eh2. change (lasto (rt (T vin csv) :: map nodeof D) = Some (rt (plug (T vin csv) D))). apply plug_rt_last.
  - right. apply in_split in Hr as (r1 & r2 & Er). exists r1, r2, csv, D. rewrite <- Eh2; auto.
Qed.

(** ** walks *)
Lemma up_sn_spec : forall (par : nat -> nat) j f l fuel u sn,
  plinks par (l ++ [j]) -> hd_error (l ++ [j]) = Some u -> ~ In j l -> NoDup l -> length l <= fuel ->
  exists sn', up_sn fuel par j u f sn = Ret sn' /\
    (forall x, In x l -> sn' x = f (sn x)) /\ (forall x, ~ In x l -> sn' x = sn x).
Proof.
  intros par j f; induction l as [|x l IH]; intros fuel u sn HL Hu Nj ND Hf.
  - cbn in Hu; inversion Hu; subst. exists sn. destruct fuel; cbn; rewrite Nat.eqb_refl; repeat split; auto; contradiction.
  - cbn in Hu; inversion Hu; subst x. destruct fuel; [cbn in Hf; lia|]. cbn [up_sn].
    destruct (Nat.eqb_spec u j) as [->|E]; [exfalso; apply Nj; cbn; auto|].
    unfold plinks in HL. cbn [app links] in HL. destruct HL as [A B]. inversion ND; subst.
    destruct (IH fuel (par u) (upd sn u (f (sn u)))) as (sn' & E1 & E2 & E3); auto.
    { destruct (l ++ [j]) eqn:E1; [destruct l; discriminate|]. cbn; congruence. }
    { intros H; apply Nj; cbn; auto. }
    { cbn in Hf; lia. }
    exists sn'. split; auto. split.
    + intros x [<-|Hx].
      * rewrite E3 by auto. apply upd_same.
      * rewrite E2 by auto. rewrite upd_other; auto. intros ->; auto.
    + intros x Hx. rewrite E3. { apply upd_other. intros ->; apply Hx; cbn; auto. }
      intros H; apply Hx; cbn; auto.
Qed.

Definition mono_ls (ls : nat -> nat) (old : nat) (l : list nat) : Prop :=
  forall l1 x l2, l = l1 ++ x :: l2 -> ls x <> old -> forall y, In y l2 -> ls y <> old.

Lemma mono_ls_prefix : forall ls old l1 l2, mono_ls ls old (l1 ++ l2) -> mono_ls ls old l1.
Proof.
  intros ls old l1 l2 H k1 x k2 E Hx y Hy. apply (H k1 x (k2 ++ l2)); auto.
  - rewrite E. rewrite <- app_assoc. auto.
  - apply in_or_app; auto.
Qed.

Lemma up_ls_spec : forall (par : nat -> nat) j old new l fuel u ls,
  plinks par (l ++ [j]) -> hd_error (l ++ [j]) = Some u -> ~ In j l -> NoDup l -> length l <= fuel ->
  mono_ls ls old l ->
  exists ls', up_ls fuel par j old new u ls = Ret ls' /\
    (forall x, In x l -> ls' x = if ls x =? old then new else ls x) /\
    (forall x, ~ In x l -> ls' x = ls x).
Proof.
  intros par j old new; induction l as [|x l IH]; intros fuel u ls HL Hu Nj ND Hf HM.
  - cbn in Hu; inversion Hu; subst. exists ls. destruct fuel; cbn; rewrite Nat.eqb_refl; repeat split; auto; contradiction.
  - cbn in Hu; inversion Hu; subst x. destruct fuel; [cbn in Hf; lia|]. cbn [up_ls].
    destruct (Nat.eqb_spec u j) as [->|E]; [exfalso; apply Nj; cbn; auto|].
    destruct (Nat.eqb_spec (ls u) old) as [Eo|Eo]; cbn [negb].
    + unfold plinks in HL. cbn [app links] in HL. destruct HL as [A B]. inversion ND; subst.
      destruct (IH fuel (par u) (upd ls u new)) as (ls' & E1 & E2 & E3); auto.
      { destruct (l ++ [j]) eqn:E1; [destruct l; discriminate|]. cbn; congruence. }
      { intros H; apply Nj; cbn; auto. }
      { cbn in Hf; lia. }
      { intros k1 y k2 Ek Hy w Hw. 
        assert (y <> u). { intros ->. apply H1. rewrite Ek. apply in_or_app; cbn; auto. }
        assert (w <> u). { intros ->. apply H1. rewrite Ek. apply in_or_app; cbn; auto. }
        rewrite upd_other in * by auto. apply (HM (u :: k1) y k2); auto. rewrite Ek; auto. }
      exists ls'. split; auto. split.
      * intros x [<-|Hx].
        -- rewrite E3 by auto. rewrite upd_same, Nat.eqb_refl; auto.
        -- rewrite E2 by auto. rewrite upd_other; auto. intros ->; auto.
      * intros x Hx. rewrite E3. { apply upd_other. intros ->; apply Hx; cbn; auto. }
        intros H; apply Hx; cbn; auto.
    + exists ls. split; auto. split; auto. intros x [<-|Hx].
      * destruct (Nat.eqb_spec (ls u) old); [contradiction|auto].
      * destruct (Nat.eqb_spec (ls x) old) as [E2|]; auto. exfalso.
        apply (HM [] u l eq_refl Eo x Hx E2).
Qed.

Lemma relabel_spec : forall (par : nat -> nat) uin tls rs fuel u tmp K z,
  plinks par rs -> hd_error rs = Some u -> lasto rs = Some uin -> NoDup rs ->
  length rs <= S fuel -> links (fun x y => r_sn z y <= r_sn z x) rs -> tmp + r_sn z u = K ->
  exists z', relabel_loop fuel par uin u tmp tls z = Ret z' /\
    links (fun u w => r_pred z' u = r_pred z w /\ r_fwd z' u = negb (r_fwd z w) /\
                      r_sn z' u = K - r_sn z w) rs /\
    (forall x, ~ In x (removelast rs) ->
       r_pred z' x = r_pred z x /\ r_fwd z' x = r_fwd z x /\ r_sn z' x = r_sn z x) /\
    (forall x, In x (tl rs) -> r_ls z' x = tls) /\
    (forall x, ~ In x (tl rs) -> r_ls z' x = r_ls z x).
Proof.
  intros par uin tls; induction rs as [|x rs IH]; intros fuel u tmp K z HP Hh Hl ND Hf HS HK; [discriminate|].
  cbn in Hh; inversion Hh; subst x. destruct rs as [|w rs].
  - cbn in Hl; inversion Hl; subst u. exists z.
    split. { destruct fuel; cbn; rewrite Nat.eqb_refl; auto. }
    cbn. repeat split; auto; contradiction.
  - assert (Hne : u <> uin).
    { intros ->. inversion ND; subst. apply H1.
      assert (Hl' : lasto (w :: rs) = Some uin).
      { change (match lasto (w :: rs) with None => Some uin | Some y => Some y end = Some uin) in Hl.
        destruct (lasto_cons w rs) as [y Hy]. rewrite Hy in *. auto. }
      apply lasto_In; auto. }
    destruct fuel as [|fuel]; [cbn in Hf; lia|]. cbn [relabel_loop].
    destruct (Nat.eqb_spec u uin); [contradiction|].
    unfold plinks in HP. cbn [links] in HP. destruct HP as [A B]. rewrite A. clear A.
    cbn [links] in HS. destruct HS as [S1 S2].
    set (z1 := mkRelabel (upd (r_pred z) u (r_pred z w)) (upd (r_fwd z) u (negb (r_fwd z w)))
                 (upd (r_sn z) u (tmp + r_sn z u - r_sn z w)) (upd (r_ls z) w tls)).
    inversion ND as [|? ? Nu NDw]; subst.
    assert (Hul : lasto (w :: rs) = Some uin).
    { change (match lasto (w :: rs) with None => Some u | Some y => Some y end = Some uin) in Hl.
      destruct (lasto_cons w rs) as [y Hy]. rewrite Hy in *. auto. }
    assert (Hother : forall x, In x (w :: rs) -> r_pred z1 x = r_pred z x /\ r_fwd z1 x = r_fwd z x /\ r_sn z1 x = r_sn z x).
    { intros x Hx. assert (x <> u) by (intros ->; auto). cbn. rewrite !upd_other; auto. }
    destruct (IH fuel w (tmp + r_sn z u - r_sn z w) (tmp + r_sn z u) z1) as (z' & E1 & E2 & E3 & E4 & E5); auto.
    { cbn [length] in *. lia. }
    { assert (S2' : links (fun x y => r_sn z y <= r_sn z x) (w :: rs)) by exact S2.
      eapply links_impl; [|exact S2']. cbn beta. intros x y Hx Hy Hle.
      destruct (Hother x Hx) as (_ & _ & ->). destruct (Hother y (In_tl _ _ Hy)) as (_ & _ & ->). auto. }
    { destruct (Hother w (or_introl eq_refl)) as (_ & _ & ->). lia. }
    exists z'. split; auto.
    assert (Nr : ~ In u (removelast (w :: rs))). { intros H; apply Nu. apply In_removelast; auto. }
    split; [|split; [|split]].
    + split.
      * destruct (E3 u Nr) as (-> & -> & ->). cbn. rewrite !upd_same. auto.
      * eapply links_impl; [|exact E2]. cbn beta. intros x y Hx Hy (H1 & H2 & H3).
        destruct (Hother y (In_tl _ _ Hy)) as (F1 & F2 & F3). rewrite F1 in H1. rewrite F2 in H2.
        rewrite F3 in H3. auto.
    + intros x Hx. change (~ In x (u :: removelast (w :: rs))) in Hx.
      assert (x <> u) by (intros ->; apply Hx; cbn; auto).
      assert (~ In x (removelast (w :: rs))) by (intros H2; apply Hx; right; auto).
      destruct (E3 x H0) as (-> & -> & ->). cbn. rewrite !upd_other; auto.
    + cbn [tl]. intros x [<-|Hx]; auto.
      destruct (in_dec Nat.eq_dec w rs) as [Hin|Hin]; [apply E4; auto|].
      rewrite E5 by auto. cbn. apply upd_same.
    + cbn [tl]. intros x Hx. rewrite E5 by (intros H2; apply Hx; cbn; auto).
      cbn. apply upd_other. intros ->; apply Hx; cbn; auto.
Qed.

Lemma links_rev : forall (R : nat -> nat -> Prop) l, links R l -> links (fun x y => R y x) (rev l).
Proof.
  intros R; induction l as [|x l IH]; cbn [rev]; intros H; auto.
  cbn [links] in H. destruct H as [A B]. rewrite links_app. split; auto. split; [cbn; auto|].
  intros a b Ha Hb. cbn in Hb; inversion Hb; subst b. destruct l as [|y l]; [discriminate|].
  cbn [rev] in Ha. rewrite lasto_snoc in Ha. inversion Ha; subst. auto.
Qed.
Lemma lasto_rev : forall l, lasto (rev l) = hd_error l.
Proof. destruct l; auto. cbn [rev]. apply lasto_snoc. Qed.
Lemma hd_rev : forall l, hd_error (rev l) = lasto l.
Proof. intros l. rewrite <- (rev_involutive l) at 2. rewrite lasto_rev. auto. Qed.
