(** What the walks of one pivot compute: findLeavingArc, changeFlow and
    updatePotential (network_simplex_simple.h:1953-2022, 2145-2155), as folds over
    the two tree paths of the pivot cycle.  Exact reals. *)
From Coq Require Import List Arith Bool Lia Permutation Reals Lra.
Import ListNotations.
From Verif Require Import Num Spec Sums NS_model NS_list NS_thread NS_tree NS_path NS_update.
Local Open Scope R_scope.

Notation net := (@net RNum).
Notation ns := (@ns RNum).

Section Walk.
Variable s : ns.
Notation fl := (flow s : nat -> R).
Notation fp u := (fl (pred s u)).

Definition d1 (u : nat) : option RNum := if forward s u then Some (flow s (pred s u)) else None.
Definition d2 (u : nat) : option RNum := if forward s u then None else Some (flow s (pred s u)).
Definition step1 (c : @cand RNum) (u : nat) : @cand RNum :=
  if extlt (d1 u) (fst (fst c)) then (d1 u, u, 1%nat) else c.
Definition step2 (c : @cand RNum) (u : nat) : @cand RNum :=
  if extle (d2 u) (fst (fst c)) then (d2 u, u, 2%nat) else c.

Lemma walk_hd : forall (par : nat -> nat) x k j u, plinks par ((x :: k) ++ [j]) ->
  hd_error ((x :: k) ++ [j]) = Some u -> u = x /\ plinks par (k ++ [j]) /\ hd_error (k ++ [j]) = Some (par u).
Proof.
  intros par x k j u HL Hh. cbn in Hh. injection Hh as <-. unfold plinks in HL. cbn [app links] in HL.
  destruct HL as [A B]. repeat split; auto.
  destruct (k ++ [j]) eqn:E; [destruct k; discriminate|]. cbn. congruence.
Qed.

Lemma leave_first_fold : forall j k fuel u c, plinks (parent s) (k ++ [j]) ->
  hd_error (k ++ [j]) = Some u -> ~ In j k -> (length k <= fuel)%nat ->
  leave_first fuel s j u c = Ret (fold_left step1 k c).
Proof.
  intros j; induction k as [|x k IH]; intros fuel u c HL Hh Hj Hf.
  - cbn in Hh. injection Hh as <-. destruct fuel; cbn; rewrite Nat.eqb_refl; auto.
  - destruct (walk_hd _ _ _ _ _ HL Hh) as (-> & HL' & Hh').
    cbn [length] in Hf. destruct fuel as [|fuel]; [lia|]. cbn [leave_first fold_left].
    destruct (Nat.eqb_spec x j) as [E|E]; [exfalso; apply Hj; cbn; auto|].
    rewrite (IH fuel); auto. { intros H; apply Hj; cbn; auto. } lia.
Qed.
Lemma leave_second_fold : forall j k fuel u c, plinks (parent s) (k ++ [j]) ->
  hd_error (k ++ [j]) = Some u -> ~ In j k -> (length k <= fuel)%nat ->
  leave_second fuel s j u c = Ret (fold_left step2 k c).
Proof.
  intros j; induction k as [|x k IH]; intros fuel u c HL Hh Hj Hf.
  - cbn in Hh. injection Hh as <-. destruct fuel; cbn; rewrite Nat.eqb_refl; auto.
  - destruct (walk_hd _ _ _ _ _ HL Hh) as (-> & HL' & Hh').
    cbn [length] in Hf. destruct fuel as [|fuel]; [lia|]. cbn [leave_second fold_left].
    destruct (Nat.eqb_spec x j) as [E|E]; [exfalso; apply Hj; cbn; auto|].
    rewrite (IH fuel); auto. { intros H; apply Hj; cbn; auto. } lia.
Qed.

Lemma first_spec : forall k,
  let c := fold_left step1 k (None, 0%nat, 0%nat) in
  (c = (None, 0%nat, 0%nat) /\ forall u, In u k -> forward s u = false) \/
  (exists k1 u k2, k = k1 ++ u :: k2 /\ forward s u = true /\ c = (Some (flow s (pred s u)), u, 1%nat) /\
     (forall w, In w k1 -> forward s w = true -> fp u < fp w) /\
     (forall w, In w k2 -> forward s w = true -> fp u <= fp w)).
Proof.
  induction k as [|x k IH] using rev_ind; intros c; subst c.
  - left; cbn; auto. split; auto; contradiction.
  - rewrite fold_left_app. cbn [fold_left]. cbn zeta in IH.
    destruct IH as [[-> H]|(k1 & u & k2 & -> & Hu & -> & H1 & H2)]; unfold step1, d1; cbn [fst].
    + destruct (forward s x) eqn:E; cbn [extlt].
      * right. exists k, x, []. repeat split; auto; try contradiction.
        intros w Hw Hf. rewrite H in Hf; auto; discriminate.
      * left. split; auto. intros u Hu. apply in_app_or in Hu as [Hu|[<-|[]]]; auto.
    + destruct (forward s x) eqn:E; cbn [extlt].
      * destruct (@nltb RNum (flow s (pred s x)) (flow s (pred s u))) eqn:E2.
        -- right. apply Rltb_true in E2. exists (k1 ++ u :: k2), x, []. repeat split; auto; try contradiction.
           intros w Hw Hf. apply in_app_or in Hw as [Hw|[<-|Hw]]; auto.
           ++ eapply Rlt_trans; [exact E2|]; auto.
           ++ eapply Rlt_le_trans; [exact E2|]; auto.
        -- right. apply Rltb_false in E2. exists k1, u, (k2 ++ [x]). repeat split; auto.
           { rewrite <- app_assoc; auto. }
           intros w Hw Hf. apply in_app_or in Hw as [Hw|[<-|[]]]; auto.
      * right. exists k1, u, (k2 ++ [x]). repeat split; auto.
        { rewrite <- app_assoc; auto. }
        intros w Hw Hf. apply in_app_or in Hw as [Hw|[<-|[]]]; auto. congruence.
Qed.

Lemma second_spec : forall c0 k,
  let c := fold_left step2 k c0 in
  (fst (fst c) = None /\ fst (fst c0) = None /\ forall w, In w k -> forward s w = true) \/
  (exists b, fst (fst c0) = Some b /\ c = c0 /\ forall w, In w k -> forward s w = false -> (b : R) < fp w) \/
  (exists k1 u k2, k = k1 ++ u :: k2 /\ forward s u = false /\ c = (Some (flow s (pred s u)), u, 2%nat) /\
     (forall b, fst (fst c0) = Some b -> fp u <= b) /\
     (forall w, In w k1 -> forward s w = false -> fp u <= fp w) /\
     (forall w, In w k2 -> forward s w = false -> fp u < fp w)).
Proof.
  intros c0; induction k as [|x k IH] using rev_ind; intros c; subst c.
  - cbn [fold_left]. destruct (fst (fst c0)) as [b|] eqn:E.
    + right; left. exists b. repeat split; auto. contradiction.
    + left. repeat split; auto; try contradiction.
  - rewrite fold_left_app. cbn [fold_left]. cbn zeta in IH.
    destruct IH as [(E1 & E2 & H)|[(b & E & Ec & H)|(k1 & u & k2 & -> & Hu & Ec & Hb & H1 & H2)]].
    + unfold step2 at 1 3 5. rewrite E1. unfold d2. destruct (forward s x) eqn:Ex; cbn [extle].
      * left. repeat split; auto. intros w Hw. apply in_app_or in Hw as [Hw|[<-|[]]]; auto.
      * right; right. exists k, x, []. repeat split; auto; try contradiction.
        -- intros b Eb. congruence.
        -- intros w Hw Hf. rewrite H in Hf; auto; discriminate.
    + rewrite Ec. unfold step2. rewrite E. unfold d2. destruct (forward s x) eqn:Ex; cbn [extle].
      * right; left. exists b. repeat split; auto. intros w Hw Hf. apply in_app_or in Hw as [Hw|[<-|[]]]; auto. congruence.
      * destruct (@nleb RNum (flow s (pred s x)) b) eqn:E2.
        -- apply Rleb_true in E2. right; right. exists k, x, []. repeat split; auto; try contradiction.
           ++ intros b' Eb. injection Eb as <-. auto.
           ++ intros w Hw Hf. eapply Rle_trans; [exact E2|]. left. auto.
        -- apply Rleb_false in E2. right; left. exists b. repeat split; auto.
           intros w Hw Hf. apply in_app_or in Hw as [Hw|[<-|[]]]; auto.
    + rewrite Ec. unfold step2. cbn [fst]. unfold d2. destruct (forward s x) eqn:Ex; cbn [extle].
      * right; right. exists k1, u, (k2 ++ [x]). repeat split; auto.
        { rewrite <- app_assoc; auto. }
        intros w Hw Hf. apply in_app_or in Hw as [Hw|[<-|[]]]; auto. congruence.
      * destruct (@nleb RNum (flow s (pred s x)) (flow s (pred s u))) eqn:E2.
        -- apply Rleb_true in E2. right; right. exists (k1 ++ u :: k2), x, []. repeat split; auto; try contradiction.
           ++ intros b Eb. eapply Rle_trans; [exact E2|]. auto.
           ++ intros w Hw Hf. apply in_app_or in Hw as [Hw|[<-|Hw]]; auto.
              ** eapply Rle_trans; [exact E2|]; auto.
              ** eapply Rle_trans; [exact E2|]; left; auto.
        -- apply Rleb_false in E2. right; right. exists k1, u, (k2 ++ [x]). repeat split; auto.
           { rewrite <- app_assoc; auto. }
           intros w Hw Hf. apply in_app_or in Hw as [Hw|[<-|[]]]; auto.
Qed.

(** changeFlow's walk *)
Definition amt (x y : R) (u : nat) : R := if forward s u then x else y.
Definition pushf (x y : R) (f : nat -> R) (u : nat) : nat -> R := upd f (pred s u) (f (pred s u) + amt x y u).

Lemma push_fold : forall j x y k fuel u f, plinks (parent s) (k ++ [j]) ->
  hd_error (k ++ [j]) = Some u -> ~ In j k -> (length k <= fuel)%nat ->
  @push_path RNum fuel s j u x y f = Ret (fold_left (pushf x y) k f).
Proof.
  intros j X Y; induction k as [|x k IH]; intros fuel u c HL Hh Hj Hf.
  - cbn in Hh. injection Hh as <-. destruct fuel; cbn; rewrite Nat.eqb_refl; auto.
  - destruct (walk_hd _ _ _ _ _ HL Hh) as (-> & HL' & Hh').
    cbn [length] in Hf. destruct fuel as [|fuel]; [lia|]. cbn [push_path fold_left].
    destruct (Nat.eqb_spec x j) as [E|E]; [exfalso; apply Hj; cbn; auto|].
    rewrite (IH fuel); auto. { intros H; apply Hj; cbn; auto. } lia.
Qed.

Lemma push_out : forall x y k f e, (forall u, In u k -> pred s u <> e) -> fold_left (pushf x y) k f e = f e.
Proof.
  intros x y; induction k as [|u k IH]; intros f e H; cbn [fold_left]; auto.
  rewrite IH; [|intros; apply H; cbn; auto]. unfold pushf. apply upd_other. intros E. apply (H u); cbn; auto.
Qed.
Lemma push_on : forall x y k f u, NoDup k -> (forall a b, In a k -> In b k -> pred s a = pred s b -> a = b) ->
  In u k -> fold_left (pushf x y) k f (pred s u) = f (pred s u) + amt x y u.
Proof.
  intros x y; induction k as [|v k IH]; intros f u ND Inj Hu; [contradiction|]. cbn [fold_left].
  inversion ND as [|? ? N1 N2]; subst. destruct Hu as [<-|Hu].
  - rewrite push_out. { unfold pushf. apply upd_same. }
    intros w Hw E. apply N1. rewrite (Inj v w); cbn; auto.
  - rewrite IH; auto. 2:{ intros; apply Inj; cbn; auto. }
    unfold pushf. rewrite upd_other; auto. intros E. apply N1. rewrite (Inj v u); cbn; auto.
Qed.

(** divergence: what leaves a node minus what enters it *)
Section Div.
Variable g : net.
Notation src := (a_src g).
Notation tgt := (a_tgt g).
Definition ind (b : bool) (x : R) : R := if b then x else 0.
Definition divg (f : nat -> R) (w : nat) : R :=
  rsum (all_arc_num g) (fun e => ind (src e =? w) (f e) - ind (tgt e =? w) (f e)).

Lemma divg_upd : forall f e c w, (e < all_arc_num g)%nat ->
  divg (upd f e (f e + c)) w = divg f w + (ind (src e =? w) c - ind (tgt e =? w) c).
Proof.
  intros f e c w He. unfold divg.
  rewrite (rsum_ext _ _ (fun k => (ind (src k =? w) (f k) - ind (tgt k =? w) (f k)) +
     (if (k =? e)%nat then (ind (src e =? w) c - ind (tgt e =? w) c) else 0))).
  - rewrite rsum_plus. f_equal. rewrite (rsum_single _ e); auto.
    + rewrite Nat.eqb_refl; auto.
    + intros k Hk Hne. destruct (Nat.eqb_spec k e); congruence.
  - intros k Hk. destruct (Nat.eqb_spec k e) as [->|E].
    + rewrite upd_same. unfold ind. destruct (src e =? w), (tgt e =? w); lra.
    + rewrite upd_other; auto. lra.
Qed.

Definition arc_at (u : nat) : Prop := (pred s u < all_arc_num g)%nat /\
  (if forward s u then src (pred s u) = u /\ tgt (pred s u) = parent s u
   else tgt (pred s u) = u /\ src (pred s u) = parent s u).

Lemma push_div : forall x j k f u w, plinks (parent s) (k ++ [j]) -> hd_error (k ++ [j]) = Some u ->
  (forall v, In v k -> arc_at v) ->
  divg (fold_left (pushf x (- x)) k f) w = divg f w + (ind (u =? w) x - ind (j =? w) x).
Proof.
  intros x j; induction k as [|v k IH]; intros f u w HL Hh HA.
  - cbn in Hh. injection Hh as <-. cbn [fold_left]. lra.
  - destruct (walk_hd _ _ _ _ _ HL Hh) as (-> & HL' & Hh'). cbn [fold_left].
    rewrite (IH _ (parent s v)); auto. 2:{ intros; apply HA; cbn; auto. }
    destruct (HA v (or_introl eq_refl)) as [HP HS].
    unfold pushf. rewrite divg_upd; auto. unfold amt. destruct (forward s v); destruct HS as [-> ->].
    + lra.
    + unfold ind. destruct (v =? w), (parent s v =? w), (j =? w); lra.
Qed.
End Div.
End Walk.

(** updatePotential adds sigma exactly on the thread segment of a subtree *)
Lemma pot_loop_spec : forall th stop sigma l u fuel (p : nat -> R),
  links (fun x y => th x = y) (l ++ [stop]) -> hd_error (l ++ [stop]) = Some u -> ~ In stop l -> NoDup l ->
  (length l <= fuel)%nat ->
  exists p', @pot_loop RNum fuel th stop u sigma p = Ret p' /\
    forall x, p' x = if in_dec Nat.eq_dec x l then p x + sigma else p x.
Proof.
  intros th stop sigma; induction l as [|y l IH]; intros u fuel p HL Hh Hs ND Hf.
  - cbn in Hh. injection Hh as <-. exists p. split; [|intros; destruct (in_dec _ _ _); [contradiction|auto]].
    destruct fuel; cbn; rewrite Nat.eqb_refl; auto.
  - destruct (walk_hd th y l stop u HL Hh) as (-> & HL' & Hh').
    cbn [length] in Hf. destruct fuel as [|fuel]; [lia|]. cbn [pot_loop].
    destruct (Nat.eqb_spec y stop) as [E|E]; [exfalso; apply Hs; cbn; auto|].
    inversion ND as [|? ? N1 N2]; subst.
    destruct (IH (th y) fuel (upd p y (p y + sigma)) HL' Hh') as (p' & E' & HP); auto.
    { intros H; apply Hs; cbn; auto. } { lia. }
    exists p'. split; [exact E'|]. intros x. rewrite HP.
    destruct (in_dec Nat.eq_dec x l) as [Hx|Hx].
    + destruct (in_dec Nat.eq_dec x (y :: l)) as [Hx2|Hx2]; [|exfalso; apply Hx2; cbn; auto].
      rewrite upd_other; auto. intros ->; contradiction.
    + destruct (in_dec Nat.eq_dec x (y :: l)) as [[<-|Hx2]|Hx2]; try contradiction.
      * apply upd_same.
      * apply upd_other. intros ->; apply Hx2; cbn; auto.
Qed.
