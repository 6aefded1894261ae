(** The main loop of start() (network_simplex_simple.h:2272-2289) keeps the
    invariant, never answers UNBOUNDED, and on OPTIMAL leaves a certificate. *)
From Coq Require Import List Arith Bool Lia Reals Lra.
Import ListNotations.
From Verif Require Import Num Spec Sums NS_model NS_list NS_tree NS_update NS_walk NS_pivot NS_inv NS_enter.
Local Open Scope R_scope.

Record good (g : net) (s : ns) : Prop := {
  gd_inv : exists t, inv g s t;
  gd_strong : strong g s;
  gd_root : pi s (root g) = 0;
  gd_next : (next_arc s <= arc_num g)%nat
}.

Lemma smul_neg_lower : forall g s t e, inv g s t -> (e < all_arc_num g)%nat -> cst g s e < 0 ->
  state s e = LOWER /\ red_cost g s e < 0.
Proof.
  intros g s t e HI He Hc. unfold cst in Hc. destruct (iv_TL _ _ _ HI e He) as [E|E]; rewrite E in Hc; cbn [smul] in Hc.
  - cbn in Hc. lra.
  - auto.
Qed.

Lemma inv_set_entering : forall g s t ia na, inv g s t -> inv g (set_entering s ia na) t.
Proof. intros g s t ia na []. constructor; auto. destruct iv_tree; constructor; auto. Qed.
Lemma good_set_entering : forall g s ia na, good g s -> (na <= arc_num g)%nat -> good g (set_entering s ia na).
Proof.
  intros g s ia na [(t & H) H1 H2 H3] Hna. constructor; auto. exists t. apply inv_set_entering; auto.
Qed.

(** what one pivot achieves *)
Lemma good_pivot : forall g s ia, acyclic g -> good g s -> (ia < all_arc_num g)%nat ->
  state s ia = LOWER -> red_cost g s ia < 0 ->
  exists s', pivot g s ia = Ret (Some s') /\ good g s' /\ in_arc s' = in_arc s /\
    (obj g (flow s') < obj g (flow s) \/
     (obj g (flow s') = obj g (flow s) /\ (forall x, pi s x <= pi s' x) /\
      exists x, (x < node_num g)%nat /\ pi s x < pi s' x)).
Proof.
  intros g s ia HA [(t & HI) HS HR HN] Hia Hst Hr.
  destruct (pivot_detail g s t ia HI HA Hia Hst) as (j & k1 & k2 & uin & vin & uout & a1 & a2 & b & d & s' & tsub & c & sigma & E & PV).
  exists s'. split; auto. split.
  { constructor.
    - exists (plug tsub c). eapply pivot_inv; eauto.
    - eapply new_strong; eauto.
    - rewrite <- HR. eapply root_pi; eauto.
    - rewrite (pv_next _ _ _ _ _ _ _ _ _ _ _ _ _ _ _ _ _ PV). auto. }
  split. { apply PV. }
  pose proof (new_obj _ _ _ _ _ _ _ _ _ _ _ _ _ _ _ _ _ _ HI HA Hia Hst PV) as Ho.
  assert (Hd : 0 <= d) by (eapply d_nonneg; eauto).
  destruct (Req_dec d 0) as [E0|E0].
  - right. rewrite Ho, E0. split; [lra|].
    assert (HH : (forall x, pi s x <= pi s' x) /\ pi s uin < pi s' uin) by (eapply degenerate; eauto).
    destruct HH as [H1 H2].
    split; auto. exists uin. split; auto. eapply uin_lt; eauto.
  - left. rewrite Ho. assert (0 < d) by lra.
    assert (d * red_cost g s ia < 0); [|cbn in *; lra].
    rewrite <- (Rmult_0_r d). apply Rmult_lt_compat_l; auto.
Qed.

Definition certified (g : net) (s : ns) : Prop :=
  forall A, 0 <= A -> (forall e, (e < arc_num g)%nat -> scale g s e <= A) ->
    forall e, (e < arc_num g)%nat -> - (EPS * A) <= red_cost g s e.

Lemma cst_red : forall g s t A, inv g s t -> 0 <= A ->
  (forall e, (e < arc_num g)%nat -> - (EPS * A) <= cst g s e) ->
  forall e, (e < arc_num g)%nat -> - (EPS * A) <= red_cost g s e.
Proof.
  intros g s t A HI HA H e He. specialize (H e He). unfold cst in H.
  assert (Ha : (e < all_arc_num g)%nat) by (unfold all_arc_num; lia).
  destruct (iv_TL _ _ _ HI e Ha) as [E|E]; rewrite E in H; cbn [smul] in H; auto.
  destruct (iv_inv _ _ _ HI e Ha E) as (u & Hu & <-). rewrite (iv_red _ _ _ HI u Hu).
  pose proof EPSILON_pos. assert (0 <= EPS * A) by (apply Rmult_le_pos; cbn in *; lra). lra.
Qed.

Theorem main_loop_ok : forall g max_iter fuel iter s o, acyclic g -> good g s -> in_arc s <> None ->
  main_loop fuel g max_iter iter s = Ret o ->
  exists ty s', o = Done ty s' /\ good g s' /\ obj g (flow s') <= obj g (flow s) /\
    ((ty = OPTIMAL /\ certified g s') \/ (ty = MAX_ITER_REACHED /\ (0 < max_iter)%nat)).
Proof.
  intros g max_iter; induction fuel as [|fuel IH]; intros iter s o HA HG Hin HR; [discriminate|].
  cbn [main_loop] in HR. pose proof (gd_next _ _ HG) as Hna.
  destruct (find_entering_spec g s Hin Hna) as [(na & ia & E & Hn & Hia & Hc)|(oia & E & Ho & Hcert)]; rewrite E in HR; cbn [bind negb] in HR.
  - set (s1 := set_entering s (Some ia) na) in *.
    assert (G1 : good g s1) by (apply good_set_entering; auto).
    destruct (Nat.ltb_spec 0 max_iter) as [Hm|Hm].
    + cbn [andb] in HR. destruct (max_iter <=? S iter)%nat eqn:El.
      * injection HR as <-. exists MAX_ITER_REACHED, s1. repeat split; auto; try apply G1. right; auto.
      * cbn [in_arc set_entering s1] in HR.
        destruct (gd_inv _ _ HG) as (t & HI). assert (Ha : (ia < all_arc_num g)%nat) by (unfold all_arc_num; lia).
        destruct (smul_neg_lower g s t ia HI Ha Hc) as [Hst Hr].
        destruct (good_pivot g s1 ia HA G1 Ha Hst Hr) as (s2 & Ep & G2 & Ei & Hob).
        fold s1 in HR. rewrite Ep in HR. cbn [bind] in HR.
        assert (Hin2 : in_arc s2 <> None) by (rewrite Ei; discriminate).
      destruct (IH _ _ _ HA G2 Hin2 HR) as (ty & s' & -> & G' & Hob' & Hres).
        exists ty, s'. repeat split; auto; try apply G'. destruct Hob as [Hob|[Hob _]]; cbn in *; lra.
    + cbn [andb] in HR. cbn [in_arc set_entering s1] in HR.
      destruct (gd_inv _ _ HG) as (t & HI). assert (Ha : (ia < all_arc_num g)%nat) by (unfold all_arc_num; lia).
      destruct (smul_neg_lower g s t ia HI Ha Hc) as [Hst Hr].
      destruct (good_pivot g s1 ia HA G1 Ha Hst Hr) as (s2 & Ep & G2 & Ei & Hob).
      fold s1 in HR. rewrite Ep in HR. cbn [bind] in HR.
      assert (Hin2 : in_arc s2 <> None) by (rewrite Ei; discriminate).
      destruct (IH _ _ _ HA G2 Hin2 HR) as (ty & s' & -> & G' & Hob' & Hres).
      exists ty, s'. repeat split; auto; try apply G'. destruct Hob as [Hob|[Hob _]]; cbn in *; lra.
  - injection HR as <-. exists OPTIMAL, (set_entering s oia (next_arc s)).
    assert (G1 : good g (set_entering s oia (next_arc s))) by (apply good_set_entering; auto).
    repeat split; auto; try apply G1; [apply Rle_refl|]. left. split; auto.
    destruct (gd_inv _ _ HG) as (t & HI).
    intros A H0 Hsc e He. apply (cst_red g s t A HI H0); auto.
Qed.

(** with a positive iteration limit the loop always answers *)
Theorem main_loop_answers : forall g max_iter fuel iter s, acyclic g -> good g s -> in_arc s <> None ->
  (0 < max_iter)%nat -> (max_iter <= iter + fuel)%nat -> (0 < fuel)%nat ->
  exists o, main_loop fuel g max_iter iter s = Ret o.
Proof.
  intros g max_iter; induction fuel as [|fuel IH]; intros iter s HA HG Hin Hm Hf Hp; [lia|].
  cbn [main_loop]. pose proof (gd_next _ _ HG) as Hna.
  destruct (find_entering_spec g s Hin Hna) as [(na & ia & E & Hn & Hia & Hc)|(oia & E & Ho & Hcert)]; rewrite E; cbn [bind negb]; eauto.
  set (s1 := set_entering s (Some ia) na) in *.
  assert (G1 : good g s1) by (apply good_set_entering; auto).
  destruct (Nat.ltb_spec 0 max_iter) as [_|]; [|lia]. cbn [andb].
  destruct (Nat.leb_spec max_iter (S iter)) as [Hl|Hl]; eauto.
  cbn [in_arc set_entering s1].
  destruct (gd_inv _ _ HG) as (t & HI). assert (Ha : (ia < all_arc_num g)%nat) by (unfold all_arc_num; lia).
  destruct (smul_neg_lower g s t ia HI Ha Hc) as [Hst Hr].
  destruct (good_pivot g s1 ia HA G1 Ha Hst Hr) as (s2 & Ep & G2 & Ei & Hob).
  fold s1. rewrite Ep. cbn [bind]. apply IH; auto; try lia. rewrite Ei. discriminate.
Qed.

(** ** heuristic initial pivots (network_simplex_simple.h:2157-2253) *)
Theorem init_pivots_ok : forall g arcs s, acyclic g -> good g s ->
  (forall e, In e arcs -> (e < all_arc_num g)%nat) ->
  exists s', init_pivots g arcs s = Ret (Some s') /\ good g s' /\ obj g (flow s') <= obj g (flow s) /\
    (in_arc s <> None \/ arcs <> [] -> in_arc s' <> None).
Proof.
  intros g; induction arcs as [|ia arcs IH]; intros s HA HG Hin; cbn [init_pivots].
  - exists s. repeat split; auto; try apply HG; [apply Rle_refl|]. intros [H|H]; auto.
  - set (s1 := set_entering s (Some ia) (next_arc s)).
    assert (G1 : good g s1) by (apply good_set_entering; auto; apply HG).
    assert (Ha : (ia < all_arc_num g)%nat) by (apply Hin; cbn; auto).
    destruct (@nleb RNum n0 (smul (state s1 ia) (red_cost g s1 ia))) eqn:E.
    + destruct (IH s1 HA G1) as (s' & Es & G' & Ho & Hi). { intros; apply Hin; cbn; auto. }
      exists s'. split; auto. split; auto. split; auto. intros _. apply Hi. left. discriminate.
    + apply Rleb_false in E. destruct (gd_inv _ _ G1) as (t & HI).
      destruct (smul_neg_lower g s1 t ia HI Ha E) as [Hst Hr].
      destruct (good_pivot g s1 ia HA G1 Ha Hst Hr) as (s2 & Ep & G2 & Ei & Hob).
      rewrite Ep. cbn [bind]. destruct (IH s2 HA G2) as (s' & Es & G' & Ho & Hi). { intros; apply Hin; cbn; auto. }
      exists s'. split; auto. split; auto. split.
      * destruct Hob as [Hob|[Hob _]]; cbn in *; lra.
      * intros _. apply Hi. left. rewrite Ei. discriminate.
Qed.
