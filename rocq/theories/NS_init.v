(** init() (network_simplex_simple.h:1801-1857) establishes the invariant. *)
From Coq Require Import List Arith Bool Lia Permutation Reals Lra.
Import ListNotations.
From Verif Require Import Num Spec Sums NS_model NS_list NS_tree NS_ctx NS_assemble NS_update NS_walk NS_pivot NS_inv NS_enter NS_main.
Local Open Scope R_scope.

Lemma pre_leaves : forall k a, preF (map (fun u => T u []) (seq a k)) = seq a k.
Proof. induction k as [|k IH]; intros a; cbn [seq map]; auto. rewrite preF_cons, IH. auto. Qed.

Section Init.
Variables (nodes arcs : nat) (sr tg : nat -> nat) (c sup : nat -> R) (mx : R).
Variable isrc : nat -> bool.
Hypothesis Hn : (0 < nodes)%nat.
Hypothesis Harc : forall e, (e < arcs)%nat ->
  (sr e < nodes)%nat /\ (tg e < nodes)%nat /\ isrc (sr e) = true /\ isrc (tg e) = false.
Hypothesis Hsrc : forall u, (u < nodes)%nat -> isrc u = true -> 0 <= sup u.

Let g : net := @init_net RNum nodes arcs sr tg c sup mx.
Let ART : R := @art_cost RNum nodes arcs c mx.
Let s0 : ns := init_state g ART.

Definition rank0 (u : nat) : nat :=
  if (u =? nodes)%nat then 2 else if isrc u then 0 else if @nleb RNum n0 (sup u) then 1 else 3.

Lemma src_real : forall e, (e < arcs)%nat -> a_src g e = sr e.
Proof. intros e H. cbn [g s0 init_net init_state a_src a_tgt a_cost supply node_num arc_num flow state pi parent next_arc forward pred root nonode thread rev_thread succ_num last_succ]. destruct (Nat.ltb_spec e arcs) as [?Q|?Q]; auto; lia. Qed.
Lemma tgt_real : forall e, (e < arcs)%nat -> a_tgt g e = tg e.
Proof. intros e H. cbn [g s0 init_net init_state a_src a_tgt a_cost supply node_num arc_num flow state pi parent next_arc forward pred root nonode thread rev_thread succ_num last_succ]. destruct (Nat.ltb_spec e arcs) as [?Q|?Q]; auto; lia. Qed.
Lemma cost_real : forall e, (e < arcs)%nat -> a_cost g e = c e.
Proof. intros e H. cbn [g s0 init_net init_state a_src a_tgt a_cost supply node_num arc_num flow state pi parent next_arc forward pred root nonode thread rev_thread succ_num last_succ]. destruct (Nat.ltb_spec e arcs) as [?Q|?Q]; auto; lia. Qed.
Lemma src_art : forall u, a_src g (arcs + u) = if @nleb RNum n0 (sup u) then u else nodes.
Proof. intros u. cbn [g s0 init_net init_state a_src a_tgt a_cost supply node_num arc_num flow state pi parent next_arc forward pred root nonode thread rev_thread succ_num last_succ]. destruct (Nat.ltb_spec (arcs + u) arcs) as [?Q|?Q]; [lia|]. replace (arcs + u - arcs)%nat with u by lia. auto. Qed.
Lemma tgt_art : forall u, a_tgt g (arcs + u) = if @nleb RNum n0 (sup u) then nodes else u.
Proof. intros u. cbn [g s0 init_net init_state a_src a_tgt a_cost supply node_num arc_num flow state pi parent next_arc forward pred root nonode thread rev_thread succ_num last_succ]. destruct (Nat.ltb_spec (arcs + u) arcs) as [?Q|?Q]; [lia|]. replace (arcs + u - arcs)%nat with u by lia. auto. Qed.
Lemma cost_art : forall u, a_cost g (arcs + u) = if @nleb RNum n0 (sup u) then 0 else ART.
Proof. intros u. cbn [g s0 init_net init_state a_src a_tgt a_cost supply node_num arc_num flow state pi parent next_arc forward pred root nonode thread rev_thread succ_num last_succ]. destruct (Nat.ltb_spec (arcs + u) arcs) as [?Q|?Q]; [lia|]. replace (arcs + u - arcs)%nat with u by lia. auto. Qed.
Lemma flow_art : forall u, flow s0 (arcs + u) = if @nleb RNum n0 (sup u) then sup u else - sup u.
Proof.
  intros u. cbn [g s0 init_net init_state a_src a_tgt a_cost supply node_num arc_num flow state pi parent next_arc forward pred root nonode thread rev_thread succ_num last_succ]. destruct (Nat.ltb_spec (arcs + u) arcs) as [?Q|?Q]; [lia|]. replace (arcs + u - arcs)%nat with u by lia.
  destruct (@nleb RNum n0 (sup u)); auto. unfold nopp. cbn. lra.
Qed.
Lemma flow_real : forall e, (e < arcs)%nat -> flow s0 e = 0.
Proof. intros e H. cbn [g s0 init_net init_state a_src a_tgt a_cost supply node_num arc_num flow state pi parent next_arc forward pred root nonode thread rev_thread succ_num last_succ]. destruct (Nat.ltb_spec e arcs) as [?Q|?Q]; auto; lia. Qed.

Lemma arc_split : forall e, (e < all_arc_num g)%nat -> (e < arcs)%nat \/ exists u, (u < nodes)%nat /\ e = (arcs + u)%nat.
Proof. intros e He. change (all_arc_num g) with (arcs + nodes)%nat in He. destruct (Nat.lt_ge_cases e arcs); auto. right. exists (e - arcs)%nat. lia. Qed.

Lemma init_acyclic : acyclic g.
Proof.
  exists rank0. intros e He. change (node_num g) with nodes. destruct (arc_split e He) as [H|(u & Hu & ->)].
  - rewrite src_real, tgt_real; auto. destruct (Harc e H) as (A & B & C & D). repeat split; try lia.
    unfold rank0. rewrite C, D. destruct (Nat.eqb_spec (sr e) nodes) as [?Q|?Q]; [lia|]. destruct (Nat.eqb_spec (tg e) nodes) as [?Q|?Q]; [lia|].
    destruct (@nleb RNum n0 (sup (tg e))); lia.
  - rewrite src_art, tgt_art. unfold rank0. destruct (@nleb RNum n0 (sup u)) eqn:E.
    + repeat split; try lia. rewrite Nat.eqb_refl. destruct (Nat.eqb_spec u nodes) as [?Q|?Q]; [lia|]. rewrite E. destruct (isrc u); lia.
    + repeat split; try lia. rewrite Nat.eqb_refl. destruct (Nat.eqb_spec u nodes) as [?Q|?Q]; [lia|]. rewrite E.
      destruct (isrc u) eqn:Es; [|lia]. apply Rleb_false in E. specialize (Hsrc u Hu Es). cbn in E. lra.
Qed.

Definition t0 : tree := T nodes (map (fun u => T u []) (seq 0 nodes)).
Lemma pre_t0 : pre t0 = nodes :: seq 0 nodes.
Proof. unfold t0. rewrite pre_T, pre_leaves. auto. Qed.
Lemma links_seq : forall (Q : nat -> nat -> Prop) k a, (forall x, (a <= x < a + k)%nat -> Q x (S x)) ->
  links Q (seq a k ++ [(a + k)%nat]).
Proof.
  intros Q; induction k as [|k IH]; intros a H; cbn [seq app links]; auto. split.
  - specialize (H a). destruct k as [|k]; cbn [seq app]; [|apply H; lia].
    replace (a + 1)%nat with (S a) by lia. apply H; lia.
  - replace (a + S k)%nat with (S a + k)%nat by lia. apply IH. intros; apply H; lia.
Qed.

Lemma init_tree : tree_ok g s0 t0.
Proof.
  assert (El : lst t0 = (nodes - 1)%nat).
  { pose proof (pre_lasto t0) as H. rewrite pre_t0 in H.
    change (nodes :: seq 0 nodes) with ([nodes] ++ seq 0 nodes) in H. rewrite lasto_app in H.
    destruct nodes as [|k]; [lia|]. rewrite seq_S, lasto_snoc in H. injection H as <-. cbn; lia. }
  constructor.
  - auto.
  - rewrite pre_t0. change (node_num g) with nodes. rewrite seq_S. cbn [plus]. apply Permutation_cons_append.
  - assert (Es : size t0 = S nodes). { unfold size. rewrite pre_t0. cbn [length]. rewrite seq_length. auto. }
    unfold t0 in *. rewrite rep_T. rewrite El, Es. split.
    + unfold Iof. cbn. rewrite Nat.eqb_refl. auto.
    + intros t Ht. apply in_map_iff in Ht as (u & <- & Hu). apply in_seq in Hu. rewrite rep_T. split.
      * unfold Iof. cbn. destruct (Nat.eqb_spec u nodes) as [?Q|?Q]; [lia|]. auto.
      * apply repF_nil.
  - rewrite pre_t0. change (root g) with nodes. cbn [app]. change (nodes :: seq 0 nodes ++ [nodes]) with ([nodes] ++ (seq 0 nodes ++ [nodes])).
    apply links_app. split; [cbn; auto|]. split.
    + apply (links_seq _ nodes 0). intros x Hx. cbn. destruct (Nat.eqb_spec x nodes) as [?Q|?Q]; [lia|auto].
    + intros x y Hx Hy. cbn in Hx. injection Hx as <-. destruct nodes as [|k]; [lia|]. cbn in Hy. injection Hy as <-.
      cbn. rewrite Nat.eqb_refl. auto.
  - rewrite pre_t0. change (root g) with nodes. cbn [app]. change (nodes :: seq 0 nodes ++ [nodes]) with ([nodes] ++ (seq 0 nodes ++ [nodes])).
    apply links_app. split; [cbn; auto|]. split.
    + apply (links_seq _ nodes 0). intros x Hx. cbn. auto.
    + intros x y Hx Hy. cbn in Hx. injection Hx as <-. destruct nodes as [|k]; [lia|]. cbn in Hy. injection Hy as <-. auto.
Qed.

Lemma init_divg : forall u, (u < nodes)%nat -> divg g (flow s0) u = sup u.
Proof.
  intros u Hu. unfold divg. change (all_arc_num g) with (arcs + nodes)%nat. rewrite rsum_split.
  rewrite rsum_0, Rplus_0_l.
  2:{ intros e He. rewrite flow_real; auto. unfold ind. destruct (a_src g e =? u), (a_tgt g e =? u); lra. }
  rewrite (rsum_single _ u); auto.
  - rewrite src_art, tgt_art, flow_art. destruct (@nleb RNum n0 (sup u)) eqn:E; rewrite Nat.eqb_refl;
      destruct (Nat.eqb_spec nodes u) as [?Q|?Q]; try lia; unfold ind; lra.
  - intros v Hv Hne. rewrite src_art, tgt_art. destruct (@nleb RNum n0 (sup v)) eqn:E;
      destruct (Nat.eqb_spec nodes u) as [?Q|?Q]; try lia; destruct (Nat.eqb_spec v u) as [?Q|?Q]; try lia; unfold ind; lra.
Qed.

Lemma init_good : good g s0.
Proof.
  constructor.
  - exists t0. constructor.
    + apply init_tree.
    + intros u Hu. change (node_num g) with nodes in Hu. unfold arc_at. change (pred s0 u) with (arcs + u)%nat.
      change (forward s0 u) with (@nleb RNum n0 (sup u)).
      assert (Ep : parent s0 u = nodes). { cbn. destruct (Nat.eqb_spec u nodes) as [?Q|?Q]; auto; lia. }
      rewrite Ep, src_art, tgt_art. change (all_arc_num g) with (arcs + nodes)%nat. split; [lia|].
      destruct (@nleb RNum n0 (sup u)); auto.
    + intros u Hu. cbn [g s0 init_net init_state a_src a_tgt a_cost supply node_num arc_num flow state pi parent next_arc forward pred root nonode thread rev_thread succ_num last_succ]. destruct (Nat.ltb_spec (arcs + u) arcs) as [?Q|?Q]; auto; lia.
    + intros e He. cbn [g s0 init_net init_state a_src a_tgt a_cost supply node_num arc_num flow state pi parent next_arc forward pred root nonode thread rev_thread succ_num last_succ]. destruct (e <? arcs); auto.
    + intros e He Hs. destruct (arc_split e He) as [H|(u & Hu & ->)].
      * cbn [g s0 init_net init_state a_src a_tgt a_cost supply node_num arc_num flow state pi parent next_arc forward pred root nonode thread rev_thread succ_num last_succ] in Hs. destruct (Nat.ltb_spec e arcs) as [?Q|?Q]; [discriminate|lia].
      * exists u. auto.
    + intros e He. destruct (arc_split e He) as [H|(u & Hu & ->)].
      * rewrite flow_real; auto. lra.
      * rewrite flow_art. destruct (@nleb RNum n0 (sup u)) eqn:E; [apply Rleb_true in E; auto|apply Rleb_false in E; cbn in E; lra].
    + intros e He Hs. destruct (arc_split e He) as [H|(u & Hu & ->)].
      * apply flow_real; auto.
      * cbn [g s0 init_net init_state a_src a_tgt a_cost supply node_num arc_num flow state pi parent next_arc forward pred root nonode thread rev_thread succ_num last_succ] in Hs. destruct (Nat.ltb_spec (arcs + u) arcs) as [?Q|?Q]; [lia|discriminate].
    + intros u Hu. change (node_num g) with nodes in Hu. rewrite rc_R. change (pred s0 u) with (arcs + u)%nat.
      rewrite src_art, tgt_art, cost_art.
      assert (E1 : pi s0 nodes = 0). { cbn. rewrite Nat.eqb_refl. auto. }
      assert (E2 : pi s0 u = if @nleb RNum n0 (sup u) then 0 else ART).
      { cbn [g s0 init_net init_state a_src a_tgt a_cost supply node_num arc_num flow state pi parent next_arc forward pred root nonode thread rev_thread succ_num last_succ]. destruct (Nat.eqb_spec u nodes) as [?Q|?Q]; [lia|]. auto. }
      destruct (@nleb RNum n0 (sup u)); rewrite E1, E2; lra.
    + intros u Hu. apply init_divg; auto.
  - intros u Hu Hf. change (pred s0 u) with (arcs + u)%nat. rewrite flow_art.
    change (forward s0 u) with (@nleb RNum n0 (sup u)) in Hf. rewrite Hf. apply Rleb_false in Hf. cbn in Hf. lra.
  - cbn. rewrite Nat.eqb_refl. auto.
  - cbn. lia.
Qed.
End Init.
