(** run() on a bipartite network: what flows, potentials and status it returns. *)
From Coq Require Import List Arith Bool Lia Permutation Reals Lra.
Import ListNotations.
From Verif Require Duals_proofs.
From Verif Require Import Num Spec Sums NS_model NS_list NS_tree NS_update NS_walk NS_pivot NS_inv NS_enter NS_main NS_init NS_cert NS_run NS_term.
Local Open Scope R_scope.

Lemma ind_true : forall x, ind true x = x. Proof. reflexivity. Qed.
Lemma ind_false : forall x, ind false x = 0. Proof. reflexivity. Qed.

Lemma search : forall n (P : nat -> bool), (exists i, (i < n)%nat /\ P i = true) \/ (forall i, (i < n)%nat -> P i = false).
Proof.
  induction n as [|n IH]; intros P; [right; intros; lia|].
  destruct (P n) eqn:E; [left; exists n; auto|].
  destruct (IH P) as [(i & Hi & H)|H]; [left; exists i; auto|].
  right. intros i Hi. destruct (Nat.eq_dec i n) as [->|]; auto. apply H; lia.
Qed.
Lemma rsum_pos1 : forall n f, (forall i, (i < n)%nat -> 0 <= f i) -> (exists i, (i < n)%nat /\ 0 < f i) -> 0 < rsum n f.
Proof. intros n f H1 H2. rewrite <- (rsum_0 n (fun _ => 0)); auto. apply rsum_lt; auto. Qed.
Lemma rsum_neg1 : forall n f, (forall i, (i < n)%nat -> f i <= 0) -> (exists i, (i < n)%nat /\ f i < 0) -> rsum n f < 0.
Proof. intros n f H1 H2. rewrite <- (rsum_0 n (fun _ => 0)) at 1; auto. apply rsum_lt; auto. Qed.

Section Bip.
Variables (nodes arcs : nat) (sr tg : nat -> nat) (c sup : nat -> R) (mx : R).
Variable isrc : nat -> bool.
Variable in_arcs : nat -> list nat.
Hypothesis Hn : (0 < nodes)%nat.
Hypothesis Harc : forall e, (e < arcs)%nat ->
  (sr e < nodes)%nat /\ (tg e < nodes)%nat /\ isrc (sr e) = true /\ isrc (tg e) = false.
Hypothesis Hsrc : forall u, (u < nodes)%nat -> isrc u = true -> 0 <= sup u.
Hypothesis Hin : forall v e, (v < nodes)%nat -> In e (in_arcs v) -> (e < arcs)%nat.

Notation g := (@init_net RNum nodes arcs sr tg c sup mx).
Notation ART := (@art_cost RNum nodes arcs c mx).

Lemma ART_R : ART = (mx + 1) * INR nodes.
Proof. unfold art_cost, nofnat. rewrite Duals_proofs.nsum_R, rsum_const. cbn. lra. Qed.

Lemma bip_rooted : rooted g.
Proof.
  constructor.
  - intros e He. change (arc_num g) with arcs in He. rewrite src_real, tgt_real by auto.
    destruct (Harc e He) as (A & B & _). auto.
  - intros e He. change (arc_num g) with arcs in He. change (all_arc_num g) with (arcs + nodes)%nat in He.
    replace e with (arcs + (e - arcs))%nat by lia. rewrite src_art, tgt_art by auto.
    change (root g) with nodes. destruct (@nleb RNum n0 (sup (e - arcs))); auto.
Qed.

Lemma vector_arcs : forall e, In e (arc_vector g in_arcs) -> (e < arcs)%nat.
Proof.
  intros e He. unfold arc_vector in He. apply in_flat_map in He as (v & Hv & He).
  apply in_seq in Hv. change (node_num g) with nodes in Hv.
  destruct (nltb (supply g v) n0); [|contradiction].
  destruct (min_arc g (in_arcs v)) as [x|] eqn:E; [|contradiction].
  destruct He as [<-|[]]. apply (Hin v); [lia|]. apply (min_arc_in _ _ _ E).
Qed.

Lemma vector_ne : forall v, (v < nodes)%nat -> sup v < 0 -> in_arcs v <> [] -> arc_vector g in_arcs <> [].
Proof.
  intros v Hv Hs Hne E. destruct (min_arc_some g (in_arcs v) Hne) as (e & He).
  assert (K : In e (arc_vector g in_arcs)).
  { unfold arc_vector. apply in_flat_map. exists v. split.
    - apply in_seq. change (node_num g) with nodes. lia.
    - change (supply g v) with (sup v). rewrite (proj2 (Rltb_true _ _)); [|exact Hs]. rewrite He. cbn; auto. }
  rewrite E in K. contradiction.
Qed.

Lemma supply_pos : forall u, (u < nodes)%nat -> 0 < sup u -> 0 < supply_total g.
Proof.
  intros u Hu Hp. unfold supply_total. change (node_num g) with nodes. change (supply g) with sup.
  assert (K : forall l t, (0 <= t -> t <= fold_left (fun t u => if @nltb RNum n0 (sup u) then @nadd RNum t (sup u) else t) l t) /\
     (0 <= t -> In u l -> 0 < fold_left (fun t u => if @nltb RNum n0 (sup u) then @nadd RNum t (sup u) else t) l t)).
  { induction l as [|x l IH]; intros t; cbn [fold_left].
    - split; [intros; lra|contradiction].
    - destruct (@nltb RNum n0 (sup x)) eqn:E.
      + apply Rltb_true in E. cbn in E. change (@nadd RNum t (sup x)) with (t + sup x).
        destruct (IH (t + sup x)) as [I1 I2]. split; intros H; [|intros [->|Hi]].
        * eapply Rle_trans; [|apply I1; lra]. lra.
        * eapply Rlt_le_trans; [|apply I1; lra]. lra.
        * apply I2; auto; lra.
      + apply Rltb_false in E. cbn in E. destruct (IH t) as [I1 I2]. split; auto.
        intros H [->|Hi]; [|auto]. exfalso. lra. }
  apply K; [apply Rle_refl|]. apply in_seq. lia.
Qed.

Hypothesis Hsup : exists u, (u < nodes)%nat /\ 0 < sup u.
Hypothesis Hdem : exists v, (v < nodes)%nat /\ sup v < 0 /\ in_arcs v <> [].

Lemma pivots_ok : exists s1, initial_pivots g in_arcs (init_state g ART) = Ret (Some s1) /\ good g s1 /\ in_arc s1 <> None.
Proof.
  unfold initial_pivots. destruct Hsup as (u & Hu & Hp). pose proof (supply_pos u Hu Hp) as HS.
  destruct (@nleb RNum (supply_total g) n0) eqn:E.
  - apply Rleb_true in E. cbn in E, HS. lra.
  - destruct (init_pivots_ok g (arc_vector g in_arcs) (init_state g ART)) as (s1 & E1 & G1 & _ & I1).
    + eapply init_acyclic; eauto.
    + eapply init_good; eauto.
    + intros e He. apply vector_arcs in He. change (all_arc_num g) with (arcs + nodes)%nat. lia.
    + exists s1. split; auto. split; auto. apply I1. right. destruct Hdem as (v & Hv & Hs & Hne). apply (vector_ne v); auto.
Qed.

Theorem bip_answers : forall fuel max_iter, (0 < max_iter)%nat -> (max_iter <= fuel)%nat ->
  exists r, @run RNum fuel nodes arcs sr tg c sup mx in_arcs max_iter = Ret r.
Proof.
  intros fuel max_iter H1 H2. unfold run. destruct (Nat.eqb nodes 0); [eauto|].
  destruct (@nltb RNum EPSILON_feas (@nabs RNum (@nsum RNum nodes sup))); [eauto|].
  destruct pivots_ok as (s1 & E & G & I). eapply start_answers; eauto. eapply init_acyclic; eauto.
Qed.

Theorem bip_finishes : forall fuel max_iter, (2 ^ (arcs + nodes) < fuel)%nat -> (max_iter = 0 \/ 2 ^ (arcs + nodes) < max_iter)%nat ->
  exists r, @run RNum fuel nodes arcs sr tg c sup mx in_arcs max_iter = Ret r /\ rs_type r <> MAX_ITER_REACHED.
Proof.
  intros fuel max_iter H1 H2. unfold run. destruct (Nat.eqb nodes 0); [eexists; split; [reflexivity|discriminate]|].
  destruct (@nltb RNum EPSILON_feas (@nabs RNum (@nsum RNum nodes sup))); [eexists; split; [reflexivity|discriminate]|].
  destruct pivots_ok as (s1 & E & G & I). apply (start_optimal g max_iter fuel _ _ s1); auto. eapply init_acyclic; eauto.
Qed.

Theorem bip_run : forall fuel max_iter r, Rabs (rsum nodes sup) <= @EPSILON_feas RNum ->
  @run RNum fuel nodes arcs sr tg c sup mx in_arcs max_iter = Ret r ->
  exists s, good g s /\ run_end g r s /\
    (rs_type r <> INFEASIBLE -> exists k, forall u, (u < nodes)%nat -> rs_pi r u = (pi s u : R) - k) /\
    (rs_type r = MAX_ITER_REACHED -> (0 < max_iter)%nat).
Proof.
  intros fuel max_iter r Hb HR. unfold run in HR. destruct (Nat.eqb_spec nodes 0) as [?Q|?Q]; [lia|].
  rewrite nabs_R in HR. rewrite Duals_proofs.nsum_R in HR.
  destruct (@nltb RNum EPSILON_feas (Rabs (rsum nodes sup))) eqn:E.
  { apply Rltb_true in E. exfalso. apply (Rlt_irrefl (@EPSILON_feas RNum)). eapply Rlt_le_trans; eauto. }
  destruct pivots_ok as (s1 & E1 & G & I).
  assert (HA : acyclic g) by (eapply init_acyclic; eauto).
  destruct (start_spec fuel g max_iter _ _ s1 r HA E1 G I HR) as (s & A & B & _ & C & D).
  exists s. auto.
Qed.

(** net outflow of node w along the caller's arcs *)
Definition rdiv (x : nat -> R) (w : nat) : R :=
  rsum arcs (fun e => ind (sr e =? w)%nat (x e) - ind (tg e =? w)%nat (x e)).

Lemma divg_rdiv : forall f w, (w < nodes)%nat ->
  divg g f w = rdiv f w + (if @nleb RNum n0 (sup w) then f (arcs + w)%nat else - f (arcs + w)%nat).
Proof.
  intros f w Hw. unfold divg, rdiv. change (all_arc_num g) with (arcs + nodes)%nat. rewrite rsum_split. f_equal.
  - apply rsum_ext. intros e He. rewrite src_real, tgt_real by auto. reflexivity.
  - rewrite (rsum_single _ w); auto.
    + rewrite src_art, tgt_art by auto. destruct (@nleb RNum n0 (sup w)); rewrite Nat.eqb_refl;
        destruct (Nat.eqb_spec nodes w) as [?Q|?Q]; try lia; unfold ind; lra.
    + intros u Hu Hne. rewrite src_art, tgt_art by auto. destruct (@nleb RNum n0 (sup u)); destruct (Nat.eqb_spec nodes w) as [?Q|?Q]; try lia;
        destruct (Nat.eqb_spec u w) as [?Q|?Q]; try congruence; unfold ind; lra.
Qed.
Lemma divg_root : forall f, divg g f nodes = rsum nodes (fun u => if @nleb RNum n0 (sup u) then - f (arcs + u)%nat else f (arcs + u)%nat).
Proof.
  intros f. unfold divg. change (all_arc_num g) with (arcs + nodes)%nat. rewrite rsum_split.
  rewrite (rsum_0 arcs).
  - rewrite Rplus_0_l. apply rsum_ext. intros u Hu. rewrite src_art, tgt_art by auto.
    destruct (@nleb RNum n0 (sup u)); rewrite Nat.eqb_refl; destruct (Nat.eqb_spec u nodes) as [?Q|?Q]; try lia; unfold ind; lra.
  - intros e He. rewrite src_real, tgt_real by auto. destruct (Harc e He) as (A & B & _).
    destruct (Nat.eqb_spec (sr e) nodes) as [?Q|?Q]; try lia. destruct (Nat.eqb_spec (tg e) nodes) as [?Q|?Q]; try lia. unfold ind; lra.
Qed.

Section Good.
Variable s : ns.
Hypothesis HG : good g s.

Lemma flow_pos : forall e, (e < arcs + nodes)%nat -> 0 <= flow s e.
Proof. intros e He. destruct (gd_inv _ _ HG) as (t & HI). apply (iv_pos _ _ _ HI). exact He. Qed.
Lemma node_bal : forall w, (w < nodes)%nat ->
  rdiv (flow s) w = sup w - (if @nleb RNum n0 (sup w) then flow s (arcs + w) else - flow s (arcs + w)).
Proof.
  intros w Hw. destruct (gd_inv _ _ HG) as (t & HI). pose proof (iv_div _ _ _ HI w Hw) as D.
  rewrite divg_rdiv in D by auto. change (supply g w) with (sup w) in D. lra.
Qed.
Lemma art_total : rsum nodes (fun u => if @nleb RNum n0 (sup u) then - flow s (arcs + u) else flow s (arcs + u)) = - rsum nodes sup.
Proof.
  rewrite <- (divg_root (flow s)). destruct (gd_inv _ _ HG) as (t & HI).
  assert (HA : acyclic g) by (eapply init_acyclic; eauto).
  pose proof (divg_total g (flow s) HA) as T. change (node_num g) with nodes in T. cbn [rsum] in T.
  rewrite (rsum_ext _ _ sup) in T; [lra|]. intros w Hw. apply (iv_div _ _ _ HI w Hw).
Qed.

(** complementary artificial arcs: if one carries flow, so does one of each kind *)
Lemma art_pair : rsum nodes sup = 0 -> forall w, (w < nodes)%nat -> 0 < flow s (arcs + w) ->
  exists u v, (u < nodes)%nat /\ (v < nodes)%nat /\ 0 <= sup u /\ sup v < 0 /\ 0 < flow s (arcs + u) /\ 0 < flow s (arcs + v).
Proof.
  intros Hz w Hw Hp. pose proof art_total as T. rewrite Hz in T.
  destruct (@nleb RNum n0 (sup w)) eqn:E.
  - destruct (search nodes (fun v => negb (@nleb RNum n0 (sup v)) && @nltb RNum n0 (flow s (arcs + v)))) as [(v & Hv & B)|B].
    + apply andb_true_iff in B as [B1 B2]. apply negb_true_iff in B1. apply Rleb_false in B1. apply Rltb_true in B2. apply Rleb_true in E.
      cbn in *. exists w, v. repeat split; auto.
    + exfalso. assert (L : rsum nodes (fun u => if @nleb RNum n0 (sup u) then - flow s (arcs + u) else flow s (arcs + u)) < 0).
      { apply rsum_neg1.
        - intros i Hi. specialize (B i Hi). apply andb_false_iff in B as [B|B].
          + apply negb_false_iff in B. rewrite B. assert (0 <= flow s (arcs + i)) by (apply flow_pos; lia). lra.
          + apply Rltb_false in B. cbn in B. assert (0 <= flow s (arcs + i)) by (apply flow_pos; lia). destruct (@nleb RNum n0 (sup i)); lra.
        - exists w. split; auto. rewrite E. lra. }
      lra.
  - destruct (search nodes (fun v => (@nleb RNum n0 (sup v)) && @nltb RNum n0 (flow s (arcs + v)))) as [(v & Hv & B)|B].
    + apply andb_true_iff in B as [B1 B2]. apply Rleb_true in B1. apply Rltb_true in B2. apply Rleb_false in E.
      cbn in *. exists v, w. repeat split; auto.
    + exfalso. assert (L : 0 < rsum nodes (fun u => if @nleb RNum n0 (sup u) then - flow s (arcs + u) else flow s (arcs + u))).
      { apply rsum_pos1.
        - intros i Hi. specialize (B i Hi). apply andb_false_iff in B as [B|B].
          + rewrite B. apply flow_pos; lia.
          + apply Rltb_false in B. cbn in B. assert (0 <= flow s (arcs + i)) by (apply flow_pos; lia). destruct (@nleb RNum n0 (sup i)); lra.
        - exists w. split; auto. rewrite E. auto. }
      lra.
Qed.

Lemma real_red : forall e, (e < arcs)%nat -> red_cost g s e = c e + pi s (sr e) - pi s (tg e).
Proof. intros e He. rewrite rc_R, src_real, tgt_real, cost_real by auto. reflexivity. Qed.
Lemma cert_red : certified g s -> forall C, 0 <= C -> (forall e, (e < arcs)%nat -> Rabs (c e) <= C) ->
  forall e, (e < arcs)%nat -> - (EPS * (INR nodes * C + Rabs ART)) <= c e + pi s (sr e) - pi s (tg e).
Proof.
  intros Hc C HC Hcost e He. rewrite <- real_red by auto. destruct (gd_inv _ _ HG) as (t & HI).
  apply Hc; auto.
  - apply Rplus_le_le_0_compat; [|apply Rabs_pos]. apply Rmult_le_pos; auto. apply pos_INR.
  - apply (scale_bound g s t HI bip_rooted C (Rabs ART)); auto; try apply Rabs_pos.
    + apply (gd_root _ _ HG).
    + intros k Hk. change (arc_num g) with arcs in Hk. rewrite cost_real by auto. auto.
    + intros k Hk. destruct (arc_split nodes arcs sr tg c sup mx Hn k Hk) as [H|(u & Hu & ->)].
      * rewrite cost_real by auto. eapply Rle_trans; [apply (Hcost k H)|]. pose proof (Rabs_pos ART). cbn in *. lra.
      * rewrite cost_art by auto. destruct (@nleb RNum n0 (sup u)); [|lra]. rewrite Rabs_R0. pose proof (Rabs_pos ART). lra.
Qed.
Lemma real_tight : forall e, (e < arcs)%nat -> 0 < flow s e -> c e + pi s (sr e) - pi s (tg e) = 0.
Proof.
  intros e He Hf. rewrite <- real_red by auto. destruct (gd_inv _ _ HG) as (t & HI). apply (pos_flow_red _ _ _ HI); auto.
  change (all_arc_num g) with (arcs + nodes)%nat. lia.
Qed.
Lemma art_tight : forall u, (u < nodes)%nat -> 0 < flow s (arcs + u) -> pi s u = if @nleb RNum n0 (sup u) then 0 else ART.
Proof.
  intros u Hu Hf. destruct (gd_inv _ _ HG) as (t & HI).
  pose proof (pos_flow_red _ _ _ HI (arcs + u)) as H. rewrite rc_R, src_art, tgt_art, cost_art in H by auto.
  pose proof (gd_root _ _ HG) as Hr. change (root g) with nodes in Hr.
  assert (Hlt : (arcs + u < all_arc_num g)%nat) by (change (all_arc_num g) with (arcs + nodes)%nat; lia).
  specialize (H Hlt Hf). destruct (@nleb RNum n0 (sup u)); rewrite Hr in H; lra.
Qed.
Lemma bip_few : forall L, NoDup L -> (forall e, In e L -> (e < arcs)%nat /\ 0 < flow s e) -> (length L <= nodes - 1)%nat.
Proof.
  intros L ND HL. destruct (gd_inv _ _ HG) as (t & HI).
  apply (few_positive g s t HI bip_rooted); auto.
Qed.
End Good.
End Bip.
