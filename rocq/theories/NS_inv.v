(** A pivot keeps the invariant of the simplex method, and keeps strongly feasible
    trees strongly feasible. *)
From Coq Require Import List Arith Bool Lia Permutation Reals Lra.
Import ListNotations.
From Verif Require Import Num Spec Sums NS_model NS_list NS_thread NS_tree NS_path NS_ctx NS_assemble NS_update NS_walk NS_pivot.
Local Open Scope R_scope.

Lemma links_at : forall (Q : nat -> nat -> Prop) l1 x y l2, links Q (l1 ++ x :: y :: l2) -> Q x y.
Proof. intros Q l1 x y l2 H. apply links_app in H as (_ & H & _). cbn in H. apply H. Qed.
Lemma rpath_hd : forall par p x l, rpath par p (x :: l) -> par x = p.
Proof. intros par p x l H. apply H. Qed.

Lemma prev_in : forall (l : list nat) x, In x l -> hd_error l = Some x \/ exists l1 w l2, l = l1 ++ w :: x :: l2.
Proof.
  induction l as [|y l IH]; intros x Hx; [contradiction|]. destruct Hx as [<-|Hx]; auto.
  right. destruct (IH x Hx) as [H|(l1 & w & l2 & ->)].
  - destruct l; cbn in H; [discriminate|]. injection H as ->. exists [], y, l. auto.
  - exists (y :: l1), w, l2. auto.
Qed.
Lemma next_in : forall (l : list nat) x, In x l -> lasto l = Some x \/ exists l1 w l2, l = l1 ++ x :: w :: l2.
Proof.
  intros l x Hx. apply in_split in Hx as (l1 & l2 & ->). destruct l2 as [|w l2].
  - left. apply lasto_snoc.
  - right. exists l1, w, l2; auto.
Qed.

Lemma rc_R : forall (g : net) (s0 : ns) e, red_cost g s0 e = (a_cost g e + pi s0 (a_src g e) - pi s0 (a_tgt g e) : R).
Proof. intros; auto. Qed.

Definition obj (g : net) (f : nat -> R) : R := rsum (all_arc_num g) (fun e => a_cost g e * f e).

Lemma divg_dot : forall (g : net) (p f : nat -> R),
  (forall e, (e < all_arc_num g)%nat -> (a_src g e <= node_num g)%nat /\ (a_tgt g e <= node_num g)%nat) ->
  rsum (S (node_num g)) (fun u => p u * divg g f u) =
  rsum (all_arc_num g) (fun e => (p (a_src g e) - p (a_tgt g e)) * f e).
Proof.
  intros g p f He. unfold divg.
  rewrite (rsum_ext (S (node_num g)) _ (fun u => rsum (all_arc_num g) (fun e => p u * (ind (a_src g e =? u) (f e) - ind (a_tgt g e =? u) (f e))))).
  2:{ intros; rewrite rsum_scal; auto. }
  rewrite rsum_swap. apply rsum_ext. intros e Hl. destruct (He e Hl) as [H1 H2].
  rewrite (rsum_ext _ _ (fun u => (if (u =? a_src g e)%nat then p (a_src g e) * f e else 0) - (if (u =? a_tgt g e)%nat then p (a_tgt g e) * f e else 0))).
  - rewrite rsum_minus, !rsum_delta; try lia. lra.
  - intros u _. unfold ind. rewrite (Nat.eqb_sym u (a_src g e)), (Nat.eqb_sym u (a_tgt g e)).
    destruct (Nat.eqb_spec (a_src g e) u) as [E1|]; destruct (Nat.eqb_spec (a_tgt g e) u) as [E2|]; try rewrite E1; try rewrite E2; lra.
Qed.

Lemma obj_red : forall (g : net) (s0 : ns) f, acyclic g -> obj g f =
  rsum (all_arc_num g) (fun e => red_cost g s0 e * f e) - rsum (S (node_num g)) (fun u => pi s0 u * divg g f u).
Proof.
  intros g s0 f HA. rewrite divg_dot.
  - unfold obj. rewrite <- rsum_minus. apply rsum_ext. intros e _. rewrite rc_R. lra.
  - intros e He. destruct (arcs_uniq g HA e He) as (A & B & _); auto.
Qed.

Section Inv.
Variables (g : net) (s : ns) (t : tree) (ia j : nat) (k1 k2 : list nat) (uin vin uout : nat)
  (a1 a2 b : list nat) (d : R) (s' : ns) (tsub : tree) (c : ctx) (sigma : R).
Hypothesis HI : inv g s t.
Hypothesis HA : acyclic g.
Hypothesis Hia : (ia < all_arc_num g)%nat.
Hypothesis Hst : state s ia = LOWER.
Hypothesis PV : pivoted g s ia j k1 k2 uin vin uout a1 a2 b d s' tsub c sigma.

Let stems := a1 ++ [uout].
Let kk := a1 ++ uout :: a2.
Notation n := (node_num g).

Lemma HC : cycle g s (a_src g ia) (a_tgt g ia) j k1 k2. Proof. apply PV. Qed.
Lemma kk_cases : (kk = k1 /\ uin = a_src g ia /\ vin = a_tgt g ia /\ forward s uout = true) \/
                 (kk = k2 /\ uin = a_tgt g ia /\ vin = a_src g ia /\ forward s uout = false).
Proof.
  destruct (pv_case _ _ _ _ _ _ _ _ _ _ _ _ _ _ _ _ _ PV) as [H|H]; [left|right]; unfold kk; intuition auto.
Qed.
Lemma kk_links : plinks (parent s) (kk ++ [j]).
Proof. destruct kk_cases as [[Q _]|[Q _]]; rewrite Q; apply HC. Qed.
Lemma kk_nodup : NoDup kk.
Proof. destruct kk_cases as [[Q _]|[Q _]]; rewrite Q; apply HC. Qed.
Lemma kk_lt : forall x, In x kk -> (x < n)%nat.
Proof. destruct kk_cases as [[Q _]|[Q _]]; rewrite Q; apply HC. Qed.
Lemma kk_hd : hd_error kk = Some uin.
Proof.
  assert (H : hd_error (kk ++ [j]) = Some uin). { destruct kk_cases as [(Q1 & Q2 & _)|(Q1 & Q2 & _)]; rewrite Q1, Q2; apply HC. }
  unfold kk in *. destruct a1; cbn in *; auto.
Qed.
Lemma stems_kk : kk = stems ++ a2.
Proof. unfold kk, stems. rewrite <- app_assoc. auto. Qed.
Lemma stems_hd : hd_error stems = Some uin.
Proof. pose proof kk_hd as H. rewrite stems_kk in H. unfold stems in *. destruct a1; cbn in *; auto. Qed.
Lemma stems_links : plinks (parent s) stems.
Proof. pose proof kk_links as H. rewrite stems_kk in H. rewrite <- app_assoc in H. apply links_app in H. apply H. Qed.
Lemma stems_nodup : NoDup stems.
Proof. pose proof kk_nodup as H. rewrite stems_kk in H. apply NoDup_app_inv in H. apply H. Qed.
Lemma stems_lt : forall x, In x stems -> (x < n)%nat.
Proof. intros x Hx. apply kk_lt. rewrite stems_kk. apply in_or_app; auto. Qed.
Lemma uout_stems : In uout stems. Proof. apply in_or_app; cbn; auto. Qed.
Lemma uin_lt : (uin < n)%nat.
Proof. apply kk_lt. pose proof kk_hd. destruct kk; cbn in H; [discriminate|]. injection H as ->. cbn; auto. Qed.
Lemma uout_lt : (uout < n)%nat. Proof. apply stems_lt, uout_stems. Qed.
Lemma vin_le : (vin <= n)%nat.
Proof.
  destruct (arcs_uniq g HA ia Hia) as (A & B & _).
  destruct kk_cases as [(_ & _ & Q & _)|(_ & _ & Q & _)]; rewrite Q; auto.
Qed.
Lemma uin_vin : uin <> vin.
Proof.
  destruct (arcs_uniq g HA ia Hia) as (_ & _ & H).
  destruct kk_cases as [(_ & Q1 & Q2 & _)|(_ & Q1 & Q2 & _)]; rewrite Q1, Q2; auto.
Qed.
Lemma inj : forall x y, (x < n)%nat -> (y < n)%nat -> pred s x = pred s y -> x = y.
Proof. intros x y Hx Hy. apply (pred_inj g s t); auto; apply HI. Qed.
Lemma tree_ne_ia : forall x, (x < n)%nat -> pred s x <> ia.
Proof. intros x Hx E. pose proof (iv_T _ _ _ HI x Hx). congruence. Qed.

(** how the new tree arcs relate to the old ones *)
Lemma stem_cases : forall u,
  (~ In u stems /\ parent s' u = parent s u /\ pred s' u = pred s u /\ forward s' u = forward s u) \/
  (u = uin /\ parent s' u = vin /\ pred s' u = ia /\ forward s' u = (uin =? a_src g ia)) \/
  (u <> uin /\ In u stems /\ exists x, In x stems /\ x <> uout /\ parent s x = u /\ parent s' u = x /\
      pred s' u = pred s x /\ forward s' u = negb (forward s x)).
Proof.
  intros u. destruct (in_dec Nat.eq_dec u stems) as [Hu|Hu].
  - right. destruct (Nat.eq_dec u uin) as [E|E].
    + left. subst u. repeat split; auto; try apply PV.
      pose proof (pv_par_s _ _ _ _ _ _ _ _ _ _ _ _ _ _ _ _ _ PV) as H. fold stems in H.
      pose proof stems_hd as Hh. destruct stems as [|x l]; [discriminate|]. cbn in Hh. injection Hh as ->. apply H.
    + right. split; auto. split; auto. destruct (prev_in stems u Hu) as [H|(l1 & x & l2 & El)].
      * rewrite stems_hd in H. congruence.
      * exists x. repeat split.
        -- rewrite El. apply in_or_app; cbn; auto.
        -- intros ->. pose proof stems_nodup as ND. pose proof (lasto_snoc a1 uout) as La. fold stems in La.
           rewrite El in ND, La. rewrite lasto_app in La.
           change (lasto (uout :: u :: l2)) with (match lasto (u :: l2) with None => Some uout | Some y => Some y end) in La.
           destruct (lasto_cons u l2) as [y Hy]. rewrite Hy in La. injection La as ->.
           apply lasto_In in Hy. apply NoDup_app_inv in ND as (_ & ND & _). inversion ND; auto.
        -- pose proof stems_links as H. rewrite El in H. apply links_at in H. auto.
        -- pose proof (rpath_links _ _ _ (pv_par_s _ _ _ _ _ _ _ _ _ _ _ _ _ _ _ _ _ PV)) as H. fold stems in H.
           rewrite El in H. apply links_at in H. auto.
        -- pose proof (pv_pred_s _ _ _ _ _ _ _ _ _ _ _ _ _ _ _ _ _ PV) as H. fold stems in H.
           rewrite El in H. apply links_at in H. auto.
        -- pose proof (pv_fwd_s _ _ _ _ _ _ _ _ _ _ _ _ _ _ _ _ _ PV) as H. fold stems in H.
           rewrite El in H. apply links_at in H. auto.
  - left. split; auto. repeat split; apply PV; auto.
Qed.
Lemma stem_next : forall y, In y stems -> y <> uout -> exists z, In z stems /\ pred s' z = pred s y.
Proof.
  intros y Hy Hne. destruct (next_in stems y Hy) as [H|(l1 & z & l2 & El)].
  - unfold stems in H. rewrite lasto_snoc in H. congruence.
  - exists z. split. { rewrite El. apply in_or_app; cbn; auto. }
    pose proof (pv_pred_s _ _ _ _ _ _ _ _ _ _ _ _ _ _ _ _ _ PV) as H. fold stems in H.
    rewrite El in H. apply links_at in H. auto.
Qed.

Lemma new_arc : forall u, (u < n)%nat -> arc_at s' g u.
Proof.
  intros u Hu. unfold arc_at. destruct (stem_cases u) as [(_ & -> & -> & ->)|[(Q1 & -> & -> & ->)|(_ & _ & x & Hx & _ & Ep & -> & -> & ->)]].
  - apply (iv_arc _ _ _ HI u Hu).
  - split; auto. rewrite Q1. clear Q1. destruct kk_cases as [(_ & Q1 & Q2 & _)|(_ & Q1 & Q2 & _)]; rewrite Q1, Q2.
    + rewrite Nat.eqb_refl. auto.
    + destruct (arcs_uniq g HA ia Hia) as (_ & _ & H). destruct (Nat.eqb_spec (a_tgt g ia) (a_src g ia)); auto; congruence.
  - destruct (iv_arc _ _ _ HI x (stems_lt x Hx)) as [A B]. split; auto.
    rewrite Ep in B. destruct (forward s x); cbn; tauto.
Qed.

Lemma new_T : forall u, (u < n)%nat -> state s' (pred s' u) = TREE.
Proof.
  intros u Hu. rewrite (pv_state _ _ _ _ _ _ _ _ _ _ _ _ _ _ _ _ _ PV).
  assert (K : forall x, (x < n)%nat -> x <> uout -> upd (upd (state s) ia TREE) (pred s uout) LOWER (pred s x) = TREE).
  { intros x Hx Hne. rewrite upd_other. 2:{ intros E. apply inj in E; auto. apply uout_lt. }
    rewrite upd_other. 2:{ apply tree_ne_ia; auto. } apply (iv_T _ _ _ HI); auto. }
  destruct (stem_cases u) as [(Hn & _ & -> & _)|[(_ & _ & -> & _)|(_ & _ & x & Hx & Hne & _ & _ & -> & _)]].
  - apply K; auto. intros ->. apply Hn, uout_stems.
  - rewrite upd_other, upd_same; auto. intros E. apply (tree_ne_ia uout uout_lt); auto.
  - apply K; auto. apply stems_lt; auto.
Qed.
Lemma new_TL : forall e, (e < all_arc_num g)%nat -> state s' e = TREE \/ state s' e = LOWER.
Proof.
  intros e He. rewrite (pv_state _ _ _ _ _ _ _ _ _ _ _ _ _ _ _ _ _ PV). unfold upd.
  destruct (e =? pred s uout); auto. destruct (e =? ia); auto. apply (iv_TL _ _ _ HI); auto.
Qed.
Lemma new_inv : forall e, (e < all_arc_num g)%nat -> state s' e = TREE -> exists u, (u < n)%nat /\ pred s' u = e.
Proof.
  intros e He. rewrite (pv_state _ _ _ _ _ _ _ _ _ _ _ _ _ _ _ _ _ PV). unfold upd.
  destruct (Nat.eqb_spec e (pred s uout)) as [E1|E1]; [discriminate|].
  destruct (Nat.eqb_spec e ia) as [E2|E2]; intros HT.
  - subst e. exists uin. split; [apply uin_lt|apply PV].
  - destruct (iv_inv _ _ _ HI e He HT) as (y & Hy & Ey).
    destruct (in_dec Nat.eq_dec y stems) as [Hs|Hs].
    + destruct (stem_next y Hs) as (z & Hz & Ez). { intros ->; congruence. }
      exists z. split; [apply stems_lt; auto|congruence].
    + exists y. split; auto. rewrite (pv_pred_o _ _ _ _ _ _ _ _ _ _ _ _ _ _ _ _ _ PV); auto.
Qed.

Lemma d_nonneg : 0 <= d.
Proof.
  rewrite (pv_d _ _ _ _ _ _ _ _ _ _ _ _ _ _ _ _ _ PV). apply (iv_pos _ _ _ HI). apply (iv_arc _ _ _ HI). apply uout_lt.
Qed.
(** what changes in the flow *)
Lemma flow_ia : flow s' ia = flow s ia + d.
Proof.
  rewrite (pv_flow _ _ _ _ _ _ _ _ _ _ _ _ _ _ _ _ _ PV). apply newflow_ia.
  apply (k_ia g s t ia j (a_src g ia) (a_tgt g ia) k1 k2 HI HC Hst).
Qed.
Lemma flow_1 : forall w, In w k1 -> flow s' (pred s w) = flow s (pred s w) + (if forward s w then - d else d).
Proof.
  intros w Hw. rewrite (pv_flow _ _ _ _ _ _ _ _ _ _ _ _ _ _ _ _ _ PV).
  apply (newflow_1 g s t ia j (a_src g ia) (a_tgt g ia) k1 k2 HI HC Hst); auto.
Qed.
Lemma flow_2 : forall w, In w k2 -> flow s' (pred s w) = flow s (pred s w) + (if forward s w then d else - d).
Proof.
  intros w Hw. rewrite (pv_flow _ _ _ _ _ _ _ _ _ _ _ _ _ _ _ _ _ PV).
  apply (newflow_2 g s t ia j (a_src g ia) (a_tgt g ia) k1 k2 HI HC Hst); auto.
Qed.
Lemma flow_out : forall w, (w < n)%nat -> ~ In w k1 -> ~ In w k2 -> flow s' (pred s w) = flow s (pred s w).
Proof.
  intros w Hw H1 H2. rewrite (pv_flow _ _ _ _ _ _ _ _ _ _ _ _ _ _ _ _ _ PV). apply newflow_out.
  - apply tree_ne_ia; auto.
  - intros u Hu E. apply inj in E; auto.
    + subst. apply in_app_or in Hu as [Hu|Hu]; auto.
    + apply in_app_or in Hu as [Hu|Hu]; [apply (cy_lt1 _ _ _ _ _ _ _ HC)|apply (cy_lt2 _ _ _ _ _ _ _ HC)]; auto.
Qed.
Lemma flow_rest : forall e, (e < all_arc_num g)%nat -> state s e = LOWER -> e <> ia -> flow s' e = flow s e.
Proof.
  intros e He Hs Hne. rewrite (pv_flow _ _ _ _ _ _ _ _ _ _ _ _ _ _ _ _ _ PV). apply newflow_out; auto.
  intros u Hu E. assert ((u < n)%nat).
  { apply in_app_or in Hu as [Hu|Hu]; [apply (cy_lt1 _ _ _ _ _ _ _ HC)|apply (cy_lt2 _ _ _ _ _ _ _ HC)]; auto. }
  pose proof (iv_T _ _ _ HI u H). congruence.
Qed.
Lemma d_le_1 : forall w, In w k1 -> forward s w = true -> d <= flow s (pred s w).
Proof.
  intros w Hw Hf.
  destruct (pv_case _ _ _ _ _ _ _ _ _ _ _ _ _ _ _ _ _ PV) as [(_ & _ & Ek & _ & _ & H1 & H2 & _)|(_ & _ & _ & _ & _ & H1 & _)]; auto.
  rewrite Ek in Hw. apply in_app_or in Hw as [Hw|[<-|Hw]]; auto.
  - left; auto.
  - right. apply PV.
Qed.
Lemma d_le_2 : forall w, In w k2 -> forward s w = false -> d <= flow s (pred s w).
Proof.
  intros w Hw Hf.
  destruct (pv_case _ _ _ _ _ _ _ _ _ _ _ _ _ _ _ _ _ PV) as [(_ & _ & _ & _ & _ & _ & _ & H1)|(_ & _ & Ek & _ & _ & _ & H1 & H2)]; auto.
  { left; auto. }
  rewrite Ek in Hw. apply in_app_or in Hw as [Hw|[<-|Hw]]; auto.
  - right. apply PV.
  - left; auto.
Qed.

Lemma new_pos : forall e, (e < all_arc_num g)%nat -> 0 <= flow s' e.
Proof.
  intros e He. pose proof d_nonneg as Hd. pose proof (iv_pos _ _ _ HI e He) as Hp.
  destruct (iv_TL _ _ _ HI e He) as [HT|HL].
  - destruct (iv_inv _ _ _ HI e He HT) as (w & Hw & E). subst e.
    destruct (in_dec Nat.eq_dec w k1) as [H1|H1].
    { rewrite flow_1; auto. destruct (forward s w) eqn:Ef; [pose proof (d_le_1 w H1 Ef)|]; cbn in *; lra. }
    destruct (in_dec Nat.eq_dec w k2) as [H2|H2].
    { rewrite flow_2; auto. destruct (forward s w) eqn:Ef; [|pose proof (d_le_2 w H2 Ef)]; cbn in *; lra. }
    rewrite flow_out; auto.
  - destruct (Nat.eq_dec e ia) as [->|Hne].
    + rewrite flow_ia. cbn in *; lra.
    + rewrite flow_rest; auto.
Qed.
Lemma flow_uout : flow s' (pred s uout) = 0.
Proof.
  pose proof (pv_d _ _ _ _ _ _ _ _ _ _ _ _ _ _ _ _ _ PV) as Ed.
  assert (Hk : In uout kk) by (unfold kk; apply in_or_app; cbn; auto).
  destruct kk_cases as [(E & _ & _ & Ef)|(E & _ & _ & Ef)]; rewrite E in Hk.
  - rewrite flow_1; auto. rewrite Ef. cbn in *; lra.
  - rewrite flow_2; auto. rewrite Ef. cbn in *; lra.
Qed.
Lemma new_zero : forall e, (e < all_arc_num g)%nat -> state s' e = LOWER -> flow s' e = 0.
Proof.
  intros e He. rewrite (pv_state _ _ _ _ _ _ _ _ _ _ _ _ _ _ _ _ _ PV). unfold upd.
  destruct (Nat.eqb_spec e (pred s uout)) as [E1|E1].
  - intros _. subst e. apply flow_uout.
  - destruct (Nat.eqb_spec e ia) as [E2|E2]; [discriminate|]. intros HL. rewrite flow_rest; auto.
    apply (iv_zero _ _ _ HI); auto.
Qed.

(** conservation *)
Lemma divg_ext : forall f f' w, (forall e, f e = f' e) -> divg g f w = divg g f' w.
Proof. intros f f' w H. unfold divg. apply rsum_ext. intros e _. rewrite H. auto. Qed.
Lemma new_divg : forall w, divg g (flow s') w = divg g (flow s) w.
Proof.
  intros w. rewrite (divg_ext _ _ w (pv_flow _ _ _ _ _ _ _ _ _ _ _ _ _ _ _ _ _ PV)). unfold newflow.
  rewrite (push_div s g d j k2 _ (a_tgt g ia) w); try apply HC.
  2:{ intros v Hv. apply (iv_arc _ _ _ HI). apply (cy_lt2 _ _ _ _ _ _ _ HC); auto. }
  replace (pushf s (- d) d) with (pushf s (- d) (- - d)) by (rewrite Ropp_involutive; auto).
  rewrite (push_div s g (- d) j k1 _ (a_src g ia) w); try apply HC.
  2:{ intros v Hv. apply (iv_arc _ _ _ HI). apply (cy_lt1 _ _ _ _ _ _ _ HC); auto. }
  rewrite divg_upd; auto.
  unfold ind. destruct (a_src g ia =? w), (a_tgt g ia =? w), (j =? w); lra.
Qed.

(** potentials *)
Lemma vin_out : ~ In vin (pre tsub).
Proof.
  pose proof (pv_tree _ _ _ _ _ _ _ _ _ _ _ _ _ _ _ _ _ PV) as Htk.
  assert (Hp : parent s' uin = vin).
  { destruct (stem_cases uin) as [(Hn & _)|[(_ & H & _)|(Hn & _)]]; auto; [|congruence].
    exfalso. apply Hn. pose proof stems_hd as H. destruct stems; cbn in H; [discriminate|]. injection H as ->; cbn; auto. }
  pose proof (tk_rep _ _ _ Htk) as R. rewrite rep_plug in R. destruct R as [R _].
  apply (rep_rt_par _ (parent s')) in R; [|intros ? ? ? ? Hi; apply Hi].
  rewrite (pv_rt _ _ _ _ _ _ _ _ _ _ _ _ _ _ _ _ _ PV), Hp in R.
  pose proof (tk_nodup _ _ _ Htk) as ND. rewrite pre_plug in ND.
  pose proof vin_le as Hvl. remember c as c0 eqn:Ec0. clear Ec0.
  destruct c0 as [|[[y l] r] c']; cbn [ptop nodeof fst] in R.
  - unfold nonode in R. lia.
  - subst y. intros H. apply NoDup_app_inv in ND as (_ & _ & D). apply (D vin).
    + apply nodes_in_preL. cbn; auto.
    + apply in_or_app; auto.
Qed.
Lemma sub_in : forall u, In u (pre tsub) -> u <> uin -> In (parent s' u) (pre tsub).
Proof.
  intros u Hu Hne. pose proof (pv_tree _ _ _ _ _ _ _ _ _ _ _ _ _ _ _ _ _ PV) as Htk.
  pose proof (tk_rep _ _ _ Htk) as R. rewrite rep_plug in R. destruct R as [R _].
  eapply (rep_par_in _ (parent s')); [|exact R|auto|].
  - intros ? ? ? ? Hi; apply Hi.
  - rewrite (pv_rt _ _ _ _ _ _ _ _ _ _ _ _ _ _ _ _ _ PV). auto.
Qed.
Lemma sub_out : forall u, (u < n)%nat -> ~ In u (pre tsub) -> ~ In (parent s' u) (pre tsub).
Proof.
  intros u Hu Hn. pose proof (pv_tree _ _ _ _ _ _ _ _ _ _ _ _ _ _ _ _ _ PV) as Htk.
  assert (Hin : In u (pre (plug tsub c))) by (apply (tk_in _ _ _ _ Htk); lia).
  pose proof (tk_nonode _ _ _ Htk) as NN. pose proof (tk_nodup _ _ _ Htk) as ND.
  rewrite pre_plug in Hin, NN, ND.
  pose proof (tk_rep _ _ _ Htk) as R. rewrite rep_plug in R. destruct R as [_ R].
  destruct (repC_outside _ (parent s') (fun x p z l Hi => proj1 Hi) _ _ _ _ R u) as [E|E].
  - rewrite !in_app_iff in *. tauto.
  - rewrite E. intros H. apply NN. rewrite !in_app_iff. auto.
  - intros H. apply NoDup_app_inv in ND as (_ & ND & D). apply in_app_or in E as [E|E].
    + apply (D _ E). apply in_or_app; auto.
    + apply NoDup_app_inv in ND as (_ & _ & D2). apply (D2 _ H E).
Qed.
Lemma uin_in : In uin (pre tsub).
Proof. rewrite <- (pv_rt _ _ _ _ _ _ _ _ _ _ _ _ _ _ _ _ _ PV). apply rt_in. Qed.

Lemma pi_in : forall x, In x (pre tsub) -> pi s' x = (pi s x : R) + sigma.
Proof. intros x Hx. rewrite (pv_pi _ _ _ _ _ _ _ _ _ _ _ _ _ _ _ _ _ PV). destruct (in_dec _ _ _); [auto|contradiction]. Qed.
Lemma pi_out : forall x, ~ In x (pre tsub) -> pi s' x = (pi s x : R).
Proof. intros x Hx. rewrite (pv_pi _ _ _ _ _ _ _ _ _ _ _ _ _ _ _ _ _ PV). destruct (in_dec _ _ _); [contradiction|auto]. Qed.

Lemma new_red : forall u, (u < n)%nat -> red_cost g s' (pred s' u) = 0.
Proof.
  intros u Hu. destruct (Nat.eq_dec u uin) as [->|Hne].
  - destruct (stem_cases uin) as [(Hn & _)|[(_ & Hp & He & _)|(Hn & _)]]; [|..|congruence].
    { exfalso. apply Hn. pose proof stems_hd as H. destruct stems; cbn in H; [discriminate|]. injection H as ->; cbn; auto. }
    rewrite He, rc_R. pose proof (pv_sigma _ _ _ _ _ _ _ _ _ _ _ _ _ _ _ _ _ PV) as Es.
    pose proof (pi_in uin uin_in) as E1. pose proof (pi_out vin vin_out) as E2.
    destruct kk_cases as [(_ & Eu & Ev & _)|(_ & Eu & Ev & _)].
    + rewrite Eu, Nat.eqb_refl in Es. rewrite Eu in *. rewrite Ev in *. rewrite E1, E2. cbn in *. lra.
    + destruct (arcs_uniq g HA ia Hia) as (_ & _ & H).
      destruct (Nat.eqb_spec uin (a_src g ia)) as [E|E]; [congruence|]. rewrite Eu in *. rewrite Ev in *.
      rewrite E1, E2. cbn in *. lra.
  - assert (Hold : exists w, (w < n)%nat /\ pred s' u = pred s w).
    { destruct (stem_cases u) as [(_ & _ & H & _)|[(H & _)|(_ & _ & x & Hx & _ & _ & _ & H & _)]]; [|congruence|].
      - eauto. - exists x; split; auto. apply stems_lt; auto. }
    destruct Hold as (w & Hw & Ew). pose proof (iv_red _ _ _ HI w Hw) as Hr. rewrite <- Ew in Hr.
    rewrite rc_R in *. destruct (new_arc u Hu) as [_ Ha].
    destruct (in_dec Nat.eq_dec u (pre tsub)) as [Hi|Ho].
    + pose proof (pi_in _ Hi) as E1. pose proof (pi_in _ (sub_in u Hi Hne)) as E2.
      destruct (forward s' u); destruct Ha as [A1 A2]; rewrite A1, A2 in *; rewrite E1, E2; cbn in *; lra.
    + pose proof (pi_out _ Ho) as E1. pose proof (pi_out _ (sub_out u Hu Ho)) as E2.
      destruct (forward s' u); destruct Ha as [A1 A2]; rewrite A1, A2 in *; rewrite E1, E2; cbn in *; lra.
Qed.

Theorem pivot_inv : inv g s' (plug tsub c).
Proof.
  constructor.
  - apply PV.
  - apply new_arc.
  - apply new_T.
  - apply new_TL.
  - apply new_inv.
  - apply new_pos.
  - apply new_zero.
  - apply new_red.
  - intros u Hu. rewrite new_divg. apply (iv_div _ _ _ HI); auto.
Qed.

(** ** strongly feasible trees *)
Lemma uin_stems : In uin stems.
Proof. pose proof stems_hd as H. destruct stems; cbn in H; [discriminate|]. injection H as ->; cbn; auto. Qed.

Lemma root_pi : pi s' (root g) = pi s (root g).
Proof.
  apply pi_out. intros H. pose proof (pv_tree _ _ _ _ _ _ _ _ _ _ _ _ _ _ _ _ _ PV) as Htk.
  pose proof (tk_rt _ _ _ Htk) as Hr. pose proof (tk_nodup _ _ _ Htk) as ND. rewrite pre_plug in ND.
  pose proof (pre_hd (plug tsub c)) as Hh. rewrite Hr, pre_plug in Hh.
  destruct (preL c) as [|x l].
  - cbn [app] in Hh. rewrite hd_error_app, pre_hd, (pv_rt _ _ _ _ _ _ _ _ _ _ _ _ _ _ _ _ _ PV) in Hh.
    injection Hh as Hh. pose proof uin_lt. unfold root in Hh. lia.
  - cbn in Hh. injection Hh as ->. cbn [app] in ND. inversion ND as [|? ? N1 _]; subst. apply N1.
    rewrite !in_app_iff; auto.
Qed.

Definition strong (s0 : ns) : Prop :=
  forall u, (u < n)%nat -> forward s0 u = false -> 0 < flow s0 (pred s0 u).

Lemma case2_pos : strong s -> uin = a_tgt g ia -> 0 < d.
Proof.
  intros HS Hu. rewrite (pv_d _ _ _ _ _ _ _ _ _ _ _ _ _ _ _ _ _ PV). apply HS. { apply uout_lt. }
  destruct kk_cases as [(_ & Q1 & _ & _)|(_ & _ & _ & Q)]; auto.
  destruct (arcs_uniq g HA ia Hia) as (_ & _ & H). congruence.
Qed.

Lemma new_strong : strong s -> strong s'.
Proof.
  intros HS u Hu Hf. pose proof d_nonneg as Hd.
  destruct (stem_cases u) as [(Hn & _ & Ep & Ef)|[(Eu & _ & Ep & Ef)|(_ & _ & x & Hx & Hne & _ & _ & Ep & Ef)]]; rewrite Ep.
  - rewrite Ef in Hf. pose proof (HS u Hu Hf) as Hp.
    destruct (in_dec Nat.eq_dec u k1) as [H1|H1].
    { rewrite flow_1; auto. rewrite Hf. cbn in *; lra. }
    destruct (in_dec Nat.eq_dec u k2) as [H2|H2].
    { rewrite flow_2; auto. rewrite Hf. assert (d < flow s (pred s u)); [|cbn in *; lra].
      destruct (pv_case _ _ _ _ _ _ _ _ _ _ _ _ _ _ _ _ _ PV) as [(_ & _ & _ & _ & _ & _ & _ & H)|(_ & _ & Ek & _ & _ & _ & _ & H)]; auto.
      apply H; auto. rewrite Ek in H2. apply in_app_or in H2 as [H2|[H2|H2]]; auto.
      - exfalso; apply Hn. apply in_or_app; auto.
      - exfalso; apply Hn. rewrite <- H2. apply uout_stems. }
    rewrite flow_out; auto.
  - rewrite flow_ia. rewrite (iv_zero _ _ _ HI ia Hia Hst). rewrite Ef in Hf.
    apply Nat.eqb_neq in Hf.
    assert (0 < d); [|lra]. apply case2_pos; auto.
    destruct kk_cases as [(_ & Q & _)|(_ & Q & _)]; congruence.
  - rewrite Ef in Hf. apply negb_false_iff in Hf.
    assert (Hxl : (x < n)%nat) by (apply stems_lt; auto).
    assert (Hxa : In x a1). { apply in_app_or in Hx as [H|[H|[]]]; auto. congruence. }
    assert (Hxk : In x kk) by (unfold kk; apply in_or_app; auto).
    pose proof (iv_pos _ _ _ HI (pred s x) (proj1 (iv_arc _ _ _ HI x Hxl))) as Hpx.
    destruct (pv_case _ _ _ _ _ _ _ _ _ _ _ _ _ _ _ _ _ PV) as [(_ & _ & Ek & _ & _ & H & _)|(Q & _ & Ek & _)].
    + rewrite flow_1; [|rewrite Ek; auto]. rewrite Hf. specialize (H x Hxa Hf). cbn in *; lra.
    + rewrite flow_2; [|rewrite Ek; auto]. rewrite Hf. pose proof (case2_pos HS Q). cbn in *; lra.
Qed.

(** ** cost and potential progress *)
Lemma new_obj : obj g (flow s') = obj g (flow s) + d * red_cost g s ia.
Proof.
  rewrite (obj_red g s), (obj_red g s) by auto.
  rewrite (rsum_ext (S n) (fun u => pi s u * divg g (flow s') u) (fun u => pi s u * divg g (flow s) u)).
  2:{ intros; rewrite new_divg; auto. }
  assert (E : rsum (all_arc_num g) (fun e => red_cost g s e * flow s' e) =
              rsum (all_arc_num g) (fun e => red_cost g s e * flow s e) + d * red_cost g s ia); [|rewrite E; lra].
  rewrite (rsum_ext _ (fun e => red_cost g s e * flow s' e)
     (fun e => red_cost g s e * flow s e + (if (e =? ia)%nat then d * red_cost g s ia else 0))).
  - rewrite rsum_plus, rsum_delta; auto.
  - intros e He. destruct (Nat.eqb_spec e ia) as [->|Hne].
    + rewrite flow_ia. rewrite (iv_zero _ _ _ HI ia Hia Hst). lra.
    + destruct (iv_TL _ _ _ HI e He) as [HT|HL].
      * destruct (iv_inv _ _ _ HI e He HT) as (w & Hw & <-). rewrite (iv_red _ _ _ HI w Hw). lra.
      * rewrite flow_rest; auto. lra.
Qed.

(** on a degenerate pivot of a strongly feasible tree, potentials only grow *)
Lemma degenerate : strong s -> d = 0 -> red_cost g s ia < 0 ->
  (forall x, pi s x <= pi s' x) /\ pi s uin < pi s' uin.
Proof.
  intros HS Hd Hr. destruct kk_cases as [(_ & Eu & Ev & _)|(_ & Eu & _)].
  - pose proof (pv_sigma _ _ _ _ _ _ _ _ _ _ _ _ _ _ _ _ _ PV) as Es. rewrite Eu, Nat.eqb_refl, Ev in Es.
    rewrite rc_R in Hr. assert (0 < sigma) by (cbn in *; lra). split.
    + intros x. rewrite (pv_pi _ _ _ _ _ _ _ _ _ _ _ _ _ _ _ _ _ PV). destruct (in_dec _ _ _); cbn in *; lra.
    + rewrite (pi_in _ uin_in). cbn in *; lra.
  - pose proof (case2_pos HS Eu). lra.
Qed.
End Inv.
