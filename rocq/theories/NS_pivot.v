(** One pivot (network_simplex_simple.h:2280-2287) over the exact reals. *)
From Coq Require Import List Arith Bool Lia Permutation Reals Lra.
Import ListNotations.
From Verif Require Import Num Spec Sums NS_model NS_list NS_thread NS_tree NS_path NS_ctx NS_assemble NS_update NS_walk.
Local Open Scope R_scope.

(** ** tree update followed by potential update *)
Record tailed (g : net) (s : ns) (ia uin vin uout : nat) (a1 : list nat) (s' : ns) (tsub : tree) (c : ctx) (sigma : R) : Prop := {
  tl_flow : flow s' = flow s; tl_state : state s' = state s;
  tl_in : in_arc s' = in_arc s; tl_next : next_arc s' = next_arc s;
  tl_par_s : rpath (parent s') vin (a1 ++ [uout]);
  tl_par_o : forall x, ~ In x (a1 ++ [uout]) -> parent s' x = parent s x;
  tl_pred_u : pred s' uin = ia;
  tl_pred_s : links (fun w u => pred s' u = pred s w) (a1 ++ [uout]);
  tl_pred_o : forall x, ~ In x (a1 ++ [uout]) -> pred s' x = pred s x;
  tl_fwd_u : forward s' uin = (uin =? a_src g ia);
  tl_fwd_s : links (fun w u => forward s' u = negb (forward s w)) (a1 ++ [uout]);
  tl_fwd_o : forall x, ~ In x (a1 ++ [uout]) -> forward s' x = forward s x;
  tl_pi : forall x, pi s' x = if in_dec Nat.eq_dec x (pre tsub) then (pi s x : R) + sigma else pi s x;
  tl_sigma : sigma = if (uin =? a_src g ia) then (pi s vin : R) - pi s uin - a_cost g ia
                     else (pi s vin : R) - pi s uin + a_cost g ia;
  tl_tree : tree_ok g s' (plug tsub c);
  tl_rt : rt tsub = uin
}.

Lemma tail_ok : forall g s t ia j uin vin uout a1 a2 b,
  tree_ok g s t -> In j (pre t) ->
  (forall x, In x ((a1 ++ uout :: a2) ++ b) -> In x (pre t)) ->
  plinks (parent s) ((a1 ++ uout :: a2) ++ [j]) ->
  plinks (parent s) (b ++ [j]) ->
  hd_error (a1 ++ uout :: a2) = Some uin ->
  hd_error (b ++ [j]) = Some vin ->
  ~ In j (a1 ++ uout :: a2) -> ~ In j b ->
  (forall x, In x (a1 ++ uout :: a2) -> In x b -> False) ->
  uin <> root g ->
  exists s' tsub c sigma,
    (do s2 <- update_tree g s ia j uin vin uout;
     do s3 <- update_potential g s2 uin vin; Ret (Some s3)) = Ret (Some s') /\
    tailed g s ia uin vin uout a1 s' tsub c sigma.
Proof.
  intros g s t ia j uin vin uout a1 a2 b Htk Hj Hin La Lb Ha Hb Nja Njb Dab Hroot.
  destruct (decompose (Iof (parent s) (succ_num s) (last_succ s)) (parent s) (nonode g) t j uin vin uout a1 a2 b)
    as (l & r & cs & F & G & C & HD); auto.
  { intros x p z la HI; apply HI. }
  { apply (tk_rep _ _ _ Htk). } { eapply tk_nodup; eauto. } { eapply tk_nonode; eauto. }
  destruct (update_ok g s t ia j uin vin uout a1 a2 b Htk Hj Hin La Lb Ha Hb Nja Njb Dab l r cs F G C HD)
    as (s2 & tsub & c & E2 & U & T2 & Hrt & Hperm).
  pose proof (dc_F _ _ _ _ _ _ _ _ _ _ _ _ _ _ HD) as Estem.
  (* the thread of the subtree *)
  pose proof (tk_th _ _ _ T2) as TH. pose proof (tk_nodup _ _ _ T2) as ND. rewrite pre_plug in TH, ND.
  assert (Hls : last_succ s2 uin = lst tsub).
  { pose proof (tk_rep _ _ _ T2) as R. rewrite rep_plug in R. destruct R as [R _].
    destruct tsub as [u0 ch]. cbn [rt] in Hrt; subst u0. rewrite rep_T in R. destruct R as [(_ & _ & R) _]. auto. }
  set (stop := match preR c with [] => root g | y :: _ => y end).
  assert (THs : links (fun x y => thread s2 x = y) (pre tsub ++ [stop])).
  { rewrite <- app_assoc in TH. apply links_app in TH as (_ & TH & _). rewrite <- app_assoc in TH.
    unfold stop. destruct (preR c) as [|y k]; [exact TH|].
    apply links_app in TH as (A & B & Jn). apply links_app. repeat split; auto. }
  assert (Hstop : thread s2 (last_succ s2 uin) = stop).
  { rewrite Hls. apply links_app in THs as (_ & _ & Jn). apply Jn; auto. apply pre_lasto. }
  assert (Nstop : ~ In stop (pre tsub)).
  { unfold stop. intros H. destruct (preR c) as [|y k] eqn:E.
    - pose proof (tk_rt _ _ _ T2) as Hr. 
      assert (Hr2 : hd_error (preL c ++ pre tsub) = Some (root g)).
      { rewrite <- Hr. rewrite <- pre_hd. rewrite pre_plug, E, app_nil_r. auto. }
      destruct (preL c) as [|z k] eqn:E3.
      + cbn [app] in Hr2. rewrite pre_hd in Hr2. congruence.
      + cbn in Hr2. injection Hr2 as ->. cbn [app] in ND. inversion ND as [|? ? N1 _]; subst.
        apply N1. rewrite !in_app_iff; auto.
    - apply NoDup_app_inv in ND as (_ & ND & _). apply NoDup_app_inv in ND as (_ & _ & D).
      apply (D y); cbn; auto. }
  assert (NDs : NoDup (pre tsub)).
  { apply NoDup_app_inv in ND as (_ & ND & _). apply NoDup_app_inv in ND as (ND & _ & _). auto. }
  set (sigma := if (uin =? a_src g ia) then (pi s vin : R) - pi s uin - a_cost g ia
                     else (pi s vin : R) - pi s uin + a_cost g ia).
  destruct (pot_loop_spec (thread s2) stop sigma (pre tsub) uin (S (S (node_num g))) (pi s2)) as (p' & Ep & Hp); auto.
  { rewrite hd_error_app, pre_hd, Hrt. auto. }
  { assert (length (pre tsub) <= length (pre (plug tsub c)))%nat.
    { rewrite pre_plug, !app_length. lia. }
    rewrite (tk_len _ _ _ T2) in H. lia. }
  exists (set_pi s2 p'), tsub, c, sigma. split.
  - rewrite E2. cbn [bind]. unfold update_potential. rewrite Hstop.
    replace (if forward s2 uin then nsub (nsub (pi s2 vin) (pi s2 uin)) (a_cost g (pred s2 uin))
             else nadd (nsub (pi s2 vin) (pi s2 uin)) (a_cost g (pred s2 uin))) with (sigma : RNum).
    + rewrite Ep. cbn [bind]. auto.
    + rewrite (up_fwd_u _ _ _ _ _ _ _ _ _ _ _ _ _ _ _ _ U), (up_pi _ _ _ _ _ _ _ _ _ _ _ _ _ _ _ _ U),
        (up_pred_u _ _ _ _ _ _ _ _ _ _ _ _ _ _ _ _ U). unfold sigma. cbn. destruct (uin =? a_src g ia); auto.
  - destruct U. rewrite Estem in *.
    constructor; cbn [set_pi NS_model.flow NS_model.state NS_model.in_arc NS_model.next_arc
      NS_model.parent NS_model.pred NS_model.forward NS_model.pi]; auto.
    + intros x. rewrite Hp, up_pi. auto.
    + destruct T2. constructor; auto.
Qed.

(** ** paths *)
Lemma tree_path : forall (g : net) (s : ns) t x, tree_ok g s t -> (x <= node_num g)%nat ->
  exists k, hd_error k = Some x /\ plinks (parent s) (k ++ [nonode g]) /\ NoDup k /\
    lasto k = Some (root g) /\ (forall y, In y k -> In y (pre t)).
Proof.
  intros g s t x Htk Hx. pose proof Hx as Hin. rewrite <- (tk_in _ _ _ x Htk) in Hin.
  destruct (locate t x Hin) as (c & cs & E).
  exists (x :: map nodeof c). split; [auto|split; [|split; [|split]]].
  - pose proof (tk_rep _ _ _ Htk) as H. rewrite E in H.
    apply (rep_path (Iof (parent s) (succ_num s) (last_succ s)) (parent s)) in H; [exact H|intros ? ? ? ? Hi; apply Hi].
  - pose proof (tk_nodup _ _ _ Htk) as H. rewrite E in H.
    eapply Permutation_NoDup in H; [|apply plug_perm]. rewrite pre_T in H. cbn [app] in H.
    inversion H as [|? ? H1 H2]; subst. constructor.
    + intros H3. apply H1. rewrite !in_app_iff; auto.
    + apply NoDup_app_inv in H2 as (_ & H2 & _). apply NoDup_app_inv in H2 as (H2 & _). auto.
  - change x with (rt (T x cs)). rewrite plug_rt_last, <- E. f_equal. apply (tk_rt _ _ _ Htk).
  - intros y Hy. rewrite E, pre_plug. destruct Hy as [<-|Hy].
    + rewrite !in_app_iff. right; left. rewrite pre_T. cbn; auto.
    + apply in_or_app; left. apply nodes_in_preL; auto.
Qed.

Lemma sn_grow : forall (g : net) (s : ns) t x, tree_ok g s t -> (x < node_num g)%nat ->
  (parent s x <= node_num g)%nat /\ (succ_num s x < succ_num s (parent s x))%nat.
Proof.
  intros g s t x Htk Hx.
  destruct (rep_child_smaller (Iof (parent s) (succ_num s) (last_succ s)) (parent s) (succ_num s)) with (t := t) (p := nonode g) (x := x) as [A B].
  - intros y p z l (H1 & H2 & _); auto.
  - apply (tk_rep _ _ _ Htk).
  - apply (tk_in _ _ _ x Htk). lia.
  - rewrite (tk_rt _ _ _ Htk). unfold root. lia.
  - split; auto. apply (tk_in _ _ _ _ Htk); auto.
Qed.

Record cycle (g : net) (s : ns) (u v j : nat) (k1 k2 : list nat) : Prop := {
  cy_L1 : plinks (parent s) (k1 ++ [j]);
  cy_L2 : plinks (parent s) (k2 ++ [j]);
  cy_h1 : hd_error (k1 ++ [j]) = Some u;
  cy_h2 : hd_error (k2 ++ [j]) = Some v;
  cy_N1 : ~ In j k1;
  cy_N2 : ~ In j k2;
  cy_ND1 : NoDup k1;
  cy_ND2 : NoDup k2;
  cy_D : forall x, In x k1 -> In x k2 -> False;
  cy_j : (j <= node_num g)%nat;
  cy_lt1 : forall x, In x k1 -> (x < node_num g)%nat;
  cy_lt2 : forall x, In x k2 -> (x < node_num g)%nat;
  cy_len1 : (length k1 <= S (node_num g))%nat;
  cy_len2 : (length k2 <= S (node_num g))%nat;
  cy_join : join_loop (S (S (node_num g + node_num g))) (succ_num s) (parent s) u v = Ret j
}.

Lemma find_cycle : forall (g : net) (s : ns) t u v, tree_ok g s t ->
  (u <= node_num g)%nat -> (v <= node_num g)%nat -> exists j k1 k2, cycle g s u v j k1 k2.
Proof.
  intros g s t u v Htk Hu Hv.
  destruct (tree_path _ _ _ _ Htk Hu) as (l1 & H1 & P1 & ND1 & L1 & I1).
  destruct (tree_path _ _ _ _ Htk Hv) as (l2 & H2 & P2 & ND2 & L2 & I2).
  pose proof (tk_nonode _ _ _ Htk) as HN.
  destruct (lca (parent s) (nonode g) (root g) l1 l2) as (k1 & k2 & j & tail & E1 & E2 & D1 & D2); auto.
  exists j, k1, k2.
  assert (Lk : forall k l, l = k ++ j :: tail -> plinks (parent s) (l ++ [nonode g]) -> plinks (parent s) (k ++ [j])).
  { intros k l E HL. subst l. rewrite <- app_assoc in HL. cbn [app] in HL. unfold plinks in *.
    apply links_app in HL as (A & B & Jn). apply links_app. repeat split; auto. }
  assert (Hk : forall k l x, l = k ++ j :: tail -> hd_error l = Some x -> hd_error (k ++ [j]) = Some x).
  { intros k l x -> H. destruct k; cbn in *; auto. }
  assert (Nk : forall k l, l = k ++ j :: tail -> NoDup l -> ~ In j k).
  { intros k l -> H Hj. apply NoDup_app_inv in H as (_ & _ & D). apply (D j); cbn; auto. }
  assert (NDk : forall k l, l = k ++ j :: tail -> NoDup l -> NoDup k).
  { intros k l -> H. apply NoDup_app_inv in H as (H & _ & _). auto. }
  assert (Lt : forall k l, l = k ++ j :: tail -> NoDup l -> lasto l = Some (root g) -> (forall y, In y l -> In y (pre t)) ->
     forall x, In x k -> (x < node_num g)%nat).
  { intros k l E ND HL HI x Hx. assert (In x l) by (rewrite E; apply in_or_app; auto).
    apply HI in H. apply (tk_in _ _ _ _ Htk) in H. assert (x <> root g); [|unfold root in *; lia].
    intros ->. rewrite E, lasto_app in HL. rewrite E in ND. apply NoDup_app_inv in ND as (_ & _ & D).
    apply (D (root g)); auto. destruct (lasto_cons j tail) as [y Hy]. rewrite Hy in HL. injection HL as ->.
    apply lasto_In; auto. }
  assert (Ln : forall k l, l = k ++ j :: tail -> NoDup l -> (forall y, In y l -> In y (pre t)) -> (length k <= node_num g)%nat).
  { intros k l E ND HI. assert (length l <= length (pre t))%nat by (apply NoDup_incl_length; auto).
    rewrite (tk_len _ _ _ Htk) in H. rewrite E, app_length in H. cbn [length] in H. lia. }
  pose proof (Ln k1 l1 E1 ND1 I1) as Q1. pose proof (Ln k2 l2 E2 ND2 I2) as Q2.
  assert (Hj : (j <= node_num g)%nat).
  { apply (tk_in _ _ _ j Htk). apply I1. rewrite E1. apply in_or_app; cbn; auto. }
  assert (Dd : forall x, In x k1 -> In x k2 -> False).
  { intros x Hx Hx2. apply (D1 x); auto. rewrite E2. apply in_or_app; auto. }
  constructor; eauto.
  apply (join_loop_spec (parent s) (succ_num s) _ k1 k2 j); eauto.
  - intros y [Hy|Hy].
    + apply (sn_grow g s t y Htk). apply (Lt k1 l1); auto.
    + apply (sn_grow g s t y Htk). apply (Lt k2 l2); auto.
  - lia.
Qed.

(** ** the invariant *)
Record inv (g : net) (s : ns) (t : tree) : Prop := {
  iv_tree : tree_ok g s t;
  iv_arc : forall u, (u < node_num g)%nat -> arc_at s g u;
  iv_T : forall u, (u < node_num g)%nat -> state s (pred s u) = TREE;
  iv_TL : forall e, (e < all_arc_num g)%nat -> state s e = TREE \/ state s e = LOWER;
  iv_inv : forall e, (e < all_arc_num g)%nat -> state s e = TREE -> exists u, (u < node_num g)%nat /\ pred s u = e;
  iv_pos : forall e, (e < all_arc_num g)%nat -> 0 <= flow s e;
  iv_zero : forall e, (e < all_arc_num g)%nat -> state s e = LOWER -> flow s e = 0;
  iv_red : forall u, (u < node_num g)%nat -> red_cost g s (pred s u) = 0;
  iv_div : forall u, (u < node_num g)%nat -> divg g (flow s) u = supply g u
}.

(** every arc goes up in some ranking of the nodes: no directed cycle *)
Definition acyclic (g : net) : Prop :=
  exists rk : nat -> nat, forall e, (e < all_arc_num g)%nat ->
    (a_src g e <= node_num g)%nat /\ (a_tgt g e <= node_num g)%nat /\ (rk (a_src g e) < rk (a_tgt g e))%nat.

Lemma pred_inj : forall g s t x y, tree_ok g s t ->
  (forall u, (u < node_num g)%nat -> arc_at s g u) ->
  (x < node_num g)%nat -> (y < node_num g)%nat -> pred s x = pred s y -> x = y.
Proof.
  intros g s t x y Htk Ha Hx Hy E.
  destruct (Ha x Hx) as [_ Ax], (Ha y Hy) as [_ Ay]. rewrite <- E in Ay.
  destruct (sn_grow _ _ _ _ Htk Hx) as [_ Gx], (sn_grow _ _ _ _ Htk Hy) as [_ Gy].
  destruct (forward s x), (forward s y); destruct Ax as [A1 A2], Ay as [B1 B2]; try congruence;
    exfalso; rewrite <- A2, B1 in Gx; rewrite <- B2, A1 in Gy; lia.
Qed.

(** ** one pivot, in detail *)
Definition newflow (s : ns) (ia : nat) (k1 k2 : list nat) (d : R) : nat -> R :=
  fold_left (pushf s d (- d)) k2 (fold_left (pushf s (- d) d) k1 (upd (flow s) ia (flow s ia + d))).

Record pivoted (g : net) (s : ns) (ia j : nat) (k1 k2 : list nat) (uin vin uout : nat)
  (a1 a2 b : list nat) (d : R) (s' : ns) (tsub : tree) (c : ctx) (sigma : R) : Prop := {
  pv_cyc : cycle g s (a_src g ia) (a_tgt g ia) j k1 k2;
  pv_d : d = flow s (pred s uout);
  pv_case :
    (uin = a_src g ia /\ vin = a_tgt g ia /\ k1 = a1 ++ uout :: a2 /\ b = k2 /\ forward s uout = true /\
       (forall w, In w a1 -> forward s w = true -> d < flow s (pred s w)) /\
       (forall w, In w a2 -> forward s w = true -> d <= flow s (pred s w)) /\
       (forall w, In w k2 -> forward s w = false -> d < flow s (pred s w))) \/
    (uin = a_tgt g ia /\ vin = a_src g ia /\ k2 = a1 ++ uout :: a2 /\ b = k1 /\ forward s uout = false /\
       (forall w, In w k1 -> forward s w = true -> d <= flow s (pred s w)) /\
       (forall w, In w a1 -> forward s w = false -> d <= flow s (pred s w)) /\
       (forall w, In w a2 -> forward s w = false -> d < flow s (pred s w)));
  pv_flow : forall e, flow s' e = newflow s ia k1 k2 d e;
  pv_state : state s' = upd (upd (state s) ia TREE) (pred s uout) LOWER;
  pv_in : in_arc s' = in_arc s; pv_next : next_arc s' = next_arc s;
  pv_par_s : rpath (parent s') vin (a1 ++ [uout]);
  pv_par_o : forall x, ~ In x (a1 ++ [uout]) -> parent s' x = parent s x;
  pv_pred_u : pred s' uin = ia;
  pv_pred_s : links (fun w u => pred s' u = pred s w) (a1 ++ [uout]);
  pv_pred_o : forall x, ~ In x (a1 ++ [uout]) -> pred s' x = pred s x;
  pv_fwd_u : forward s' uin = (uin =? a_src g ia);
  pv_fwd_s : links (fun w u => forward s' u = negb (forward s w)) (a1 ++ [uout]);
  pv_fwd_o : forall x, ~ In x (a1 ++ [uout]) -> forward s' x = forward s x;
  pv_pi : forall x, pi s' x = if in_dec Nat.eq_dec x (pre tsub) then (pi s x : R) + sigma else pi s x;
  pv_sigma : sigma = if (uin =? a_src g ia) then (pi s vin : R) - pi s uin - a_cost g ia
                     else (pi s vin : R) - pi s uin + a_cost g ia;
  pv_tree : tree_ok g s' (plug tsub c);
  pv_rt : rt tsub = uin
}.

Lemma newflow_out : forall s ia k1 k2 d e, e <> ia -> (forall u, In u (k1 ++ k2) -> pred s u <> e) ->
  newflow s ia k1 k2 d e = flow s e.
Proof.
  intros s ia k1 k2 d e He H. unfold newflow. rewrite !push_out.
  - apply upd_other; auto.
  - intros u Hu; apply H; apply in_or_app; auto.
  - intros u Hu; apply H; apply in_or_app; auto.
Qed.
Lemma newflow_ia : forall s ia k1 k2 d, (forall u, In u (k1 ++ k2) -> pred s u <> ia) ->
  newflow s ia k1 k2 d ia = flow s ia + d.
Proof.
  intros s ia k1 k2 d H. unfold newflow. rewrite !push_out.
  - apply upd_same.
  - intros u Hu; apply H; apply in_or_app; auto.
  - intros u Hu; apply H; apply in_or_app; auto.
Qed.
Section NF.
Variables (g : net) (s : ns) (t : tree) (ia j u v : nat) (k1 k2 : list nat).
Hypothesis HI : inv g s t.
Hypothesis HC : cycle g s u v j k1 k2.
Hypothesis Hia : state s ia = LOWER.

Lemma k_inj : forall a b, In a (k1 ++ k2) -> In b (k1 ++ k2) -> pred s a = pred s b -> a = b.
Proof.
  intros a b Ha Hb. apply (pred_inj g s t); auto.
  - apply (iv_tree _ _ _ HI).
  - apply (iv_arc _ _ _ HI).
  - apply in_app_or in Ha as [H|H]; [apply (cy_lt1 _ _ _ _ _ _ _ HC)|apply (cy_lt2 _ _ _ _ _ _ _ HC)]; auto.
  - apply in_app_or in Hb as [H|H]; [apply (cy_lt1 _ _ _ _ _ _ _ HC)|apply (cy_lt2 _ _ _ _ _ _ _ HC)]; auto.
Qed.
Lemma k_ia : forall a, In a (k1 ++ k2) -> pred s a <> ia.
Proof.
  intros a Ha E. assert ((a < node_num g)%nat).
  { apply in_app_or in Ha as [H|H]; [apply (cy_lt1 _ _ _ _ _ _ _ HC)|apply (cy_lt2 _ _ _ _ _ _ _ HC)]; auto. }
  pose proof (iv_T _ _ _ HI a H). congruence.
Qed.
Lemma newflow_1 : forall d w, In w k1 ->
  newflow s ia k1 k2 d (pred s w) = flow s (pred s w) + (if forward s w then - d else d).
Proof.
  intros d w Hw. unfold newflow. rewrite push_out, push_on; auto.
  - rewrite upd_other; auto. apply k_ia. apply in_or_app; auto.
  - apply (cy_ND1 _ _ _ _ _ _ _ HC).
  - intros a b Ha Hb. apply k_inj; apply in_or_app; auto.
  - intros z Hz E. apply k_inj in E; [|apply in_or_app; auto..]. subst. eapply (cy_D _ _ _ _ _ _ _ HC); eauto.
Qed.
Lemma newflow_2 : forall d w, In w k2 ->
  newflow s ia k1 k2 d (pred s w) = flow s (pred s w) + (if forward s w then d else - d).
Proof.
  intros d w Hw. unfold newflow. rewrite push_on; auto.
  - rewrite push_out, upd_other; auto. { apply k_ia. apply in_or_app; auto. }
    intros z Hz E. apply k_inj in E; [|apply in_or_app; auto..]. subst. eapply (cy_D _ _ _ _ _ _ _ HC); eauto.
  - apply (cy_ND2 _ _ _ _ _ _ _ HC).
  - intros a b Ha Hb. apply k_inj; apply in_or_app; auto.
Qed.
Lemma newflow_0 : forall e, newflow s ia k1 k2 0 e = flow s e.
Proof.
  assert (P : forall x y k f e, x = 0 -> y = 0 -> fold_left (pushf s x y) k f e = f e).
  { intros x y; induction k as [|z k IH]; intros f e E1 E2; auto. cbn [fold_left]. rewrite IH; auto.
    unfold pushf, amt. unfold upd. destruct (Nat.eqb_spec e (pred s z)); auto.
    subst. destruct (forward s z); lra. }
  intros e. unfold newflow. rewrite !P; try lra. unfold upd. destruct (Nat.eqb_spec e ia); auto. subst; lra.
Qed.
End NF.

Lemma rank_up : forall (s : ns) (rk : nat -> nat) k j u, plinks (parent s) (k ++ [j]) -> hd_error (k ++ [j]) = Some u ->
  (forall w, In w k -> (rk w <= rk (parent s w))%nat) -> (rk u <= rk j)%nat.
Proof.
  intros s rk; induction k as [|x k IH]; intros j u HL Hh H.
  - cbn in Hh. injection Hh as <-. lia.
  - destruct (walk_hd _ _ _ _ _ HL Hh) as (-> & HL' & Hh').
    specialize (IH j (parent s x) HL' Hh'). assert (rk x <= rk (parent s x))%nat by (apply H; cbn; auto).
    assert (rk (parent s x) <= rk j)%nat by (apply IH; intros; apply H; cbn; auto). lia.
Qed.
Lemma rank_down : forall (s : ns) (rk : nat -> nat) k j u, plinks (parent s) (k ++ [j]) -> hd_error (k ++ [j]) = Some u ->
  (forall w, In w k -> (rk (parent s w) <= rk w)%nat) -> (rk j <= rk u)%nat.
Proof.
  intros s rk; induction k as [|x k IH]; intros j u HL Hh H.
  - cbn in Hh. injection Hh as <-. lia.
  - destruct (walk_hd _ _ _ _ _ HL Hh) as (-> & HL' & Hh').
    specialize (IH j (parent s x) HL' Hh'). assert (rk (parent s x) <= rk x)%nat by (apply H; cbn; auto).
    assert (rk j <= rk (parent s x))%nat by (apply IH; intros; apply H; cbn; auto). lia.
Qed.

(** changeFlow *)
Lemma change_flow_ok : forall g s t ia j k1 k2 uout, inv g s t ->
  cycle g s (a_src g ia) (a_tgt g ia) j k1 k2 -> state s ia = LOWER ->
  In uout (k1 ++ k2) -> (In uout k1 -> forward s uout = true) -> (In uout k2 -> forward s uout = false) ->
  let d : R := flow s (pred s uout) in
  exists f, change_flow g s ia j (flow s (pred s uout)) uout true =
      Ret (set_flow_state s f (upd (upd (state s) ia TREE) (pred s uout) LOWER)) /\
    forall e, f e = newflow s ia k1 k2 d e.
Proof.
  intros g s t ia j k1 k2 uout HI HC Hia Hin H1 H2 d.
  assert (Hlt : (uout < node_num g)%nat).
  { apply in_app_or in Hin as [H|H]; [apply (cy_lt1 _ _ _ _ _ _ _ HC)|apply (cy_lt2 _ _ _ _ _ _ _ HC)]; auto. }
  assert (Hd : 0 <= d). { apply (iv_pos _ _ _ HI). apply (iv_arc _ _ _ HI uout Hlt). }
  assert (Z : newflow s ia k1 k2 d (pred s uout) = 0).
  { apply in_app_or in Hin as [H|H].
    - rewrite (newflow_1 _ _ _ _ _ _ _ _ _ HI HC Hia); auto. rewrite H1; auto. unfold d; lra.
    - rewrite (newflow_2 _ _ _ _ _ _ _ _ _ HI HC Hia); auto. rewrite H2; auto. unfold d; lra. }
  unfold change_flow. destruct (@nltb RNum n0 (flow s (pred s uout))) eqn:E.
  - exists (newflow s ia k1 k2 d). split; auto. rewrite Hia. cbn [smul].
    rewrite (push_fold s j (nopp (flow s (pred s uout))) (flow s (pred s uout)) k1); auto;
      try apply HC. cbn [bind].
    rewrite (push_fold s j (flow s (pred s uout)) (nopp (flow s (pred s uout))) k2); auto;
      try apply HC. cbn [bind].
    assert (EN : (fold_left (pushf s (flow s (pred s uout)) (@nopp RNum (flow s (pred s uout)))) k2
       (fold_left (pushf s (@nopp RNum (flow s (pred s uout))) (flow s (pred s uout))) k1
          (upd (flow s) ia (@nadd RNum (flow s ia) (flow s (pred s uout)))))) = newflow s ia k1 k2 d).
    { unfold newflow. replace (@nopp RNum (flow s (pred s uout))) with (- d) by (unfold d, nopp; cbn; lra). auto. }
    rewrite EN. rewrite Z. cbn [neqb RNum n0].
    replace (Reqb 0 0) with true by (symmetry; apply Reqb_true; auto). auto.
  - exists (flow s). cbn [bind]. apply Rltb_false in E.
    assert (E0 : d = 0) by (apply Rle_antisym; auto).
    split.
    + replace (@neqb RNum (flow s (pred s uout)) n0) with true; auto.
      symmetry. apply Reqb_true. exact E0.
    + intros e. rewrite E0. symmetry. apply (newflow_0 s ia k1 k2).
Qed.

Lemma arcs_uniq : forall g, acyclic g -> forall e, (e < all_arc_num g)%nat ->
  (a_src g e <= node_num g)%nat /\ (a_tgt g e <= node_num g)%nat /\ a_src g e <> a_tgt g e.
Proof.
  intros g (rk & H) e He. destruct (H e He) as (A & B & C). repeat split; auto.
  intros E. rewrite E in C. lia.
Qed.

Lemma tree_ok_set : forall (g : net) s f st t, tree_ok g s t -> tree_ok g (set_flow_state s f st) t.
Proof. intros g s f st t []. constructor; auto. Qed.

Lemma pivot_detail : forall g s t ia, inv g s t -> acyclic g ->
  (ia < all_arc_num g)%nat -> state s ia = LOWER ->
  exists j k1 k2 uin vin uout a1 a2 b d s' tsub c sigma,
    pivot g s ia = Ret (Some s') /\ pivoted g s ia j k1 k2 uin vin uout a1 a2 b d s' tsub c sigma.
Proof.
  intros g s t ia HI HA Hia Hst.
  destruct (arcs_uniq g HA ia Hia) as (Hs & Ht & Hne).
  destruct (find_cycle g s t (a_src g ia) (a_tgt g ia)) as (j & k1 & k2 & HC); auto.
  { apply (iv_tree _ _ _ HI). }
  pose proof (iv_tree _ _ _ HI) as Htk.
  exists j, k1, k2.
  unfold pivot. rewrite (cy_join _ _ _ _ _ _ _ HC). cbn [bind].
  unfold find_leaving. rewrite Hst. cbn zeta.
  rewrite (leave_first_fold s j k1); try apply HC. cbn [bind].
  rewrite (leave_second_fold s j k2); try apply HC. cbn [bind].
  pose proof (first_spec s k1) as F1. cbn zeta in F1.
  pose proof (second_spec s (fold_left (step1 s) k1 (None, 0%nat, 0%nat)) k2) as F2. cbn zeta in F2.
  assert (inT : forall x, In x (k1 ++ k2) -> In x (pre t)).
  { intros x Hx. apply (tk_in _ _ _ _ Htk). apply in_app_or in Hx as [H|H];
      [apply (cy_lt1 _ _ _ _ _ _ _ HC) in H|apply (cy_lt2 _ _ _ _ _ _ _ HC) in H]; lia. }
  assert (jT : In j (pre t)) by (apply (tk_in _ _ _ _ Htk); apply HC).
  destruct F2 as [(N2 & N1 & Hf)|[(b0 & Eb & Ec & Hmin2)|(a1 & uout & a2 & Ek & Hfu & Ec & Hb & Hm1 & Hm2)]].
  - (* no blocking arc: a directed cycle *)
    exfalso. destruct HA as (rk & HA).
    destruct F1 as [[_ Hf1]|(q1 & u & q2 & _ & _ & E & _)]; [|rewrite E in N1; discriminate].
    assert ((rk (a_tgt g ia) <= rk j)%nat).
    { apply (rank_up s rk k2); try apply HC. intros w Hw. pose proof (cy_lt2 _ _ _ _ _ _ _ HC w Hw) as Hl.
      destruct (iv_arc _ _ _ HI w Hl) as [Hp Ha]. rewrite (Hf w Hw) in Ha. destruct Ha as [A B].
      destruct (HA _ Hp) as (_ & _ & Hr). rewrite A, B in Hr. lia. }
    assert ((rk j <= rk (a_src g ia))%nat).
    { apply (rank_down s rk k1); try apply HC. intros w Hw. pose proof (cy_lt1 _ _ _ _ _ _ _ HC w Hw) as Hl.
      destruct (iv_arc _ _ _ HI w Hl) as [Hp Ha]. rewrite (Hf1 w Hw) in Ha. destruct Ha as [A B].
      destruct (HA _ Hp) as (_ & _ & Hr). rewrite A, B in Hr. lia. }
    destruct (HA ia Hia) as (_ & _ & Hr). lia.
  - (* leaving arc on the source side *)
    destruct F1 as [[E _]|(a1 & uout & a2 & Ek & Hfu & E & Hm1 & Hm2)]; [rewrite E in Eb; discriminate|].
    rewrite Ec, E. rewrite E in Eb. cbn [fst] in Eb. injection Eb as <-. cbn [bind Nat.eqb negb lv_delta lv_uout lv_change lv_uin lv_vin].
    assert (Huk : In uout k1) by (rewrite Ek; apply in_or_app; cbn; auto).
    destruct (change_flow_ok g s t ia j k1 k2 uout HI HC Hst) as (f & Ef & Hf); auto.
    { apply in_or_app; auto. } { intros H. exfalso. apply (cy_D _ _ _ _ _ _ _ HC uout); auto. }
    rewrite Ef. cbn [bind].
    set (s1 := set_flow_state s f (upd (upd (state s) ia TREE) (pred s uout) LOWER)).
    destruct (tail_ok g s1 t ia j (a_src g ia) (a_tgt g ia) uout a1 a2 k2) as (s' & tsub & c & sigma & Er & TL); auto.
    { apply tree_ok_set; auto. }
    { rewrite <- Ek. exact inT. }
    { rewrite <- Ek. apply HC. } { apply HC. }
    { pose proof (cy_h1 _ _ _ _ _ _ _ HC) as H. rewrite Ek in H. rewrite hd_error_app in H.
      destruct a1; cbn in *; auto. }
    { apply HC. } { rewrite <- Ek. apply HC. } { apply HC. } { rewrite <- Ek. apply HC. }
    { assert (In (a_src g ia) k1).
      { pose proof (cy_h1 _ _ _ _ _ _ _ HC) as H. destruct k1; [destruct a1; discriminate|]. cbn in H. injection H as ->; cbn; auto. }
      apply (cy_lt1 _ _ _ _ _ _ _ HC) in H. unfold root; lia. }
    exists (a_src g ia), (a_tgt g ia), uout, a1, a2, k2, (flow s (pred s uout)), s', tsub, c, sigma. split; [exact Er|].
    destruct TL. constructor; auto.
    + left. repeat split; auto.
    + intros e. rewrite tl_flow0. apply Hf.
  - rewrite Ec. cbn [bind Nat.eqb negb lv_delta lv_uout lv_change lv_uin lv_vin].
    assert (Huk : In uout k2) by (rewrite Ek; apply in_or_app; cbn; auto).
    destruct (change_flow_ok g s t ia j k1 k2 uout HI HC Hst) as (f & Ef & Hf); auto.
    { apply in_or_app; auto. } { intros H. exfalso. apply (cy_D _ _ _ _ _ _ _ HC uout); auto. }
    rewrite Ef. cbn [bind].
    set (s1 := set_flow_state s f (upd (upd (state s) ia TREE) (pred s uout) LOWER)).
    destruct (tail_ok g s1 t ia j (a_tgt g ia) (a_src g ia) uout a1 a2 k1) as (s' & tsub & c & sigma & Er & TL); auto.
    { apply tree_ok_set; auto. }
    { rewrite <- Ek. intros x Hx. apply inT. rewrite in_app_iff in *. tauto. }
    { rewrite <- Ek. apply HC. } { apply HC. }
    { pose proof (cy_h2 _ _ _ _ _ _ _ HC) as H. rewrite Ek in H. rewrite hd_error_app in H.
      destruct a1; cbn in *; auto. }
    { apply HC. } { rewrite <- Ek. apply HC. } { apply HC. }
    { rewrite <- Ek. intros x Hx Hx2. apply (cy_D _ _ _ _ _ _ _ HC x); auto. }
    { assert (In (a_tgt g ia) k2).
      { pose proof (cy_h2 _ _ _ _ _ _ _ HC) as H. destruct k2; [destruct a1; discriminate|]. cbn in H. injection H as ->; cbn; auto. }
      apply (cy_lt2 _ _ _ _ _ _ _ HC) in H. unfold root; lia. }
    exists (a_tgt g ia), (a_src g ia), uout, a1, a2, k1, (flow s (pred s uout)), s', tsub, c, sigma. split; [exact Er|].
    destruct TL. constructor; auto.
    + right. repeat split; auto.
      intros w Hw Hfw. destruct F1 as [[_ Hf1]|(q1 & u & q2 & Ek1 & Hfu1 & E & Hn1 & Hn2)].
      * rewrite Hf1 in Hfw; auto; discriminate.
      * rewrite E in Hb. cbn [fst] in Hb. specialize (Hb _ eq_refl). eapply Rle_trans; [exact Hb|].
        rewrite Ek1 in Hw. apply in_app_or in Hw as [Hw|[<-|Hw]].
        -- left; auto.
        -- right; auto.
        -- auto.
    + intros e. rewrite tl_flow0. apply Hf.
Qed.
