(** Termination of the main loop: a basis (set of TREE arcs) never comes back, so the loop
    performs fewer than 2^arcs pivots. *)
From Coq Require Import List Arith Bool Lia Permutation Reals Lra.
Import ListNotations.
From Verif Require Import Num Spec Sums NS_model NS_list NS_thread NS_tree NS_path NS_ctx NS_update NS_walk NS_pivot NS_inv NS_enter NS_main.
Local Open Scope R_scope.

Lemma lasto_cons2 : forall (x y : nat) k, lasto (x :: y :: k) = lasto (y :: k).
Proof. intros x y k. destruct (lasto_cons y k) as (z & E). change (lasto (x :: y :: k)) with (match lasto (y :: k) with None => Some x | Some y => Some y end). rewrite E. auto. Qed.

(** bool vectors *)
Fixpoint vecs (k : nat) : list (list bool) :=
  match k with O => [[]] | S k => map (cons true) (vecs k) ++ map (cons false) (vecs k) end.
Lemma vecs_len : forall k, length (vecs k) = (2 ^ k)%nat.
Proof. induction k as [|k IH]; cbn [vecs Nat.pow]; auto. rewrite app_length, !map_length, IH. lia. Qed.
Lemma vecs_in : forall l, In l (vecs (length l)).
Proof.
  induction l as [|x l IH]; cbn [vecs length]; [cbn; auto|]. apply in_or_app.
  destruct x; [left|right]; apply in_map; auto.
Qed.

Definition is_tree (a : astate) : bool := match a with TREE => true | _ => false end.
Definition basis (g : net) (s : ns) : list bool := map (fun e => is_tree (state s e)) (seq 0 (all_arc_num g)).
Lemma basis_eq : forall (g : net) s s', basis g s = basis g s' ->
  forall e, (e < all_arc_num g)%nat -> state s e = TREE -> state s' e = TREE.
Proof.
  intros g s s' E e He Ht.
  assert (K : nth e (basis g s) false = nth e (basis g s') false) by (rewrite E; auto).
  unfold basis in K. rewrite !(nth_indep _ false (is_tree LOWER)) in K by (rewrite map_length, seq_length; auto).
  set (f := fun e => is_tree (state s e)) in K. set (f' := fun e => is_tree (state s' e)) in K.
  rewrite (nth_indep _ (is_tree LOWER) (f 0%nat)) in K by (rewrite map_length, seq_length; auto).
  rewrite (nth_indep (map f' _) (is_tree LOWER) (f' 0%nat)) in K by (rewrite map_length, seq_length; auto).
  rewrite !map_nth, !seq_nth in K by auto. unfold f, f' in K. cbn [plus] in K. rewrite Ht in K.
  destruct (state s' e); cbn in K; congruence.
Qed.

Section Pot.
Variables (g : net) (s : ns) (t : tree).
Hypothesis HI : inv g s t.

(** potentials with prescribed differences along the tree arcs *)
Fixpoint pot (c : nat -> R) (fuel u : nat) : R :=
  match fuel with
  | O => 0
  | S f => if (u =? root g)%nat then 0
           else if forward s u then pot c f (parent s u) - c (pred s u) else pot c f (parent s u) + c (pred s u)
  end.
Lemma pot_stable : forall c k u, hd_error k = Some u -> plinks (parent s) (k ++ [nonode g]) -> NoDup k -> lasto k = Some (root g) ->
  forall f, (length k <= f)%nat -> pot c f u = pot c (length k) u.
Proof.
  intros c; induction k as [|x k IH]; intros u Hh Hp Hd Hl f Hf; [discriminate|]. injection Hh as ->.
  destruct f as [|f]; [cbn in Hf; lia|]. cbn [length pot]. destruct (Nat.eqb_spec u (root g)) as [?Q|?Q]; auto.
  destruct k as [|y k]. { cbn in Hl. congruence. }
  cbn [app] in Hp. destruct Hp as [E Hp]. cbn [length] in *.
  assert (EP : pot c f (parent s u) = pot c (S (length k)) (parent s u)).
    { apply (IH (parent s u)); [cbn; rewrite E; auto|exact Hp|inversion Hd; auto|rewrite lasto_cons2 in Hl; exact Hl|lia]. }
  rewrite EP. auto.
Qed.
Lemma path_len : forall k, NoDup k -> (forall y, In y k -> In y (pre t)) -> (length k <= S (node_num g))%nat.
Proof.
  intros k ND Hin. pose proof (NoDup_incl_length ND Hin) as H. pose proof (Permutation_length (tk_perm _ _ _ (iv_tree _ _ _ HI))) as E.
  rewrite seq_length in E. lia.
Qed.
Lemma pot_ok : forall c, exists p : nat -> R, p (root g) = 0 /\
  forall u, (u < node_num g)%nat -> c (pred s u) + p (a_src g (pred s u)) - p (a_tgt g (pred s u)) = 0.
Proof.
  intros c. exists (pot c (S (node_num g))). split.
  - cbn [pot]. rewrite Nat.eqb_refl. auto.
  - intros u Hu. destruct (tree_path g s t u (iv_tree _ _ _ HI)) as (k & H1 & H2 & H3 & H4 & H5); [lia|].
    destruct k as [|x k]; [discriminate|]. injection H1 as ->.
    destruct k as [|y k]. { cbn in H4. injection H4 as H4. unfold root in H4. lia. }
    pose proof (path_len _ H3 H5) as HL. cbn [length] in HL. cbn [app] in H2. destruct H2 as [E H2].
    assert (EP : pot c (S (node_num g)) (parent s u) = pot c (node_num g) (parent s u)).
    { assert (Hd' : NoDup (y :: k)) by (inversion H3; auto).
      assert (PS : forall f, (length (y :: k) <= f)%nat -> pot c f (parent s u) = pot c (length (y :: k)) (parent s u)).
      { apply pot_stable; [cbn; rewrite E; auto|exact H2|exact Hd'|rewrite lasto_cons2 in H4; exact H4]. }
      rewrite (PS (S (node_num g))), (PS (node_num g)) by (cbn [length]; lia). reflexivity. }
    destruct (iv_arc _ _ _ HI u Hu) as [_ Ha].
    assert (EU : pot c (S (node_num g)) u = if forward s u then pot c (node_num g) (parent s u) - c (pred s u) else pot c (node_num g) (parent s u) + c (pred s u)).
    { cbn [pot]. destruct (Nat.eqb_spec u (root g)) as [?Q|?Q]; auto. unfold root in Q. lia. }
    destruct (forward s u); destruct Ha as [E1 E2]; rewrite E1, E2, EU, EP; lra.
Qed.

Lemma tree_const : forall q : nat -> R, q (root g) = 0 ->
  (forall u, (u < node_num g)%nat -> q (a_src g (pred s u)) = q (a_tgt g (pred s u))) ->
  forall u, (u <= node_num g)%nat -> q u = 0.
Proof.
  intros q H0 Hq u Hu. destruct (tree_path g s t u (iv_tree _ _ _ HI) Hu) as (k & H1 & H2 & H3 & H4 & H5).
  assert (H6 : forall y, In y k -> (y <= node_num g)%nat).
  { intros y Hy. apply H5 in Hy. rewrite (tk_in _ _ _ y (iv_tree _ _ _ HI)) in Hy. auto. }
  clear H3 H5 Hu. revert u H1 H2 H4 H6. induction k as [|x k IH]; intros u H1 H2 H4 H6; [discriminate|]. injection H1 as ->.
  destruct k as [|y k]. { cbn in H4. injection H4 as ->. auto. }
  cbn [app] in H2. destruct H2 as [E H2].
  assert (Hy : q (parent s u) = 0). { apply IH; [cbn; rewrite E; auto|exact H2|rewrite lasto_cons2 in H4; exact H4|]. intros; apply H6; cbn; auto. }
  destruct (Nat.eq_dec u (node_num g)) as [->|Hne]; [exact H0|].
  assert (Hu : (u < node_num g)%nat) by (specialize (H6 u); cbn in H6; lia).
  specialize (Hq u Hu). destruct (iv_arc _ _ _ HI u Hu) as [_ Ha]. destruct (forward s u); destruct Ha as [E1 E2]; rewrite E1, E2 in Hq; lra.
Qed.
End Pot.

Lemma basis_det : forall g s t s' t', acyclic g -> inv g s t -> inv g s' t' -> pi s (root g) = 0 -> pi s' (root g) = 0 ->
  basis g s = basis g s' ->
  (forall e, (e < all_arc_num g)%nat -> flow s e = flow s' e) /\ (forall u, (u <= node_num g)%nat -> (pi s u : R) = pi s' u).
Proof.
  intros g s t s' t' HA HI HI' R1 R2 EB. split.
  - intros e0 He0.
    set (d := fun e => flow s e - flow s' e : R).
    destruct (pot_ok g s t HI (fun e => if (e =? e0)%nat then 1 else 0)) as (p & P0 & HP).
    assert (Hz : forall e, (e < all_arc_num g)%nat -> state s e <> TREE -> d e = 0).
    { intros e He Hs. unfold d. destruct (iv_TL _ _ _ HI e He) as [?|E1]; [contradiction|].
      destruct (iv_TL _ _ _ HI' e He) as [E2|E2].
      - apply (basis_eq g s' s) in E2; auto. contradiction.
      - rewrite (iv_zero _ _ _ HI e He E1), (iv_zero _ _ _ HI' e He E2). lra. }
    assert (Hdv : forall u, (u < node_num g)%nat -> divg g d u = 0).
    { intros u Hu. pose proof (iv_div _ _ _ HI u Hu) as D1. pose proof (iv_div _ _ _ HI' u Hu) as D2. unfold divg in *.
      rewrite (rsum_ext _ _ (fun e => (ind (a_src g e =? u)%nat (flow s e) - ind (a_tgt g e =? u)%nat (flow s e)) -
                                (ind (a_src g e =? u)%nat (flow s' e) - ind (a_tgt g e =? u)%nat (flow s' e)))).
      - rewrite rsum_minus. lra.
      - intros e He. unfold d, ind. destruct (a_src g e =? u)%nat, (a_tgt g e =? u)%nat; lra. }

    assert (Dd : rsum (all_arc_num g) (fun e => (p (a_src g e) - p (a_tgt g e)) * d e) = 0).
    { rewrite <- (divg_dot g p d).
      - cbn [rsum]. change (node_num g) with (root g) at 2. rewrite P0. rewrite rsum_0; [lra|]. intros u Hu. rewrite Hdv by auto. lra.
      - intros e He. destruct (arcs_uniq g HA e He) as (A & B & _); auto. }
    rewrite (rsum_single _ e0) in Dd; auto.
    + destruct (iv_TL _ _ _ HI e0 He0) as [ET|EL].
      * destruct (iv_inv _ _ _ HI e0 He0 ET) as (u & Hu & Eu). specialize (HP u Hu). rewrite Eu, Nat.eqb_refl in HP.
        replace (p (a_src g e0) - p (a_tgt g e0)) with (-1) in Dd by lra. unfold d in Dd. lra.
      * assert (Z : d e0 = 0) by (apply Hz; auto; congruence). unfold d in Z. lra.
    + intros e He Hne. destruct (iv_TL _ _ _ HI e He) as [ET|EL].
      * destruct (iv_inv _ _ _ HI e He ET) as (u & Hu & Eu). specialize (HP u Hu). rewrite Eu in HP.
        destruct (Nat.eqb_spec e e0) as [?Q|?Q]; [congruence|]. replace (p (a_src g e) - p (a_tgt g e)) with 0 by lra. lra.
      * rewrite Hz by (auto; congruence). lra.
  - intros u Hu. assert (Q : pi s u - pi s' u = 0); [|lra].
    apply (tree_const g s t HI (fun u => pi s u - pi s' u)); auto; [rewrite R1, R2; lra|].
    intros x Hx. pose proof (iv_red _ _ _ HI x Hx) as D1. rewrite rc_R in D1.
    destruct (iv_arc _ _ _ HI x Hx) as [Hlt _].
    pose proof (basis_eq g s s' EB (pred s x) Hlt (iv_T _ _ _ HI x Hx)) as HT.
    destruct (iv_inv _ _ _ HI' (pred s x) Hlt HT) as (y & Hy & Ey).
    pose proof (iv_red _ _ _ HI' y Hy) as D2. rewrite rc_R, Ey in D2. lra.
Qed.

Definition progress (g : net) (s s' : ns) : Prop :=
  obj g (flow s') < obj g (flow s) \/
  (obj g (flow s') = obj g (flow s) /\ (forall x, (pi s x : R) <= pi s' x) /\ exists x, (x < node_num g)%nat /\ (pi s x : R) < pi s' x).
Lemma progress_trans : forall g s1 s2 s3, progress g s1 s2 -> progress g s2 s3 -> progress g s1 s3.
Proof.
  intros g s1 s2 s3 [H1|(H1 & A1 & x & Hx & B1)] [H2|(H2 & A2 & y & Hy & B2)]; unfold progress.
  - left; lra.
  - left; lra.
  - left; lra.
  - right. split; [lra|]. split. { intros z. eapply Rle_trans; eauto. } exists x. split; auto. eapply Rlt_le_trans; eauto.
Qed.
Lemma progress_basis : forall g s s', acyclic g -> good g s -> good g s' -> progress g s s' -> basis g s <> basis g s'.
Proof.
  intros g s s' HA G1 G2 HP E. destruct (gd_inv _ _ G1) as (t & HI). destruct (gd_inv _ _ G2) as (t' & HI').
  destruct (basis_det g s t s' t' HA HI HI' (gd_root _ _ G1) (gd_root _ _ G2) E) as [F P].
  assert (Eo : obj g (flow s) = obj g (flow s')). { unfold obj. apply rsum_ext. intros e He. rewrite F; auto. }
  destruct HP as [H|(_ & _ & x & Hx & H)]; [lra|]. rewrite (P x) in H by lia. lra.
Qed.

Theorem main_loop_terminates : forall g max_iter B, acyclic g -> forall seen fuel iter s, good g s -> in_arc s <> None ->
  (2 ^ all_arc_num g <= length seen + B)%nat -> NoDup (map (basis g) seen) ->
  (forall x, In x seen -> good g x /\ progress g x s) ->
  (B < fuel)%nat -> (max_iter = 0 \/ iter + B < max_iter)%nat ->
  exists s', main_loop fuel g max_iter iter s = Ret (Done OPTIMAL s').
Proof.
  intros g max_iter B HA. induction B as [|B IH]; intros seen fuel iter s HG Hin HB ND HS Hf Hm.
  - exfalso. assert (ND' : NoDup (basis g s :: map (basis g) seen)).
    { constructor; auto. intros H. apply in_map_iff in H as (x & E & Hx). destruct (HS x Hx) as [Gx Px].
      apply (progress_basis g x s); auto. }
    assert (Hi : incl (basis g s :: map (basis g) seen) (vecs (all_arc_num g))).
    { assert (K : forall z, In (basis g z) (vecs (all_arc_num g))).
      { intros z. replace (all_arc_num g) with (length (basis g z)) by (unfold basis; rewrite map_length, seq_length; auto). apply vecs_in. }
      intros v [<-|H]; auto. apply in_map_iff in H as (x & <- & _). auto. }
    pose proof (NoDup_incl_length ND' Hi) as L. rewrite vecs_len in L. cbn [length] in L. rewrite map_length in L. lia.
  - destruct fuel as [|fuel]; [lia|]. cbn [main_loop]. pose proof (gd_next _ _ HG) as Hna.
    destruct (find_entering_spec g s Hin Hna) as [(na & ia & E & Hn & Hia & Hc)|(oia & E & Ho & Hcert)]; rewrite E; cbn [bind negb]; eauto.
    set (s1 := set_entering s (Some ia) na) in *.
    assert (G1 : good g s1) by (apply good_set_entering; auto).
    destruct (gd_inv _ _ HG) as (t & HI). assert (Ha : (ia < all_arc_num g)%nat) by (unfold all_arc_num; lia).
    destruct (smul_neg_lower g s t ia HI Ha Hc) as [Hst Hr].
    destruct (good_pivot g s1 ia HA G1 Ha Hst Hr) as (s2 & Ep & G2 & Ei & Hob).
    assert (HP : progress g s s2) by exact Hob.
    assert (Hstop : (Nat.ltb 0 max_iter && Nat.leb max_iter (if Nat.ltb 0 max_iter then S iter else iter))%bool = false).
    { destruct (Nat.ltb_spec 0 max_iter); cbn [andb]; auto. apply Nat.leb_gt. lia. }
    rewrite Hstop. cbn [in_arc set_entering s1]. fold s1. rewrite Ep. cbn [bind].
    apply (IH (s :: seen)); auto.
    + rewrite Ei. discriminate.
    + cbn [length]. lia.
    + cbn [map]. constructor; auto. intros H. apply in_map_iff in H as (x & E' & Hx). destruct (HS x Hx) as [Gx Px].
      apply (progress_basis g x s); auto.
    + intros x [<-|Hx]; auto. destruct (HS x Hx) as [Gx Px]. split; auto. eapply progress_trans; eauto.
    + lia.
    + destruct (Nat.ltb_spec 0 max_iter); lia.
Qed.

Corollary start_optimal : forall g max_iter fuel s0 pivots s1, acyclic g ->
  pivots s0 = Ret (Some s1) -> good g s1 -> in_arc s1 <> None ->
  (2 ^ all_arc_num g < fuel)%nat -> (max_iter = 0 \/ 2 ^ all_arc_num g < max_iter)%nat ->
  exists r, start fuel g max_iter s0 pivots = Ret r /\ rs_type r <> MAX_ITER_REACHED.
Proof.
  intros g max_iter fuel s0 pivots s1 HA Hp HG Hin Hf Hm. unfold start. rewrite Hp. cbn [bind].
  assert (HT : exists s', main_loop fuel g max_iter 0 s1 = Ret (Done OPTIMAL s')).
  { apply (main_loop_terminates g max_iter (2 ^ all_arc_num g) HA []); auto.
    - constructor.
    - intros x []. }
  destruct HT as (s' & E). rewrite E. cbn [bind].
  destruct (feas_loop (node_num g) (arc_num g) (flow s')); eexists; split; try reflexivity; cbn; discriminate.
Qed.
