(** Consequences of the invariant for any network with a root: bounded potentials,
    few positive arcs, certificates. *)
From Coq Require Import List Arith Bool Lia Permutation Reals Lra.
Import ListNotations.
From Verif Require Import Num Spec Sums NS_model NS_list NS_thread NS_tree NS_path NS_ctx NS_assemble NS_update NS_walk NS_pivot NS_inv NS_enter NS_main.
Local Open Scope R_scope.

Record rooted (g : net) : Prop := {
  rd_real : forall e, (e < arc_num g)%nat -> (a_src g e < node_num g)%nat /\ (a_tgt g e < node_num g)%nat;
  rd_art : forall e, (arc_num g <= e < all_arc_num g)%nat -> a_src g e = root g \/ a_tgt g e = root g
}.

Section Cert.
Variables (g : net) (s : ns) (t : tree).
Hypothesis HI : inv g s t.
Hypothesis HG : rooted g.
Notation n := (node_num g).

Lemma arc_diff : forall u, (u < n)%nat -> Rabs (pi s u) <= Rabs (pi s (parent s u)) + Rabs (a_cost g (pred s u)).
Proof.
  intros u Hu. pose proof (iv_red _ _ _ HI u Hu) as Hr. rewrite rc_R in Hr.
  destruct (iv_arc _ _ _ HI u Hu) as [_ Ha].
  set (x := pi s u : R) in *. set (y := pi s (parent s u) : R) in *. set (k := a_cost g (pred s u) : R) in *.
  destruct (forward s u); destruct Ha as [E1 E2]; rewrite E1, E2 in Hr; fold x y k in Hr.
  - replace x with (y - k) by lra. eapply Rle_trans; [apply Rabs_triang|]. rewrite Rabs_Ropp. lra.
  - replace x with (y + k) by lra. apply Rabs_triang.
Qed.

Lemma path_bound : forall C B, pi s (root g) = 0 -> 0 <= C -> 0 <= B ->
  (forall e, (e < arc_num g)%nat -> Rabs (a_cost g e) <= C) ->
  (forall e, (e < all_arc_num g)%nat -> Rabs (a_cost g e) <= C + B) ->
  forall k u, plinks (parent s) (k ++ [nonode g]) -> hd_error k = Some u -> lasto k = Some (root g) ->
    NoDup k -> (forall x, In x k -> (x <= n)%nat) ->
    Rabs (pi s u) <= INR (length k - 1) * C + B.
Proof.
  intros C B H0 HC HB Hreal Hart; induction k as [|x k IH]; intros u HL Hh Hl ND Hle; [discriminate|].
  cbn in Hh. injection Hh as ->.
  destruct k as [|y k].
  - cbn in Hl. injection Hl as ->. rewrite H0, Rabs_R0. cbn. lra.
  - assert (Hur : u <> root g).
    { intros ->. inversion ND as [|? ? N1 _]; subst. apply N1. apply lasto_In.
      change (match lasto (y :: k) with None => Some (root g) | Some z => Some z end = Some (root g)) in Hl.
      destruct (lasto_cons y k) as [z Hz]. rewrite Hz in *. auto. }
    assert (Hun : (u < n)%nat). { specialize (Hle u (or_introl eq_refl)). unfold root in Hur. lia. }
    unfold plinks in HL. cbn [app links] in HL. destruct HL as [Ep HL].
    pose proof (arc_diff u Hun) as Hd. rewrite Ep in Hd.
    assert (Hl' : lasto (y :: k) = Some (root g)).
    { change (match lasto (y :: k) with None => Some u | Some z => Some z end = Some (root g)) in Hl.
      destruct (lasto_cons y k) as [z Hz]. rewrite Hz in *. auto. }
    inversion ND as [|? ? N1 N2]; subst.
    destruct (iv_arc _ _ _ HI u Hun) as [Hp Ha].
    destruct (Nat.eq_dec (parent s u) (root g)) as [Er|Er].
    + rewrite Er, H0, Rabs_R0 in Hd. specialize (Hart _ Hp).
      cbn [length]. replace (S (S (length k)) - 1)%nat with (S (length k)) by lia. rewrite S_INR.
      pose proof (pos_INR (length k)). assert (0 <= INR (length k) * C) by (apply Rmult_le_pos; auto). cbn in *; lra.
    + assert (Hr : (pred s u < arc_num g)%nat).
      { destruct (Nat.lt_ge_cases (pred s u) (arc_num g)); auto. exfalso.
        destruct (rd_art _ HG (pred s u) (conj H Hp)) as [E|E]; destruct (forward s u); destruct Ha as [A1 A2]; congruence. }
      specialize (Hreal _ Hr).
      assert (IHy : Rabs (pi s (parent s u)) <= INR (length (parent s u :: k) - 1) * C + B).
      { apply IH; auto. intros x Hx. apply Hle. cbn; auto. }
      cbn [length] in *. replace (S (S (length k)) - 1)%nat with (S (length k)) by lia.
      replace (S (length k) - 1)%nat with (length k) in IHy by lia. rewrite S_INR. cbn in *; lra.
Qed.

Lemma pi_bound : forall C B u, pi s (root g) = 0 -> 0 <= C -> 0 <= B ->
  (forall e, (e < arc_num g)%nat -> Rabs (a_cost g e) <= C) ->
  (forall e, (e < all_arc_num g)%nat -> Rabs (a_cost g e) <= C + B) ->
  (u <= n)%nat -> Rabs (pi s u) <= INR n * C + B.
Proof.
  intros C B u H0 HC HB Hreal Hart Hu.
  destruct (tree_path g s t u (iv_tree _ _ _ HI) Hu) as (k & H1 & H2 & H3 & H4 & H5).
  eapply Rle_trans; [apply (path_bound C B H0 HC HB Hreal Hart k u); auto|].
  { intros x Hx. apply (tk_in _ _ _ _ (iv_tree _ _ _ HI)); auto. }
  assert (Hlen : (length k <= S n)%nat).
  { rewrite <- (tk_len _ _ _ (iv_tree _ _ _ HI)). apply NoDup_incl_length; auto. }
  assert (INR (length k - 1) <= INR n) by (apply le_INR; lia).
  assert (INR (length k - 1) * C <= INR n * C) by (apply Rmult_le_compat_r; auto). lra.
Qed.

Lemma scale_bound : forall C B, pi s (root g) = 0 -> 0 <= C -> 0 <= B -> (0 < n)%nat ->
  (forall e, (e < arc_num g)%nat -> Rabs (a_cost g e) <= C) ->
  (forall e, (e < all_arc_num g)%nat -> Rabs (a_cost g e) <= C + B) ->
  forall e, (e < arc_num g)%nat -> scale g s e <= INR n * C + B.
Proof.
  intros C B H0 HC HB Hn Hreal Hart e He. destruct (rd_real _ HG e He) as [A1 A2].
  apply scale_le.
  - apply pi_bound; auto. lia.
  - apply pi_bound; auto. lia.
  - eapply Rle_trans; [apply Hreal; auto|].
    assert (1 <= INR n) by (change 1 with (INR 1); apply le_INR; lia).
    assert (1 * C <= INR n * C) by (apply Rmult_le_compat_r; auto). lra.
Qed.

(** the arcs carrying flow are tree arcs, and one tree arc is artificial *)
Lemma some_art : (0 < n)%nat -> exists u, (u < n)%nat /\ (arc_num g <= pred s u)%nat.
Proof.
  intros Hn. destruct (tree_path g s t 0 (iv_tree _ _ _ HI)) as (k & H1 & H2 & H3 & H4 & H5); [lia|].
  destruct (prev_in k (root g)) as [E|(l1 & w & l2 & Ek)].
  - apply lasto_In; auto.
  - rewrite H1 in E. injection E as E. unfold root in E. lia.
  - exists w. rewrite Ek in H2, H3. rewrite <- app_assoc in H2. cbn [app] in H2. apply links_at in H2.
    assert (Hw : (w < n)%nat).
    { assert ((w <= n)%nat). { apply (tk_in _ _ _ _ (iv_tree _ _ _ HI)). apply H5. rewrite Ek. apply in_or_app; cbn; auto. }
      assert (w <> root g); [|unfold root in *; lia]. intros ->.
      apply NoDup_app_inv in H3 as (_ & H3 & _). inversion H3 as [|? ? N1 _]; subst. apply N1; cbn; auto. }
    split; auto. destruct (iv_arc _ _ _ HI w Hw) as [_ Ha].
    destruct (Nat.lt_ge_cases (pred s w) (arc_num g)) as [Hl|]; auto. exfalso.
    destruct (rd_real _ HG _ Hl) as [A1 A2]. rewrite H2 in Ha. unfold root in *.
    destruct (forward s w); destruct Ha; lia.
Qed.

Lemma few_positive : forall L, (0 < n)%nat -> NoDup L ->
  (forall e, In e L -> (e < arc_num g)%nat /\ 0 < flow s e) -> (length L <= n - 1)%nat.
Proof.
  intros L Hn ND HL. destruct (some_art Hn) as (u0 & Hu0 & Ha0).
  assert (Hinc : incl (pred s u0 :: L) (map (pred s) (seq 0 n))).
  { intros e [<-|He].
    - apply in_map. apply in_seq; lia.
    - destruct (HL e He) as [H1 H2]. assert (Hal : (e < all_arc_num g)%nat) by (unfold all_arc_num; lia).
      destruct (iv_TL _ _ _ HI e Hal) as [E|E].
      + destruct (iv_inv _ _ _ HI e Hal E) as (u & Hu & <-). apply in_map. apply in_seq; lia.
      + rewrite (iv_zero _ _ _ HI e Hal E) in H2. lra. }
  assert (H : (length (pred s u0 :: L) <= length (map (pred s) (seq 0 n)))%nat).
  { apply NoDup_incl_length; auto. constructor; auto. intros H. destruct (HL _ H); lia. }
  rewrite map_length, seq_length in H. cbn [length] in H. lia.
Qed.

Lemma red_times_flow : forall e, (e < all_arc_num g)%nat -> red_cost g s e * flow s e = 0.
Proof.
  intros e He. destruct (iv_TL _ _ _ HI e He) as [E|E].
  - destruct (iv_inv _ _ _ HI e He E) as (u & Hu & <-). rewrite (iv_red _ _ _ HI u Hu). lra.
  - rewrite (iv_zero _ _ _ HI e He E). lra.
Qed.
Lemma pos_flow_red : forall e, (e < all_arc_num g)%nat -> 0 < flow s e -> red_cost g s e = 0.
Proof.
  intros e He Hp. destruct (iv_TL _ _ _ HI e He) as [E|E].
  - destruct (iv_inv _ _ _ HI e He E) as (u & Hu & <-). apply (iv_red _ _ _ HI u Hu).
  - rewrite (iv_zero _ _ _ HI e He E) in Hp. lra.
Qed.
End Cert.

Lemma divg_total : forall (g : net) f, acyclic g -> rsum (S (node_num g)) (divg g f) = 0.
Proof.
  intros g f HA. rewrite (rsum_ext _ _ (fun u => 1 * divg g f u)) by (intros; lra).
  rewrite (divg_dot g (fun _ => 1)).
  - apply rsum_0. intros; lra.
  - intros e He. destruct (arcs_uniq g HA e He) as (A & B & _); auto.
Qed.
