From Coq Require Import List Arith Bool Reals Lra Lia.
From Verif Require Import Num Sums Spec Perm Duals_model Duals_proofs.
Import ListNotations.
Local Open Scope R_scope.

(** what the inner solver must deliver on a problem with positive weights when it
    reports OPTIMAL *)
Definition solver_correct
  (solver : nat -> nat -> vec -> vec -> mat -> mat * R * vec * vec * status) : Prop :=
  forall n m a b M G c u v, (0 < n)%nat -> (0 < m)%nat -> pos_vec n a -> pos_vec m b ->
  mass n a = mass m b -> solver n m a b M = (G, c, u, v, OPTIMAL) ->
  coupling n m a b G /\ c = cost n m M G /\ dual_feasible n m M u v /\ dual_obj n m a b u v = c.

Definition rescale (n m : nat) (a b : vec) : vec := fun j => b j * mass n a / mass m b.

Lemma emd_post_spec : forall solver center n m a b M G c u v,
  solver_correct solver ->
  nonneg_vec n a -> nonneg_vec m b -> 0 < mass n a -> 0 < mass m b ->
  emd_post (N:=RNum) solver center n m a b M = (G, c, u, v, OPTIMAL) ->
  let b' := rescale n m a b in
  optimal_coupling n m a b' M G /\ c = cost n m M G
  /\ dual_feasible n m M u v /\ dual_obj n m a b' u v = c
  /\ (center = true -> dot n u a = dot m v b').
Proof.
  intros solver center n m a b M G c u v HS Ha Hb Hma Hmb E b'.
  assert (E' : emd_body (N:=RNum) solver center n m a b' M = (G, c, u, v, OPTIMAL)).
  { rewrite <- E. unfold emd_post. f_equal. unfold rescale_b. rewrite !nsum_R. reflexivity. }
  clear E; rename E' into E. unfold emd_body in E. 
  assert (Hb' : nonneg_vec m b').
  { intros j Hj. unfold b', rescale. apply Rle_mult_inv_pos; auto. apply Rmult_le_pos; auto; lra. }
  assert (Hm : mass n a = mass m b').
  { unfold b', rescale. unfold mass in *. rewrite rsum_div, rsum_scal_r. field. lra. }
  assert (Nn : (0 < n)%nat) by (destruct n; [unfold mass in Hma; simpl in Hma; lra|lia]).
  assert (Nm : (0 < m)%nat) by (destruct m; [unfold mass in Hmb; simpl in Hmb; lra|lia]).
  change (@neqb RNum) with Reqb in E. change (@n0 RNum) with 0 in E.
  set (ra := fun i => negb (Reqb (a i) 0)) in E. set (rb := fun j => negb (Reqb (b' j) 0)) in E.
  unfold compute_active_subset in E. cbv zeta in E. rewrite negb_involutive in E.
  assert (Cen : forall u0 v0 u1 v1, maybe_center (N:=RNum) center n m u0 v0 a b' = (u1, v1) ->
     (forall i j, u1 i + v1 j = u0 i + v0 j) /\ (center = true -> dot n u1 a = dot m v1 b')
     /\ dual_obj n m a b' u1 v1 = dual_obj n m a b' u0 v0).
  { intros u0 v0 u1 v1 EE. unfold maybe_center in EE. destruct center.
    - apply center_spec in EE; [|rewrite <- Hm; lra]. destruct EE as (A & B & C).
      split; [exact A|split; [auto|apply C; auto]].
    - injection EE; intros; subst. split; [auto|split; [discriminate|auto]]. }
  destruct (masks_full n ra && masks_full m rb)%bool eqn:Em; cbn [negb] in E.
  - (* no zero weight *)
    rewrite !seq_length in E.
    destruct (solver n m a b' M) as [[[[G0 c0] u0] v0] st] eqn:ES. unfold inflate in E. cbn [negb] in E.
    destruct (maybe_center (N:=RNum) center n m u0 v0 a b') as [u1 v1] eqn:EC.
    unfold maybe_estimate in E. injection E; intros; subst. apply Cen in EC. destruct EC as (C1 & C2 & C3).
    apply andb_true_iff in Em. destruct Em as [E1 E2]. unfold masks_full in E1, E2. rewrite forallb_forall in E1, E2.
    destruct (HS n m a b' M G c u0 v0) as (S1 & S2 & S3 & S4); auto.
    { intros i Hi. assert (ra i = true) by (apply E1, in_seq; lia). unfold ra in H.
      apply negb_true_iff, Reqb_false in H. specialize (Ha i Hi). lra. }
    { intros i Hi. assert (rb i = true) by (apply E2, in_seq; lia). unfold rb in H.
      apply negb_true_iff, Reqb_false in H. specialize (Hb' i Hi). lra. }
    split; [|split; [auto|split; [|split; auto]]].
    + split; auto. intros P HP. rewrite <- S2, <- S4. apply weak_duality; auto.
    + intros i j Hi Hj. rewrite C1. apply S3; auto.
    + lra.
  - set (r := flatnonzero n ra) in E. set (cc := flatnonzero m rb) in E.
    destruct (solver (length r) (length cc) (fun k => a (nth k r 0%nat)) (fun l => b' (nth l cc 0%nat))
       (fun k l => M (nth k r 0%nat) (nth l cc 0%nat))) as [[[[G0 c0] u0] v0] st] eqn:ES.
    assert (EI : inflate (N:=RNum) true r cc G0 u0 v0 = (infl n m a b' G0, inflv r u0, inflv cc v0)) by reflexivity.
    rewrite EI in E.
    destruct (maybe_center (N:=RNum) center n m (inflv r u0) (inflv cc v0) a b') as [u1 v1] eqn:EC.
    unfold maybe_estimate in E.
    destruct (estimate_dual_null_weights (N:=RNum) n m u1 v1 a b' M) as [u2 v2] eqn:EE.
    injection E; intros; subst. apply Cen in EC. destruct EC as (C1 & C2 & C3).
    assert (Mr := active_mass_r n a). fold ra r in Mr.
    assert (Mc := active_mass_c m b'). fold rb cc in Mc.
    assert (Pr : (0 < length r)%nat).
    { destruct r; [simpl in Mr; unfold mass in *; simpl in Mr; lra|simpl; lia]. }
    assert (Pc : (0 < length cc)%nat).
    { destruct cc; [simpl in Mc; unfold mass in *; simpl in Mc; lra|simpl; lia]. }
    destruct (fun A B C => HS _ _ _ _ _ G0 c u0 v0 Pr Pc A B C ES) as (S1 & S2 & S3 & S4).
    { intros k Hk. assert (In (nth k r 0%nat) r) by (apply nth_In; auto). apply flatnonzero_In in H.
      destruct H as [H1 H2]. unfold ra in H2. apply negb_true_iff, Reqb_false in H2. specialize (Ha _ H1). lra. }
    { intros k Hk. assert (In (nth k cc 0%nat) cc) by (apply nth_In; auto). apply flatnonzero_In in H.
      destruct H as [H1 H2]. unfold rb in H2. apply negb_true_iff, Reqb_false in H2. specialize (Hb' _ H1). lra. }
    { rewrite Mr, Mc; auto. }
    assert (O0 : optimal_coupling (length r) (length cc) (fun k => a (nth k r 0%nat)) (fun l => b' (nth l cc 0%nat))
       (fun k l => M (nth k r 0%nat) (nth l cc 0%nat)) G0).
    { split; auto. intros P HP. rewrite <- S2, <- S4. apply weak_duality; auto. }
    apply estimate_spec in EE; auto; try lra.
    2:{ intros i j Hi Hj Za Zb. rewrite C1. apply (infl_feasible_on_support n m a b' M); auto. }
    destruct EE as (F1 & F2 & F3 & F4).
    split; [apply infl_optimal; auto|]. split; [rewrite infl_cost; auto|].
    split; auto. split; [|auto].
    rewrite F2, C3. unfold r, cc. rewrite infl_dual_obj. auto.
Qed.

(** C11 as a statement on the reduction alone *)
Lemma zero_weight_reduction : forall n m a b M G,
  let ra := fun i => negb (Reqb (a i) 0) in let rb := fun j => negb (Reqb (b j) 0) in
  let r := flatnonzero n ra in let c := flatnonzero m rb in
  forall u v,
  let Gf := fst (fst (inflate (N:=RNum) true r c G u v)) in
  optimal_coupling (length r) (length c) (fun k => a (nth k r 0%nat)) (fun l => b (nth l c 0%nat))
     (fun k l => M (nth k r 0%nat) (nth l c 0%nat)) G ->
  optimal_coupling n m a b M Gf /\
  cost n m M Gf = cost (length r) (length c) (fun k l => M (nth k r 0%nat) (nth l c 0%nat)) G /\
  (forall i j, (i < n)%nat -> (j < m)%nat -> a i = 0 \/ b j = 0 -> Gf i j = 0).
Proof.
  intros n m a b M G ra rb r c u v Gf H. split; [apply (infl_optimal n m a b M G); auto|].
  split; [apply (infl_cost n m a b M G)|].
  intros i j Hi Hj [E|E].
  - apply (infl_zero_row n m a b G i j Hi). apply ra_false; auto.
  - apply (infl_zero_col n m a b G i j Hj). apply rb_false; auto.
Qed.
