(** C154: ot.bregman.unmix. *)
From Coq Require Import List Arith Reals Lra Lia Bool.
From Verif Require Import Num Sums Spec Entropy Duals_proofs Bary_model Unmix_model Unmix_proofs.
Import ListNotations.
Local Open Scope R_scope.

(** a dictionary: non-negative, columns of mass one, every bin reached *)
Definition is_dictionary (d k : nat) (D : rmat) : Prop :=
  (forall i r, (i < d)%nat -> (r < k)%nat -> 0 <= D i r) /\
  (forall r, (r < k)%nat -> rsum d (fun i => D i r) = 1) /\
  (forall i, (i < d)%nat -> exists r, (r < k)%nat /\ 0 < D i r).
Definition positive (n : nat) (v : rvec) : Prop := forall i, (i < n)%nat -> 0 < v i.

Notation unmixR norm lo d k p a D M M0 h0 reg reg0 alpha it thr log :=
  (unmix (N:=RNum) exp ln norm lo d k p a D M M0 h0 reg reg0 alpha it thr log).

(** the result carries the state reached by some positive number of iterations *)
Lemma unmix_state : forall norm lo d k p a D M M0 h0 reg reg0 alpha it thr log r, (0 < it)%nat ->
  unmixR norm lo d k p a D M M0 h0 reg reg0 alpha it thr log = UmOk r ->
  exists t, (0 < t <= it)%nat /\ (forall i, um_h r i = row_sum p (snd (iter lo d k p a D M M0 h0 reg reg0 alpha t)) i) /\
    length (um_err r) = t /\ (um_end r = UmMaxIter -> t = it) /\ (forall ii, um_end r = UmConverged ii -> t = S ii).
Proof.
  intros norm lo d k p a D M M0 h0 reg reg0 alpha it thr log r Hit E. unfold unmix in E.
  destruct (um_loop _ _ _ _ _ _ _ _ _ _ _ _ _ _ _ _ _ _ _) as [r0| |] eqn:El; try discriminate.
  assert (X : r0 = r). { destruct (log && Nat.eqb it 0)%bool; [discriminate|]. injection E as ->. reflexivity. } subst r0.
  destruct (loop_iter lo d k p a D M M0 h0 reg reg0 alpha norm thr it 0%nat _ _ _ _ El) as (s & H1 & H2 & H3 & H4 & H5 & H6).
  exists s. split; [lia|]. split; [intros i; rewrite H3; apply rows_R|]. cbn [length] in H6. split; [lia|]. split; [intros X; rewrite (H4 X); lia|auto].
Qed.

(** the estimated proportions are positive and weigh at most a mix of both masses *)
Theorem C154_mass : forall norm lo d k p a D M M0 h0 reg reg0 alpha it thr log r,
  0 < lo -> is_dictionary d k D -> positive d a -> positive p h0 -> (0 < d)%nat -> (0 < p)%nat -> 0 <= alpha <= 1 -> (0 < it)%nat ->
  unmixR norm lo d k p a D M M0 h0 reg reg0 alpha it thr log = UmOk r ->
  positive k (um_h r) /\ rsum k (um_h r) <= alpha * rsum d a + (1 - alpha) * rsum p h0.
Proof.
  intros norm lo d k p a D M M0 h0 reg reg0 alpha it thr log r Hlo HD Ha Hh Hd Hp Hal Hit E.
  destruct (unmix_state _ _ _ _ _ _ _ _ _ _ _ _ _ _ _ _ _ Hit E) as (t & [Ht _] & Hr & _). destruct t as [|t]; [lia|].
  split.
  - intros i Hi. rewrite Hr. apply (rows_pos k p); auto. apply (iter_pos lo d k p a D M M0 h0 reg reg0 alpha Hlo HD Ha Hh Hd Hp).
  - pose proof (iter_pos lo d k p a D M M0 h0 reg reg0 alpha Hlo HD Ha Hh Hd Hp t) as [P1 P2].
    rewrite (rsum_ext k (um_h r) (fun i => row_sum p (snd (iter lo d k p a D M M0 h0 reg reg0 alpha (S t))) i)) by (intros; apply Hr).
    cbn [iter]. destruct (iter lo d k p a D M M0 h0 reg reg0 alpha t) as [K K0]. cbn [fst snd] in *.
    destruct (um_step (N:=RNum) exp ln lo d k p a D h0 alpha K K0) as [[K' K0'] new] eqn:Es. cbn [snd].
    apply (step_mass lo d k p a D h0 alpha Hlo HD Ha Hh Hd Hp Hal K K0 K' K0' new P1 P2 Es).
Qed.
Print Assumptions C154_mass.

(** the column-scaled Gibbs kernel: mass of row r of exp(-C/e) scaled to the column weights q *)
Definition gibbs_row (n m : nat) (C : rmat) (e : R) (q : rvec) (r : nat) : R :=
  rsum m (fun j => exp (- C r j / e) * q j / rsum n (fun l => exp (- C l j / e))).

(** alpha = 0, documented as no trust in the prior: the result is computed from the prior alone *)
Theorem C154_prior_only : forall norm lo d k p a D M M0 h0 reg reg0 it thr log r,
  0 < lo -> is_dictionary d k D -> positive d a -> (forall j, (j < p)%nat -> lo <= h0 j) ->
  (forall j, (j < p)%nat -> lo <= rsum k (fun l => exp (- M0 l j / reg0))) -> (0 < d)%nat -> (0 < p)%nat -> (0 < it)%nat ->
  unmixR norm lo d k p a D M M0 h0 reg reg0 0 it thr log = UmOk r ->
  forall i, (i < k)%nat -> um_h r i = gibbs_row k p M0 reg0 h0 i.
Proof.
  intros norm lo d k p a D M M0 h0 reg reg0 it thr log r Hlo HD Ha Hh Hc Hd Hp Hit E i Hi.
  destruct (unmix_state _ _ _ _ _ _ _ _ _ _ _ _ _ _ _ _ _ Hit E) as (t & [Ht _] & Hr & _). destruct t as [|t]; [lia|].
  assert (Hhp : positive p h0) by (intros j Hj; specialize (Hh j Hj); lra).
  assert (Hcc : forall j, (j < p)%nat -> lo <= col_sum k (um_K0 (N:=RNum) exp M0 reg0) j).
  { intros j Hj. unfold col_sum. rewrite (rsum_ext k _ (fun l => exp (- M0 l j / reg0))); [auto|]. intros l _. unfold um_K0, nopp. cbn [nsub ndiv RNum]. change (@n0 RNum) with 0. f_equal. unfold Rdiv. ring. }
  rewrite Hr. unfold row_sum. rewrite (rsum_ext p _ (fun j => um_C0 (N:=RNum) lo k h0 (um_K0 (N:=RNum) exp M0 reg0) i j)).
  - change (row_sum p (um_C0 (N:=RNum) lo k h0 (um_K0 (N:=RNum) exp M0 reg0)) i = gibbs_row k p M0 reg0 h0 i). rewrite prior_rows by auto. reflexivity.
  - intros j Hj. apply (iter_zero lo d k p a D M M0 h0 reg reg0 0); auto.
Qed.
Print Assumptions C154_prior_only.

Definition id_matrix : rmat := fun i j => if Nat.eqb i j then 1 else 0.
Lemma id_dict : forall n, is_dictionary n n id_matrix.
Proof.
  intros n. unfold id_matrix. split; [|split].
  - intros i r _ _. destruct (Nat.eqb i r); lra.
  - intros r Hr. rewrite (rsum_single n r (fun i => if Nat.eqb i r then 1 else 0)); [rewrite Nat.eqb_refl; reflexivity|auto|]. intros i _ Ne. rewrite (proj2 (Nat.eqb_neq i r) Ne). reflexivity.
  - intros i Hi. exists i. rewrite Nat.eqb_refl. split; [auto|lra].
Qed.

(** alpha = 1, documented as full trust in the prior: with the identity dictionary the result is computed from the data alone *)
Theorem C154_data_only : forall norm lo d p a M M0 h0 reg reg0 it thr log r,
  0 < lo -> (forall i, (i < d)%nat -> lo <= a i) -> positive p h0 ->
  (forall j, (j < d)%nat -> lo <= rsum d (fun l => exp (- M l j / reg))) -> (forall i, (i < d)%nat -> lo <= gibbs_row d d M reg a i) ->
  (0 < d)%nat -> (0 < p)%nat -> (0 < it)%nat ->
  unmixR norm lo d d p a id_matrix M M0 h0 reg reg0 1 it thr log = UmOk r ->
  forall i, (i < d)%nat -> um_h r i = gibbs_row d d M reg a i.
Proof.
  intros norm lo d p a M M0 h0 reg reg0 it thr log r Hlo Ha Hh Hc Hg Hd Hp Hit E i Hi.
  destruct (unmix_state _ _ _ _ _ _ _ _ _ _ _ _ _ _ _ _ _ Hit E) as (t & [Ht _] & Hr & _). destruct t as [|t]; [lia|].
  assert (Hap : positive d a) by (intros j Hj; specialize (Ha j Hj); lra).
  assert (Hcc : forall j, (j < d)%nat -> lo <= col_sum d (um_K (N:=RNum) exp M reg) j).
  { intros j Hj. unfold col_sum. rewrite (rsum_ext d _ (fun l => exp (- M l j / reg))); [auto|]. intros l _. unfold um_K, nopp. cbn [nsub ndiv RNum]. change (@n0 RNum) with 0. f_equal. unfold Rdiv. ring. }
  assert (Hrow : forall i, row_sum d (um_C (N:=RNum) lo d a (um_K (N:=RNum) exp M reg)) i = gibbs_row d d M reg a i).
  { intros l. exact (prior_rows lo d d M a reg Hcc l). }
  rewrite Hr. rewrite <- Hrow. apply (iter_one lo d d p a id_matrix M M0 h0 reg reg0 1 Hlo (id_dict d) Hap Hh Hd Hp); auto.
  - split; [auto|]. intros; reflexivity.
  - intros l Hl. rewrite Hrow. auto.
Qed.
Print Assumptions C154_data_only.

(** with k = p the function returns *)
Lemma unmix_ok : forall (N : NumOps) (ex lg : N -> N) norm lo d k a D M M0 h0 reg reg0 alpha it thr,
  exists r, unmix ex lg norm lo d k k a D M M0 h0 reg reg0 alpha it thr false = UmOk r.
Proof.
  intros. unfold unmix. 
  assert (G : forall left ii K K0 old errs, exists r, um_loop ex lg norm lo d k k a D h0 alpha left ii thr K K0 k old errs = UmOk r).
  { induction left as [|left IH]; intros; [eexists; reflexivity|]. cbn [um_loop]. destruct (um_step ex lg lo d k k a D h0 alpha K K0) as [[K' K0'] new].
    unfold um_diff. rewrite Nat.eqb_refl. destruct (nltb _ thr); [eexists; reflexivity|]. apply IH. }
  destruct (G it 0%nat (um_K ex M reg) (um_K0 ex M0 reg0) h0 []) as [r Er]. rewrite Er. exists r. reflexivity.
Qed.

(** alpha = 0 does not mean that the prior is ignored: two priors give two results *)
Theorem C154_alpha_refuted : forall norm it thr (a : rvec), positive 2 a -> (0 < it)%nat ->
  exists (M0 : rmat) (h0 h0' : rvec) r r', rsum 2 h0 = 1 /\ rsum 2 h0' = 1 /\
    unmixR norm (1 / 100) 2%nat 2%nat 2%nat a id_matrix M0 M0 h0 1 1 0 it thr false = UmOk r /\
    unmixR norm (1 / 100) 2%nat 2%nat 2%nat a id_matrix M0 M0 h0' 1 1 0 it thr false = UmOk r' /\ um_h r 0%nat <> um_h r' 0%nat.
Proof.
  intros norm it thr a Ha Hit. set (M0 := (fun i j => if Nat.eqb i j then 0 else 1) : rmat).
  set (h0 := (fun _ => 1 / 2) : rvec). set (h0' := (fun i => match i with O => 1 / 4 | _ => 3 / 4 end) : rvec).
  destruct (unmix_ok RNum exp ln norm (1 / 100) 2 2 a id_matrix M0 M0 h0 1 1 0 it thr) as [r Er].
  destruct (unmix_ok RNum exp ln norm (1 / 100) 2 2 a id_matrix M0 M0 h0' 1 1 0 it thr) as [r' Er'].
  exists M0, h0, h0', r, r'. 
  split; [unfold h0; cbn [rsum]; lra|]. split; [unfold h0'; cbn [rsum]; lra|]. split; [auto|]. split; [auto|].
  set (e := exp (- (1) / 1)). assert (He : 0 < e) by apply exp_pos. assert (He1 : e < 1). { unfold e. pose proof (exp_increasing (- (1) / 1) 0 ltac:(lra)) as X. rewrite exp_0 in X. exact X. }
  assert (E0 : exp (- 0 / 1) = 1). { replace (- 0 / 1) with 0 by field. apply exp_0. }
  assert (Hc : forall j, (j < 2)%nat -> 1 / 100 <= rsum 2 (fun l => exp (- M0 l j / 1))).
  { intros j Hj. destruct j as [|[|j]]; [| |lia]; cbn [rsum]; unfold M0; cbn [Nat.eqb]; rewrite E0; fold e; lra. }
  rewrite (C154_prior_only norm (1 / 100) 2 2 2 a id_matrix M0 M0 h0 1 1 it thr false r); auto; try lra; try lia; try apply id_dict.
  2: { intros; unfold h0; lra. }
  rewrite (C154_prior_only norm (1 / 100) 2 2 2 a id_matrix M0 M0 h0' 1 1 it thr false r'); auto; try lra; try lia; try apply id_dict.
  2: { intros j Hj. unfold h0'. destruct j; lra. }
  unfold gibbs_row. cbn [rsum]. unfold M0, h0, h0'. cbn [Nat.eqb]. rewrite E0. fold e. intros F.
  match type of F with ?x = ?y => replace x with (1 / 2) in F by (field; lra); replace y with ((1 / 4 + 3 / 4 * e) / (1 + e)) in F by (field; lra) end.
  apply (f_equal (fun x => x * (1 + e))) in F. unfold Rdiv in F. rewrite !Rmult_assoc, Rinv_l in F by lra. lra.
Qed.
Print Assumptions C154_alpha_refuted.

(** ** what the fixed points optimise, identity dictionary *)

(** entropic transport cost <T, C> + e sum T (log T - 1) *)
Definition ent_cost (m n : nat) (C : rmat) (e : R) (T : rmat) : R :=
  rsum m (fun i => rsum n (fun j => T i j * C i j + e * (T i j * ln (T i j) - T i j))).
(** T couples some common first marginal with a, T0 the same one with h0 *)
Definition admissible (d p : nat) (a h0 : rvec) (T T0 : rmat) : Prop :=
  (forall i j, (i < d)%nat -> (j < d)%nat -> 0 <= T i j) /\ (forall i j, (i < d)%nat -> (j < p)%nat -> 0 <= T0 i j) /\
  (forall j, (j < d)%nat -> rsum d (fun i => T i j) = a j) /\ (forall j, (j < p)%nat -> rsum d (fun i => T0 i j) = h0 j) /\
  (forall i, (i < d)%nat -> rsum d (fun j => T i j) = rsum p (fun j => T0 i j)).

(** If the last pair of plans is admissible (the iteration has converged) and the floor never acted on the data rows,
    it minimises alpha times the data term plus 1 - alpha times the prior term: the documented weights exchanged,
    each term divided by its regularisation. *)
Theorem C154_identity : forall norm lo d p a M M0 h0 reg reg0 alpha it thr log r,
  0 < lo -> positive d a -> positive p h0 -> (0 < d)%nat -> (0 < p)%nat -> 0 <= alpha <= 1 -> 0 < reg -> 0 < reg0 -> (0 < it)%nat ->
  unmixR norm lo d d p a id_matrix M M0 h0 reg reg0 alpha it thr log = UmOk r ->
  exists t, (0 < t <= it)%nat /\
    let state := iter lo d d p a id_matrix M M0 h0 reg reg0 alpha in
    let G := fst (state t) in let G0 := snd (state t) in
    (forall i, um_h r i = rsum p (fun j => G0 i j)) /\
    (admissible d p a h0 G G0 -> (forall s i, (s < t)%nat -> (i < d)%nat -> lo <= rsum d (fun j => um_C (N:=RNum) lo d a (fst (state s)) i j)) ->
     forall T T0, admissible d p a h0 T T0 ->
       alpha / reg * ent_cost d d M reg G + (1 - alpha) / reg0 * ent_cost d p M0 reg0 G0
       <= alpha / reg * ent_cost d d M reg T + (1 - alpha) / reg0 * ent_cost d p M0 reg0 T0).
Proof.
  intros norm lo d p a M M0 h0 reg reg0 alpha it thr log r Hlo Ha Hh Hd Hp Hal Hr Hr0 Hit E.
  destruct (unmix_state _ _ _ _ _ _ _ _ _ _ _ _ _ _ _ _ _ Hit E) as (t & Ht & Hrow & _). exists t. split; [auto|]. cbv zeta. split; [exact Hrow|].
  intros (A1 & A2 & A3 & A4 & A5) Hl T T0 (B1 & B2 & B3 & B4 & B5).
  apply (fixed_opt lo d d p a id_matrix M M0 h0 reg reg0 alpha Hlo (id_dict d) Ha Hh Hd Hp Hal); auto.
  - split; [auto|intros; reflexivity].
  - intros j Hj. unfold col_sum. rewrite B3, A3 by auto. reflexivity.
  - intros j Hj. unfold col_sum. rewrite B4, A4 by auto. reflexivity.
Qed.
Print Assumptions C154_identity.

(** the hypotheses of C154_identity are met: two bins, uniform weights, every alpha *)
Example C154_case : forall norm alpha thr, 0 <= alpha <= 1 ->
  let M := (fun i j => if Nat.eqb i j then 0 else 1) : rmat in let u := (fun _ => 1 / 2) : rvec in
  let state := iter (1 / 100) 2 2 2 u id_matrix M M u 1 1 alpha in
  (exists r, unmixR norm (1 / 100) 2%nat 2%nat 2%nat u id_matrix M M u 1 1 alpha 1%nat thr true = UmOk r) /\
  admissible 2 2 u u (fst (state 1%nat)) (snd (state 1%nat)) /\
  (forall i, (i < 2)%nat -> 1 / 100 <= rsum 2 (fun j => um_C (N:=RNum) (1 / 100) 2 u (fst (state 0%nat)) i j)).
Proof.
  intros norm alpha thr Hal M u state.
  set (e := exp (- (1) / 1)). assert (He : 0 < e) by apply exp_pos.
  set (K := um_K (N:=RNum) exp M 1).
  assert (E0 : K = um_K0 (N:=RNum) exp M 1) by reflexivity.
  assert (KE : forall i j, K i j = if Nat.eqb i j then 1 else e).
  { intros i j. unfold K, um_K, nopp, M. cbn [nsub ndiv RNum]. change (@n0 RNum) with 0. destruct (Nat.eqb i j).
    - replace ((0 - 0) / 1) with 0 by field. apply exp_0. - unfold e. f_equal. field. }
  set (C := um_C (N:=RNum) (1 / 100) 2 u K).
  assert (CE : forall i j, (j < 2)%nat -> C i j = (if Nat.eqb i j then 1 else e) * (1 / 2) / (1 + e)).
  { intros i j Hj. unfold C, um_C. rewrite projC_R. rewrite KE. unfold col_sum. 
    replace (rsum 2 (fun i0 => K i0 j)) with (1 + e) by (cbn [rsum]; rewrite !KE; destruct j as [|[|j]]; [| |lia]; cbn [Nat.eqb]; lra).
    rewrite Rmax_left by lra. reflexivity. }
  assert (CR : forall i, (i < 2)%nat -> row_sum 2 C i = 1 / 2).
  { intros i Hi. unfold row_sum. cbn [rsum]. rewrite !CE by lia. destruct i as [|[|i]]; [| |lia]; cbn [Nat.eqb]; field; lra. }
  destruct (um_step (N:=RNum) exp ln (1 / 100) 2 2 2 u id_matrix u alpha K K) as [[K1 K01] new] eqn:Es.
  assert (PK : posm 2 2 K) by (intros i j _ _; rewrite KE; destruct (Nat.eqb i j); lra).
  assert (Hu : positive 2 u) by (intros i _; unfold u; lra).
  pose proof (step_spec (1 / 100) 2 2 2 u id_matrix u alpha ltac:(lra) (id_dict 2) Hu Hu ltac:(lia) ltac:(lia) K K K1 K01 new PK PK Es) as S.
  assert (HI : identity 2 2 id_matrix) by (split; [auto|intros; reflexivity]).
  assert (NE : forall i, (i < 2)%nat -> new i = 1 / 2) by (intros i Hi; rewrite (so_new _ _ _ _ _ _ _ _ _ _ _ _ _ S); apply (CR i Hi)).
  assert (DE : exp (alpha * ln (1 / 2) + (1 - alpha) * ln (1 / 2)) = 1 / 2).
  { replace (alpha * ln (1 / 2) + (1 - alpha) * ln (1 / 2)) with (ln (1 / 2)) by ring. apply exp_ln; lra. }
  assert (K1E : forall i j, (i < 2)%nat -> (j < 2)%nat -> K1 i j = C i j).
  { intros i j Hi Hj. rewrite (so_Keq _ _ _ _ _ _ _ _ _ _ _ _ _ S). change (um_C (N:=RNum) (1 / 100) 2 u K) with C. rewrite (id_inv 2 2 id_matrix HI) by auto. rewrite CR, NE, DE by auto.
    rewrite Rmax_left by lra. toR; field. }
  assert (K01E : forall i j, (i < 2)%nat -> (j < 2)%nat -> K01 i j = C i j).
  { intros i j Hi Hj. rewrite (step_id (1 / 100) 2 2 2 u id_matrix u alpha ltac:(lra) (id_dict 2) Hu Hu ltac:(lia) ltac:(lia) HI K K K1 K01 new PK PK Es i j Hi Hj).
    change (um_C (N:=RNum) (1 / 100) 2 u K) with C. rewrite CR, NE, DE by auto. change (um_C0 (N:=RNum) (1 / 100) 2 u K i j) with (C i j). toR; field. }
  assert (S1 : state 1%nat = (K1, K01)). { unfold state. cbn [iter]. rewrite <- E0. change (um_K (N:=RNum) exp M 1) with K. rewrite Es. reflexivity. }
  split; [|split].
  - unfold unmix. cbn [um_loop]. destruct (um_step _ _ _ _ _ _ _ _ _ _ _ _) as [[X Y] Z]. unfold um_diff. cbn [Nat.eqb andb]. destruct (nltb _ thr); eexists; reflexivity.
  - rewrite S1. cbn [fst snd]. 
    assert (CP : forall i j, (j < 2)%nat -> 0 <= C i j). { intros i j Hj. rewrite CE by auto. apply Rlt_le, Rdiv_lt_0_compat; [|lra]. destruct (Nat.eqb i j); lra. }
    assert (CC : forall j, (j < 2)%nat -> rsum 2 (fun i => C i j) = 1 / 2).
    { intros j Hj. cbn [rsum]. rewrite !CE by lia. destruct j as [|[|j]]; [| |lia]; cbn [Nat.eqb]; field; lra. }
    split; [|split; [|split; [|split]]].
    + intros. rewrite K1E by auto. auto.
    + intros. rewrite K01E by auto. auto.
    + intros j Hj. transitivity (rsum 2 (fun i => C i j)); [apply rsum_ext; intros; apply K1E; auto|apply (CC j Hj)].
    + intros j Hj. transitivity (rsum 2 (fun i => C i j)); [apply rsum_ext; intros; apply K01E; auto|apply (CC j Hj)].
    + intros i Hi. apply rsum_ext; intros j Hj. rewrite K1E, K01E by auto. reflexivity.
  - intros i Hi. change (1 / 100 <= row_sum 2 C i). rewrite CR by auto. lra.
Qed.

(** ** stopping, shapes, errors (any arithmetic) *)

(** the recorded errors: all but the last are not below the threshold; the loop stops at the first that is *)
Theorem C154_stop : forall (N : NumOps) (ex lg : N -> N) norm lo d k p a D M M0 h0 reg reg0 alpha it thr log r,
  unmix ex lg norm lo d k p a D M M0 h0 reg reg0 alpha it thr log = UmOk r ->
  match um_end r with
  | UmConverged ii => (ii < it)%nat /\ exists es e, um_err r = es ++ [e] /\ length es = ii /\ nltb e thr = true /\ Forall (fun x => nltb x thr = false) es
  | UmMaxIter => length (um_err r) = it /\ Forall (fun x => nltb x thr = false) (um_err r)
  end.
Proof.
  intros N ex lg norm lo d k p a D M M0 h0 reg reg0 alpha it thr log r E. unfold unmix in E.
  assert (G : forall left ii K K0 q old errs r, Forall (fun x => nltb x thr = false) errs -> length errs = ii ->
    um_loop ex lg norm lo d k p a D h0 alpha left ii thr K K0 q old errs = UmOk r ->
    match um_end r with
    | UmConverged i => (i < ii + left)%nat /\ exists es e, um_err r = es ++ [e] /\ length es = i /\ nltb e thr = true /\ Forall (fun x => nltb x thr = false) es
    | UmMaxIter => length (um_err r) = (ii + left)%nat /\ Forall (fun x => nltb x thr = false) (um_err r)
    end).
  { induction left as [|left IH]; intros ii K K0 q old errs r0 F L X; cbn [um_loop] in X.
    - injection X as <-. cbn [um_end um_err]. rewrite Nat.add_0_r. auto.
    - destruct (um_step ex lg lo d k p a D h0 alpha K K0) as [[K' K0'] new]. destruct (um_diff norm k (rows p K0') q old) as [err|]; [|discriminate].
      destruct (nltb err thr) eqn:Et.
      + injection X as <-. cbn [um_end um_err]. split; [lia|]. exists errs, err. auto.
      + replace (ii + S left)%nat with (S ii + left)%nat by lia. apply (IH _ _ _ _ _ _ _) in X; auto.
        * apply Forall_app; auto. * rewrite app_length, L. cbn [length]. lia. }
  destruct (um_loop _ _ _ _ _ _ _ _ _ _ _ _ _ _ _ _ _ _ _) as [r0| |] eqn:El; try discriminate.
  assert (X : r0 = r). { destruct (log && Nat.eqb it 0)%bool; [discriminate|]. injection E as ->. reflexivity. } subst r0.
  exact (G it 0%nat _ _ _ _ [] r (Forall_nil _) eq_refl El).
Qed.
Print Assumptions C154_stop.

(** outcomes by shape: M0 with as many columns as rows always works (up to log without iteration); the documented
    dim_prior different from n_atoms fails at the first error computation unless one of them is 1 *)
Theorem C154_shapes : forall (N : NumOps) (ex lg : N -> N) norm lo d k p a D M M0 h0 reg reg0 alpha it thr log,
  let res := unmix ex lg norm lo d k p a D M M0 h0 reg reg0 alpha it thr log in
  (res = UmUnbound <-> log = true /\ it = 0%nat) /\
  (res = UmValueError <-> (0 < it)%nat /\ p <> k /\ p <> 1%nat /\ k <> 1%nat).
Proof.
  intros. subst res. unfold unmix.
  assert (G : forall cnt ii K K0 q old errs, (exists r, um_loop ex lg norm lo d k p a D h0 alpha cnt ii thr K K0 q old errs = UmOk r) \/
     ((0 < cnt)%nat /\ q <> k /\ q <> 1%nat /\ k <> 1%nat /\ um_loop ex lg norm lo d k p a D h0 alpha cnt ii thr K K0 q old errs = UmValueError)).
  { induction cnt as [|cnt IH]; intros; [left; eexists; reflexivity|]. cbn [um_loop]. destruct (um_step ex lg lo d k p a D h0 alpha K K0) as [[K' K0'] new].
    unfold um_diff. 
    assert (G1 : forall err : N, exists r, (if nltb err thr then UmOk (mk_um (rows p K0') (errs ++ [err]) (UmConverged ii)) else um_loop ex lg norm lo d k p a D h0 alpha cnt (S ii) thr K' K0' k new (errs ++ [err])) = UmOk r).
    { intros err. destruct (nltb err thr); [eexists; reflexivity|]. destruct (IH (S ii) K' K0' k new (errs ++ [err])) as [X|(_ & X & _)]; [exact X|congruence]. }
    destruct (Nat.eqb_spec q k); [left; apply G1|]. destruct (Nat.eqb_spec q 1); [left; apply G1|]. destruct (Nat.eqb_spec k 1); [left; apply G1|].
    right. repeat split; auto. lia. }
  assert (G2 : p <> k -> p <> 1%nat -> k <> 1%nat -> (0 < it)%nat -> um_loop ex lg norm lo d k p a D h0 alpha it 0 thr (um_K ex M reg) (um_K0 ex M0 reg0) p h0 [] = UmValueError).
  { intros n1 n2 n3 Hi. destruct it as [|it']; [lia|]. cbn [um_loop]. destruct (um_step ex lg lo d k p a D h0 alpha _ _) as [[K' K0'] new].
    unfold um_diff. rewrite (proj2 (Nat.eqb_neq p k)), (proj2 (Nat.eqb_neq p 1)), (proj2 (Nat.eqb_neq k 1)) by auto. reflexivity. }
  destruct (G it 0%nat (um_K ex M reg) (um_K0 ex M0 reg0) p h0 []) as [[r X]|(A1 & A2 & A3 & A4 & X)].
  - rewrite X. destruct log, it; cbn [andb Nat.eqb]; split; split; intros Y; try discriminate; try (destruct Y as (Y1 & Y2); try discriminate Y1; try discriminate Y2; auto); try lia; try reflexivity;
      try (destruct Y2 as (Y2 & Y3 & Y4); rewrite G2 in X by (auto; lia); discriminate X); auto.
  - rewrite X. split; split; intros Y; try discriminate; auto. destruct Y as (_ & Y). lia.
Qed.
Print Assumptions C154_shapes.
