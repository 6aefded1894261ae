(** C161: ot.lp.barycenter (ot/lp/_barycenter_solvers.py), over the reals.  The distributions are the columns of the n x D matrix A. *)
From Coq Require Import List Arith Bool Reals Lra Lia.
From Verif Require Import Num Sums Spec Emd1d_model Emd1d_perm_proofs Sinkhorn_model Sinkhorn_proofs Conv_proofs Lpbar_model Lpbar_proofs.
Import ListNotations.
Local Open Scope R_scope.

(** ** linear programs in standard form: min c x subject to E x = e, x >= 0 (k variables) *)
Definition lp_feasible (k : nat) (E : bmat (N:=RNum)) (e x : vec) : Prop :=
  nonneg_vec k x /\ forall p, (p < b_rows E)%nat -> rsum k (fun q => b_ent E p q * x q) = e p.
Definition lp_optimal (k : nat) (c : vec) (E : bmat (N:=RNum)) (e x : vec) : Prop :=
  lp_feasible k E e x /\ forall y, lp_feasible k E e y -> rsum k (fun q => c q * x q) <= rsum k (fun q => c q * y q).
(** ** the barycenter problem *)
Definition col (A : mat) (i : nat) : vec := fun s => A s i.
Definition bweights (D : nat) (w : option (nat * vec)) : vec := match w with Some (_, w) => w | None => fun _ => 1 / INR D end.
(** b is the common second marginal of plans P i from the distributions *)
Definition joint (n D : nat) (A : mat) (b : vec) (P : nat -> mat) : Prop := forall i, (i < D)%nat -> coupling n n (col A i) b (P i).
Definition total_cost (n D : nat) (M : mat) (w : vec) (P : nat -> mat) : R := rsum D (fun i => w i * cost n n M (P i)).

Lemma Aeq_cols : forall n D, (0 < n)%nat -> (0 < D)%nat -> b_cols (lb_Aeq (N:=RNum) n D) = (D * (n * n) + n)%nat.
Proof. intros. unfold lb_Aeq. cbn [b_vstack b_cols]. apply A1_cols; auto. Qed.
Lemma feasible_iff : forall n D A x, (0 < n)%nat -> (0 < D)%nat ->
  lp_feasible (D * (n * n) + n) (lb_Aeq (N:=RNum) n D) (lb_beq (N:=RNum) n D A) x <-> nonneg_vec (D * (n * n) + n) x /\ lp_eqs n D A x.
Proof.
  intros n D A x Hn HD. unfold lp_feasible. assert (F := feas_iff n D A Hn HD x). unfold rowmul in F. rewrite Aeq_cols in F by auto. tauto.
Qed.
Lemma mass_swap : forall n m (P : mat), rsum n (row_sum m P) = rsum m (col_sum n P).
Proof. intros. unfold row_sum, col_sum. apply rsum_swap. Qed.
(** the last column of the plans 1, 2, ... is not constrained: it takes up the difference of the masses *)
Lemma last_col : forall n D A x i, (0 < n)%nat -> (0 < D)%nat -> lp_eqs n D A x -> (0 < i < D)%nat ->
  col_sum n (plan n x i) (n - 1) = bar n D x (n - 1)%nat + (mass n (col A i) - mass n (col A 0)).
Proof.
  intros n D A x i Hn HD (H1 & H2 & H3) Hi.
  assert (E0 := mass_swap n n (plan n x 0)). assert (Ei := mass_swap n n (plan n x i)).
  rewrite (rsum_ext n (row_sum n (plan n x 0)) (col A 0)) in E0 by (intros; apply H1; lia). rewrite (rsum_ext n (row_sum n (plan n x i)) (col A i)) in Ei by (intros; apply H1; lia).
  rewrite (rsum_ext n (col_sum n (plan n x 0)) (bar n D x)) in E0 by (intros; apply H2; lia).
  destruct n as [|k]; [lia|]. replace (S k - 1)%nat with k in * by lia. cbn [rsum] in Ei, E0. rewrite (rsum_ext k (col_sum (S k) (plan (S k) x i)) (bar (S k) D x)) in Ei by (intros; apply H3; lia).
  unfold mass. cbn [rsum]. lra.
Qed.
Lemma eqs_couplings : forall n D A x, (0 < n)%nat -> (0 < D)%nat -> (forall i, (i < D)%nat -> mass n (col A i) = mass n (col A 0)) ->
  nonneg_vec (D * (n * n) + n) x -> lp_eqs n D A x -> joint n D A (bar n D x) (plan n x) /\ nonneg_vec n (bar n D x).
Proof.
  intros n D A x Hn HD Hm Hx E. assert (E' := E). destruct E' as (H1 & H2 & H3). split; [|intros t Ht; apply Hx; lia].
  intros i Hi. split; [|split].
  - intros s t Hs Ht. apply Hx. assert (s * n + t < n * n)%nat by nia. nia.
  - intros s Hs. apply H1; auto.
  - intros t Ht. destruct i as [|i]; [apply H2; auto|]. destruct (Nat.eq_dec t (n - 1)) as [-> |Ne]; [|apply H3; lia].
    rewrite (last_col n D A x (S i) Hn HD E) by lia. rewrite (Hm (S i) Hi). lra.
Qed.
Definition encode (n D : nat) (P : nat -> mat) (b : vec) : vec := fun q =>
  if Nat.ltb q (D * (n * n)) then P (q / (n * n))%nat ((q mod (n * n)) / n)%nat ((q mod (n * n)) mod n)%nat else b (q - D * (n * n))%nat.
Lemma encode_plan : forall n D P b i s t, (i < D)%nat -> (s < n)%nat -> (t < n)%nat -> plan n (encode n D P b) i s t = P i s t.
Proof.
  intros n D P b i s t Hi Hs Ht. unfold plan, encode. assert (B : (s * n + t < n * n)%nat) by nia. rewrite (proj2 (Nat.ltb_lt _ _)) by nia.
  assert (E1 : ((i * (n * n) + (s * n + t)) / (n * n) = i)%nat) by (rewrite Nat.add_comm, Nat.div_add by lia; rewrite Nat.div_small by auto; lia).
  assert (E2 : ((i * (n * n) + (s * n + t)) mod (n * n) = s * n + t)%nat) by (rewrite Nat.add_comm, Nat.mod_add by lia; apply Nat.mod_small; auto).
  rewrite E1, E2. f_equal; [rewrite Nat.add_comm, Nat.div_add by lia; rewrite Nat.div_small by auto; lia|rewrite Nat.add_comm, Nat.mod_add by lia; apply Nat.mod_small; auto].
Qed.
Lemma encode_bar : forall n D P b t, bar n D (encode n D P b) t = b t.
Proof. intros. unfold bar, encode. rewrite (proj2 (Nat.ltb_ge _ _)) by lia. f_equal. lia. Qed.
Lemma encode_feasible : forall n D A P b, (0 < n)%nat -> (0 < D)%nat -> nonneg_vec n b -> joint n D A b P ->
  nonneg_vec (D * (n * n) + n) (encode n D P b) /\ lp_eqs n D A (encode n D P b).
Proof.
  intros n D A P b Hn HD Hb J. split; [|split; [|split]].
  - intros q Hq. unfold encode. destruct (Nat.ltb_spec q (D * (n * n))) as [L|L]; [|apply Hb; lia].
    assert (Ld : (q / (n * n) < D)%nat) by (apply Nat.div_lt_upper_bound; nia). assert (Lm := Nat.mod_upper_bound q (n * n) ltac:(nia)). destruct (J _ Ld) as (J1 & _). apply J1.
    + apply Nat.div_lt_upper_bound; lia. + apply Nat.mod_upper_bound; lia.
  - intros i s Hi Hs. destruct (J i Hi) as (_ & J2 & _). unfold col in J2. rewrite <- (J2 s Hs). apply rsum_ext; intros t Ht. apply encode_plan; auto.
  - intros t Ht. rewrite encode_bar. destruct (J 0%nat HD) as (_ & _ & J3). rewrite <- (J3 t Ht). apply rsum_ext; intros s Hs. apply encode_plan; auto.
  - intros i t Hi Ht. rewrite encode_bar. destruct (J i ltac:(lia)) as (_ & _ & J3). rewrite <- (J3 t ltac:(lia)). apply rsum_ext; intros s Hs. apply encode_plan; lia.
Qed.
Lemma bary_open : forall solve n D A M w b, barycenter_lp (N:=RNum) solve n D A M w = LbOk b ->
  exists x, solve (D * (n * n) + n)%nat (lb_c (N:=RNum) n D M (match w with Some (_, w) => w | None => fun _ => ndiv (n:=RNum) n1 (nofnat D) end)) (lb_Aeq (N:=RNum) n D) (lb_beq (N:=RNum) n D A) = Some x /\ b = bar n D x.
Proof.
  intros solve n D A M w b. unfold barycenter_lp. destruct w as [(l & w)|]; [destruct (Nat.eqb l D); [|discriminate]|].
  - destruct (solve _ _ _ _) as [x|]; [|discriminate]. intros [= <-]. exists x. auto.
  - destruct (solve _ _ _ _) as [x|]; [|discriminate]. intros [= <-]. exists x. auto.
Qed.
Lemma objective_w : forall n D M (w : option (nat * vec)) x, (0 < n)%nat -> (0 < D)%nat ->
  rsum (D * (n * n) + n) (fun q => lb_c (N:=RNum) n D M (match w with Some (_, w) => w | None => fun _ => ndiv (n:=RNum) n1 (nofnat D) end) q * x q) = total_cost n D M (bweights D w) (plan n x).
Proof.
  intros n D M w x Hn HD. rewrite objective by auto. apply rsum_ext; intros i Hi. unfold bweights. destruct w as [(l & w)|]; [reflexivity|]. cbn [ndiv n1 RNum]. rewrite nofnat_INR. reflexivity.
Qed.
(** For distributions of equal mass and a correct LP solver, the result is a barycenter: it is the common marginal of plans whose weighted
    cost is at most that of every family of plans to any common non-negative marginal; and the plans of positive weight are optimal. *)
Theorem C161_barycenter : forall solve n D A M w b, (0 < n)%nat -> (0 < D)%nat ->
  (forall k c E e x, solve k c E e = Some x -> lp_optimal k c E e x) ->
  (forall i, (i < D)%nat -> mass n (col A i) = mass n (col A 0)) ->
  barycenter_lp (N:=RNum) solve n D A M w = LbOk b ->
  nonneg_vec n b /\ exists P, joint n D A b P /\
  (forall b' P', nonneg_vec n b' -> joint n D A b' P' -> total_cost n D M (bweights D w) P <= total_cost n D M (bweights D w) P') /\
  (forall i G, (i < D)%nat -> 0 < bweights D w i -> coupling n n (col A i) b G -> cost n n M (P i) <= cost n n M G).
Proof.
  intros solve n D A M w b Hn HD Hs Hm E. destruct (bary_open _ _ _ _ _ _ _ E) as (x & Ex & ->). apply Hs in Ex. destruct Ex as (F & O).
  apply feasible_iff in F; auto. destruct F as (F1 & F2). destruct (eqs_couplings n D A x Hn HD Hm F1 F2) as (J & B). split; [exact B|]. exists (plan n x). split; [exact J|].
  assert (OPT : forall b' P', nonneg_vec n b' -> joint n D A b' P' -> total_cost n D M (bweights D w) (plan n x) <= total_cost n D M (bweights D w) P').
  { intros b' P' Hb' J'. assert (G := O (encode n D P' b')). rewrite feasible_iff in G by auto. specialize (G (encode_feasible n D A P' b' Hn HD Hb' J')).
    rewrite !objective_w in G by auto. eapply Rle_trans; [exact G|]. right. apply rsum_ext; intros i Hi. f_equal. apply rsum_ext; intros s Hs'. apply rsum_ext; intros t Ht. f_equal. apply encode_plan; auto. }
  split; [exact OPT|]. intros i G Hi Hw HG.
  set (P' := fun k => if Nat.eqb k i then G else plan n x k). assert (J' : joint n D A (bar n D x) P').
  { intros k Hk. unfold P'. destruct (Nat.eqb_spec k i) as [-> |]; [exact HG|apply J; auto]. }
  specialize (OPT _ _ B J'). unfold total_cost in OPT.
  rewrite (rsum_upd D i (fun k => bweights D w k * cost n n M (P' k)) (fun k => bweights D w k * cost n n M (plan n x k)) Hi) in OPT.
  2:{ intros k Hk Ne. unfold P'. rewrite (proj2 (Nat.eqb_neq k i) Ne). reflexivity. }
  unfold P' in OPT. rewrite Nat.eqb_refl in OPT. apply Rmult_le_reg_l with (bweights D w i); auto. lra.
Qed.
Print Assumptions C161_barycenter.
(** Whatever the masses, the result has the mass of the first distribution: the program leaves out the last column constraint of every other
    plan, so that plan i misses the result in its last entry by the difference of the masses. *)
Theorem C161_unequal : forall solve n D A M w b, (0 < n)%nat -> (0 < D)%nat ->
  (forall k c E e x, solve k c E e = Some x -> lp_optimal k c E e x) ->
  barycenter_lp (N:=RNum) solve n D A M w = LbOk b ->
  nonneg_vec n b /\ mass n b = mass n (col A 0) /\
  exists P, (forall i s, (i < D)%nat -> (s < n)%nat -> row_sum n (P i) s = A s i) /\
   forall i, (i < D)%nat -> nonneg_mat n n (P i) /\ (forall t, (t < n - 1)%nat -> col_sum n (P i) t = b t) /\ col_sum n (P i) (n - 1) = b (n - 1)%nat + (mass n (col A i) - mass n (col A 0)).
Proof.
  intros solve n D A M w b Hn HD Hs E. destruct (bary_open _ _ _ _ _ _ _ E) as (x & Ex & ->). apply Hs in Ex. destruct Ex as (F & _).
  apply feasible_iff in F; auto. destruct F as (F1 & F2). assert (F2' := F2). destruct F2' as (H1 & H2 & H3). split; [intros t Ht; apply F1; lia|]. split.
  { assert (E0 := mass_swap n n (plan n x 0)). rewrite (rsum_ext n (row_sum n (plan n x 0)) (col A 0)) in E0 by (intros; apply H1; lia).
    rewrite (rsum_ext n (col_sum n (plan n x 0)) (bar n D x)) in E0 by (intros; apply H2; lia). symmetry. exact E0. }
  exists (plan n x). split; [exact H1|]. intros i Hi. split; [|split].
  - intros s t Hs' Ht. apply F1. assert (s * n + t < n * n)%nat by nia. nia.
  - intros t Ht. destruct i; [apply H2; lia|apply H3; lia].
  - destruct i; [rewrite H2 by lia; lra|apply last_col; auto; lia].
Qed.
Print Assumptions C161_unequal.
(** For non-negative distributions of equal mass the program is feasible, and bounded below for non-negative weights and costs. *)
Theorem C161_feasible : forall n D A M w, (0 < n)%nat -> (0 < D)%nat -> (forall i, (i < D)%nat -> nonneg_vec n (col A i) /\ mass n (col A i) = mass n (col A 0)) ->
  (exists x, lp_feasible (D * (n * n) + n) (lb_Aeq (N:=RNum) n D) (lb_beq (N:=RNum) n D A) x) /\
  (nonneg_mat n n M -> nonneg_vec D w -> forall x, lp_feasible (D * (n * n) + n) (lb_Aeq (N:=RNum) n D) (lb_beq (N:=RNum) n D A) x -> 0 <= rsum (D * (n * n) + n) (fun q => lb_c (N:=RNum) n D M w q * x q)).
Proof.
  intros n D A M w Hn HD HA. split.
  - assert (H0 := HA 0%nat HD). destruct H0 as (P0 & _). destruct (Rle_lt_or_eq_dec 0 (mass n (col A 0)) (rsum_nonneg _ _ P0)) as [L|Z].
    + exists (encode n D (fun i s t => A s i * A t 0%nat / mass n (col A 0)) (col A 0)). apply feasible_iff; auto. apply encode_feasible; auto. intros i Hi. destruct (HA i Hi) as (Pi & Mi). split; [|split].
      * intros s t Hs Ht. apply Rmult_le_pos; [apply Rmult_le_pos; [apply Pi|apply P0]; auto|]. left. apply Rinv_0_lt_compat; auto.
      * intros s Hs. unfold row_sum. rewrite rsum_div, rsum_scal. change (rsum n (fun j => A j 0%nat)) with (mass n (col A 0)). change (col A i s) with (A s i). field. lra.
      * intros t Ht. unfold col_sum. rewrite rsum_div, rsum_scal_r. change (rsum n (fun s => A s i)) with (mass n (col A i)). rewrite Mi. change (col A 0 t) with (A t 0%nat). field. lra.
    + exists (encode n D (fun _ _ _ => 0) (fun _ => 0)). apply feasible_iff; auto. apply encode_feasible; auto; [intros t Ht; lra|]. intros i Hi. destruct (HA i Hi) as (Pi & Mi). split; [|split].
      * intros s t Hs Ht. lra.
      * intros s Hs. unfold row_sum. rewrite rsum_0 by auto. symmetry. apply (rsum_nonneg_zero n (col A i)); auto. unfold mass in *. lra.
      * intros t Ht. apply rsum_0; auto.
  - intros HM Hw x F. rewrite objective by auto. apply feasible_iff in F; auto. destruct F as (F1 & _). apply rsum_nonneg; intros i Hi. apply Rmult_le_pos; [apply Hw; auto|].
    apply rsum_nonneg; intros s Hs. apply rsum_nonneg; intros t Ht. apply Rmult_le_pos; [apply HM; auto|]. apply F1. assert (s * n + t < n * n)%nat by nia. nia.
Qed.
Print Assumptions C161_feasible.
(** The assertion on the number of weights, and the failure of the solver. *)
Theorem C161_refusals : forall (N : NumOps) solve n D (A M : nat -> nat -> N) w,
  (forall l v, w = Some (l, v) -> l <> D -> barycenter_lp (N:=N) solve n D A M w = LbAssert) /\
  ((forall k c E e, solve k c E e = None) -> (forall l v, w = Some (l, v) -> l = D) -> barycenter_lp (N:=N) solve n D A M w = LbTypeError).
Proof.
  intros N solve n D A M w. split.
  - intros l v -> Hl. unfold barycenter_lp. rewrite (proj2 (Nat.eqb_neq l D) Hl). reflexivity.
  - intros Hs Hw. unfold barycenter_lp. destruct w as [(l & v)|]; [|rewrite Hs; reflexivity]. rewrite (Hw l v eq_refl), Nat.eqb_refl, Hs. reflexivity.
Qed.
Print Assumptions C161_refusals.
(** A case: the barycenter of the unit masses at 0 and 1, distance |i - j|, uniform weights: the program has an optimal solution, of value 1/2. *)
Definition caseA : mat := fun s i => if Nat.eqb s i then 1 else 0.
Definition caseM : mat := fun s t => if Nat.eqb s t then 0 else 1.
Definition caseP : nat -> mat := fun i s t => if Nat.eqb s i then (if Nat.eqb t 0 then 1 else 0) else 0.
Example C161_case : let b := fun t : nat => if Nat.eqb t 0 then 1 else 0 in
  lp_optimal (2 * (2 * 2) + 2) (lb_c (N:=RNum) 2 2 caseM (fun _ => 1/2)) (lb_Aeq (N:=RNum) 2 2) (lb_beq (N:=RNum) 2 2 caseA) (encode 2 2 caseP b) /\
  total_cost 2 2 caseM (fun _ => 1/2) (plan 2 (encode 2 2 caseP b)) = 1/2.
Proof.
  intros b. assert (V : total_cost 2 2 caseM (fun _ => 1/2) (plan 2 (encode 2 2 caseP b)) = 1/2).
  { unfold total_cost, cost. cbn [rsum]. rewrite !encode_plan by lia. unfold caseM, caseP. cbn [Nat.eqb]. lra. }
  split; [|exact V]. split.
  - apply feasible_iff; try lia. apply encode_feasible; try lia; [intros t Ht; unfold b; destruct (Nat.eqb t 0); lra|]. intros i Hi. split; [|split].
    + intros s t Hs Ht. unfold caseP. destruct (Nat.eqb s i); [destruct (Nat.eqb t 0)|]; lra.
    + intros s Hs. unfold row_sum, caseP, col, caseA. cbn [rsum Nat.eqb]. destruct (Nat.eqb s i); lra.
    + intros t Ht. unfold col_sum, caseP, b. destruct i as [|[|]]; try lia; cbn [rsum Nat.eqb]; destruct (Nat.eqb t 0); lra.
  - intros y F. rewrite !objective by lia. fold (total_cost 2 2 caseM (fun _ => 1/2) (plan 2 (encode 2 2 caseP b))). rewrite V. apply feasible_iff in F; try lia. destruct F as (F1 & H1 & H2 & H3).
    unfold total_cost, cost. assert (P : forall i s t, (i < 2)%nat -> (s < 2)%nat -> (t < 2)%nat -> 0 <= plan 2 y i s t) by (intros; apply F1; nia).
    assert (R00 := H1 0%nat 0%nat ltac:(lia) ltac:(lia)). assert (R01 := H1 0%nat 1%nat ltac:(lia) ltac:(lia)). assert (R10 := H1 1%nat 0%nat ltac:(lia) ltac:(lia)). assert (R11 := H1 1%nat 1%nat ltac:(lia) ltac:(lia)).
    assert (C0 := H2 0%nat ltac:(lia)). assert (C1 := H3 1%nat 0%nat ltac:(lia) ltac:(lia)).
    unfold row_sum, col_sum, caseA in *. unfold caseM. cbn [rsum Nat.eqb] in *.
    assert (Q1 := P 0%nat 1%nat 0%nat ltac:(lia) ltac:(lia) ltac:(lia)). assert (Q2 := P 0%nat 1%nat 1%nat ltac:(lia) ltac:(lia) ltac:(lia)). assert (Q3 := P 1%nat 0%nat 0%nat ltac:(lia) ltac:(lia) ltac:(lia)). assert (Q4 := P 1%nat 0%nat 1%nat ltac:(lia) ltac:(lia) ltac:(lia)). lra.
Qed.
