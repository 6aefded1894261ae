(** Main results about Quant_model. *)
From Coq Require Import List Arith Bool Reals Lra Lia Permutation Sorted String.
From Verif Require Import Num Sums Spec Perm Monge Emd1d_model Emd1d_proofs Emd1d_perm_proofs W1d_model Emd1d_final
  Duals_proofs Optim_model Optim_proofs Gw_model Gw_proofs Quant_model Quant_proofs Quant_order.
Import ListNotations.
Local Open Scope R_scope.
Local Notation length := List.length.
Local Notation concat := List.concat.
Local Notation lmass l := (rsum (length l) (lnth l)).

Definition solver := nat -> nat -> mat -> mat -> vec -> vec -> option (mat * R).
(** a solver that only ever answers couplings of probability vectors *)
Definition couples (g : solver) : Prop := forall k l C1 C2 a b T d,
  nonneg_vec k a -> nonneg_vec l b -> mass k a = 1 -> mass l b = 1 -> g k l C1 C2 a b = Some (T, d) -> coupling k l a b T.

Section Main.
Variables (close : R -> R -> bool) (gw : solver) (fgw : R -> mat -> solver).
Hypothesis close_refl : forall x, close x x = true.

(** the global problem solved for a given alpha *)
Definition global_answer (F1 F2 : formatted (N:=RNum)) (MR : option mat) (alpha : R) (Tg : mat) (d : R) : Prop :=
  (alpha = 1 /\ gw (length (f_R F1)) (length (f_R F2)) (f_C F1) (f_C F2) (masses (N:=RNum) (f_p F1)) (masses (N:=RNum) (f_p F2)) = Some (Tg, d)) \/
  (0 < alpha < 1 /\ exists M, MR = Some M /\ fgw alpha M (length (f_R F1)) (length (f_R F2)) (f_C F1) (f_C F2) (masses (N:=RNum) (f_p F1)) (masses (N:=RNum) (f_p F2)) = Some (Tg, d)).
Notation part_run := (quantized_partitioned (N:=RNum) rpow close gw fgw).

Lemma masses_R : forall (ps : list (list RNum)) i, masses (N:=RNum) ps i = lmass (nth i ps []).
Proof. intros. unfold masses. rewrite lsum_rsum. reflexivity. Qed.

Lemma partitioned_ok : forall F1 F2 MR alpha bo Tg d,
  same_shape (f_R F1) (f_p F1) -> same_shape (f_R F2) (f_p F2) -> good_weights (f_p F1) -> good_weights (f_p F2) ->
  global_answer F1 F2 MR alpha Tg d ->
  exists tab, let loc := fun i j => nth j (nth i tab []) None in
    part_run F1 F2 MR alpha bo = QOk (QResult (N:=RNum) Tg d loc (if bo then Some (build (N:=RNum) Tg loc (f_R F1) (f_R F2)) else None)) /\
    forall i j, (i < length (f_R F1))%nat -> (j < length (f_R F2))%nat ->
      (Tg i j = 0 -> loc i j = None) /\
      (Tg i j <> 0 -> exists es, loc i j = Some (es, cost (length (nth i (f_R F1) [])) (length (nth j (f_R F2) [])) (sq_cost (nth i (f_R F1) []) (nth j (f_R F2) [])) (dmat es)) /\
          block_optimal (f_R F1) (f_R F2) (f_p F1) (f_p F2) i j (dmat es)).
Proof.
  intros F1 F2 MR alpha bo Tg d S1 S2 W1 W2 G.
  destruct (local_plans_ok close close_refl (f_R F1) (f_R F2) (f_p F1) (f_p F2) Tg S1 S2 W1 W2) as (tab & E & H).
  exists tab. cbv zeta. split; [|exact H]. unfold quantized_partitioned.
  change (@neqb RNum alpha n1) with (Reqb alpha 1). change (@nltb RNum alpha n1) with (Rltb alpha 1). change (@nltb RNum n0 alpha) with (Rltb 0 alpha).
  destruct G as [(A & G)|(A & M & HM & G)].
  - rewrite (proj2 (Reqb_true _ _) A). change (carrier RNum) with R in *. rewrite G, E. reflexivity.
  - rewrite (proj2 (Reqb_false _ _)) by lra. rewrite (proj2 (Rltb_true _ _)) by lra. rewrite (proj2 (Rltb_true _ _)) by lra. cbn [andb].
    rewrite HM. change (carrier RNum) with R in *. rewrite G, E. reflexivity.
Qed.
Lemma partitioned_inv : forall F1 F2 MR alpha bo r, part_run F1 F2 MR alpha bo = QOk r ->
  global_answer F1 F2 MR alpha (q_global r) (q_gdist r).
Proof.
  intros F1 F2 MR alpha bo r. unfold quantized_partitioned, global_answer.
  change (@neqb RNum alpha n1) with (Reqb alpha 1). change (@nltb RNum alpha n1) with (Rltb alpha 1). change (@nltb RNum n0 alpha) with (Rltb 0 alpha).
  change (carrier RNum) with R in *.
  destruct (Reqb alpha 1) eqn:E1.
  - apply Reqb_true in E1. destruct (gw _ _ _ _ _ _) as [[Tg d]|] eqn:E2; [|discriminate]. destruct (local_plans _ _ _ _ _ _ _); [|discriminate].
    intros H. inversion H; subst; cbn. left. split; auto.
  - destruct (Rltb alpha 1) eqn:E2; cbn [andb]; [|discriminate]. destruct (Rltb 0 alpha) eqn:E3; [|discriminate]. apply Rltb_true in E2, E3.
    destruct MR as [M|]; [|discriminate]. destruct (fgw _ _ _ _ _ _ _ _) as [[Tg d]|] eqn:E4; [|discriminate]. destruct (local_plans _ _ _ _ _ _ _); [|discriminate].
    intros H. inversion H; subst; cbn. right. split; [lra|]. exists M. auto.
Qed.
Lemma partitioned_alpha : forall F1 F2 MR alpha bo, ~ (0 < alpha <= 1) -> part_run F1 F2 MR alpha bo = QValueError.
Proof.
  intros F1 F2 MR alpha bo H. unfold quantized_partitioned.
  change (@neqb RNum alpha n1) with (Reqb alpha 1). change (@nltb RNum alpha n1) with (Rltb alpha 1). change (@nltb RNum n0 alpha) with (Rltb 0 alpha).
  rewrite (proj2 (Reqb_false alpha 1)) by lra. destruct (Rltb alpha 1) eqn:E; cbn [andb]; [|reflexivity]. apply Rltb_true in E.
  rewrite (proj2 (Rltb_false 0 alpha)) by lra. reflexivity.
Qed.

(** mass of a block *)
Lemma block_mass : forall R1 R2 p1 p2 Tg T i j, same_shape R1 p1 -> good_weights p1 -> quantized_plan R1 R2 p1 p2 Tg T -> (i < length R1)%nat -> (j < length R2)%nat ->
  rsum (blen R1 i) (fun r => rsum (blen R2 j) (fun c => T (off R1 i + r)%nat (off R2 j + c)%nat)) = Tg i j.
Proof.
  intros R1 R2 p1 p2 Tg T i j S1 W1 (L & HO & HT) Hi Hj. destruct (shape_len _ _ _ _ S1) as (L1 & _ & BL & _).
  rewrite (rsum_ext _ _ (fun r => Tg i j * rsum (blen R2 j) (fun c => L i j r c))).
  2:{ intros r Hr. rewrite <- rsum_scal. apply rsum_ext. intros c Hc. apply HT; auto. }
  rewrite rsum_scal. destruct (Req_dec (Tg i j) 0) as [E|E]; [rewrite E; lra|].
  destruct (HO i j Hi Hj E) as ((_ & N1 & _) & _).
  rewrite (rsum_ext _ _ (fun r => lnth (nth i p1 []) r / lmass (nth i p1 []))) by (intros r Hr; apply (N1 r Hr)).
  rewrite rsum_div. destruct (W1 i) as (_ & P); [lia|]. specialize (BL i). unfold blen in BL |- *. rewrite BL. field. lra.
Qed.

Notation after := (after_partition (N:=RNum) rpow close gw fgw).
Notation qdist := (qfgw_dist (N:=RNum)).

Lemma bind_ok : forall A B (x : qout A) (f : A -> qout B) y, bind x f = QOk y -> exists z, x = QOk z /\ f z = QOk y.
Proof. intros A B [z| |] f y H; try discriminate. exists z; auto. Qed.

Hypothesis Hgw : couples gw.
Hypothesis Hfgw : forall alpha M, couples (fgw alpha M).

Lemma after_ok : forall n m C1 C2 p q part1 part2 rep1 rep2 F alpha r v,
  weights_ok n p part1 -> weights_ok m q part2 -> mass n p = 1 -> mass m q = 1 ->
  after n m C1 C2 p q part1 part2 rep1 rep2 F alpha = QOk (r, v) ->
  exists T, q_T r = Some T /\ v = Some (qdist n m C1 C2 p q alpha F T) /\
    coupling n m (fun i => p (sigma n part1 i)) (fun j => q (sigma m part2 j)) T /\ (0 < alpha <= 1 /\ (alpha = 1 \/ F <> None)) /\
    exists F1 F2, quantized_plan (f_R F1) (f_R F2) (f_p F1) (f_p F2) (q_global r) T /\
      same_shape (f_R F1) (f_p F1) /\ good_weights (f_p F1) /\
      f_p F1 = map (fun k => map p (where_ n part1 k)) (part_ids n part1) /\ f_p F2 = map (fun k => map q (where_ m part2 k)) (part_ids m part2) /\ same_shape (f_R F2) (f_p F2) /\
      (let al := match F with None => 1 | Some _ => alpha end in
       global_answer F1 F2 (opt (fun F => fun i j => d_12 F (nth i rep1 0%nat) (nth j rep2 0%nat)) F) alpha (q_global r) (q_gdist r) /\
       (forall i j, f_C F1 i j = C1 (nth i rep1 0%nat) (nth j rep1 0%nat)) /\ (forall i j, f_C F2 i j = C2 (nth i rep2 0%nat) (nth j rep2 0%nat)) /\
       (forall x, (x < n)%nat -> joined (f_R F1) x = to_rep C1 (opt d_11 F) al (sigma n part1 x) (nth (fst (locate (f_R F1) x)) rep1 0%nat)) /\
       (forall y, (y < m)%nat -> joined (f_R F2) y = to_rep C2 (opt d_22 F) al (sigma m part2 y) (nth (fst (locate (f_R F2) y)) rep2 0%nat))).
Proof.
  intros n m C1 C2 p q part1 part2 rep1 rep2 F alpha r v W1 W2 M1 M2 H. unfold after_partition in H.
  apply bind_ok in H. destruct H as (F1 & E1 & H). apply bind_ok in H. destruct H as (F2 & E2 & H). apply bind_ok in H. destruct H as (r0 & E3 & H).
  inversion H; subst. clear H. pose proof (partitioned_inv _ _ _ _ _ _ E3) as G.
  pose proof (fmt_shape _ _ _ _ _ _ _ _ E1) as S1. pose proof (fmt_shape _ _ _ _ _ _ _ _ E2) as S2.
  pose proof (fmt_good _ _ _ _ _ _ _ _ E1 W1) as G1. pose proof (fmt_good _ _ _ _ _ _ _ _ E2 W2) as G2.
  destruct (partitioned_ok F1 F2 _ alpha true (q_global r) (q_gdist r) S1 S2 G1 G2 G) as (tab & E & HT). cbv zeta in E, HT.
  pose proof (eq_trans (eq_sym E3) E) as E4. inversion E4 as [E5]. rewrite E5 in *. cbn [q_T q_global q_gdist] in *.
  set (Tg := q_global r) in *.
  assert (QP : quantized_plan (f_R F1) (f_R F2) (f_p F1) (f_p F2) Tg (build (N:=RNum) Tg (fun i j => nth j (nth i tab []) None) (f_R F1) (f_R F2))).
  { apply build_quantized. exact HT. }
  assert (NM : forall F0 : formatted (N:=RNum), same_shape (f_R F0) (f_p F0) -> good_weights (f_p F0) -> nonneg_vec (length (f_R F0)) (masses (N:=RNum) (f_p F0))).
  { intros F0 S0 G0 i Hi. rewrite masses_R. destruct (shape_len _ _ _ _ S0) as (L0 & _). destruct (G0 i) as (_ & P); [lia|]. lra. }
  assert (MM : forall n0 C0 p0 part0 rep0 M0 al0 (F0 : formatted (N:=RNum)), format_partitioned_graph (N:=RNum) n0 C0 p0 part0 rep0 M0 al0 = QOk F0 -> mass n0 p0 = 1 -> mass (length (f_R F0)) (masses (N:=RNum) (f_p F0)) = 1).
  { intros n0 C0 p0 part0 rep0 M0 al0 F0 E0 HM. rewrite <- HM. rewrite <- (fmt_mass _ _ _ _ _ _ _ _ E0). apply rsum_ext. intros; apply masses_R. }
  assert (CG : coupling (length (f_R F1)) (length (f_R F2)) (masses (N:=RNum) (f_p F1)) (masses (N:=RNum) (f_p F2)) Tg /\ (0 < alpha <= 1 /\ (alpha = 1 \/ F <> None))).
  { destruct G as [(A & G)|(A & M & HM & G)].
    - split; [|split; [lra|auto]]. eapply Hgw; [| | | |exact G]; eauto.
    - split; [|split; [lra|right; intros ->; discriminate]]. eapply Hfgw; [| | | |exact G]; eauto. }
  destruct CG as (CG & HA). eexists. split; [reflexivity|]. split; [reflexivity|]. split; [|split; [exact HA|]].
  - assert (X := quantized_coupling (f_R F1) (f_R F2) (f_p F1) (f_p F2) Tg S1 S2 G1 G2 _ QP).
    rewrite (fmt_len _ _ _ _ _ _ _ _ E1), (fmt_len _ _ _ _ _ _ _ _ E2) in X.
    assert (CG' : coupling (length (f_R F1)) (length (f_R F2)) (fun i => lmass (nth i (f_p F1) [])) (fun j => lmass (nth j (f_p F2) [])) Tg).
    { revert CG. apply coupling_ext; intros; try reflexivity; apply masses_R. }
    specialize (X CG'). revert X. apply coupling_ext; intros; try reflexivity.
    + apply (fmt_joined _ _ _ _ _ _ _ _ E1); auto.
    + apply (fmt_joined _ _ _ _ _ _ _ _ E2); auto.
  - exists F1, F2. split; [exact QP|]. split; [exact S1|]. split; [exact G1|]. split; [exact (fmt_p _ _ _ _ _ _ _ _ E1)|]. split; [exact (fmt_p _ _ _ _ _ _ _ _ E2)|]. split; [exact S2|]. cbv zeta. split; [exact G|].
    split; [intros; rewrite (fmt_C _ _ _ _ _ _ _ _ E1); reflexivity|]. split; [intros; rewrite (fmt_C _ _ _ _ _ _ _ _ E2); reflexivity|].
    split; [exact (fmt_R_at _ _ _ _ _ _ _ _ E1)|exact (fmt_R_at _ _ _ _ _ _ _ _ E2)].
Qed.
End Main.

(** qFGW_dist on a plan with the right marginals *)
Lemma qdist_ok : forall n m C1 C2 p q alpha F T, coupling n m p q T -> (alpha = 1 \/ F <> None) ->
  qfgw_dist (N:=RNum) n m C1 C2 p q alpha F T =
    alpha * gw_obj n m sq_loss C1 C2 T + (1 - alpha) * match F with Some F => cost n m (d_12 F) T | None => 0 end.
Proof.
  intros n m C1 C2 p q alpha F T (_ & HR & HC) HA. unfold qfgw_dist. cbn [nadd nmul nsub n1 RNum]. f_equal.
  - f_equal. exact (gw_f_R n m (fun x => x) 0 SquareLoss C1 C2 p q T HR HC).
  - change (@neqb RNum alpha 1) with (Reqb alpha 1). destruct (Reqb alpha 1) eqn:E; cbn [negb].
    + apply Reqb_true in E. subst. change (@n0 RNum) with 0. lra.
    + apply Reqb_false in E. destruct HA as [HA|HA]; [contradiction|]. destruct F as [F|]; [|contradiction]. f_equal.
      etransitivity; [exact (inner_R n m (d_12 F) T)|]. reflexivity.
Qed.

(** the conditional gradient solver of Gw_model, started at the product of the weights *)
Definition cg_solver (fuel : nat) (sym : nat -> nat -> mat -> mat -> bool) (lp : nat -> nat -> vec -> vec -> mat -> mat) (M : nat -> nat -> mat) (reg : R) (K : nat) (t1 t2 : R) : solver :=
  fun k l C1 C2 a b => match fused_gw (N:=RNum) k l (fun x => x) 0 fuel SquareLoss (sym k l C1 C2) (M k l) reg C1 C2 a b (lp k l a b) None K t1 t2 with
    | Some s => Some (cg_G s, cg_val s) | None => None end.
