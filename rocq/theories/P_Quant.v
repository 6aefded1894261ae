(** C148: quantized (fused) Gromov-Wasserstein (ot/gromov/_quantized.py). *)
From Coq Require Import List Arith Bool Reals Lra Lia Permutation Sorted String QArith.
From Verif Require Import Num Sums Spec Perm Monge Emd1d_model Emd1d_proofs Emd1d_perm_proofs W1d_model Emd1d_final
  Duals_proofs Optim_model Optim_proofs Gw_model Gw_proofs P_Gw Quant_model Quant_proofs Quant_order Quant_main Quant_mass.
Import ListNotations.
Local Open Scope R_scope.
Local Notation length := List.length.
Local Notation concat := List.concat.
Local Notation lmass l := (rsum (length l) (lnth l)).

(** C148, the partitioned solver.  For partitions of positive mass and a global plan with the masses of the partitions
    as marginals, it returns a plan of the concatenated measures whose block (i, j) is Tg_ij times an optimal plan
    between the two partitions, normalised, for the squared difference of the distances to the representants; the
    block has mass Tg_ij; a local plan and its cost are recorded exactly where Tg_ij <> 0. *)
Theorem C148_partitioned : forall close gw fgw F1 F2 MR alpha Tg d,
  (forall x, close x x = true) ->
  same_shape (f_R F1) (f_p F1) -> same_shape (f_R F2) (f_p F2) -> good_weights (f_p F1) -> good_weights (f_p F2) ->
  global_answer gw fgw F1 F2 MR alpha Tg d ->
  coupling (length (f_R F1)) (length (f_R F2)) (fun i => lmass (nth i (f_p F1) [])) (fun j => lmass (nth j (f_p F2) [])) Tg ->
  exists r T, quantized_partitioned (N:=RNum) rpow close gw fgw F1 F2 MR alpha true = QOk r /\
    q_global r = Tg /\ q_gdist r = d /\ q_T r = Some T /\
    quantized_plan (f_R F1) (f_R F2) (f_p F1) (f_p F2) Tg T /\
    coupling (length (concat (f_R F1))) (length (concat (f_R F2))) (joined (f_p F1)) (joined (f_p F2)) T /\
    (forall i j, (i < length (f_R F1))%nat -> (j < length (f_R F2))%nat ->
       rsum (blen (f_R F1) i) (fun r => rsum (blen (f_R F2) j) (fun c => T (off (f_R F1) i + r)%nat (off (f_R F2) j + c)%nat)) = Tg i j /\
       (Tg i j = 0 -> q_local r i j = None) /\
       (Tg i j <> 0 -> exists es, q_local r i j = Some (es, cost (blen (f_R F1) i) (blen (f_R F2) j) (sq_cost (nth i (f_R F1) []) (nth j (f_R F2) [])) (dmat es)) /\
          block_optimal (f_R F1) (f_R F2) (f_p F1) (f_p F2) i j (dmat es))).
Proof.
  intros close gw fgw F1 F2 MR alpha Tg d HC S1 S2 G1 G2 G CG.
  destruct (partitioned_ok close gw fgw HC F1 F2 MR alpha true Tg d S1 S2 G1 G2 G) as (tab & E & HT). cbv zeta in E, HT.
  pose proof (build_quantized (f_R F1) (f_R F2) (f_p F1) (f_p F2) Tg tab HT) as QP.
  eexists. eexists. split; [exact E|]. cbn [q_global q_gdist q_T q_local]. split; [reflexivity|]. split; [reflexivity|]. split; [reflexivity|]. split; [exact QP|].
  split; [apply (quantized_coupling _ _ _ _ Tg S1 S2 G1 G2 _ QP CG)|]. intros i j Hi Hj. split; [apply (block_mass _ _ _ _ _ _ i j S1 G1 QP); auto|]. exact (HT i j Hi Hj).
Qed.
Print Assumptions C148_partitioned.

(** What the two entry points guarantee.  part1, part2: labels of the nodes.  Row r of T is node s1 r, where s1 lists
    the nodes by increasing label, then by increasing number. *)
Definition labels_in_use (n : nat) (part : nat -> nat) (ids : list nat) : Prop :=
  StronglySorted lt ids /\ forall k, In k ids <-> exists i, (i < n)%nat /\ part i = k.
Definition fgw_objective (n m : nat) (C1 C2 : mat) (alpha : R) (F : option (feats (N:=RNum))) (T : mat) : R :=
  alpha * gw_obj n m sq_loss C1 C2 T + (1 - alpha) * match F with Some F => cost n m (d_12 F) T | None => 0 end.
Definition quantized_outcome (n m npart1 npart2 : nat) (C1 C2 : mat) (p q : vec) (alpha : R) (F : option (feats (N:=RNum))) (r : q_result (N:=RNum)) (v : option R) : Prop :=
  exists part1 part2 s1 s2 ids1 ids2 T d,
    listing n part1 s1 /\ listing m part2 s2 /\ labels_in_use n part1 ids1 /\ labels_in_use m part2 ids2 /\
    q_T r = Some T /\ v = Some d /\
    (* marginals, in the order of the partitions *)
    coupling n m (fun i => p (s1 i)) (fun j => q (s2 j)) T /\
    (* mass between partitions *)
    (forall i j, (i < length ids1)%nat -> (j < length ids2)%nat ->
      rsum n (fun r => rsum m (fun c => if (part1 (s1 r) =? nth i ids1 0)%nat then if (part2 (s2 c) =? nth j ids2 0)%nat then T r c else 0 else 0)) = q_global r i j) /\
    (* when the labels are sorted: the order of the caller and the value of the objective *)
    ((n <= npart1)%nat \/ npart1 = 1%nat -> sorted_labels n part1) /\ ((m <= npart2)%nat \/ npart2 = 1%nat -> sorted_labels m part2) /\
    (sorted_labels n part1 -> sorted_labels m part2 -> coupling n m p q T /\ d = fgw_objective n m C1 C2 alpha F T).

Lemma pos_weights_ok : forall n p part, pos_vec n p -> weights_ok n p part.
Proof. intros n p part H. split; [intros i Hi; specialize (H i Hi); lra|]. intros i Hi. exists i. auto. Qed.
Lemma outcome_of_after : forall close gw fgw n m npart1 npart2 C1 C2 p q part1 part2 rep1 rep2 F alpha r v,
  (forall x, close x x = true) -> couples gw -> (forall alpha M, couples (fgw alpha M)) -> pos_vec n p -> pos_vec m q -> mass n p = 1 -> mass m q = 1 ->
  ((n <= npart1)%nat \/ npart1 = 1%nat -> sorted_labels n part1) -> ((m <= npart2)%nat \/ npart2 = 1%nat -> sorted_labels m part2) ->
  after_partition (N:=RNum) rpow close gw fgw n m C1 C2 p q part1 part2 rep1 rep2 F alpha = QOk (r, v) ->
  quantized_outcome n m npart1 npart2 C1 C2 p q alpha F r v.
Proof.
  intros close gw fgw n m npart1 npart2 C1 C2 p q part1 part2 rep1 rep2 F alpha r v HC Hg Hf Pp Pq Mp Mq B1 B2 E.
  destruct (after_ok close gw fgw HC Hg Hf n m C1 C2 p q part1 part2 rep1 rep2 F alpha r v (pos_weights_ok n p part1 Pp) (pos_weights_ok m q part2 Pq) Mp Mq E)
    as (T & ET & EV & CP & (HA & HF) & F1 & F2 & QP & S1 & G1 & E1 & E2 & S2 & _).
  exists part1, part2, (sigma n part1), (sigma m part2), (part_ids n part1), (part_ids m part2), T, (qfgw_dist (N:=RNum) n m C1 C2 p q alpha F T).
  split; [apply sigma_listing|]. split; [apply sigma_listing|]. split; [split; [apply ids_sorted|apply in_ids]|]. split; [split; [apply ids_sorted|apply in_ids]|].
  split; [exact ET|]. split; [exact EV|]. split; [exact CP|]. split; [exact (partition_mass n m part1 part2 p q _ _ _ _ _ T S1 S2 G1 QP E1 E2)|]. split; [exact B1|]. split; [exact B2|].
  intros Z1 Z2. assert (CC : coupling n m p q T).
  { revert CP. apply coupling_ext; intros; try reflexivity; rewrite (listing_sorted _ _ _ (sigma_listing _ _)); auto. }
  split; [exact CC|]. apply qdist_ok; auto.
Qed.
Lemma partition_sorted : forall cluster n C npart pm hF alpha part, get_graph_partition (N:=RNum) cluster n C npart pm hF alpha = QOk part ->
  (n <= npart)%nat \/ npart = 1%nat -> sorted_labels n part.
Proof.
  intros cluster n C npart pm hF alpha part. unfold get_graph_partition. destruct (_ && _)%bool; [discriminate|]. destruct (Nat.leb_spec n npart).
  - intros E _. inversion E; subst. intros i j Hi Hj. lia.
  - intros E [X|X]; [lia|]. subst npart. cbn in E. inversion E; subst. intros i j Hi Hj. lia.
Qed.

Theorem C148_graph : forall cluster pick close gw fgw networkx sklearn n m C1 C2 npart1 npart2 p q C1_aux C2_aux F alpha part_method rep_method r v,
  (forall x, close x x = true) -> couples gw -> (forall alpha M, couples (fgw alpha M)) ->
  pos_vec n (weights_of (N:=RNum) n p) -> pos_vec m (weights_of (N:=RNum) m q) -> mass n (weights_of (N:=RNum) n p) = 1 -> mass m (weights_of (N:=RNum) m q) = 1 ->
  quantized_fused_gromov_wasserstein (N:=RNum) cluster pick rpow close gw fgw networkx sklearn n m C1 C2 npart1 npart2 p q C1_aux C2_aux F alpha part_method rep_method = QOk (r, v) ->
  quantized_outcome n m npart1 npart2 C1 C2 (weights_of (N:=RNum) n p) (weights_of (N:=RNum) m q) alpha F r v.
Proof.
  intros cluster pick close gw fgw networkx sklearn n m C1 C2 npart1 npart2 p q C1_aux C2_aux F alpha part_method rep_method r v HC Hg Hf Pp Pq Mp Mq E.
  unfold quantized_fused_gromov_wasserstein in E. destruct (methods networkx sklearn part_method rep_method) as [pm rm].
  destruct (_ && negb (given F))%bool; [discriminate|]. cbv zeta in E.
  apply bind_ok in E. destruct E as (part1 & E1 & E). apply bind_ok in E. destruct E as (part2 & E2 & E).
  apply bind_ok in E. destruct E as (rep1 & E3 & E). apply bind_ok in E. destruct E as (rep2 & E4 & E).
  eapply outcome_of_after; [exact HC|exact Hg|exact Hf|exact Pp|exact Pq|exact Mp|exact Mq| | |exact E].
  - destruct (fused_in pm); eapply partition_sorted; exact E1.
  - destruct (fused_in pm); eapply partition_sorted; exact E2.
Qed.
Print Assumptions C148_graph.

Lemma samples_sorted : forall kparts first n npart method x, get_partition_and_representants_samples kparts first n npart method = QOk x ->
  (n <= npart)%nat \/ npart = 1%nat -> sorted_labels n (fst x).
Proof.
  intros kparts first n npart method x. unfold get_partition_and_representants_samples. destruct (Nat.leb_spec n npart).
  - intros E _. inversion E; subst. intros i j Hi Hj. cbn. lia.
  - intros E [X|X]; [lia|]. subst npart. cbn in E. inversion E; subst. intros i j Hi Hj. cbn. lia.
Qed.
Theorem C148_samples : forall kparts first close gw fgw sklearn n m C1 C2 npart1 npart2 p q F alpha method r v,
  (forall x, close x x = true) -> couples gw -> (forall alpha M, couples (fgw alpha M)) ->
  pos_vec n (weights_of (N:=RNum) n p) -> pos_vec m (weights_of (N:=RNum) m q) -> mass n (weights_of (N:=RNum) n p) = 1 -> mass m (weights_of (N:=RNum) m q) = 1 ->
  quantized_samples (N:=RNum) rpow close gw fgw kparts first sklearn n m C1 C2 npart1 npart2 p q F alpha method = QOk (r, v) ->
  quantized_outcome n m npart1 npart2 C1 C2 (weights_of (N:=RNum) n p) (weights_of (N:=RNum) m q) alpha F r v.
Proof.
  intros kparts first close gw fgw sklearn n m C1 C2 npart1 npart2 p q F alpha method r v HC Hg Hf Pp Pq Mp Mq E.
  unfold quantized_samples in E. destruct (_ && negb (given F))%bool; [discriminate|].
  apply bind_ok in E. destruct E as (x1 & E1 & E). apply bind_ok in E. destruct E as (x2 & E2 & E).
  eapply outcome_of_after; [exact HC|exact Hg|exact Hf|exact Pp|exact Pq|exact Mp|exact Mq| | |exact E].
  - eapply samples_sorted; exact E1.
  - eapply samples_sorted; exact E2.
Qed.
Print Assumptions C148_samples.

(** How the plan is built from the data: the global plan answers the problem between the representants, and the local
    costs are squared differences of distances to the representant, alpha C + (1 - alpha) D(F) with features. *)
Theorem C148_construction : forall close gw fgw n m C1 C2 p q part1 part2 rep1 rep2 F alpha r v,
  (forall x, close x x = true) -> couples gw -> (forall alpha M, couples (fgw alpha M)) ->
  pos_vec n p -> pos_vec m q -> mass n p = 1 -> mass m q = 1 ->
  after_partition (N:=RNum) rpow close gw fgw n m C1 C2 p q part1 part2 rep1 rep2 F alpha = QOk (r, v) ->
  exists F1 F2 T s1 s2, q_T r = Some T /\ listing n part1 s1 /\ listing m part2 s2 /\
    quantized_plan (f_R F1) (f_R F2) (f_p F1) (f_p F2) (q_global r) T /\
    (forall x, (x < n)%nat -> joined (f_p F1) x = p (s1 x)) /\ (forall y, (y < m)%nat -> joined (f_p F2) y = q (s2 y)) /\
    let D_ C (M : option mat) rp x := match F, M with Some _, Some M => alpha * C rp x + (1 - alpha) * M rp x | _, _ => C rp x end in
    (forall x, (x < n)%nat -> joined (f_R F1) x = D_ C1 (opt d_11 F) (nth (fst (locate (f_R F1) x)) rep1 0%nat) (s1 x)) /\
    (forall y, (y < m)%nat -> joined (f_R F2) y = D_ C2 (opt d_22 F) (nth (fst (locate (f_R F2) y)) rep2 0%nat) (s2 y)) /\
    (forall i j, f_C F1 i j = C1 (nth i rep1 0%nat) (nth j rep1 0%nat)) /\ (forall i j, f_C F2 i j = C2 (nth i rep2 0%nat) (nth j rep2 0%nat)) /\
    global_answer gw fgw F1 F2 (opt (fun F => fun i j => d_12 F (nth i rep1 0%nat) (nth j rep2 0%nat)) F) alpha (q_global r) (q_gdist r).
Proof.
  intros close gw fgw n m C1 C2 p q part1 part2 rep1 rep2 F alpha r v HC Hg Hf Pp Pq Mp Mq E.
  destruct (after_ok close gw fgw HC Hg Hf n m C1 C2 p q part1 part2 rep1 rep2 F alpha r v (pos_weights_ok n p part1 Pp) (pos_weights_ok m q part2 Pq) Mp Mq E)
    as (T & ET & EV & CP & (HA & HF) & F1 & F2 & QP & S1 & G1 & E1 & E2 & S2 & GA & EC1 & EC2 & ER1 & ER2).
  assert (J : forall k part (w : vec) (F0 : formatted (N:=RNum)), f_p F0 = map (fun l => map w (where_ k part l)) (part_ids k part) -> forall x, (x < k)%nat -> joined (f_p F0) x = w (sigma k part x)).
  { intros k part w F0 E0 x Hx. unfold joined, lnth, sigma, order. rewrite E0.
    replace (map (fun l => map w (where_ k part l)) (part_ids k part)) with (map (map w) (map (where_ k part) (part_ids k part))) by (rewrite map_map; reflexivity).
    rewrite <- concat_map. rewrite (nth_indep _ _ (w 0%nat)) by (rewrite map_length; exact (eq_ind_r (fun z => (x < z)%nat) Hx (order_len k part))).
    exact (map_nth w (order k part) 0%nat x). }
  exists F1, F2, T, (sigma n part1), (sigma m part2). split; [exact ET|]. split; [apply sigma_listing|]. split; [apply sigma_listing|]. split; [exact QP|].
  split; [apply J; exact E1|]. split; [apply J; exact E2|]. cbv zeta.
  split; [|split; [|split; [exact EC1|split; [exact EC2|exact GA]]]].
  - intros x Hx. rewrite ER1 by auto. unfold to_rep. destruct F as [F|]; reflexivity.
  - intros y Hy. rewrite ER2 by auto. unfold to_rep. destruct F as [F|]; reflexivity.
Qed.
Print Assumptions C148_construction.

(** the hypothesis on the solvers holds for the conditional gradient of ot/gromov/_gw.py with any exact linear solver *)
Theorem C148_solver : forall fuel sym lp M reg K t1 t2,
  (forall k l C1 C2, symmetric_if (sym k l C1 C2) k l C1 C2) ->
  (forall k l a b Mi, nonneg_vec k a -> nonneg_vec l b -> mass k a = mass l b -> coupling k l a b (lp k l a b Mi)) ->
  couples (cg_solver fuel sym lp M reg K t1 t2).
Proof. exact cg_couples. Qed.
Print Assumptions C148_solver.

(** Each representant belongs to its own partition. *)
Theorem C148_representants : forall (N : NumOps) cluster pick n (C C' : nat -> nat -> N) npart pm has_F alpha part rm rep,
  (forall rm C id l, l <> [] -> In (pick rm C id l) l) -> (forall i, (i < n)%nat -> (cluster pm n C npart i < npart)%nat) ->
  get_graph_partition cluster n C npart pm has_F alpha = QOk part -> get_graph_representants pick n C' part rm = QOk rep ->
  exists ids, labels_in_use n part ids /\ length rep = length ids /\
    forall i, (i < length ids)%nat -> (nth i rep 0 < n)%nat /\ part (nth i rep 0%nat) = nth i ids 0%nat.
Proof.
  intros N cluster pick n C C' npart pm has_F alpha part rm rep H1 H2 E1 E2. exists (part_ids n part). split; [split; [apply ids_sorted|apply in_ids]|].
  exact (reps_ok cluster pick n C C' npart pm has_F alpha part rm rep H1 H2 E1 E2).
Qed.
Print Assumptions C148_representants.
(** Called directly with as many labels as nodes, get_graph_representants assumes them sorted. *)
Theorem C148_representants_refuted : forall (N : NumOps) pick (C : nat -> nat -> N) rm,
  get_graph_representants pick 2 C (fun i => 1 - i)%nat rm = QOk [0; 1]%nat /\ part_ids 2 (fun i => 1 - i)%nat = [0; 1]%nat /\ (1 - 0 <> 0)%nat.
Proof. intros. split; [reflexivity|]. split; [reflexivity|lia]. Qed.
Print Assumptions C148_representants_refuted.

(** Errors. *)
Theorem C148_errors : forall close gw fgw,
  (forall F1 F2 MR alpha bo, ~ (0 < alpha <= 1) -> quantized_partitioned (N:=RNum) rpow close gw fgw F1 F2 MR alpha bo = QValueError) /\
  (forall cluster n C npart pm (alpha : R), alpha <> 1 -> get_graph_partition (N:=RNum) cluster n C npart pm false alpha = QValueError) /\
  (forall n C p part rep (alpha : R), alpha <> 1 -> format_partitioned_graph (N:=RNum) n C p part rep None alpha = QValueError).
Proof.
  intros close gw fgw. split; [intros; apply partitioned_alpha; auto|]. split.
  - intros cluster n C npart pm alpha H. unfold get_graph_partition. change (@neqb RNum alpha n1) with (Reqb alpha 1). rewrite (proj2 (Reqb_false _ _) H). reflexivity.
  - intros n C p part rep alpha H. unfold format_partitioned_graph. change (@neqb RNum alpha n1) with (Reqb alpha 1). rewrite (proj2 (Reqb_false _ _) H). reflexivity.
Qed.
Print Assumptions C148_errors.
(** alpha = 0 is documented as the quantized Wasserstein distance; no call returns. *)
Theorem C148_alpha_zero_refuted : forall cluster pick close gw fgw networkx sklearn n m C1 C2 npart1 npart2 p q C1_aux C2_aux F part_method rep_method x,
  quantized_fused_gromov_wasserstein (N:=RNum) cluster pick rpow close gw fgw networkx sklearn n m C1 C2 npart1 npart2 p q C1_aux C2_aux F 0 part_method rep_method <> QOk x.
Proof.
  intros cluster pick close gw fgw networkx sklearn n m C1 C2 npart1 npart2 p q C1_aux C2_aux F part_method rep_method x E.
  unfold quantized_fused_gromov_wasserstein in E. destruct (methods networkx sklearn part_method rep_method) as [pm rm].
  destruct (_ && negb (given F))%bool; [discriminate|]. cbv zeta in E.
  apply bind_ok in E. destruct E as (part1 & E1 & E). apply bind_ok in E. destruct E as (part2 & E2 & E).
  apply bind_ok in E. destruct E as (rep1 & E3 & E). apply bind_ok in E. destruct E as (rep2 & E4 & E). unfold after_partition in E.
  apply bind_ok in E. destruct E as (F1 & _ & E). apply bind_ok in E. destruct E as (F2 & _ & E). rewrite partitioned_alpha in E by lra. discriminate.
Qed.
Print Assumptions C148_alpha_zero_refuted.

(** The methods taken from networkx, the default part_method = 'fluid' among them, are never used: the call is the one
    with 'random' partitions and 'random' representants, whether networkx is installed or not. *)
Theorem C148_networkx_refuted : forall (N : NumOps) cluster pick powf close gw fgw networkx sklearn n m (C1 C2 : nat -> nat -> N) npart1 npart2 p q C1_aux C2_aux F alpha part_method rep_method,
  In part_method ["fluid"; "louvain"; "fluid_fused"; "louvain_fused"]%string \/ In rep_method ["pagerank"; "pagerank_fused"]%string ->
  quantized_fused_gromov_wasserstein cluster pick powf close gw fgw networkx sklearn n m C1 C2 npart1 npart2 p q C1_aux C2_aux F alpha part_method rep_method =
  quantized_fused_gromov_wasserstein cluster pick powf close gw fgw true sklearn n m C1 C2 npart1 npart2 p q C1_aux C2_aux F alpha "random" "random".
Proof.
  intros N cluster pick powf close gw fgw networkx sklearn n m C1 C2 npart1 npart2 p q C1_aux C2_aux F alpha part_method rep_method H.
  assert (E : methods networkx sklearn part_method rep_method = methods true sklearn "random" "random").
  { unfold methods. assert (X : (one_of part_method ["fluid"; "louvain"; "fluid_fused"; "louvain_fused"] || one_of rep_method ["pagerank"; "pagerank_fused"])%string%bool = true).
    { apply orb_true_iff. destruct H as [H|H]; [left|right]; apply existsb_exists; eexists; (split; [exact H|apply String.eqb_refl]). }
    rewrite X. reflexivity. }
  unfold quantized_fused_gromov_wasserstein. rewrite E. reflexivity.
Qed.
Print Assumptions C148_networkx_refuted.
(** method = 'kmeans_fused' with alpha = 1 keeps the suffix and is rejected. *)
Theorem C148_samples_fused_refuted : forall powf close gw fgw kparts first n m C1 C2 npart1 npart2 p q F, (1 < npart1 < n)%nat ->
  quantized_samples (N:=RNum) powf close gw fgw kparts first true n m C1 C2 npart1 npart2 p q F 1 "kmeans_fused" = QValueError.
Proof.
  intros powf close gw fgw kparts first n m C1 C2 npart1 npart2 p q F H. unfold quantized_samples.
  replace (@neqb RNum 1 n1) with true by (symmetry; apply Reqb_true; reflexivity).
  cbn [one_of existsb String.eqb Ascii.eqb Bool.eqb negb andb orb]. destruct F as [F|]; [|reflexivity]. cbn [given negb andb].
  replace (fused_in "kmeans_fused") with true by reflexivity. cbn [andb]. unfold get_partition_and_representants_samples at 1.
  destruct (Nat.leb_spec n npart1); [lia|]. destruct (Nat.eqb_spec npart1 1); [lia|]. reflexivity.
Qed.
Print Assumptions C148_samples_fused_refuted.

(** The rows of T are not the nodes: a path graph on three nodes (node 0 in the middle, weight 1/2) against itself,
    labels (1, 0, 0).  The plan has 1/4 on row 0 where p_0 = 1/2, and the reported qFGW_dist is -1/4: the mass on row r is paired
    with node r although it belongs to node s1 r.  In node order the same plan is the identity coupling, with loss 0.  The global plan is what the
    conditional gradient of Gw_model returns. *)
Definition ex_path (i j : nat) : Q := match i, j with 0, 1 | 1, 0 | 0, 2 | 2, 0 => 1%Q | 1, 2 | 2, 1 => 2%Q | _, _ => 0%Q end%nat.
Definition ex_p (i : nat) : Q := match i with 0 => 1 # 2 | _ => 1 # 4 end%nat.
Definition ex_part (i : nat) : nat := match i with 0 => 1 | _ => 0 end%nat.
Definition ex_half (i j : nat) : Q := if Nat.eqb i j then 1 # 2 else 0%Q.
Definition ex_gw (k l : nat) (C1 C2 : nat -> nat -> Q) (a b : nat -> Q) : option ((nat -> nat -> Q) * Q) :=
  match gromov_wasserstein (N:=QNum) k l (fun x => x) 0%Q 20 SquareLoss true C1 C2 a b (fun _ => ex_half) None 10 (1 # 1000000000) (1 # 1000000000) with
  | Some s => Some (cg_G s, cg_val s) | None => None end.
Definition ex_call := quantized_fused_gromov_wasserstein (N:=QNum) (fun _ _ _ _ => ex_part) (fun _ _ _ l => hd 0%nat l) (fun x _ => x) Qeq_bool ex_gw (fun _ _ => ex_gw)
  true true 3 3 ex_path ex_path 2 2 (Some ex_p) (Some ex_p) None None None 1%Q "random" "random".
Definition ex_s (i : nat) : nat := match i with 0 => 2 | 1 => 0 | _ => 1 end%nat.
Definition ex_observed (d : Q) (T : nat -> nat -> Q) : bool :=
  (Qeq_bool d (- (1 # 4)) && Qeq_bool (nsum (N:=QNum) 3 (T 0%nat)) (1 # 4) && Qeq_bool (ex_p 0%nat) (1 # 2) &&
   forallb (fun i => forallb (fun j => Qeq_bool (T (ex_s i) (ex_s j)) (if Nat.eqb i j then ex_p i else 0%Q)) (seq 0 3)) (seq 0 3) &&
   Qeq_bool (qfgw_dist (N:=QNum) 3 3 ex_path ex_path ex_p ex_p 1%Q None (fun i j => T (ex_s i) (ex_s j))) 0%Q)%bool.
Theorem C148_order_refuted : exists r d T, ex_call = QOk (r, Some d) /\ q_T r = Some T /\ ex_observed d T = true.
Proof.
  assert (H : match ex_call with QOk (r, Some d) => match q_T r with Some T => ex_observed d T | None => false end | _ => false end = true) by (vm_compute; reflexivity).
  destruct ex_call as [[r [d|]]| |]; try discriminate. destruct (q_T r) as [T|] eqn:E; [|discriminate]. exists r, d, T. auto.
Qed.
Print Assumptions C148_order_refuted.

(** The hypotheses of C148_graph are met: uniform weights. *)
Example C148_uniform : forall n, (0 < n)%nat -> pos_vec n (weights_of (N:=RNum) n None) /\ mass n (weights_of (N:=RNum) n None) = 1.
Proof.
  intros n Hn. assert (P : 0 < INR n) by (apply lt_0_INR; auto). unfold weights_of. cbn [ndiv n1 RNum]. rewrite nofnat_INR. split.
  - intros i _. apply Rdiv_lt_0_compat; lra.
  - unfold mass. rewrite rsum_const. field. lra.
Qed.
