(** Block plans: proofs about Quant_model. *)
From Coq Require Import List Arith Bool Reals Lra Lia Permutation.
From Verif Require Import Num Sums Spec Perm Monge Emd1d_model Emd1d_proofs Emd1d_perm_proofs W1d_model Emd1d_final
  Duals_proofs Optim_model Gw_model Gw_proofs Quant_model.
Import ListNotations.
Local Open Scope R_scope.

(** ** positions in a concatenation *)
Definition off {A} (bs : list (list A)) (i : nat) : nat := length (concat (firstn i bs)).
Definition blen {A} (bs : list (list A)) (i : nat) : nat := length (nth i bs []).

Lemma locate_off : forall A (bs : list (list A)) i r, (i < length bs)%nat -> (r < blen bs i)%nat -> locate bs (off bs i + r) = (i, r).
Proof.
  induction bs as [|b bs IH]; intros i r Hi Hr; [cbn in Hi; lia|]. destruct i as [|i]; unfold off, blen in *; cbn [firstn concat nth length] in *.
  - cbn [locate]. replace (0 + r)%nat with r by lia. destruct (Nat.ltb_spec r (length b)); [reflexivity|lia].
  - rewrite app_length. cbn [locate]. destruct (Nat.ltb_spec (length b + length (concat (firstn i bs)) + r) (length b)); [lia|].
    replace (length b + length (concat (firstn i bs)) + r - length b)%nat with (length (concat (firstn i bs)) + r)%nat by lia.
    rewrite IH by lia. reflexivity.
Qed.
Lemma locate_lt : forall A (bs : list (list A)) r, (r < length (concat bs))%nat ->
  (fst (locate bs r) < length bs)%nat /\ (snd (locate bs r) < blen bs (fst (locate bs r)))%nat /\ r = (off bs (fst (locate bs r)) + snd (locate bs r))%nat.
Proof.
  induction bs as [|b bs IH]; intros r Hr; [cbn in Hr; lia|]. cbn [concat] in Hr. rewrite app_length in Hr. cbn [locate].
  destruct (Nat.ltb_spec r (length b)); unfold off, blen in *; cbn [fst snd firstn concat nth length].
  - repeat split; lia.
  - destruct (IH (r - length b)%nat) as (A1 & A2 & A3); [lia|]. destruct (locate bs (r - length b)) as [i r']. cbn [fst snd] in *.
    cbn [firstn concat nth length]. rewrite app_length. repeat split; lia.
Qed.
Lemma rsum_blocks : forall A (bs : list (list A)) (f : nat -> nat -> R),
  rsum (length (concat bs)) (fun r => f (fst (locate bs r)) (snd (locate bs r))) = rsum (length bs) (fun i => rsum (blen bs i) (f i)).
Proof.
  induction bs as [|b bs IH]; intros f; [reflexivity|]. cbn [concat length]. rewrite app_length, rsum_split, rsum_first. f_equal.
  - unfold blen; cbn [nth]. apply rsum_ext; intros r Hr. cbn [locate]. destruct (Nat.ltb_spec r (length b)); [reflexivity|lia].
  - transitivity (rsum (length (concat bs)) (fun r => f (S (fst (locate bs r))) (snd (locate bs r)))); [|exact (IH (fun i => f (S i)))]. apply rsum_ext; intros r Hr. cbn [locate].
    destruct (Nat.ltb_spec (length b + r) (length b)); [lia|]. replace (length b + r - length b)%nat with r by lia. reflexivity.
Qed.
Definition same_shape {A B} (xs : list (list A)) (ys : list (list B)) : Prop := map (@length A) xs = map (@length B) ys.
Lemma shape_len : forall A B (xs : list (list A)) (ys : list (list B)), same_shape xs ys -> length xs = length ys /\ length (concat xs) = length (concat ys) /\ (forall i, blen xs i = blen ys i) /\ (forall r, locate xs r = locate ys r).
Proof.
  induction xs as [|x xs IH]; intros [|y ys] H; try discriminate.
  - split; [reflexivity|]. split; [reflexivity|]. split; [intros i; unfold blen; destruct i; reflexivity|reflexivity].
  - unfold same_shape in H; cbn [map] in H. inversion H as [[H1 H2]]. destruct (IH ys H2) as (A1 & A2 & A3 & A4).
    split; [cbn [length]; lia|]. split; [cbn [concat]; rewrite !app_length; lia|]. split.
    + intros [|i]; unfold blen in *; cbn [nth]; [lia|apply A3].
    + intros r; cbn [locate]. rewrite H1, A4. reflexivity.
Qed.
Lemma nth_concat : forall A (bs : list (list A)) r d, (r < length (concat bs))%nat -> nth r (concat bs) d = nth (snd (locate bs r)) (nth (fst (locate bs r)) bs []) d.
Proof.
  induction bs as [|b bs IH]; intros r d Hr; [cbn in Hr; lia|]. cbn [concat] in *. rewrite app_length in Hr. cbn [locate].
  destruct (Nat.ltb_spec r (length b)); cbn [fst snd nth].
  - apply app_nth1; auto.
  - rewrite app_nth2 by lia. apply IH. lia.
Qed.

(** ** the local plans *)
Lemma all_ok_nth : forall A B (f : A -> option B) l r, all_ok (map f l) = Some r -> length r = length l /\ (forall k d d', (k < length l)%nat -> f (nth k l d) = Some (nth k r d')).
Proof.
  intros A B f; induction l as [|x l IH]; intros r H; cbn [map all_ok] in H.
  - inversion H; subst. split; [reflexivity|]. intros; cbn in *; lia.
  - destruct (f x) as [y|] eqn:E; [|discriminate]. destruct (all_ok (map f l)) as [r'|] eqn:E'; [|discriminate]. inversion H; subst.
    destruct (IH r' eq_refl) as (L1 & L2). split; [cbn; lia|]. intros [|k] d d' Hk; cbn [nth]; [exact E|]. apply L2. cbn in Hk; lia.
Qed.
Lemma all_ok_some : forall A B (f : A -> option B) l, (forall x, In x l -> exists y, f x = Some y) -> exists r, all_ok (map f l) = Some r.
Proof.
  intros A B f; induction l as [|x l IH]; intros H; cbn [map all_ok]; [eexists; reflexivity|].
  destruct (H x (or_introl eq_refl)) as (y & ->). destruct IH as (r & ->); [intros; apply H; right; auto|]. eexists; reflexivity.
Qed.

Section Plans.
Variable close : R -> R -> bool.
Hypothesis close_refl : forall x, close x x = true.
Notation lmass l := (rsum (length l) (lnth l)).
Definition good_weights (ps : list (list RNum)) : Prop :=
  forall i, (i < length ps)%nat -> (forall r, (r < blen ps i)%nat -> 0 <= lnth (nth i ps []) r) /\ 0 < lmass (nth i ps []).

Lemma normed_nth : forall (p : list RNum) r, (r < length p)%nat -> lnth (normed p) r = lnth p r / lmass p.
Proof.
  intros p r Hr. unfold lnth, normed. rewrite (nth_indep _ _ (ndiv (n:=RNum) 0 (lsum p))) by (rewrite map_length; exact Hr).
  rewrite (map_nth (fun x : RNum => ndiv (n:=RNum) x (lsum p)) p 0 r). cbn [ndiv RNum]. rewrite lsum_rsum. reflexivity.
Qed.
Lemma lmass_normed : forall (p : list RNum), 0 < lmass p -> lmass (normed p) = 1.
Proof.
  intros p Hp. rewrite (rsum_ext (length (normed p)) (lnth (normed p)) (fun r => lnth p r / lmass p)).
  - unfold normed at 1. rewrite map_length, rsum_div. field. lra.
  - intros r Hr. apply normed_nth. unfold normed in Hr. rewrite map_length in Hr. exact Hr.
Qed.
Lemma lmass_pos_len : forall (p : list RNum), 0 < lmass p -> (0 < length p)%nat.
Proof. intros [|x p] H; cbn in *; [lra|lia]. Qed.

Definition sq_cost (x y : list RNum) : mat := fun r c => (lnth x r - lnth y c) ^ 2.
Lemma local_1d_ok : forall (x y p q : list RNum), length p = length x -> length q = length y ->
  (forall r, (r < length p)%nat -> 0 <= lnth p r) -> (forall r, (r < length q)%nat -> 0 <= lnth q r) -> 0 < lmass p -> 0 < lmass q ->
  exists es, local_1d (N:=RNum) rpow close x y p q = Ok (es, cost (length x) (length y) (sq_cost x y) (dmat es)) /\
    optimal_coupling (length x) (length y) (fun r => lnth p r / lmass p) (fun c => lnth q c / lmass q) (sq_cost x y) (dmat es).
Proof.
  intros x y p q Lp Lq Hp Hq Mp Mq. pose proof (lmass_pos_len p Mp) as Np. pose proof (lmass_pos_len q Mq) as Nq.
  assert (W : forall (z : list RNum) k, (0 < length z)%nat -> weights (N:=RNum) (Some (normed z)) k = normed z).
  { intros [|z0 z] k Hz; [cbn in Hz; lia|]. reflexivity. }
  assert (LN : forall z : list RNum, length (normed z) = length z) by (intros; unfold normed; apply map_length).
  pose proof (c17 close true x y (Some (normed p)) (Some (normed q)) SqEuclidean 1) as H. cbv zeta in H. rewrite !W in H by auto.
  assert (E1 : mass (length x) (lnth (normed p)) = 1) by (rewrite <- Lp, <- (LN p); apply lmass_normed; auto).
  assert (E2 : mass (length y) (lnth (normed q)) = 1) by (rewrite <- Lq, <- (LN q); apply lmass_normed; auto).
  destruct H as (es & c & H1 & _ & H2 & H3).
  - rewrite LN; auto.
  - rewrite LN; auto.
  - lia.
  - lia.
  - intros r Hr. rewrite normed_nth by lia. apply Rmult_le_pos; [apply Hp; lia|]. left; apply Rinv_0_lt_compat; auto.
  - intros r Hr. rewrite normed_nth by lia. apply Rmult_le_pos; [apply Hq; lia|]. left; apply Rinv_0_lt_compat; auto.
  - lra.
  - lra.
  - discriminate.
  - discriminate.
  - auto.
  - exists es. split.
    + unfold local_1d. etransitivity; [exact H1|]. rewrite H2. reflexivity.
    + revert H3. apply optimal_ext; intros; try reflexivity; rewrite normed_nth by lia; reflexivity.
Qed.

(** ** the plan of the partitioned solver *)
Section Blocks.
Variables (R1 R2 p1 p2 : list (list RNum)) (Tg : nat -> nat -> R).
Hypotheses (S1 : same_shape R1 p1) (S2 : same_shape R2 p2).
Hypotheses (W1 : good_weights p1) (W2 : good_weights p2).

Lemma nth_len : forall (xs ps : list (list RNum)) i, same_shape xs ps -> length (nth i ps []) = length (nth i xs []).
Proof. intros xs ps i H. destruct (shape_len _ _ _ _ H) as (_ & _ & A & _). specialize (A i). unfold blen in A. auto. Qed.
Definition block_optimal (i j : nat) (L : mat) : Prop :=
  optimal_coupling (length (nth i R1 [])) (length (nth j R2 [])) (fun r => lnth (nth i p1 []) r / lmass (nth i p1 [])) (fun c => lnth (nth j p2 []) c / lmass (nth j p2 []))
    (sq_cost (nth i R1 []) (nth j R2 [])) L.

Lemma local_ok : forall i j, (i < length R1)%nat -> (j < length R2)%nat -> exists es, local_1d (N:=RNum) rpow close (nth i R1 []) (nth j R2 []) (nth i p1 []) (nth j p2 []) = Ok (es, cost (length (nth i R1 [])) (length (nth j R2 [])) (sq_cost (nth i R1 []) (nth j R2 [])) (dmat es)) /\ block_optimal i j (dmat es).
Proof.
  intros i j Hi Hj. destruct (shape_len _ _ _ _ S1) as (L1 & _). destruct (shape_len _ _ _ _ S2) as (L2 & _).
  destruct (W1 i) as (A1 & A2); [lia|]. destruct (W2 j) as (B1 & B2); [lia|].
  apply local_1d_ok; auto; apply nth_len; auto.
Qed.
Lemma local_plans_ok : exists tab, local_plans (N:=RNum) rpow close Tg R1 R2 p1 p2 = Some tab /\
  forall i j, (i < length R1)%nat -> (j < length R2)%nat ->
    (Tg i j = 0 -> nth j (nth i tab []) None = None) /\
    (Tg i j <> 0 -> exists es, nth j (nth i tab []) None = Some (es, cost (length (nth i R1 [])) (length (nth j R2 [])) (sq_cost (nth i R1 []) (nth j R2 [])) (dmat es)) /\ block_optimal i j (dmat es)).
Proof.
  assert (C : forall i j, (i < length R1)%nat -> (j < length R2)%nat -> exists y, local_cell (N:=RNum) rpow close Tg R1 R2 p1 p2 i j = Some y).
  { intros i j Hi Hj. unfold local_cell. destruct (@neqb RNum (Tg i j) n0); [eexists; reflexivity|]. destruct (local_ok i j Hi Hj) as (es & E & _). 
    change (carrier RNum) with R in *. rewrite E. eexists; reflexivity. }
  unfold local_plans.
  destruct (all_ok_some _ _ (fun i => all_ok (map (local_cell (N:=RNum) rpow close Tg R1 R2 p1 p2 i) (seq 0 (length R2)))) (seq 0 (length R1))) as (tab & ET).
  { intros i Hi. apply in_seq in Hi. apply all_ok_some. intros j Hj. apply in_seq in Hj. apply C; lia. }
  exists tab. split; [exact ET|]. intros i j Hi Hj.
  destruct (all_ok_nth _ _ _ _ _ ET) as (LT & NT). specialize (NT i 0%nat []). rewrite seq_length, seq_nth in NT by auto. specialize (NT Hi).
  destruct (all_ok_nth _ _ _ _ _ NT) as (LR & NR). specialize (NR j 0%nat None). rewrite seq_length, seq_nth in NR by auto. specialize (NR Hj). rewrite !Nat.add_0_l in NR.
  unfold local_cell in NR. change (@neqb RNum (Tg i j) n0) with (Reqb (Tg i j) 0) in NR. split; intros HT.
  - rewrite (proj2 (Reqb_true _ _) HT) in NR. injection NR as X. symmetry. exact X.
  - rewrite (proj2 (Reqb_false _ _) HT) in NR. destruct (local_ok i j Hi Hj) as (es & E & HO). exists es. split; [|exact HO].
    change (carrier RNum) with R in *. rewrite E in NR. injection NR as X. symmetry. exact X.
Qed.

Variable tab : list (list (option (list (@entry RNum) * RNum))).
Let loc := fun i j => nth j (nth i tab []) None.
Hypothesis Htab : forall i j, (i < length R1)%nat -> (j < length R2)%nat ->
    (Tg i j = 0 -> loc i j = None) /\
    (Tg i j <> 0 -> exists es, loc i j = Some (es, cost (length (nth i R1 [])) (length (nth j R2 [])) (sq_cost (nth i R1 []) (nth j R2 [])) (dmat es)) /\ block_optimal i j (dmat es)).
Definition L_ (i j : nat) : mat := match loc i j with Some (es, _) => dmat es | None => fun _ _ => 0 end.
Lemma build_at : forall r c, build (N:=RNum) Tg loc R1 R2 r c =
  Tg (fst (locate R1 r)) (fst (locate R2 c)) * L_ (fst (locate R1 r)) (fst (locate R2 c)) (snd (locate R1 r)) (snd (locate R2 c)).
Proof.
  intros r c. unfold build, L_. set (i := fst (locate R1 r)). set (j := fst (locate R2 c)). change (@neqb RNum (Tg i j) n0) with (Reqb (Tg i j) 0).
  destruct (Reqb (Tg i j) 0) eqn:E.
  - apply Reqb_true in E. rewrite E. cbn [n0 RNum]. rewrite Rmult_0_l. reflexivity.
  - destruct (loc i j) as [[es co]|]; [reflexivity|]. cbn [n0 RNum]. rewrite Rmult_0_r. reflexivity.
Qed.
Lemma L_opt : forall i j, (i < length R1)%nat -> (j < length R2)%nat -> Tg i j <> 0 -> block_optimal i j (L_ i j).
Proof. intros i j Hi Hj HT. destruct (Htab i j Hi Hj) as (_ & H). destruct (H HT) as (es & E & HO). unfold L_. rewrite E. exact HO. Qed.

(** the specification of a quantized plan: block (i, j) is Tg i j times an optimal local plan *)
Definition quantized_plan (T : mat) : Prop :=
  exists L : nat -> nat -> mat,
    (forall i j, (i < length R1)%nat -> (j < length R2)%nat -> Tg i j <> 0 -> block_optimal i j (L i j)) /\
    (forall i j r c, (i < length R1)%nat -> (j < length R2)%nat -> (r < blen R1 i)%nat -> (c < blen R2 j)%nat ->
       T (off R1 i + r)%nat (off R2 j + c)%nat = Tg i j * L i j r c).
Lemma build_quantized : quantized_plan (build (N:=RNum) Tg loc R1 R2).
Proof.
  exists L_. split; [apply L_opt|]. intros i j r c Hi Hj Hr Hc. rewrite build_at, !locate_off by auto. reflexivity.
Qed.

Definition joined (ps : list (list RNum)) : vec := lnth (concat ps).
Lemma quantized_coupling : forall T, quantized_plan T -> coupling (length R1) (length R2) (fun i => lmass (nth i p1 [])) (fun j => lmass (nth j p2 [])) Tg ->
  coupling (length (concat R1)) (length (concat R2)) (joined p1) (joined p2) T.
Proof.
  intros T (L & HO & HT) (Tn & Tr & Tc).
  destruct (shape_len _ _ _ _ S1) as (L1 & LC1 & BL1 & LOC1). destruct (shape_len _ _ _ _ S2) as (L2 & LC2 & BL2 & LOC2).
  assert (HT' : forall r c, (r < length (concat R1))%nat -> (c < length (concat R2))%nat -> T r c = Tg (fst (locate R1 r)) (fst (locate R2 c)) * L (fst (locate R1 r)) (fst (locate R2 c)) (snd (locate R1 r)) (snd (locate R2 c))).
  { intros r c Hr Hc. destruct (locate_lt _ R1 r Hr) as (A1 & A2 & A3). destruct (locate_lt _ R2 c Hc) as (B1 & B2 & B3). rewrite A3 at 1. rewrite B3 at 1. apply HT; auto. }
  split; [|split].
  - intros r c Hr Hc. rewrite HT' by auto. destruct (locate_lt _ R1 r Hr) as (A1 & A2 & A3). destruct (locate_lt _ R2 c Hc) as (B1 & B2 & B3).
    destruct (Req_dec (Tg (fst (locate R1 r)) (fst (locate R2 c))) 0) as [E|E]; [rewrite E; lra|].
    apply Rmult_le_pos; [apply Tn; auto|]. destruct (HO _ _ A1 B1 E) as ((N1 & _) & _). apply N1; auto.
  - intros r Hr. unfold row_sum. destruct (locate_lt _ R1 r Hr) as (A1 & A2 & A3). set (i := fst (locate R1 r)) in *. set (r' := snd (locate R1 r)) in *.
    rewrite (rsum_ext _ _ (fun c => Tg i (fst (locate R2 c)) * L i (fst (locate R2 c)) r' (snd (locate R2 c)))) by (intros; apply HT'; auto).
    rewrite (rsum_blocks _ R2 (fun j c => Tg i j * L i j r' c)).
    rewrite (rsum_ext _ _ (fun j => Tg i j * (lnth (nth i p1 []) r' / lmass (nth i p1 [])))).
    + rewrite rsum_scal_r. pose proof (Tr i A1) as E. unfold row_sum in E.
      transitivity (lmass (nth i p1 []) * (lnth (nth i p1 []) r' / lmass (nth i p1 []))); [f_equal; exact E|].
      unfold joined. replace (lnth (concat p1) r) with (lnth (nth i p1 []) r') by (unfold lnth; rewrite nth_concat by (rewrite <- LC1; lia); rewrite <- LOC1; reflexivity).
      destruct (W1 i) as (_ & P); [lia|]. field. lra.
    + intros j Hj. rewrite rsum_scal. destruct (Req_dec (Tg i j) 0) as [E|E]; [rewrite E; lra|]. f_equal.
      destruct (HO i j A1 Hj E) as ((_ & N1 & _) & _). apply (N1 r'). exact A2.
  - intros c Hc. unfold col_sum. destruct (locate_lt _ R2 c Hc) as (A1 & A2 & A3). set (j := fst (locate R2 c)) in *. set (c' := snd (locate R2 c)) in *.
    rewrite (rsum_ext _ _ (fun r => Tg (fst (locate R1 r)) j * L (fst (locate R1 r)) j (snd (locate R1 r)) c')) by (intros; apply HT'; auto).
    rewrite (rsum_blocks _ R1 (fun i r => Tg i j * L i j r c')).
    rewrite (rsum_ext _ _ (fun i => Tg i j * (lnth (nth j p2 []) c' / lmass (nth j p2 [])))).
    + rewrite rsum_scal_r. pose proof (Tc j A1) as E. unfold col_sum in E.
      transitivity (lmass (nth j p2 []) * (lnth (nth j p2 []) c' / lmass (nth j p2 []))); [f_equal; exact E|].
      unfold joined. replace (lnth (concat p2) c) with (lnth (nth j p2 []) c') by (unfold lnth; rewrite nth_concat by (rewrite <- LC2; lia); rewrite <- LOC2; reflexivity).
      destruct (W2 j) as (_ & P); [lia|]. field. lra.
    + intros i Hi. rewrite rsum_scal. destruct (Req_dec (Tg i j) 0) as [E|E]; [rewrite E; lra|]. f_equal.
      destruct (HO i j Hi A1 E) as ((_ & _ & N1) & _). apply (N1 c'). exact A2.
Qed.
End Blocks.
End Plans.
