(** Transport between finite families of points of any space, and facts about the model of gmm.py at R. *)
From Coq Require Import Reals Lra Lia List Arith Bool.
From Verif Require Import Num Sums Spec Mat Monge Wp Sliced_proofs Sliced_plans Entropy Emd1d_model Optim_model Utils_model Da_model Duals_proofs Fsb_model Fsb_proofs Da_reg_proofs NS_dense Gaussian_model Gaussian_proofs Gaussian_emp P_Gaussian Gmm_model.
Import ListNotations.
Local Open Scope R_scope.

(** ** squared distances: the root of the transport value is a distance *)
Lemma ot2_triangle : forall n m l a b c (D12 D23 D13 : mat) w1 w2 w3, (0 < n)%nat -> (0 < m)%nat -> (0 < l)%nat ->
  (forall i j, (i < n)%nat -> (j < m)%nat -> 0 <= D12 i j) -> (forall i j, (i < m)%nat -> (j < l)%nat -> 0 <= D23 i j) -> (forall i j, (i < n)%nat -> (j < l)%nat -> 0 <= D13 i j) ->
  (forall i j k, (i < n)%nat -> (j < m)%nat -> (k < l)%nat -> D13 i k <= D12 i j + D23 j k) ->
  ot_value n m a b (fun i j => (D12 i j) ^ 2) w1 -> ot_value m l b c (fun i j => (D23 i j) ^ 2) w2 -> ot_value n l a c (fun i j => (D13 i j) ^ 2) w3 ->
  sqrt w3 <= sqrt w1 + sqrt w2.
Proof.
  intros n m l a b c D12 D23 D13 w1 w2 w3 Hn Hm Hl P12 P23 P13 T (G & [CG _] & ->) (H & [CH _] & ->) V3.
  set (cl := fun (q i : nat) => if Nat.ltb i q then i else 0%nat).
  assert (Hc : forall q i, (0 < q)%nat -> (cl q i < q)%nat) by (intros q i Hq; unfold cl; destruct (Nat.ltb_spec i q); auto).
  assert (Ec : forall q i, (i < q)%nat -> cl q i = i) by (intros q i Hq; unfold cl; destruct (Nat.ltb_spec i q); auto; lia).
  assert (Tr := triangle n m l a b c G H CG CH 2 (fun i j => D12 (cl n i) (cl m j)) (fun i j => D23 (cl m i) (cl l j)) (fun i j => D13 (cl n i) (cl l j)) ltac:(lra)
    ltac:(intros; apply P12; auto) ltac:(intros; apply P23; auto) ltac:(intros; apply P13; auto) ltac:(intros; apply T; auto)).
  assert (E : forall n m (D : mat) G, (forall i j, (i < n)%nat -> (j < m)%nat -> 0 <= D i j) -> cost n m (fun i j => rpow (D (cl n i) (cl m j)) 2) G = cost n m (fun i j => (D i j) ^ 2) G).
  { intros n' m' D G' PD. unfold cost. apply rsum_ext; intros i Hi. apply rsum_ext; intros j Hj. rewrite !Ec by auto. rewrite <- (Rabs_pos_eq (D i j)) at 1 by auto. rewrite rpow_2. reflexivity. }
  cbv beta in Tr. rewrite (E n m D12), (E m l D23), (E n l D13) in Tr by auto.
  assert (Q : forall n m (D : mat) G, nonneg_mat n m G -> 0 <= cost n m (fun i j => (D i j) ^ 2) G) by (intros; apply cost_nonneg; auto; intros; apply pow2_ge_0).
  assert (CC := composed_coupling n m l a b c G H CG CH).
  rewrite !rpow_half in Tr; [|apply Q; apply CH|apply Q; apply CG|apply Q; apply CC].
  eapply Rle_trans; [|exact Tr]. apply sqrt_le_1_alt. apply (ot_value_le _ _ _ _ _ _ _ V3 CC).
Qed.

(** ** the value is zero exactly when the two weighted families are the same measure *)
Section Zero.
Variables (T : Type) (delta : T -> T -> R).
Definition eqv (x y : T) : Prop := delta x y = 0.
Hypotheses (Er : forall x, eqv x x) (Es : forall x y, eqv x y -> eqv y x) (Et : forall x y z, eqv x y -> eqv y z -> eqv x z).
Definition ind (x y : T) : R := if Req_EM_T (delta x y) 0 then 1 else 0.
Lemma ind_1 : forall x y, eqv x y -> ind x y = 1.
Proof. intros x y E. unfold ind. destruct (Req_EM_T (delta x y) 0); auto. contradiction. Qed.
Lemma ind_0 : forall x y, ~ eqv x y -> ind x y = 0.
Proof. intros x y E. unfold ind. destruct (Req_EM_T (delta x y) 0); auto. contradiction. Qed.
Lemma ind_dec : forall x y, eqv x y \/ ~ eqv x y.
Proof. intros x y. unfold eqv. destruct (Req_EM_T (delta x y) 0); auto. Qed.
Lemma ind_nonneg : forall x y, 0 <= ind x y.
Proof. intros. unfold ind. destruct (Req_EM_T (delta x y) 0); lra. Qed.
Lemma ind_resp : forall x y z, eqv x y -> ind x z = ind y z.
Proof.
  intros x y z E. destruct (ind_dec x z) as [H|H].
  - rewrite !ind_1; auto. eapply Et; [apply Es; exact E|exact H].
  - rewrite !ind_0; auto. intros H'. apply H. eapply Et; eauto.
Qed.
(** same integral of every function that does not distinguish equivalent points *)
Definition same_measure (n m : nat) (P Q : nat -> T) (a b : vec) : Prop :=
  forall phi : T -> R, (forall x y, eqv x y -> phi x = phi y) -> rsum n (fun i => a i * phi (P i)) = rsum m (fun j => b j * phi (Q j)).
Variables (n m : nat) (P Q : nat -> T) (a b : vec) (M : mat).
Hypotheses (Ha : forall i, (i < n)%nat -> 0 <= a i) (Hb : forall j, (j < m)%nat -> 0 <= b j).
Hypotheses (HM : forall i j, (i < n)%nat -> (j < m)%nat -> 0 <= M i j /\ (M i j = 0 <-> eqv (P i) (Q j))).
Lemma zero_same : forall G, coupling n m a b G -> cost n m M G = 0 -> same_measure n m P Q a b.
Proof.
  intros G (PG & RG & CG) E phi Hphi. unfold cost in E.
  assert (Z : forall i j, (i < n)%nat -> (j < m)%nat -> G i j * phi (P i) = G i j * phi (Q j)).
  { intros i j Hi Hj.
    assert (E1 := rsum_nonneg_zero n _ (fun i Hi => rsum_nonneg m _ (fun j Hj => Rmult_le_pos _ _ (proj1 (HM i j Hi Hj)) (PG i j Hi Hj))) E i Hi).
    assert (E2 := rsum_nonneg_zero m _ (fun j Hj => Rmult_le_pos _ _ (proj1 (HM i j Hi Hj)) (PG i j Hi Hj)) E1 j Hj). cbv beta in E2.
    destruct (Rmult_integral _ _ E2) as [E3|E3]; [|rewrite E3; ring]. apply (HM i j Hi Hj) in E3. rewrite (Hphi _ _ E3). reflexivity. }
  transitivity (rsum n (fun i => rsum m (fun j => G i j * phi (P i)))).
  - apply rsum_ext; intros i Hi. rewrite rsum_scal_r. f_equal. symmetry. apply RG; auto.
  - rewrite rsum_swap. apply rsum_ext; intros j Hj. rewrite <- (CG j Hj). unfold col_sum. rewrite <- rsum_scal_r. apply rsum_ext; intros; auto.
Qed.
Definition clw (j : nat) : R := rsum m (fun j' => b j' * ind (Q j') (Q j)).
Definition match_plan (i j : nat) : R := a i * b j * ind (P i) (Q j) / clw j.
Lemma clw_nonneg : forall j, 0 <= clw j.
Proof. intros. apply rsum_nonneg; intros. apply Rmult_le_pos; auto. apply ind_nonneg. Qed.
Lemma match_coupling : same_measure n m P Q a b -> coupling n m a b match_plan.
Proof.
  intros S. split; [|split].
  - intros i j Hi Hj. unfold match_plan. destruct (Req_dec (clw j) 0) as [E|E]; [rewrite E; unfold Rdiv; rewrite Rinv_0; lra|].
    apply Rle_mult_inv_pos; [|pose proof (clw_nonneg j); lra]. apply Rmult_le_pos; [apply Rmult_le_pos; auto|apply ind_nonneg].
  - intros i Hi. unfold row_sum, match_plan. set (beta := rsum m (fun j' => b j' * ind (Q j') (P i))).
    assert (E : forall j, (j < m)%nat -> a i * b j * ind (P i) (Q j) / clw j = a i / beta * (b j * ind (Q j) (P i))).
    { intros j Hj. destruct (ind_dec (P i) (Q j)) as [H|H].
      - replace (clw j) with beta; [rewrite !ind_1 by auto; unfold Rdiv; ring|]. unfold beta, clw. apply rsum_ext; intros j' Hj'. f_equal.
        destruct (ind_dec (Q j') (P i)) as [H'|H']; [rewrite !ind_1; eauto|rewrite !ind_0; eauto].
      - rewrite !ind_0; auto. unfold Rdiv. ring. }
    rewrite (rsum_ext m _ _ E), rsum_scal. fold beta. destruct (Req_dec beta 0) as [Eb|Eb]; [|field; auto].
    rewrite Eb, Rmult_0_r. assert (S' := S (fun x => ind x (P i)) (fun x y H => ind_resp x y (P i) H)). cbv beta in S'. fold beta in S'. rewrite Eb in S'.
    assert (A := rsum_nonneg_zero n _ (fun i' Hi' => Rmult_le_pos _ _ (Ha i' Hi') (ind_nonneg (P i') (P i))) S' i Hi). cbv beta in A. rewrite ind_1 in A by auto. lra.
  - intros j Hj. unfold col_sum, match_plan.
    assert (S' := S (fun x => ind x (Q j)) (fun x y H => ind_resp x y (Q j) H)). cbv beta in S'. fold (clw j) in S'.
    rewrite (rsum_ext n _ (fun i => b j / clw j * (a i * ind (P i) (Q j)))) by (intros; unfold Rdiv; ring). rewrite rsum_scal, S'.
    destruct (Req_dec (clw j) 0) as [E|E]; [|field; auto]. rewrite E, Rmult_0_r.
    assert (A := rsum_nonneg_zero m _ (fun j' Hj' => Rmult_le_pos _ _ (Hb j' Hj') (ind_nonneg (Q j') (Q j))) E j Hj). cbv beta in A. rewrite ind_1 in A by auto. lra.
Qed.
Lemma match_cost : cost n m M match_plan = 0.
Proof.
  unfold cost. apply rsum_0; intros i Hi. apply rsum_0; intros j Hj. unfold match_plan. destruct (ind_dec (P i) (Q j)) as [H|H].
  - rewrite (proj2 (proj2 (HM i j Hi Hj)) H). ring.
  - rewrite ind_0 by auto. unfold Rdiv. ring.
Qed.
Theorem ot_zero_iff : forall w, ot_value n m a b M w -> (w = 0 <-> same_measure n m P Q a b).
Proof.
  intros w V. split.
  - intros ->. destruct V as (G & [CG _] & E). apply (zero_same G CG). auto.
  - intros S. apply Rle_antisym; [rewrite <- match_cost; apply (ot_value_le _ _ _ _ _ _ _ V), match_coupling; auto|].
    destruct V as (G & [[PG _] _] & ->). apply cost_nonneg; auto. intros; apply HM; auto.
Qed.
End Zero.

(** ** the cost matrix *)
Lemma trace_R : forall d (A : mat), trace (N:=RNum) d A = tr d A.
Proof. intros. unfold trace. apply nsum_R. Qed.
Lemma dist_R : forall sqrtm inv d ms mt Cs Ct i j, pair_ok sqrtm inv d (Cs i) (Ct j) ->
  dist_bures_squared (N:=RNum) sqrtm d ms mt Cs Ct i j = (bures_wasserstein_distance (N:=RNum) sqrtm sqrt d (ms i) (mt j) (Cs i) (Ct j)) ^ 2.
Proof.
  intros sqrtm inv d ms mt Cs Ct i j H. rewrite (bw_R _ _ _ _ _ _ _ H). destruct (bures_R _ _ _ _ _ H) as [_ P].
  pose proof (dot_nonneg d (fun t => ms i t - mt j t)) as Q. cbn [pow]. rewrite Rmult_1_r, sqrt_sqrt by lra.
  unfold dist_bures_squared. cbv zeta. rewrite nmax_R, sq_cost_R, !trace_R. unfold bsq, two in *. cbn. fold (Mof sqrtm d (Cs i) (Ct j)).
  rewrite Rmax_left.
  - unfold sqeu, Mat.dot. rewrite (rsum_ext d (fun t => (ms i t - mt j t) ^ 2) (fun t => (ms i t - mt j t) * (ms i t - mt j t))) by (intros; ring). ring.
  - assert (E : sqeu d ms mt i j = Mat.dot d (fun t => ms i t - mt j t) (fun t => ms i t - mt j t)) by (unfold sqeu, Mat.dot; apply rsum_ext; intros; ring). rewrite E. lra.
Qed.

(** ** the maps *)
Lemma mvec_R : forall d A x s, mvec (N:=RNum) d A x s = rsum d (fun t => A s t * x t).
Proof. intros. unfold mvec. apply nsum_R. Qed.
Lemma fold_add : forall (A : Type) (f : A -> vec) l (o : vec) t, fold_left (fun (out : vec) x => (fun t => out t + f x t)) l o t = o t + fold_right (fun x acc => f x t + acc) 0 l.
Proof.
  induction l as [|x l IH]; intros o t; cbn [fold_left fold_right]; [ring|]. rewrite IH. ring.
Qed.
Lemma fr_app : forall (A : Type) (f : A -> R) l l', fold_right (fun x acc => f x + acc) 0 (l ++ l') = fold_right (fun x acc => f x + acc) 0 l + fold_right (fun x acc => f x + acc) 0 l'.
Proof. induction l as [|x l IH]; intros l'; cbn [app fold_right]; [ring|]. rewrite IH. ring. Qed.
Lemma fr_seq : forall (f : nat -> R) k, fold_right (fun x acc => f x + acc) 0 (seq 0 k) = rsum k f.
Proof. intros f k. induction k as [|k IH]; auto. rewrite seq_S, fr_app, IH. cbn [fold_right rsum Nat.add]. ring. Qed.
Lemma fr_flat : forall (A B : Type) (f : B -> R) (g : A -> list B) l, fold_right (fun x acc => f x + acc) 0 (flat_map g l) = fold_right (fun x acc => fold_right (fun x acc => f x + acc) 0 (g x) + acc) 0 l.
Proof. induction l as [|x l IH]; cbn [flat_map fold_right]; auto. rewrite fr_app, IH. reflexivity. Qed.
Lemma fr_filter : forall (f : nat -> R) (p : nat -> bool) l, (forall x, p x = false -> f x = 0) -> fold_right (fun x acc => f x + acc) 0 (filter p l) = fold_right (fun x acc => f x + acc) 0 l.
Proof. intros f p l H. induction l as [|x l IH]; cbn [filter fold_right]; auto. destruct (p x) eqn:E; cbn [fold_right]; rewrite IH; auto. rewrite H by auto. ring. Qed.
Lemma fr_map : forall (A B : Type) (f : B -> R) (g : A -> B) l, fold_right (fun x acc => f x + acc) 0 (map g l) = fold_right (fun x acc => f (g x) + acc) 0 l.
Proof. induction l as [|x l IH]; cbn [map fold_right]; auto. rewrite IH; auto. Qed.
Lemma fr_ext : forall (A : Type) (f g : A -> R) l, (forall x, In x l -> f x = g x) -> fold_right (fun x acc => f x + acc) 0 l = fold_right (fun x acc => g x + acc) 0 l.
Proof. induction l as [|x l IH]; intros H; cbn [fold_right]; auto. rewrite IH, H; auto; [left; auto|intros; apply H; right; auto]. Qed.
(** a sum over the positive entries of a nonnegative plan *)
Lemma where_sum : forall ks kt (plan : mat) (f : nat -> nat -> R), (forall i j, (i < ks)%nat -> (j < kt)%nat -> 0 <= plan i j) -> (forall i j, plan i j = 0 -> f i j = 0) ->
  fold_right (fun ij acc => f (fst ij) (snd ij) + acc) 0 (where_pos (N:=RNum) ks kt plan) = rsum ks (fun i => rsum kt (fun j => f i j)).
Proof.
  intros ks kt plan f HP Hf. unfold where_pos. rewrite (fr_flat _ _ (fun ij : nat * nat => f (fst ij) (snd ij))), <- (fr_seq (fun i => rsum kt (fun j => f i j))).
  apply (fr_ext _ (fun i => _) (fun i => rsum kt (fun j => f i j))). intros i Hi. apply in_seq in Hi. rewrite (fr_map _ _ (fun ij : nat * nat => f (fst ij) (snd ij))). cbn [fst snd].
  rewrite <- fr_seq.
  assert (G : forall l, (forall j, In j l -> (j < kt)%nat) -> fold_right (fun x acc => f i x + acc) 0 (filter (fun j => nltb (n:=RNum) n0 (plan i j)) l) = fold_right (fun x acc => f i x + acc) 0 l).
  { induction l as [|j l IH]; intros Hl; cbn [filter fold_right]; auto. destruct (nltb (n:=RNum) n0 (plan i j)) eqn:E; cbn [fold_right]; rewrite IH by (intros; apply Hl; right; auto); auto.
    apply Rltb_false in E. cbn in E. rewrite (Hf i j); [ring|]. apply Rle_antisym; [lra|]. apply HP; [lia|apply Hl; left; auto]. }
  apply G. intros j Hj. apply in_seq in Hj. lia.
Qed.

(** the Gaussian map from component (m, C) to (m', C'): x -> m' + (x - m) A *)
Definition gmap (d : nat) (A : mat) (m m' x : vec) : vec := fun t => m' t + rsum d (fun s => (x s - m s) * A s t).
Lemma gmap_bary : forall sqrtm inv d ms mt Cs Ct x t, pair_ok sqrtm inv d Cs Ct -> (t < d)%nat ->
  let A := bures_A (N:=RNum) sqrtm inv d Cs Ct in vdot (N:=RNum) d x A t + (mt t - mvec (N:=RNum) d A ms t) = gmap d A ms mt x t.
Proof.
  intros sqrtm inv d ms mt Cs Ct x t H Ht A. destruct (A_facts _ _ _ _ _ H) as [Sy _]. fold A in Sy. rewrite vdot_R, mvec_R. unfold gmap.
  rewrite (rsum_ext d (fun t0 => A t t0 * ms t0) (fun s => ms s * A s t)).
  - rewrite (rsum_ext d (fun s => (x s - ms s) * A s t) (fun s => x s * A s t - ms s * A s t)) by (intros; ring). rewrite rsum_minus. ring.
  - intros s Hs. rewrite <- (Sy t s Ht Hs). unfold tp. ring.
Qed.
Lemma gmap_rand : forall sqrtm inv d ms mt Cs Ct x t, pair_ok sqrtm inv d Cs Ct -> (t < d)%nat ->
  let A := bures_A (N:=RNum) sqrtm inv d Cs Ct in mvec (N:=RNum) d A x t + (mt t - mvec (N:=RNum) d A ms t) = gmap d A ms mt x t.
Proof.
  intros sqrtm inv d ms mt Cs Ct x t H Ht A. etransitivity; [|exact (gmap_bary sqrtm inv d ms mt Cs Ct x t H Ht)]. fold A. destruct (A_facts _ _ _ _ _ H) as [Sy _]. fold A in Sy.
  f_equal. rewrite vdot_R, mvec_R. apply rsum_ext; intros s Hs. rewrite <- (Sy t s Ht Hs). unfold tp. ring.
Qed.
