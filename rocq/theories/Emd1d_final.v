(** Final forms of the one-dimensional results (used by P_Emd1d.v). *)
From Coq Require Import List Arith Bool Reals Lra Lia Permutation.
From Verif Require Import Num Sums Spec Monge Perm Emd1d_model Emd1d_proofs Emd1d_perm_proofs W1d_model W1d_proofs.
Import ListNotations.

(** consecutive cells differ by one step down or one step right *)
Definition step_ok {N : NumOps} (e f : @entry N) : Prop :=
  (snd (fst f) = S (snd (fst e)) /\ snd f = snd e) \/ (snd (fst f) = snd (fst e) /\ snd f = S (snd e)).

Lemma staircase_steps : forall {N : NumOps} (es : list (@entry N)) n m i j, staircase n m i j es ->
  forall k d, S k < length es -> step_ok (nth k es d) (nth (S k) es d).
Proof.
  induction es as [|[[w i'] j'] es IH]; intros n m i j H k d Hk; [destruct H|].
  cbn [staircase] in H. destruct H as (-> & -> & Hi & Hj & H).
  destruct es as [|e es]; [simpl in Hk; lia|].
  destruct k as [|k].
  - cbn [nth]. destruct e as [[w2 i2] j2]. destruct H as [H|H]; cbn [staircase] in H;
    destruct H as (-> & -> & _); [left|right]; split; reflexivity.
  - destruct H as [H|H]; apply (IH _ _ _ _ H); simpl in *; lia.
Qed.

Lemma c14 : forall (N : NumOps) (powf : N -> N -> N) (uw vw u v : list N) mt p,
  length u = length uw -> length v = length vw -> mt <> MOther ->
  0 < length uw -> 0 < length vw ->
  exists es c, emd_1d_sorted powf uw vw u v mt p = Ok (es, c)
    /\ 0 < length es <= length uw + length vw - 1
    /\ Forall (fun e => snd (fst e) < length uw /\ snd e < length vw) es
    /\ NoDup (map (fun e => (snd (fst e), snd e)) es)
    /\ (forall k d, S k < length es -> step_ok (nth k es d) (nth (S k) es d)).
Proof.
  intros N powf uw vw u v mt p H1 H2 H3 H4 H5.
  destruct (emd_1d_sorted_total powf uw vw u v mt p H1 H2 H3 H4 H5) as (es & c & E & S & L).
  exists es, c. split; auto. split; [|split; [|split]].
  - destruct es; [destruct S|]. simpl in *; lia.
  - apply staircase_range in S. eapply Forall_impl; [|exact S]. intros e [A B]; lia.
  - eapply staircase_nodup; eauto.
  - eapply staircase_steps; eauto.
Qed.

Lemma c14_empty : forall (N : NumOps) (powf : N -> N -> N) (vw u v : list N) mt p,
  emd_1d_sorted powf [] vw u v mt p = OutOfBounds.
Proof. reflexivity. Qed.

Local Open Scope R_scope.

Lemma c16_sorted : forall (uw vw u v : list RNum) mt (p : R),
  let n := length uw in let m := length vw in
  let a := lnth uw in let b := lnth vw in
  let M := fun i j => metric_cost mt p (lnth u i) (lnth v j) in
  (0 < n)%nat -> (0 < m)%nat -> length u = n -> length v = m ->
  nonneg_vec n a -> nonneg_vec m b -> mass n a = mass m b ->
  mt <> MOther ->
  exists es, emd_1d_sorted (N:=RNum) rpow uw vw u v mt p = Ok (es, cost n m M (dmat es))
    /\ coupling n m a b (dmat es)
    /\ (sorted n (lnth u) -> sorted m (lnth v) -> (mt = Minkowski -> 1 <= p) ->
        optimal_coupling n m a b M (dmat es)).
Proof.
  intros uw vw u v mt p n m a b M Hn Hm Lu Lv Ha Hb Hab Hmt.
  destruct (sorted_run uw vw u v mt p Ha Hb Hab Lu Lv Hmt Hn Hm) as (es & E & R & C & F).
  assert (EM : forall i j, gfun mt p (lnth u i) (lnth v j) = M i j) by (intros; apply gfun_metric).
  exists es. split; [|split; auto].
  - rewrite E. f_equal. f_equal. apply cost_ext; auto.
  - intros Su Sv Hp. apply monge_min_optimal; auto.
    destruct (gfun_convex mt p Hmt Hp) as (h & Hc & Hh).
    intros k l Hk Hl. rewrite <- !EM, !Hh. apply (convex_monge n m (lnth u) (lnth v) h); auto.
Qed.

(** the plan does not depend on the cost and is optimal for every Monge cost *)
Lemma c16_monge : forall (uw vw u v : list RNum) mt (p : R) (M : mat),
  let n := length uw in let m := length vw in
  let a := lnth uw in let b := lnth vw in
  (0 < n)%nat -> (0 < m)%nat -> length u = n -> length v = m ->
  nonneg_vec n a -> nonneg_vec m b -> mass n a = mass m b -> mt <> MOther ->
  monge n m M ->
  exists es c, emd_1d_sorted (N:=RNum) rpow uw vw u v mt p = Ok (es, c)
    /\ optimal_coupling n m a b M (dmat es).
Proof.
  intros uw vw u v mt p M n m a b Hn Hm Lu Lv Ha Hb Hab Hmt HM.
  destruct (sorted_run uw vw u v mt p Ha Hb Hab Lu Lv Hmt Hn Hm) as (es & E & R & C & F).
  exists es; eexists; split; [exact E|]. apply monge_min_optimal; auto.
Qed.

(** emd_1d / emd2_1d on raw (unsorted) samples with explicit or default weights *)
Lemma c17 : forall close chk (xa xb : list RNum) (oa ob : option (list RNum)) mt p,
  let n := length xa in let m := length xb in
  let a := weights oa n in let b := weights ob m in
  let M := fun i j => metric_cost mt p (lnth xa i) (lnth xb j) in
  length a = n -> length b = m -> (0 < n)%nat -> (0 < m)%nat ->
  nonneg_vec n (lnth a) -> nonneg_vec m (lnth b) -> mass n (lnth a) = mass m (lnth b) ->
  0 < mass m (lnth b) ->
  mt <> MOther -> (mt = Minkowski -> 1 <= p) ->
  (forall x, close x x = true) ->
  exists es c, emd_1d (N:=RNum) rpow close chk xa xb oa ob mt p = Ok (es, c)
    /\ emd2_1d (N:=RNum) rpow close chk xa xb oa ob mt p = Ok c
    /\ c = cost n m M (dmat es)
    /\ optimal_coupling n m (lnth a) (lnth b) M (dmat es).
Proof.
  intros close chk xa xb oa ob mt p n m a b M La Lb Hn Hm Ha Hb Hab Hs Hmt Hp Hc.
  destruct (emd_1d_run close chk xa xb oa ob mt p La Lb Hn Hm Ha Hb Hs Hmt Hp) as (es & E & O).
  { right. unfold mass in Hab. fold n m a b. rewrite Hab. apply Hc. }
  fold n m a b in E, O.
  assert (EM : forall i j, gcost xa xb mt p i j = M i j) by (intros; apply gfun_metric).
  exists es; eexists. split; [exact E|]. split; [unfold emd2_1d; rewrite E; reflexivity|].
  split; [apply cost_ext; auto|].
  eapply optimal_ext; [| | | |exact O]; auto.
  intros j Hj. unfold rescaled_b. fold n m. unfold mass in *. rewrite Hab. field. lra.
Qed.

(** masses off by a tolerance: b is rescaled to the mass of a *)
Lemma c15_rescale : forall close chk (xa xb : list RNum) (oa ob : option (list RNum)) mt p,
  let n := length xa in let m := length xb in
  let a := weights oa n in let b := weights ob m in
  length a = n -> length b = m -> (0 < n)%nat -> (0 < m)%nat ->
  nonneg_vec n (lnth a) -> nonneg_vec m (lnth b) -> 0 < mass m (lnth b) ->
  mt <> MOther -> (mt = Minkowski -> 1 <= p) ->
  (chk = false \/ close (mass n (lnth a)) (mass m (lnth b)) = true) ->
  exists es c, emd_1d (N:=RNum) rpow close chk xa xb oa ob mt p = Ok (es, c)
    /\ coupling n m (lnth a) (fun j => lnth b j * (mass n (lnth a) / mass m (lnth b))) (dmat es).
Proof.
  intros close chk xa xb oa ob mt p n m a b La Lb Hn Hm Ha Hb Hs Hmt Hp Hc.
  destruct (emd_1d_run close chk xa xb oa ob mt p La Lb Hn Hm Ha Hb Hs Hmt Hp Hc) as (es & E & O & _).
  exists es; eexists. split; [exact E|]. fold n m a b in O.
  eapply coupling_ext; [| | |exact O]; auto.
  intros j Hj. unfold rescaled_b, mass. fold n m. field. unfold mass in Hs. lra.
Qed.

(** wasserstein_1d *)
Definition wmetric (p x y : R) : R := if Req_EM_T p 1 then Rabs (x - y) else rpow (Rabs (x - y)) p.

Lemma c18 : forall (u v uw vw : list RNum) p (require_sort : bool),
  let n := length u in let m := length v in
  let M := fun i j => wmetric p (lnth u i) (lnth v j) in
  length uw = n -> length vw = m -> (0 < n)%nat -> (0 < m)%nat ->
  nonneg_vec n (lnth uw) -> nonneg_vec m (lnth vw) -> mass n (lnth uw) = mass m (lnth vw) ->
  1 <= p ->
  (require_sort = false -> sorted n (lnth u) /\ sorted m (lnth v)) ->
  exists w es, wasserstein_1d (N:=RNum) rpow u v (Some uw) (Some vw) p require_sort = Ok (w, es)
    /\ w = cost n m M (dmat es)
    /\ optimal_coupling n m (lnth uw) (lnth vw) M (dmat es).
Proof.
  intros u v uw vw p rs n m M Lu Lv Hn Hm Ha Hb Hab Hp Hrs.
  assert (Id : forall x : list RNum, sorted (length x) (lnth x) -> sorts x (seq 0 (length x))).
  { intros x Hx. split; auto. intros k Hk. unfold pfun. rewrite !seq_nth by lia. apply Hx; auto. }
  assert (H : exists pu pv, sorts u pu /\ sorts v pv /\
     wasserstein_1d (N:=RNum) rpow u v (Some uw) (Some vw) p rs
       = wasserstein_1d_with_perm (N:=RNum) rpow u v uw vw p pu pv).
  { unfold wasserstein_1d. change (@nleb RNum n1 p) with (Rleb 1 p).
    assert (Rleb 1 p = true) as -> by (apply Rleb_true; auto).
    destruct rs.
    - exists (argsort u), (argsort v). split; [apply argsort_sorts|split; [apply argsort_sorts|reflexivity]].
    - destruct (Hrs eq_refl) as [S1 S2]. exists (seq 0 (length u)), (seq 0 (length v)). auto. }
  destruct H as (pu & pv & S1 & S2 & E).
  destruct (w1d_run u v uw vw p pu pv Lu Lv Hn Hm Ha Hb Hab S1 S2 Hp) as (es & E' & O).
  fold n m in E', O.
  assert (EM : forall i j, gcost u v (w1_metric p) p i j = M i j).
  { intros. unfold gcost. rewrite gfun_metric. unfold M, wmetric, w1_metric, Reqb.
    destruct (Req_EM_T p 1); reflexivity. }
  rewrite E, E'. eexists; exists es. split; [reflexivity|]. split; [apply cost_ext; auto|].
  eapply optimal_ext; [| | | |exact O]; auto.
Qed.

(** hence wasserstein_1d and emd2_1d return the same number *)
Lemma c18_emd2 : forall close chk (u v uw vw : list RNum) p,
  let n := length u in let m := length v in
  length uw = n -> length vw = m -> (0 < n)%nat -> (0 < m)%nat ->
  nonneg_vec n (lnth uw) -> nonneg_vec m (lnth vw) -> mass n (lnth uw) = mass m (lnth vw) ->
  0 < mass m (lnth vw) -> 1 <= p -> (forall x, close x x = true) ->
  exists w es, wasserstein_1d (N:=RNum) rpow u v (Some uw) (Some vw) p true = Ok (w, es)
    /\ emd2_1d (N:=RNum) rpow close chk u v (Some uw) (Some vw)
         (if Reqb p 1 then CityBlock else Minkowski) p = Ok w.
Proof.
  intros close chk u v uw vw p n m Lu Lv Hn Hm Ha Hb Hab Hs Hp Hc.
  destruct (c18 u v uw vw p true Lu Lv Hn Hm Ha Hb Hab Hp ltac:(discriminate)) as (w & es & E & Ew & O).
  exists w, es. split; auto.
  assert (W1 : weights (N:=RNum) (Some uw) n = uw).
  { destruct uw; [cbn in Lu; rewrite <- Lu in Hn; lia|reflexivity]. }
  assert (W2 : weights (N:=RNum) (Some vw) m = vw).
  { destruct vw; [cbn in Lv; rewrite <- Lv in Hm; lia|reflexivity]. }
  pose proof (c17 close chk u v (Some uw) (Some vw) (w1_metric p) p) as H.
  cbv zeta in H. fold n m in H. rewrite W1, W2 in H.
  destruct H as (es2 & c & E1 & E2 & Ec & O2); auto.
  { unfold w1_metric; destruct (Reqb p 1); discriminate. }
  change (if Reqb p 1 then CityBlock else Minkowski) with (w1_metric p). rewrite E2. f_equal.
  rewrite Ec, Ew.
  assert (EM : forall i j, metric_cost (w1_metric p) p (lnth u i) (lnth v j) = wmetric p (lnth u i) (lnth v j)).
  { intros. unfold wmetric, w1_metric, Reqb. destruct (Req_EM_T p 1); reflexivity. }
  rewrite (cost_ext n m _ (fun i j => wmetric p (lnth u i) (lnth v j)) (dmat es2) (dmat es2)) by auto.
  apply Rle_antisym.
  - destruct O2 as [_ O2]. specialize (O2 (dmat es) (proj1 O)).
    rewrite (cost_ext n m _ (fun i j => wmetric p (lnth u i) (lnth v j)) (dmat es2) (dmat es2)) in O2 by auto.
    rewrite (cost_ext n m _ (fun i j => wmetric p (lnth u i) (lnth v j)) (dmat es) (dmat es)) in O2 by auto.
    exact O2.
  - apply (proj2 O). apply (proj1 O2).
Qed.
