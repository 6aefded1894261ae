From Coq Require Import List Arith Bool Reals Lra Lia Permutation.
From Verif Require Import Num Sums Spec Monge Perm Emd1d_model Emd1d_proofs Emd1d_perm_proofs W1d_model.
Import ListNotations.
Local Open Scope R_scope.

Lemma psum_mono : forall n a k k', nonneg_vec n a -> (k <= k' <= n)%nat -> rsum k a <= rsum k' a.
Proof. exact cum_mono. Qed.

Lemma cumsum_from_length : forall (l : list RNum) s, length (cumsum_from s l) = length l.
Proof. induction l; simpl; auto. Qed.

Lemma cumsum_from_nth : forall (l : list RNum) s k, (k < length l)%nat ->
  lnth (cumsum_from s l) k = s + rsum (S k) (lnth l).
Proof.
  induction l as [|x l IH]; intros s k Hk; [cbn [length] in Hk; lia|].
  rewrite rsum_first. destruct k as [|k].
  - unfold lnth; simpl. lra.
  - change (lnth (cumsum_from s (x :: l)) (S k)) with (lnth (cumsum_from (N:=RNum) (s + x) l) k).
    rewrite IH by (cbn [length] in Hk; lia).
    change (lnth (x :: l) 0) with x.
    rewrite (rsum_ext (S k) (fun k0 => lnth (x :: l) (S k0)) (lnth l)) by reflexivity. lra.
Qed.

Lemma cumsum_nth : forall (l : list RNum) k, (k < length l)%nat ->
  lnth (cumsum l) k = rsum (S k) (lnth l).
Proof. intros; unfold cumsum. rewrite cumsum_from_nth by auto. apply Rplus_0_l. Qed.

Lemma insert_val_perm : forall {N : NumOps} (x : N) l, Permutation (insert_val x l) (x :: l).
Proof.
  induction l as [|y l IH]; simpl; auto. destruct (nltb x y); auto. rewrite IH. apply perm_swap.
Qed.
Lemma vsort_perm : forall {N : NumOps} (l : list N), Permutation (vsort l) l.
Proof. induction l; simpl; auto. rewrite insert_val_perm; auto. Qed.

(** ascending from a lower bound *)
Fixpoint asc (lo : R) (l : list R) : Prop :=
  match l with [] => True | x :: l' => lo <= x /\ asc x l' end.

Lemma asc_weaken : forall l lo lo', lo' <= lo -> asc lo l -> asc lo' l.
Proof. destruct l; simpl; intros; auto. destruct H0; split; auto; lra. Qed.

Lemma insert_val_asc : forall (l : list RNum) lo (x : R), asc lo l -> lo <= x -> asc lo (insert_val (N:=RNum) x l).
Proof.
  induction l as [|y l IH]; intros lo x H Hx; simpl; auto.
  simpl in H. destruct H as [H1 H2]. destruct (Rltb x y) eqn:E.
  - apply Rltb_true in E. simpl. repeat split; auto; lra.
  - apply Rltb_false in E. simpl. split; auto.
Qed.
Lemma vsort_asc : forall (l : list RNum) lo, (forall x, In x l -> lo <= x) -> asc lo (vsort l).
Proof.
  induction l as [|y l IH]; intros lo H; simpl; auto. apply insert_val_asc.
  - apply IH; intros; apply H; simpl; auto.
  - apply H; simpl; auto.
Qed.

Lemma asc_In : forall l lo x, asc lo l -> In x l -> lo <= x.
Proof.
  induction l as [|y l IH]; intros lo x H Hin; [destruct Hin|]. destruct H as [H1 H2].
  destruct Hin as [->|Hin]; auto. specialize (IH y x H2 Hin). lra.
Qed.

(** telescoping up to a breakpoint *)
Fixpoint tele (prev : R) (qs : list R) (t : R) : R :=
  match qs with [] => 0 | q :: qs' => (if Rle_dec q t then q - prev else 0) + tele q qs' t end.

Lemma tele_zero : forall qs prev t, asc prev qs -> t <= prev -> tele prev qs t = 0.
Proof.
  induction qs as [|q qs IH]; intros prev t H Ht; [reflexivity|]. destruct H as [H1 H2]. simpl.
  rewrite IH by (auto; lra). destruct (Rle_dec q t); lra.
Qed.
Lemma tele_in : forall qs prev t, asc prev qs -> In t qs -> tele prev qs t = t - prev.
Proof.
  induction qs as [|q qs IH]; intros prev t H Hin; [destruct Hin|]. destruct H as [H1 H2].
  cbn [tele]. destruct (Rle_dec q t) as [Hq|Hq].
  - destruct (Req_dec q t) as [->|Hne].
    + rewrite tele_zero by (auto; lra). lra.
    + destruct Hin as [->|Hin]; [lra|]. rewrite IH by auto. lra.
  - exfalso. destruct Hin as [->|Hin]; [lra|]. pose proof (asc_In _ _ _ H2 Hin). lra.
Qed.

(** the index is < k exactly when q <= cws[k-1] (1 <= k < n), given sorted cws *)
Lemma searchsorted_spec : forall (cws : list RNum) (q : R) k,
  (forall i j, (i <= j < length cws)%nat -> lnth cws i <= lnth cws j) ->
  (k < length cws)%nat -> ((searchsorted cws q <= k)%nat <-> q <= lnth cws k).
Proof.
  induction cws as [|c cws IH]; intros q k Hs Hk; [cbn [length] in Hk; lia|].
  cbn [searchsorted]. change (@nltb RNum) with Rltb. destruct (Rltb c q) eqn:E.
  - apply Rltb_true in E. destruct k as [|k].
    + split; [lia|]. unfold lnth; simpl; lra.
    + specialize (IH q k). change (lnth (c :: cws) (S k)) with (lnth cws k). rewrite <- IH.
      * lia. * intros i j Hij. apply (Hs (S i) (S j)). cbn [length]; lia. * cbn [length] in Hk; lia.
  - apply Rltb_false in E. split; [|lia]. intros _.
    assert (lnth (c :: cws) 0 <= lnth (c :: cws) k) by (apply Hs; lia). change (lnth (c :: cws) 0) with c in H. exact (Rle_trans _ _ _ E H).
Qed.

Section Sorted.
Variables (uw vw : list RNum).
Let n := length uw.
Let m := length vw.
Let a := lnth uw.
Let b := lnth vw.
Hypothesis Hn : (0 < n)%nat.
Hypothesis Hm : (0 < m)%nat.
Hypothesis Ha : nonneg_vec n a.
Hypothesis Hb : nonneg_vec m b.
Hypothesis Hab : mass n a = mass m b.
Let cu := cumsum uw.
Let cv := cumsum vw.
Let qs := vsort (cu ++ cv).
Definition splan := quantile_plan (N:=RNum) (length uw) (length vw) (cumsum uw) (cumsum vw) 0
                      (vsort (cumsum uw ++ cumsum vw)).

Lemma idx_lt : forall (l : list RNum) k q, (0 < k <= length l)%nat -> nonneg_vec (length l) (lnth l) ->
  q <= rsum (length l) (lnth l) ->
  ((quantile_idx (length l) (cumsum l) q < k)%nat <-> q <= rsum k (lnth l)).
Proof.
  intros l k q Hk Hl Hq. unfold quantile_idx.
  assert (L : length (cumsum l) = length l) by apply cumsum_from_length.
  assert (S0 : (searchsorted (cumsum l) q <= k - 1)%nat <-> q <= lnth (cumsum l) (k - 1)).
  { apply searchsorted_spec; rewrite L; [|lia]. intros i j Hij. rewrite !cumsum_nth by lia.
    apply (psum_mono (length l) (lnth l)); auto; lia. }
  rewrite cumsum_nth in S0 by lia. replace (S (k - 1)) with k in S0 by lia. rewrite <- S0.
  split; [|lia]. intros H. destruct (Nat.eq_dec k (length l)) as [E|E]; [|lia].
  apply S0. rewrite E. auto.
Qed.

Lemma in_cum : forall (l : list RNum) x, In x (cumsum l) ->
  exists k, (0 < k <= length l)%nat /\ x = rsum k (lnth l).
Proof.
  intros l x H. apply (@In_nth RNum _ _ 0) in H. destruct H as (k & Hk & E).
  assert (L : length (cumsum l) = length l) by apply cumsum_from_length. rewrite L in Hk.
  exists (S k). split; [lia|]. rewrite <- cumsum_nth by auto. symmetry; exact E.
Qed.
Lemma cum_in : forall (l : list RNum) k, (0 < k <= length l)%nat -> In (rsum k (lnth l)) (cumsum l).
Proof.
  intros l k H. assert (L : length (cumsum l) = length l) by apply cumsum_from_length.
  replace k with (S (k - 1)) by lia. rewrite <- cumsum_nth by lia. apply (@nth_In RNum). rewrite L; lia.
Qed.

Lemma qs_range : forall q, In q qs -> 0 <= q <= rsum n a.
Proof.
  intros q H. apply (Permutation_in _ (vsort_perm _)) in H. apply in_app_iff in H.
  destruct H as [H|H]; apply in_cum in H; destruct H as (k & Hk & ->).
  - fold a; fold n in Hk. split; [apply rsum_nonneg; intros; apply Ha; lia|]. apply (psum_mono n a); auto; lia.
  - fold b; fold m in Hk. split; [apply rsum_nonneg; intros; apply Hb; lia|].
    unfold mass in Hab; rewrite Hab. apply (psum_mono m b); auto; lia.
Qed.

Lemma qs_asc : asc 0 qs.
Proof.
  apply vsort_asc. intros x Hx. apply qs_range.
  eapply Permutation_in; [apply Permutation_sym, vsort_perm|exact Hx].
Qed.

Lemma plan_box : forall l prev k k', (0 < k <= n)%nat -> (0 < k' <= m)%nat ->
  (forall q, In q l -> q <= rsum n a) ->
  esum (box k k') (quantile_plan (N:=RNum) n m cu cv prev l) = tele prev l (Rmin (rsum k a) (rsum k' b)).
Proof.
  induction l as [|q l IH]; intros prev k k' Hk Hk' Hl; [reflexivity|].
  cbn [quantile_plan esum tele]. rewrite IH; auto; [|intros; apply Hl; simpl; auto].
  f_equal.
  assert (Hq : q <= rsum n a) by (apply Hl; simpl; auto).
  assert (E1 := idx_lt uw k q ltac:(auto) Ha Hq). 
  assert (E2 := idx_lt vw k' q ltac:(auto) Hb ltac:(unfold mass in Hab; fold b; fold m; rewrite <- Hab; auto)).
  fold n cu in E1. fold m cv in E2. fold a in E1. fold b in E2.
  unfold box, ind.
  destruct (Nat.ltb_spec (quantile_idx n cu q) k) as [A|A];
  destruct (Nat.ltb_spec (quantile_idx m cv q) k') as [B|B]; cbn [andb];
  destruct (Rle_dec q (Rmin (rsum k a) (rsum k' b))) as [C|C]; cbn; try lra.
  - exfalso; apply C. apply Rmin_glb; tauto.
  - exfalso. assert (~ q <= rsum k' b) by (intros Z; apply E2 in Z; lia).
    pose proof (Rmin_r (rsum k a) (rsum k' b)). lra.
  - exfalso. assert (~ q <= rsum k a) by (intros Z; apply E1 in Z; lia).
    pose proof (Rmin_l (rsum k a) (rsum k' b)). lra.
  - exfalso. assert (~ q <= rsum k a) by (intros Z; apply E1 in Z; lia).
    pose proof (Rmin_l (rsum k a) (rsum k' b)). lra.
Qed.

Lemma esum_box_0 : forall es k k', (k = 0 \/ k' = 0)%nat -> esum (box k k') es = 0.
Proof.
  induction es as [|[[w i] j] es IH]; intros k k' H; [reflexivity|]. cbn [esum]. rewrite IH by auto.
  unfold box, ind. destruct H; subst; cbn [Nat.ltb Nat.leb]; rewrite ?andb_false_r; cbn; lra.
Qed.

Lemma splan_cum : forall k l, (k <= n)%nat -> (l <= m)%nat ->
  cumF (dmat splan) k l = Rmin (rsum k a) (rsum l b).
Proof.
  intros k l Hk Hl. rewrite cumF_dmat.
  destruct (Nat.eq_dec k 0) as [->|Hk0].
  { rewrite esum_box_0 by auto. rewrite Rmin_left; [reflexivity|]. simpl. apply rsum_nonneg; intros; apply Hb; lia. }
  destruct (Nat.eq_dec l 0) as [->|Hl0].
  { rewrite esum_box_0 by auto. rewrite Rmin_right; [reflexivity|]. simpl. apply rsum_nonneg; intros; apply Ha; lia. }
  unfold splan. fold n m cu cv qs. rewrite plan_box by (auto; try lia; intros; apply qs_range; auto).
  rewrite tele_in; [lra|apply qs_asc|].
  eapply Permutation_in; [apply Permutation_sym, (vsort_perm (N:=RNum))|]. apply in_app_iff.
  unfold Rmin. destruct (Rle_dec _ _); [left|right]; apply cum_in; unfold n, m in *; lia.
Qed.

Lemma quantile_plan_nonneg : forall l prev, asc prev l ->
  Forall (fun e : @entry RNum => 0 <= fst (fst e)) (quantile_plan (N:=RNum) n m cu cv prev l).
Proof.
  induction l as [|q l IH]; intros prev H; constructor; destruct H.
  - simpl; lra. - apply IH; auto.
Qed.
Lemma quantile_plan_range : forall l prev,
  Forall (fun e : @entry RNum => (snd (fst e) < n)%nat /\ (snd e < m)%nat)
    (quantile_plan (N:=RNum) n m cu cv prev l).
Proof.
  induction l as [|q l IH]; intros prev; constructor; auto.
  cbn [fst snd]. unfold quantile_idx. lia.
Qed.

Lemma splan_coupling : coupling n m a b (dmat splan).
Proof.
  apply min_cum_coupling; auto; [|apply splan_cum].
  intros i j _ _. apply dmat_nonneg. apply quantile_plan_nonneg. apply qs_asc.
Qed.
End Sorted.

(** plans with the same cumulative function are equal *)
Lemma cumF_inj : forall n m G G',
  (forall k l, (k <= n)%nat -> (l <= m)%nat -> cumF G k l = cumF G' k l) ->
  forall i j, (i < n)%nat -> (j < m)%nat -> G i j = G' i j.
Proof.
  intros n m G G' H i j Hi Hj.
  assert (E : forall P, P i j = cumF P (S i) (S j) - cumF P i (S j) - (cumF P (S i) j - cumF P i j)).
  { intros P. unfold cumF. cbn [rsum]. lra. }
  rewrite (E G), (E G'), !H by lia. reflexivity.
Qed.

Definition w1_metric (p : R) : metric := if Reqb p 1 then CityBlock else Minkowski.

Lemma diff_cost_gfun : forall p x y, diff_cost (N:=RNum) rpow p x y = gfun (w1_metric p) p x y.
Proof.
  intros. unfold diff_cost, w1_metric. change (@neqb RNum p n1) with (Reqb p 1). destruct (Reqb p 1); reflexivity.
Qed.

Lemma plan_value_esum : forall p (u v : list RNum) es,
  plan_value (N:=RNum) rpow p u v es = esum (fun i j => gfun (w1_metric p) p (lnth u i) (lnth v j)) es.
Proof.
  induction es as [|[[w i] j] es IH]; [reflexivity|]. cbn [plan_value esum]. rewrite IH, diff_cost_gfun.
  change (@nmul RNum) with Rmult. change (@nadd RNum) with Rplus. unfold lnth. cbn. ring.
Qed.

Lemma w1d_run : forall (u v uw vw : list RNum) p pu pv,
  let n := length u in let m := length v in
  length uw = n -> length vw = m -> (0 < n)%nat -> (0 < m)%nat ->
  nonneg_vec n (lnth uw) -> nonneg_vec m (lnth vw) -> mass n (lnth uw) = mass m (lnth vw) ->
  sorts u pu -> sorts v pv -> 1 <= p ->
  exists es, wasserstein_1d_with_perm (N:=RNum) rpow u v uw vw p pu pv
       = Ok (cost n m (gcost u v (w1_metric p) p) (dmat es), es)
    /\ optimal_coupling n m (lnth uw) (lnth vw) (gcost u v (w1_metric p) p) (dmat es).
Proof.
  intros u v uw vw p pu pv n m Lu Lv Hn Hm Ha Hb Hab [Pu Su] [Pv Sv] Hp.
  fold n in Pu, Su. fold m in Pv, Sv.
  pose proof (perm_list_on n pu Pu) as Sa. pose proof (perm_list_on m pv Pv) as Sb.
  assert (La : length pu = n) by (rewrite (Permutation_length Pu), seq_length; auto).
  assert (Lb : length pv = m) by (rewrite (Permutation_length Pv), seq_length; auto).
  assert (Ia : forall k, In k pu -> (k < n)%nat) by (intros k Hk; apply (Permutation_in _ Pu), in_seq in Hk; lia).
  assert (Ib : forall k, In k pv -> (k < m)%nat) by (intros k Hk; apply (Permutation_in _ Pv), in_seq in Hk; lia).
  unfold wasserstein_1d_with_perm.
  rewrite (take_ok _ (0 : RNum) u pu), (take_ok _ (0 : RNum) v pv),
    (take_ok _ (0 : RNum) uw pu), (take_ok _ (0 : RNum) vw pv)
    by (intros; rewrite ?Lu, ?Lv; auto).
  set (A := map (fun k => nth k uw 0) pu). set (B := map (fun k => nth k vw 0) pv).
  set (U := map (fun k => nth k u 0) pu). set (V := map (fun k => nth k v 0) pv).
  assert (LA : length A = n) by (unfold A; rewrite map_length; auto).
  assert (LB : length B = m) by (unfold B; rewrite map_length; auto).
  assert (EA : forall i, (i < n)%nat -> lnth A i = lnth uw (pfun pu i)) by (intros; apply lnth_take; lia).
  assert (EB : forall i, (i < m)%nat -> lnth B i = lnth vw (pfun pv i)) by (intros; apply lnth_take; lia).
  assert (EU : forall i, (i < n)%nat -> lnth U i = lnth u (pfun pu i)) by (intros; apply lnth_take; lia).
  assert (EV : forall j, (j < m)%nat -> lnth V j = lnth v (pfun pv j)) by (intros; apply lnth_take; lia).
  assert (Pa : nonneg_vec (length A) (lnth A)) by (rewrite LA; intros i Hi; rewrite EA by auto; apply Ha; apply Sa; auto).
  assert (Pb : nonneg_vec (length B) (lnth B)) by (rewrite LB; intros i Hi; rewrite EB by auto; apply Hb; apply Sb; auto).
  assert (M : mass (length A) (lnth A) = mass (length B) (lnth B)).
  { rewrite LA, LB. unfold mass. rewrite (rsum_ext n (lnth A) (fun i => lnth uw (pfun pu i))), (rsum_ext m (lnth B) (fun j => lnth vw (pfun pv j))) by auto.
    rewrite (rsum_perm n (pfun pu)), (rsum_perm m (pfun pv)) by auto. exact Hab. }
  pose proof (splan_cum A B ltac:(lia) ltac:(lia) Pa Pb M) as F.
  pose proof (splan_coupling A B ltac:(lia) ltac:(lia) Pa Pb M) as C.
  pose proof (quantile_plan_range A B ltac:(lia) ltac:(lia) (vsort (cumsum A ++ cumsum B)) 0) as R.
  change (quantile_plan (N:=RNum) (length A) (length B) (cumsum A) (cumsum B) 0 (vsort (cumsum A ++ cumsum B)))
    with (splan A B) in R.
  assert (ES : quantile_plan (N:=RNum) (length u) (length v) (cumsum A) (cumsum B) n0 (vsort (cumsum A ++ cumsum B)) = splan A B).
  { unfold splan. rewrite LA, LB. reflexivity. }
  cbv zeta. rewrite ES. rewrite LA, LB in *.
  set (es := splan A B) in *.
  assert (OP : optimal_coupling n m (lnth A) (lnth B) (fun i j => gfun (w1_metric p) p (lnth U i) (lnth V j)) (dmat es)).
  { apply monge_min_optimal; auto.
    assert (Hmt : w1_metric p <> MOther) by (unfold w1_metric; destruct (Reqb p 1); discriminate).
    destruct (gfun_convex (w1_metric p) p Hmt ltac:(auto)) as (h & Hc & Hh).
    intros k l Hk Hl. rewrite !Hh. apply (convex_monge n m (lnth U) (lnth V) h); auto.
    - intros k' Hk'; rewrite !EU by lia; auto. - intros k' Hk'; rewrite !EV by lia; auto. }
  set (es' := map (fun e : @entry RNum => match e with (w, i, j) => (w, nth i pu 0%nat, nth j pv 0%nat) end) es).
  assert (D : forall i j, (i < n)%nat -> (j < m)%nat -> dmat es' (pfun pu i) (pfun pv j) = dmat es i j).
  { intros; apply (dmat_relabel n m); auto. }
  exists es'. split.
  - f_equal. f_equal. rewrite plan_value_esum.
    rewrite <- (cost_dmat _ n m es R).
    rewrite <- (cost_relabel n m (pfun pu) (pfun pv) (gcost u v (w1_metric p) p) (dmat es')) by auto.
    apply cost_ext; intros i j Hi Hj; [|symmetry; apply D; auto].
    unfold gcost. rewrite EU, EV; auto.
  - apply (optimal_relabel n m (pfun pu) (pfun pv)); auto.
    eapply optimal_ext; [| | | |exact OP]; auto.
    + intros i j Hi Hj. unfold gcost; rewrite EU, EV; auto.
    + intros; symmetry; apply D; auto.
Qed.
