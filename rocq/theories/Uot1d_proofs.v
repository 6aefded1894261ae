(** The reverse sweep of wasserstein_1d: strong duality and tightness always, feasibility when no
    interior cumulative weights coincide. *)
From Coq Require Import Reals Lra Lia List Arith Permutation Bool Sorted.
From Verif Require Import Num Sums Spec Monge Emd1d_model Emd1d_proofs Emd1d_perm_proofs W1d_model W1d_proofs
  Duals_model Duals_proofs Uot1d_model.
Import ListNotations.
Local Open Scope R_scope.

(** what nx.sort guarantees: the same entries, in non-decreasing order; nothing about ties *)
Definition sorter (tsort : list (R * tag) -> list (R * tag)) : Prop :=
  forall l, Permutation (tsort l) l /\ StronglySorted (fun x y => fst x <= fst y) (tsort l).

Definition qfun (n m : nat) (cu cv : list RNum) (u v : list RNum) (p : R) (q : R) : R :=
  diff_cost (N:=RNum) rpow p (lnth u (quantile_idx (N:=RNum) n cu q)) (lnth v (quantile_idx (N:=RNum) m cv q)).

Lemma plan_costs_map : forall n m (cu cv u v : list RNum) p qs prev,
  plan_costs (N:=RNum) rpow p u v (quantile_plan (N:=RNum) n m cu cv prev qs) = map (qfun n m cu cv u v p) qs.
Proof. induction qs as [|q qs IH]; intros prev; [reflexivity|]. cbn. f_equal. apply IH. Qed.

Lemma dsteps_length : forall (c : list RNum), length (dsteps c) = length c.
Proof.
  induction c as [|x c IH]; [reflexivity|]. destruct c as [|y c]; [reflexivity|].
  transitivity (S (length (dsteps (y :: c)))); [reflexivity|]. rewrite IH. reflexivity.
Qed.
Lemma dsteps_cons2 : forall (x y : RNum) c, dsteps (x :: y :: c) = (x - y) :: dsteps (y :: c).
Proof. reflexivity. Qed.
Lemma dsteps_nth : forall (l1 : list RNum) (x y : R) l2,
  nth (length l1) (dsteps (l1 ++ (x : RNum) :: (y : RNum) :: l2)) 0 = x - y.
Proof.
  induction l1 as [|z l1 IH]; intros x y l2; [reflexivity|].
  cbn [app length]. destruct l1 as [|w l1].
  - cbn [app] in *. rewrite dsteps_cons2. cbn [nth length]. apply (IH x y l2).
  - cbn [app] in *. rewrite dsteps_cons2. cbn [nth]. apply (IH x y l2).
Qed.

(** sum of the derivatives of the entries selected by a test *)
Fixpoint wsum (P : R -> tag -> R) (ts : list (R * tag)) (ds : list R) : R :=
  match ts, ds with
  | (q, t) :: ts', d :: ds' => P q t * d + wsum P ts' ds'
  | _, _ => 0
  end.
Lemma wsum_cons : forall P q t ts d ds, wsum P ((q, t) :: ts) (d :: ds) = P q t * d + wsum P ts ds.
Proof. reflexivity. Qed.
Lemma wsum_ext : forall P Q ts ds, (forall q t, In (q, t) ts -> P q t = Q q t) -> wsum P ts ds = wsum Q ts ds.
Proof.
  induction ts as [|[q t] ts IH]; intros [|d ds] H; try reflexivity. cbn. rewrite H by (simpl; auto).
  rewrite (IH ds) by (intros; apply H; simpl; auto). reflexivity.
Qed.
Lemma wsum_plus : forall P Q ts ds, wsum (fun q t => P q t + Q q t) ts ds = wsum P ts ds + wsum Q ts ds.
Proof. induction ts as [|[q t] ts IH]; intros [|d ds]; cbn; try lra. rewrite IH. lra. Qed.
Lemma wsum_minus : forall P Q ts ds, wsum (fun q t => P q t - Q q t) ts ds = wsum P ts ds - wsum Q ts ds.
Proof. induction ts as [|[q t] ts IH]; intros [|d ds]; cbn; try lra. rewrite IH. lra. Qed.
Lemma wsum_scal : forall c P ts ds, wsum (fun q t => c * P q t) ts ds = c * wsum P ts ds.
Proof. induction ts as [|[q t] ts IH]; intros [|d ds]; cbn; try lra. rewrite IH. lra. Qed.
Lemma wsum_rsum : forall k (P : nat -> R -> tag -> R) ts ds,
  wsum (fun q t => rsum k (fun i => P i q t)) ts ds = rsum k (fun i => wsum (P i) ts ds).
Proof.
  induction k; intros P ts ds.
  - cbn. rewrite (wsum_ext _ (fun _ _ => 0 * 0)) by (intros; lra). rewrite wsum_scal. lra.
  - cbn [rsum]. rewrite wsum_plus, IHk. reflexivity.
Qed.

Lemma adj_wsum : forall side i ts ds,
  adj (N:=RNum) side i ts ds = wsum (fun _ t => ind (Bool.eqb (fst t) side && (i <=? snd t))%nat) ts ds.
Proof.
  induction ts as [|[q [s k]] ts IH]; intros [|d ds]; try reflexivity. cbn [adj wsum fst snd]. rewrite IH. unfold ind.
  destruct (Bool.eqb s side && (i <=? k)%nat); cbn; lra.
Qed.

(** entries selected by a single tag *)
Lemma wsum_pick : forall (t0 : tag) l1 q l2 ds, NoDup (map snd (l1 ++ (q, t0) :: l2)) ->
  length ds = length (l1 ++ (q, t0) :: l2) ->
  wsum (fun _ t => ind (Bool.eqb (fst t) (fst t0) && (snd t =? snd t0))%nat) (l1 ++ (q, t0) :: l2) ds = nth (length l1) ds 0.
Proof.
  induction l1 as [|[q' t'] l1 IH]; intros q l2 ds ND L.
  - destruct ds as [|d ds]; [discriminate|]. cbn [app wsum]. rewrite Bool.eqb_reflx, Nat.eqb_refl. cbn [andb length nth].
    rewrite (wsum_ext _ (fun _ _ => 0 * 0)).
    + rewrite wsum_scal. unfold ind. lra.
    + intros q1 t1 H1. cbn in ND. inversion ND as [|? ? Hn _]; subst.
      unfold ind. destruct (Bool.eqb (fst t1) (fst t0)) eqn:E1; [|cbn; lra]. destruct (snd t1 =? snd t0)%nat eqn:E2; [|cbn; lra].
      exfalso. apply Hn. apply Bool.eqb_prop in E1. apply Nat.eqb_eq in E2.
      assert (t1 = t0) by (destruct t1, t0; cbn in *; congruence). subst. apply (in_map snd _ _ H1).
  - destruct ds as [|d ds]; [discriminate|]. cbn [app wsum length nth]. cbn in ND. inversion ND as [|? ? Hn ND']; subst.
    rewrite IH by (auto; cbn in L; lia).
    unfold ind. destruct (Bool.eqb (fst t') (fst t0)) eqn:E1; [|cbn; lra]. destruct (snd t' =? snd t0)%nat eqn:E2; [|cbn; lra].
    exfalso. apply Hn. apply Bool.eqb_prop in E1. apply Nat.eqb_eq in E2.
    assert (t' = t0) by (destruct t', t0; cbn in *; congruence). subst. rewrite map_app, in_app_iff. right. left. reflexivity.
Qed.

(** telescoping: the derivatives from the first entry on add up to its cost *)
Lemma wsum_all : forall (F : R -> R) q t ts,
  wsum (fun _ _ => 1) ((q, t) :: ts) (dsteps (N:=RNum) (map F (map fst ((q, t) :: ts)))) = F q.
Proof.
  intros F q t ts. revert q t. induction ts as [|[q' t'] ts IH]; intros q t; [cbn; lra|].
  cbn [map fst]. rewrite dsteps_cons2. specialize (IH q' t'). cbn [map fst] in IH.
  rewrite wsum_cons. change (carrier RNum) with R in *. rewrite IH. lra.
Qed.

Lemma wsum_from : forall (F : R -> R) q ts, StronglySorted (fun x y : R * tag => fst x <= fst y) ts -> In q (map fst ts) ->
  wsum (fun x _ => if Rle_dec q x then 1 else 0) ts (dsteps (N:=RNum) (map F (map fst ts))) = F q.
Proof.
  intros F q ts. induction ts as [|[q0 t0] ts IH]; intros SS Hin; [destruct Hin|].
  inversion SS as [|? ? SS' FA]; subst.
  destruct (Rle_dec q q0) as [Le|Nle].
  - assert (E : q = q0).
    { destruct Hin as [E|Hin]; [auto|]. apply in_map_iff in Hin. destruct Hin as ([x t] & Ex & Hx). cbn in Ex. subst.
      rewrite Forall_forall in FA. specialize (FA _ Hx). cbn in FA. lra. }
    subst q0. rewrite (wsum_ext _ (fun _ _ => 1)); [apply wsum_all|].
    intros x t Hx. destruct (Rle_dec q x) as [|C]; auto. exfalso; apply C. destruct Hx as [Hx|Hx]; [injection Hx; intros; lra|].
    rewrite Forall_forall in FA. specialize (FA _ Hx). cbn in FA. lra.
  - destruct ts as [|[q1 t1] ts]; [destruct Hin as [Hin|[]]; cbn in Hin; lra|].
    cbn [map fst]. rewrite dsteps_cons2. rewrite wsum_cons. destruct (Rle_dec q q0) as [C|_]; [lra|].
    cbn [map fst] in IH. change (carrier RNum) with R in *. rewrite IH; auto; [ring|].
    destruct Hin as [Hin|Hin]; [cbn in Hin; lra|exact Hin].
Qed.

(** Abel: the derivatives against the quantiles give the value *)
Lemma abel_value : forall n m (cu cv u v : list RNum) p (ts : list (R * tag)) prev,
  wsum (fun q _ => q) ts (dsteps (N:=RNum) (map (qfun n m cu cv u v p) (map fst ts)))
  = plan_value (N:=RNum) rpow p u v (quantile_plan (N:=RNum) n m cu cv prev (map fst ts))
    + prev * match ts with [] => 0 | (q, _) :: _ => qfun n m cu cv u v p q end.
Proof.
  intros n m cu cv u v p ts. induction ts as [|[q t] ts IH]; intros prev; [cbn; lra|].
  cbn [map fst quantile_plan plan_value].
  change (diff_cost (N:=RNum) rpow p (nth (quantile_idx n cu q) u n0) (nth (quantile_idx m cv q) v n0)) with (qfun n m cu cv u v p q).
  destruct ts as [|[q' t'] ts].
  - cbn. lra.
  - cbn [map fst]. rewrite dsteps_cons2. specialize (IH q). cbn [map fst] in IH. rewrite wsum_cons. change (carrier RNum) with R in *. rewrite IH.
    change (@nadd RNum) with Rplus. change (@nmul RNum) with Rmult. change (@nsub RNum) with Rminus. lra.
Qed.

(** ** the tagged list *)
Lemma combine_tags : forall (side : bool) (c : list RNum) (s : nat), 
  forall q t, In (q, t) (combine c (map (pair side) (seq s (length c)))) <->
  exists k, (k < length c)%nat /\ t = (side, (s + k)%nat) /\ q = lnth c k.
Proof.
  intros side c. induction c as [|x c IH]; intros s q t.
  - cbn. split; [intros []|intros (k & H & _); lia].
  - cbn [length seq map combine In]. rewrite IH. split.
    + intros [E|(k & Hk & Et & Eq)].
      * injection E; intros; subst. exists 0%nat. repeat split; [apply Nat.lt_0_succ|rewrite Nat.add_0_r; reflexivity].
      * exists (S k). repeat split; [apply (proj1 (Nat.succ_lt_mono _ _)); exact Hk|rewrite Et; f_equal; lia|exact Eq].
    + intros (k & Hk & Et & Eq). destruct k.
      * left. subst. rewrite Nat.add_0_r. reflexivity.
      * right. exists k. repeat split; [apply (proj2 (Nat.succ_lt_mono _ _)); exact Hk|rewrite Et; f_equal; lia|exact Eq].
Qed.

Lemma combine_tags_snd : forall (side : bool) (c : list RNum) (s : nat),
  map snd (combine c (map (pair side) (seq s (length c)))) = map (pair side) (seq s (length c)).
Proof. intros side c. induction c as [|x c IH]; intros s; [reflexivity|]. cbn. f_equal. apply IH. Qed.
Lemma combine_tags_fst : forall (side : bool) (c : list RNum) (s : nat),
  map fst (combine c (map (pair side) (seq s (length c)))) = c.
Proof. intros side c. induction c as [|x c IH]; intros s; [reflexivity|]. cbn. f_equal. apply IH. Qed.

Lemma tagged_nodup : forall (cu cv : list RNum), NoDup (map snd (tagged cu cv)).
Proof.
  intros. unfold tagged. rewrite map_app, !combine_tags_snd.
  assert (I : forall (side : bool) k, NoDup (map (pair side) (seq 0 k) : list tag)).
  { intros side k. apply FinFun.Injective_map_NoDup; [intros x y E; congruence|apply seq_NoDup]. }
  assert (A : forall l1 l2 : list tag, NoDup l1 -> NoDup l2 -> (forall x, In x l1 -> ~ In x l2) -> NoDup (l1 ++ l2)).
  { induction l1 as [|x l1 IH]; intros l2 N1 N2 D; [exact N2|]. inversion N1; subst. cbn. constructor.
    - rewrite in_app_iff. intros [H|H]; [auto|]. apply (D x); simpl; auto.
    - apply IH; auto. intros y Hy. apply D. simpl; auto. }
  apply A; auto. intros x H1 H2. apply in_map_iff in H1, H2. destruct H1 as (? & <- & _), H2 as (? & E & _). discriminate.
Qed.

(** values of the tagged list, sorted, agree with nx.sort of the plain list *)
Lemma sorted_unique : forall l l' : list R, Permutation l l' -> StronglySorted Rle l -> StronglySorted Rle l' -> l = l'.
Proof.
  induction l as [|x l IH]; intros l' P S1 S2.
  - apply Permutation_nil in P. auto.
  - destruct l' as [|y l']; [apply Permutation_sym, Permutation_nil in P; discriminate|].
    inversion S1 as [|? ? S1' F1]; subst. inversion S2 as [|? ? S2' F2]; subst.
    assert (E : x = y).
    { rewrite Forall_forall in F1, F2.
      assert (H1 : In x (y :: l')) by (eapply Permutation_in; [exact P|simpl; auto]).
      assert (H2 : In y (x :: l)) by (eapply Permutation_in; [apply Permutation_sym; exact P|simpl; auto]).
      destruct H1 as [H1|H1]; [auto|]. destruct H2 as [H2|H2]; [auto|]. apply Rle_antisym; auto. }
    subst y. f_equal. apply IH; auto. apply Permutation_cons_inv in P. exact P.
Qed.

Lemma asc_ss : forall (l : list RNum) lo, asc lo l -> StronglySorted Rle l.
Proof.
  induction l as [|x l IH]; intros lo H; constructor; destruct H as [H1 H2].
  - eapply IH; eauto. - apply Forall_forall. intros y Hy. eapply asc_In; eauto.
Qed.

Lemma rmin_list : forall l : list R, exists lo, forall x, In x l -> lo <= x.
Proof.
  induction l as [|x l [lo IH]]; [exists 0; intros ? []|]. exists (Rmin x lo). intros y [->|H].
  - apply Rmin_l. - eapply Rle_trans; [apply Rmin_r|auto].
Qed.

Lemma tsort_values : forall tsort (cu cv : list RNum), sorter tsort ->
  map fst (tsort (tagged cu cv)) = vsort (N:=RNum) (cu ++ cv).
Proof.
  intros tsort cu cv H. destruct (H (tagged cu cv)) as [P S0]. apply sorted_unique.
  - eapply perm_trans; [apply Permutation_map; exact P|]. unfold tagged. rewrite map_app, !combine_tags_fst.
    apply Permutation_sym, (vsort_perm (N:=RNum)).
  - clear P. induction S0; cbn; constructor; auto. apply Forall_forall. intros y Hy. apply in_map_iff in Hy. destruct Hy as (z & <- & Hz).
    rewrite Forall_forall in H0. apply H0; auto.
  - destruct (rmin_list (cu ++ cv)) as [lo Hlo]. eapply asc_ss. apply (vsort_asc (cu ++ cv) lo). exact Hlo.
Qed.

Section Sorted.
Variable tsort : list (R * tag) -> list (R * tag).
Hypothesis Hsort : sorter tsort.
Variables (u v uw vw : list RNum) (p : R).
Let n := length u.
Let m := length v.
Hypothesis Lu : length uw = n.
Hypothesis Lv : length vw = m.
Let a := lnth uw.
Let b := lnth vw.
Let cu := cumsum (N:=RNum) uw.
Let cv := cumsum (N:=RNum) vw.
Let ts := tsort (tagged cu cv).
Let C := qfun n m cu cv u v p.
Let ds := dsteps (N:=RNum) (map C (map fst ts)).
Let f := fst (grad_sorted (N:=RNum) rpow tsort u v uw vw p).
Let g := snd (grad_sorted (N:=RNum) rpow tsort u v uw vw p).

Lemma f_wsum : forall i, f i = wsum (fun _ t => ind (Bool.eqb (fst t) true && (i <=? snd t))%nat) ts ds.
Proof.
  intros i. unfold f, grad_sorted. cbn [fst]. fold cu cv n m. rewrite plan_costs_map. apply adj_wsum.
Qed.
Lemma g_wsum : forall j, g j = wsum (fun _ t => ind (Bool.eqb (fst t) false && (j <=? snd t))%nat) ts ds.
Proof.
  intros i. unfold g, grad_sorted. cbn [snd]. fold cu cv n m. rewrite plan_costs_map. apply adj_wsum.
Qed.

Lemma len_cu : length cu = n. Proof. unfold cu. rewrite <- Lu. apply cumsum_from_length. Qed.
Lemma len_cv : length cv = m. Proof. unfold cv. rewrite <- Lv. apply cumsum_from_length. Qed.

Lemma ts_in : forall q t, In (q, t) ts <->
  (exists k, (k < n)%nat /\ t = (true, k) /\ q = rsum (S k) a) \/ (exists k, (k < m)%nat /\ t = (false, k) /\ q = rsum (S k) b).
Proof.
  intros q t. unfold ts. destruct (Hsort (tagged cu cv)) as [P _].
  assert (E : In (q, t) (tsort (tagged cu cv)) <-> In (q, t) (tagged cu cv)).
  { split; apply Permutation_in; auto. apply Permutation_sym; auto. }
  rewrite E. unfold tagged. rewrite in_app_iff, !combine_tags, len_cu, len_cv. cbn [Nat.add].
  split; (intros [(k & Hk & Et & Eq)|(k & Hk & Et & Eq)]; [left|right]; exists k; repeat split; auto; rewrite Eq).
  - apply cumsum_nth. rewrite Lu; auto. - apply cumsum_nth. rewrite Lv; auto.
  - symmetry. apply cumsum_nth. rewrite Lu; auto. - symmetry. apply cumsum_nth. rewrite Lv; auto.
Qed.
Lemma ts_nodup : NoDup (map snd ts).
Proof.
  eapply Permutation_NoDup; [|apply (tagged_nodup cu cv)]. apply Permutation_map, Permutation_sym, Hsort.
Qed.
Lemma ts_sorted : StronglySorted (fun x y : R * tag => fst x <= fst y) ts.
Proof. apply Hsort. Qed.
Lemma len_ds : length ds = length ts.
Proof. unfold ds. rewrite dsteps_length. change (length (map C (map fst ts)) = length ts). rewrite !map_length. reflexivity. Qed.

(** strong duality, for every weights *)
Lemma rsum_ind_le : forall k (x : vec) l, (l < k)%nat -> rsum k (fun i => x i * ind (i <=? l)%nat) = rsum (S l) x.
Proof.
  induction k; intros x l H; [lia|]. cbn [rsum]. destruct (Nat.eq_dec l k) as [->|Hn].
  - unfold ind at 2. rewrite Nat.leb_refl. rewrite (rsum_ext k _ x); [cbn [rsum]; lra|].
    intros i Hi. unfold ind. destruct (Nat.leb_spec i k); [lra|lia].
  - rewrite IHk by lia. unfold ind. destruct (Nat.leb_spec k l); [lia|]. cbn [rsum]. lra.
Qed.

Lemma euler : rsum n (fun i => a i * f i) + rsum m (fun j => b j * g j)
  = plan_value (N:=RNum) rpow p u v (quantile_plan (N:=RNum) n m cu cv 0 (map fst ts)).
Proof.
  rewrite (rsum_ext n _ (fun i => wsum (fun _ t => a i * ind (Bool.eqb (fst t) true && (i <=? snd t))%nat) ts ds))
    by (intros; rewrite f_wsum, wsum_scal; reflexivity).
  rewrite (rsum_ext m _ (fun i => wsum (fun _ t => b i * ind (Bool.eqb (fst t) false && (i <=? snd t))%nat) ts ds))
    by (intros; rewrite g_wsum, wsum_scal; reflexivity).
  rewrite <- (wsum_rsum n (fun i _ t => a i * ind (Bool.eqb (fst t) true && (i <=? snd t))%nat)).
  rewrite <- (wsum_rsum m (fun i _ t => b i * ind (Bool.eqb (fst t) false && (i <=? snd t))%nat)).
  rewrite <- wsum_plus.
  rewrite (wsum_ext _ (fun q _ => q)).
  - pose proof (abel_value n m cu cv u v p ts 0) as AV. rewrite Rmult_0_l, Rplus_0_r in AV. exact AV.
  - intros q t Ht. apply ts_in in Ht. destruct Ht as [(k & Hk & -> & ->)|(k & Hk & -> & ->)]; cbn [fst snd Bool.eqb andb].
    + rewrite (rsum_ind_le n a k Hk). rewrite (rsum_ext m _ (fun _ => 0)) by (intros; unfold ind; lra). rewrite rsum_const. lra.
    + rewrite (rsum_ind_le m b k Hk). rewrite (rsum_ext n _ (fun _ => 0)) by (intros; unfold ind; lra). rewrite rsum_const. lra.
Qed.

Hypothesis Hn : (0 < n)%nat.
Hypothesis Hm : (0 < m)%nat.
Hypothesis Ha : nonneg_vec n a.
Hypothesis Hb : nonneg_vec m b.
Hypothesis Hab : mass n a = mass m b.
Let iu q := quantile_idx (N:=RNum) n cu q.
Let iv q := quantile_idx (N:=RNum) m cv q.

Lemma iu_lt : forall k q, (k < n)%nat -> q <= rsum n a -> ((iu q <= k)%nat <-> q <= rsum (S k) a).
Proof.
  intros k q Hk Hq. pose proof (idx_lt uw vw ltac:(rewrite Lu; auto) ltac:(rewrite Lv; auto) uw (S k) q ltac:(lia) ltac:(rewrite Lu; exact Ha) ltac:(rewrite Lu; exact Hq)) as E.
  rewrite Lu in E. unfold iu, cu. unfold a. rewrite <- E. lia.
Qed.
Lemma iv_lt : forall k q, (k < m)%nat -> q <= rsum n a -> ((iv q <= k)%nat <-> q <= rsum (S k) b).
Proof.
  intros k q Hk Hq. pose proof (idx_lt uw vw ltac:(rewrite Lu; auto) ltac:(rewrite Lv; auto) vw (S k) q ltac:(lia) ltac:(rewrite Lv; exact Hb)
    ltac:(rewrite Lv; unfold mass in Hab; fold b; rewrite <- Hab; exact Hq)) as E.
  rewrite Lv in E. unfold iv, cv. unfold b. rewrite <- E. lia.
Qed.
Lemma iu_range : forall q, (iu q < n)%nat. Proof. intros. unfold iu, quantile_idx. lia. Qed.
Lemma iv_range : forall q, (iv q < m)%nat. Proof. intros. unfold iv, quantile_idx. lia. Qed.

Lemma ts_le : forall q t, In (q, t) ts -> q <= rsum n a.
Proof.
  intros q t H. apply ts_in in H. destruct H as [(k & Hk & _ & ->)|(k & Hk & _ & ->)].
  - apply (psum_mono n a); auto; lia.
  - unfold mass in Hab; rewrite Hab. apply (psum_mono m b); auto; lia.
Qed.

(** complementary slackness: tight on every cell that carries mass, ties or not *)
Lemma tight : forall q, In q (map fst ts) -> f (iu q) + g (iv q) = C q.
Proof.
  intros q Hq. rewrite f_wsum, g_wsum, <- wsum_plus. rewrite <- (wsum_from C q ts ts_sorted Hq). fold ds.
  assert (Q : q <= rsum n a).
  { apply in_map_iff in Hq. destruct Hq as ([x t] & <- & H). eapply ts_le; eauto. }
  apply wsum_ext. intros x t Hx. apply ts_in in Hx. unfold ind.
  destruct Hx as [(k & Hk & -> & ->)|(k & Hk & -> & ->)]; cbn [fst snd Bool.eqb andb].
  - pose proof (iu_lt k q Hk Q). destruct (Nat.leb_spec (iu q) k), (Rle_dec q (rsum (S k) a)); try lra; exfalso; intuition lia.
  - pose proof (iv_lt k q Hk Q). destruct (Nat.leb_spec (iv q) k), (Rle_dec q (rsum (S k) b)); try lra; exfalso; intuition lia.
Qed.

(** ** feasibility without interior ties *)
Hypothesis Pa : pos_vec n a.
Hypothesis Pb : pos_vec m b.
Hypothesis Hties : forall i j, (0 < i < n)%nat -> (0 < j < m)%nat -> rsum i a <> rsum j b.

Lemma psum_lt : forall k x l l', pos_vec k x -> (l < l' <= k)%nat -> rsum l x < rsum l' x.
Proof.
  intros k x l l' Hx. induction l'; intros H; [lia|]. cbn [rsum]. pose proof (Hx l' ltac:(lia)).
  destruct (Nat.eq_dec l l') as [->|]; [lra|]. specialize (IHl' ltac:(lia)). lra.
Qed.

Lemma split_next : forall (l : list (R * tag)) q t, StronglySorted (fun x y : R * tag => fst x <= fst y) l -> In (q, t) l ->
  (exists x, In x l /\ q < fst x) -> NoDup (map snd l) ->
  exists l1 q' t' l2, l = l1 ++ (q, t) :: (q', t') :: l2.
Proof.
  intros l q t SS Hin (x & Hx & Hlt) _. destruct (in_split _ _ Hin) as (l1 & l2 & E). destruct l2 as [|[q' t'] l2].
  - exfalso. subst l. rewrite in_app_iff in Hx. destruct Hx as [Hx|[Hx|[]]].
    + clear Hin. induction l1 as [|y l1 IH]; [destruct Hx|]. cbn in SS. inversion SS as [|? ? SS' FA]; subst. destruct Hx as [->|Hx].
      * rewrite Forall_forall in FA. specialize (FA (q, t) ltac:(rewrite in_app_iff; right; left; reflexivity)). cbn in FA. lra.
      * apply IH; auto.
    + subst x. cbn in Hlt. lra.
  - exists l1, q', t', l2. exact E.
Qed.

Lemma ss_app : forall (l1 : list (R * tag)) x l2, StronglySorted (fun x y : R * tag => fst x <= fst y) (l1 ++ x :: l2) ->
  (forall y, In y l1 -> fst y <= fst x) /\ (forall y, In y l2 -> fst x <= fst y).
Proof.
  induction l1 as [|z l1 IH]; intros x l2 H; cbn in H; inversion H as [|? ? SS FA]; subst; rewrite Forall_forall in FA.
  - split; [intros ? []|auto].
  - destruct (IH _ _ SS) as [A B]. split; auto. intros y [<-|Hy]; [apply FA; rewrite in_app_iff; simpl; auto|auto].
Qed.

Lemma pick_diff : forall side i, wsum (fun _ t => ind (Bool.eqb (fst t) side && (i <=? snd t))%nat) ts ds
  - wsum (fun _ t => ind (Bool.eqb (fst t) side && (S i <=? snd t))%nat) ts ds
  = wsum (fun _ t => ind (Bool.eqb (fst t) side && (snd t =? i))%nat) ts ds.
Proof.
  intros. rewrite <- wsum_minus. apply wsum_ext. intros q t _. unfold ind. destruct (Bool.eqb (fst t) side); cbn [andb]; [|lra].
  destruct (Nat.leb_spec i (snd t)), (Nat.leb_spec (S i) (snd t)), (Nat.eqb_spec (snd t) i); try lra; lia.
Qed.

(** the derivative at an entry below the top: difference of the costs at it and at the next one *)
Lemma pick_val : forall side i q, In (q, (side, i)) ts -> q < rsum n a ->
  exists q', wsum (fun _ t => ind (Bool.eqb (fst t) side && (snd t =? i))%nat) ts ds = C q - C q'
    /\ (exists t', In (q', t') ts /\ t' <> (side, i)) /\ q <= q'
    /\ (forall x t, In (x, t) ts -> t <> (side, i) -> x <= q \/ q' <= x).
Proof.
  intros side i q Hin Hlt.
  assert (Top : exists x, In x ts /\ q < fst x).
  { exists (rsum n a, (true, (n - 1)%nat)). split; [|exact Hlt]. apply ts_in. left. exists (n - 1)%nat.
    split; [lia|]. split; [reflexivity|]. replace (S (n - 1)) with n by lia. reflexivity. }
  destruct (split_next ts q (side, i) ts_sorted Hin Top ts_nodup) as (l1 & q' & t' & l2 & E).
  exists q'. split; [|split; [|split]].
  - pose proof ts_nodup as ND. pose proof len_ds as L. rewrite E in ND, L.
    pose proof (wsum_pick (side, i) l1 q ((q', t') :: l2) ds ND L) as WP. cbn [fst snd] in WP.
    rewrite E. etransitivity; [exact WP|].
    pose proof (dsteps_nth (map C (map fst l1)) (C q) (C q') (map C (map fst l2))) as DN.
    rewrite <- DN. unfold ds. rewrite E. rewrite !map_app. cbn [map fst].
    change (carrier RNum) with R in *. rewrite !map_length. reflexivity.
  - exists t'. split; [rewrite E, in_app_iff; right; right; left; reflexivity|].
    pose proof ts_nodup as ND. rewrite E, map_app in ND. cbn [map snd] in ND. apply NoDup_remove_2 in ND.
    intros ->. apply ND. rewrite in_app_iff. right. left. reflexivity.
  - pose proof ts_sorted as SS. rewrite E in SS. destruct (ss_app _ _ _ SS) as [_ B]. apply (B (q', t')). left. reflexivity.
  - intros x t Hx Ht. pose proof ts_sorted as SS. rewrite E in SS, Hx. destruct (ss_app _ _ _ SS) as [A _].
    assert (SS2 : StronglySorted (fun x y : R * tag => fst x <= fst y) ((l1 ++ [(q, (side, i))]) ++ (q', t') :: l2)) by (rewrite <- app_assoc; exact SS).
    destruct (ss_app _ _ _ SS2) as [_ B].
    rewrite in_app_iff in Hx. destruct Hx as [Hx|[Hx|[Hx|Hx]]].
    + left. apply (A (x, t)); auto. + left. injection Hx; intros; subst; lra.
    + right. injection Hx; intros; subst; lra. + right. apply (B (x, t)); auto.
Qed.

Let c (i j : nat) := diff_cost (N:=RNum) rpow p (lnth u i) (lnth v j).
Let Jx i := iv (rsum (S i) a).
Let Ix j := iu (rsum (S j) b).

Lemma iu_cum : forall i, (i < n)%nat -> iu (rsum (S i) a) = i.
Proof.
  intros i Hi. assert (Q : rsum (S i) a <= rsum n a) by (apply (psum_mono n a); auto; lia).
  pose proof (iu_lt i _ Hi Q). assert (iu (rsum (S i) a) <= i)%nat by (apply H; lra).
  destruct (Nat.eq_dec (iu (rsum (S i) a)) i); auto. exfalso.
  pose proof (iu_lt (i - 1) _ ltac:(lia) Q) as H1. assert (iu (rsum (S i) a) <= i - 1)%nat as H2 by lia.
  apply H1 in H2. replace (S (i - 1)) with i in H2 by lia. pose proof (psum_lt n a i (S i) Pa ltac:(lia)). lra.
Qed.
Lemma iv_cum : forall j, (j < m)%nat -> iv (rsum (S j) b) = j.
Proof.
  intros i Hi. assert (Q : rsum (S i) b <= rsum n a) by (unfold mass in Hab; rewrite Hab; apply (psum_mono m b); auto; lia).
  pose proof (iv_lt i _ Hi Q). assert (iv (rsum (S i) b) <= i)%nat by (apply H; lra).
  destruct (Nat.eq_dec (iv (rsum (S i) b)) i); auto. exfalso.
  pose proof (iv_lt (i - 1) _ ltac:(lia) Q) as H1. assert (iv (rsum (S i) b) <= i - 1)%nat as H2 by lia.
  apply H1 in H2. replace (S (i - 1)) with i in H2 by lia. pose proof (psum_lt m b i (S i) Pb ltac:(lia)). lra.
Qed.


Lemma tag_strict : forall side i q q' t', q < rsum n a ->
  (side = true /\ (S i < n)%nat /\ q = rsum (S i) a \/ side = false /\ (S i < m)%nat /\ q = rsum (S i) b) ->
  In (q', t') ts -> t' <> (side, i) -> q <= q' -> q < q'.
Proof.
  intros side i q q' t' Qlt Hs Hin Ht Hle. destruct Hle as [|Heq]; auto. exfalso. subst q'.
  apply ts_in in Hin. destruct Hin as [(k & Hk & -> & E)|(k & Hk & -> & E)]; destruct Hs as [(-> & Hi & E')|(-> & Hi & E')].
  - assert (k <> i) by congruence. rewrite E in E'. destruct (Nat.lt_total k i) as [X|[X|X]]; [|auto|];
      [pose proof (psum_lt n a (S k) (S i) Pa ltac:(lia))|pose proof (psum_lt n a (S i) (S k) Pa ltac:(lia))]; lra.
  - destruct (Nat.eq_dec (S k) n) as [X|X]; [rewrite X in E; lra|]. apply (Hties (S k) (S i)); try lia. congruence.
  - destruct (Nat.eq_dec (S k) m) as [X|X]; [rewrite X in E; unfold mass in Hab; lra|]. apply (Hties (S i) (S k)); try lia. congruence.
  - assert (k <> i) by congruence. rewrite E in E'. destruct (Nat.lt_total k i) as [X|[X|X]]; [|auto|];
      [pose proof (psum_lt m b (S k) (S i) Pb ltac:(lia))|pose proof (psum_lt m b (S i) (S k) Pb ltac:(lia))]; lra.
Qed.

(** the other side's index does not move across the step *)
Lemma iv_same : forall i q q', (S i < n)%nat -> q = rsum (S i) a -> q < q' -> q' <= rsum n a ->
  (forall x t, In (x, t) ts -> t <> (true, i) -> x <= q \/ q' <= x) -> iv q' = iv q.
Proof.
  intros i q q' Hi Eq Lt Le Gap. assert (Q : q <= rsum n a) by lra.
  assert (K : forall k, (k < m)%nat -> ((iv q' <= k)%nat <-> (iv q <= k)%nat)).
  { intros k Hk. rewrite (iv_lt k q' Hk Le), (iv_lt k q Hk Q). split; [lra|]. intros H.
    assert (Hin : In (rsum (S k) b, (false, k)) ts) by (apply ts_in; right; exists k; auto).
    destruct (Gap _ _ Hin ltac:(discriminate)) as [X|X]; [|exact X]. exfalso.
    assert (E : rsum (S i) a = rsum (S k) b) by lra.
    destruct (Nat.eq_dec (S k) m) as [Y|Y].
    - rewrite Y in E. unfold mass in Hab. pose proof (psum_lt n a (S i) n Pa ltac:(lia)). lra.
    - apply (Hties (S i) (S k)); auto; lia. }
  pose proof (iv_range q). pose proof (iv_range q').
  pose proof (K (iv q) ltac:(auto)). pose proof (K (iv q') ltac:(auto)). lia.
Qed.
Lemma iu_same : forall i q q', (S i < m)%nat -> q = rsum (S i) b -> q < q' -> q' <= rsum n a ->
  (forall x t, In (x, t) ts -> t <> (false, i) -> x <= q \/ q' <= x) -> iu q' = iu q.
Proof.
  intros i q q' Hi Eq Lt Le Gap. assert (Q : q <= rsum n a) by lra.
  assert (K : forall k, (k < n)%nat -> ((iu q' <= k)%nat <-> (iu q <= k)%nat)).
  { intros k Hk. rewrite (iu_lt k q' Hk Le), (iu_lt k q Hk Q). split; [lra|]. intros H.
    assert (Hin : In (rsum (S k) a, (true, k)) ts) by (apply ts_in; left; exists k; auto).
    destruct (Gap _ _ Hin ltac:(discriminate)) as [X|X]; [|exact X]. exfalso.
    assert (E : rsum (S i) b = rsum (S k) a) by lra.
    destruct (Nat.eq_dec (S k) n) as [Y|Y].
    - rewrite Y in E. unfold mass in Hab. pose proof (psum_lt m b (S i) m Pb ltac:(lia)). lra.
    - apply (Hties (S k) (S i)); auto; lia. }
  pose proof (iu_range q). pose proof (iu_range q').
  pose proof (K (iu q) ltac:(auto)). pose proof (K (iu q') ltac:(auto)). lia.
Qed.

Lemma f_step : forall i, (S i < n)%nat -> f i - f (S i) = c i (Jx i) - c (S i) (Jx i).
Proof.
  intros i Hi. set (q := rsum (S i) a).
  assert (Qlt : q < rsum n a) by (apply (psum_lt n a); auto; lia).
  assert (Hin : In (q, (true, i)) ts) by (apply ts_in; left; exists i; repeat split; auto; lia).
  destruct (pick_val true i q Hin Qlt) as (q' & E & (t' & Hq' & Ht') & Hle & Gap).
  rewrite !f_wsum, pick_diff, E. unfold C, qfun. fold (iu q) (iv q) (iu q') (iv q').
  assert (Q' : q' <= rsum n a) by (eapply ts_le; eauto).
  assert (Strict : q < q') by (apply (tag_strict true i q q' t'); auto).
  assert (L1 : q' <= rsum (S (S i)) a).
  { assert (Nx : In (rsum (S (S i)) a, (true, S i)) ts) by (apply ts_in; left; exists (S i); repeat split; auto).
    destruct (Gap _ _ Nx ltac:(intros X; injection X; lia)) as [X|X]; [|exact X].
    pose proof (psum_lt n a (S i) (S (S i)) Pa ltac:(lia)). unfold q in X. lra. }
  rewrite (iv_same i q q'); auto.
  assert (I1 : iu q' = S i).
  { assert (iu q' <= S i)%nat by (apply iu_lt; auto). assert (~ (iu q' <= i)%nat) by (rewrite (iu_lt i q' ltac:(lia) Q'); fold q; lra). lia. }
  rewrite I1. unfold q at 1. rewrite iu_cum by lia. reflexivity.
Qed.
Lemma g_step : forall j, (S j < m)%nat -> g j - g (S j) = c (Ix j) j - c (Ix j) (S j).
Proof.
  intros i Hi. set (q := rsum (S i) b).
  assert (Qlt : q < rsum n a) by (unfold mass in Hab; rewrite Hab; apply (psum_lt m b); auto; lia).
  assert (Hin : In (q, (false, i)) ts) by (apply ts_in; right; exists i; repeat split; auto; lia).
  destruct (pick_val false i q Hin Qlt) as (q' & E & (t' & Hq' & Ht') & Hle & Gap).
  rewrite !g_wsum, pick_diff, E. unfold C, qfun. fold (iu q) (iv q) (iu q') (iv q').
  assert (Q' : q' <= rsum n a) by (eapply ts_le; eauto).
  assert (Strict : q < q') by (apply (tag_strict false i q q' t'); auto).
  assert (L1 : q' <= rsum (S (S i)) b).
  { assert (Nx : In (rsum (S (S i)) b, (false, S i)) ts) by (apply ts_in; right; exists (S i); repeat split; auto).
    destruct (Gap _ _ Nx ltac:(intros X; injection X; lia)) as [X|X]; [|exact X].
    pose proof (psum_lt m b (S i) (S (S i)) Pb ltac:(lia)). unfold q in X. lra. }
  rewrite (iu_same i q q'); auto.
  assert (I1 : iv q' = S i).
  { assert (iv q' <= S i)%nat by (apply iv_lt; auto). assert (~ (iv q' <= i)%nat) by (rewrite (iv_lt i q' ltac:(lia) Q'); fold q; lra). lia. }
  rewrite I1. unfold q at 2. rewrite iv_cum by lia. reflexivity.
Qed.

(** Monge: column differences decrease with the row *)
Hypothesis Mon : monge n m c.
Lemma monge_rows : forall i i' l, (i <= i' < n)%nat -> (S l < m)%nat -> c i' (S l) - c i' l <= c i (S l) - c i l.
Proof.
  intros i i' l [H1 H2] Hl. induction H1 as [|i' H1 IH]; [lra|]. specialize (IH ltac:(lia)).
  pose proof (Mon i' l ltac:(lia) Hl). lra.
Qed.

Lemma Ix_range : forall j, (Ix j < n)%nat. Proof. intros. apply iu_range. Qed.

(** tight on row i at column Jx i *)
Lemma row_tight : forall i, (i < n)%nat -> f i + g (Jx i) = c i (Jx i).
Proof.
  intros i Hi. assert (H : In (rsum (S i) a) (map fst ts)).
  { apply in_map_iff. exists (rsum (S i) a, (true, i)). split; auto. apply ts_in. left. exists i. auto. }
  pose proof (tight _ H) as T. rewrite iu_cum in T by auto. unfold C, qfun in T. fold (iu (rsum (S i) a)) (iv (rsum (S i) a)) in T.
  rewrite iu_cum in T by auto. exact T.
Qed.

Lemma below : forall i l, (i < n)%nat -> (l < m)%nat -> ((Jx i <= l)%nat -> (i <= Ix l)%nat) /\ ((l < Jx i)%nat -> (Ix l <= i)%nat).
Proof.
  intros i l Hi Hl. assert (Q : rsum (S i) a <= rsum n a) by (apply (psum_mono n a); auto; lia).
  assert (Q2 : rsum (S l) b <= rsum n a) by (unfold mass in Hab; rewrite Hab; apply (psum_mono m b); auto; lia).
  pose proof (iv_lt l _ Hl Q) as E. unfold Jx, Ix. split; intros H.
  - apply E in H. destruct (le_lt_dec i (iu (rsum (S l) b))) as [|X]; auto. exfalso.
    pose proof (iu_lt (i - 1) _ ltac:(lia) Q2) as [E2 _]. specialize (E2 ltac:(lia)). replace (S (i - 1)) with i in E2 by lia.
    pose proof (psum_lt n a i (S i) Pa ltac:(lia)). lra.
  - apply iu_lt; auto. assert (~ rsum (S i) a <= rsum (S l) b) by (intros X; apply E in X; lia). lra.
Qed.

Lemma feasible : forall i j, (i < n)%nat -> (j < m)%nat -> f i + g j <= c i j.
Proof.
  intros i j Hi Hj. pose proof (row_tight i Hi) as T. pose proof (iv_range (rsum (S i) a)) as R. fold (Jx i) in R.
  assert (Up : forall k, (Jx i + k < m)%nat -> f i + g (Jx i + k)%nat <= c i (Jx i + k)%nat).
  { induction k; intros H; [rewrite Nat.add_0_r; lra|]. specialize (IHk ltac:(lia)).
    rewrite Nat.add_succ_r in *. pose proof (g_step (Jx i + k) ltac:(lia)) as G.
    destruct (below i (Jx i + k) Hi ltac:(lia)) as [B _]. specialize (B ltac:(lia)).
    pose proof (monge_rows i (Ix (Jx i + k)) (Jx i + k) ltac:(split; [auto|apply Ix_range]) ltac:(lia)). lra. }
  assert (Dn : forall k, (k <= Jx i)%nat -> f i + g (Jx i - k)%nat <= c i (Jx i - k)%nat).
  { induction k; intros H; [rewrite Nat.sub_0_r; lra|]. specialize (IHk ltac:(lia)).
    set (l := (Jx i - S k)%nat) in *. replace (Jx i - k)%nat with (S l) in IHk by (unfold l; lia).
    pose proof (g_step l ltac:(unfold l; lia)) as G.
    destruct (below i l Hi ltac:(unfold l; lia)) as [_ B]. specialize (B ltac:(unfold l; lia)).
    pose proof (monge_rows (Ix l) i l ltac:(auto) ltac:(unfold l; lia)). lra. }
  destruct (le_lt_dec (Jx i) j).
  - replace j with (Jx i + (j - Jx i))%nat by lia. apply Up. lia.
  - replace j with (Jx i - (Jx i - j))%nat by lia. apply Dn. lia.
Qed.
End Sorted.
