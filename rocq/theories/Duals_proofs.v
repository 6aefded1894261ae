From Coq Require Import List Arith Bool Reals Lra Lia Permutation.
From Verif Require Import Num Sums Spec Perm Duals_model.
Import ListNotations.
Local Open Scope R_scope.

Lemma nsum_R : forall n (f : nat -> R), @nsum RNum n f = rsum n f.
Proof. induction n; intros; [reflexivity|]. cbn [nsum rsum]. rewrite IHn. reflexivity. Qed.

Lemma nmaxk_ge : forall k (f : nat -> R) i, (i <= k)%nat -> f i <= @nmaxk RNum k f.
Proof.
  induction k; intros f i Hi.
  - replace i with 0%nat by lia. simpl; lra.
  - cbn [nmaxk]. rewrite nmax_R. destruct (Nat.eq_dec i (S k)) as [->|].
    + apply Rmax_r.
    + eapply Rle_trans; [apply IHk; lia|apply Rmax_l].
Qed.
Lemma nmaxk_In : forall k (f : nat -> R), exists i, (i <= k)%nat /\ @nmaxk RNum k f = f i.
Proof.
  induction k; intros f; [exists 0%nat; auto|]. cbn [nmaxk]. rewrite nmax_R.
  destruct (IHk f) as (i & Hi & E). unfold Rmax. destruct (Rle_dec _ _).
  - exists (S k); auto. - exists i; split; auto.
Qed.

Lemma rsum_lfold_nth : forall (l : list nat) g, rsum (length l) (fun k => g (nth k l 0%nat)) = lfold (map g l).
Proof.
  induction l as [|x l IH]; intros g; [reflexivity|]. cbn [length map lfold fold_right].
  rewrite rsum_first. cbn [nth]. rewrite IH. reflexivity.
Qed.

Lemma lfold_filter : forall (p : nat -> bool) g l, (forall x, In x l -> p x = false -> g x = 0) ->
  lfold (map g (filter p l)) = lfold (map g l).
Proof.
  induction l as [|x l IH]; intros H; [reflexivity|]. cbn [filter map].
  assert (IH' : lfold (map g (filter p l)) = lfold (map g l)) by (apply IH; intros; apply H; simpl; auto).
  destruct (p x) eqn:E; cbn [map lfold fold_right]; fold (lfold (map g l)) in *.
  - unfold lfold in *. simpl. rewrite IH'; auto.
  - unfold lfold in *. simpl. rewrite IH', (H x) by (simpl; auto). lra.
Qed.

Lemma rsum_active : forall n p g, (forall i, (i < n)%nat -> p i = false -> g i = 0) ->
  rsum (length (flatnonzero n p)) (fun k => g (nth k (flatnonzero n p) 0%nat)) = rsum n g.
Proof.
  intros n p g H. rewrite rsum_lfold_nth, rsum_lfold. apply lfold_filter.
  intros x Hx; apply H. apply in_seq in Hx; lia.
Qed.

Lemma index_of_nth : forall l k, NoDup l -> (k < length l)%nat -> index_of (nth k l 0%nat) l = Some k.
Proof.
  induction l as [|x l IH]; intros k Hd Hk; [simpl in Hk; lia|]. inversion Hd; subst.
  destruct k as [|k]; cbn [nth index_of]; [rewrite Nat.eqb_refl; auto|].
  assert (In (nth k l 0%nat) l) by (apply nth_In; simpl in Hk; lia).
  destruct (Nat.eqb_spec x (nth k l 0%nat)) as [E|_]; [subst; contradiction|].
  rewrite IH; auto; simpl in Hk; lia.
Qed.
Lemma index_of_some : forall l i k, index_of i l = Some k -> (k < length l)%nat /\ nth k l 0%nat = i.
Proof.
  induction l as [|x l IH]; intros i k H; [discriminate|]. cbn [index_of] in H.
  destruct (Nat.eqb_spec x i) as [->|Hne].
  - injection H; intros; subst; simpl; split; auto; lia.
  - destruct (index_of i l) as [k'|] eqn:E; [|discriminate]. injection H; intros; subst.
    apply IH in E. destruct E; simpl; split; auto; lia.
Qed.
Lemma index_of_none : forall l i, index_of i l = None <-> ~ In i l.
Proof.
  induction l as [|x l IH]; intros i; simpl; [tauto|].
  destruct (Nat.eqb_spec x i) as [->|Hne].
  - split; [discriminate|tauto].
  - specialize (IH i). destruct (index_of i l); simpl; split; intros; try discriminate.
    + exfalso. assert (~ In i l) by tauto. apply IH in H0; discriminate.
    + intros [?|?]; [congruence|]. apply IH in H0; auto.
    + reflexivity.
Qed.

Lemma flatnonzero_NoDup : forall n p, NoDup (flatnonzero n p).
Proof. intros; apply NoDup_filter, seq_NoDup. Qed.
Lemma flatnonzero_In : forall n p i, In i (flatnonzero n p) <-> (i < n)%nat /\ p i = true.
Proof. intros; unfold flatnonzero. rewrite filter_In, in_seq. intuition lia. Qed.
Lemma index_flat : forall n p i, (i < n)%nat ->
  (p i = false /\ index_of i (flatnonzero n p) = None) \/
  (p i = true /\ exists k, index_of i (flatnonzero n p) = Some k /\ (k < length (flatnonzero n p))%nat
      /\ nth k (flatnonzero n p) 0%nat = i).
Proof.
  intros n p i Hi. destruct (p i) eqn:E; [right|left]; split; auto.
  - destruct (index_of i (flatnonzero n p)) as [k|] eqn:F.
    + exists k. apply index_of_some in F. tauto.
    + apply index_of_none in F. exfalso; apply F, flatnonzero_In; auto.
  - apply index_of_none. rewrite flatnonzero_In. intros [_ H]; congruence.
Qed.

(** ** center_ot_dual *)
Section Center.
Variables (n m : nat) (u v a b : vec).
Hypothesis Hd : mass n a + mass m b <> 0.
Let c := (rsum m (fun j => b j * v j) - rsum n (fun i => a i * u i)) / (mass n a + mass m b).

Lemma center_eq : center_ot_dual (N:=RNum) n m u v a b = ((fun i => u i + c), (fun j => v j - c)).
Proof. unfold center_ot_dual, c, mass. rewrite !nsum_R. reflexivity. Qed.

Lemma dual_obj_shift : forall k, dual_obj n m a b (fun i => u i + k) (fun j => v j - k)
  = dual_obj n m a b u v + k * (mass n a - mass m b).
Proof.
  intros k. unfold dual_obj, dot, mass.
  rewrite (rsum_ext n _ (fun i => u i * a i + k * a i)), (rsum_ext m _ (fun j => v j * b j - k * b j)) by (intros; ring).
  rewrite rsum_plus, rsum_minus, !rsum_scal. ring.
Qed.

Lemma center_spec : forall u' v', center_ot_dual (N:=RNum) n m u v a b = (u', v') ->
  (forall i j, u' i + v' j = u i + v j) /\ dot n u' a = dot m v' b
  /\ (mass n a = mass m b -> dual_obj n m a b u' v' = dual_obj n m a b u v).
Proof.
  intros u' v' E. rewrite center_eq in E. injection E; intros; subst. split; [intros; lra|]. split.
  - unfold dot.
    rewrite (rsum_ext n _ (fun i => u i * a i + c * a i)), (rsum_ext m _ (fun j => v j * b j - c * b j)) by (intros; ring).
    rewrite rsum_plus, rsum_minus, !rsum_scal. unfold c, mass in *.
    rewrite (rsum_ext m (fun j => b j * v j) (fun j => v j * b j)), (rsum_ext n (fun j => a j * u j) (fun j => u j * a j)) by (intros; ring).
    field; auto.
  - intros Hm. rewrite dual_obj_shift, Hm. ring.
Qed.
End Center.

(** ** estimate_dual_null_weights *)
Lemma estimate_spec_eps : forall n m u v a b M u' v' d, 0 <= d ->
  (0 < n)%nat -> (0 < m)%nat -> mass n a = mass m b -> mass n a <> 0 ->
  (forall i j, (i < n)%nat -> (j < m)%nat -> a i <> 0 -> b j <> 0 -> u i + v j <= M i j + d) ->
  estimate_dual_null_weights (N:=RNum) n m u v a b M = (u', v') ->
  (forall i j, (i < n)%nat -> (j < m)%nat -> u' i + v' j <= M i j + d) /\ dual_obj n m a b u' v' = dual_obj n m a b u v
  /\ dot n u' a = dot m v' b
  /\ (forall i j, a i <> 0 -> b j <> 0 -> u' i + v' j = u i + v j).
Proof.
  intros n m u v a b M u' v' d Hd Hn Hm Hab Ha Hf E.
  set (av := fun i => @nmaxk RNum (m - 1) (fun j => u i + v j - M i j)).
  set (bv := fun j => @nmaxk RNum (n - 1) (fun i => u i + v j - M i j)).
  set (au := fun i => if negb (Reqb (a i) 0) then 0 else @nopp RNum (@nmax RNum (av i) 0)).
  set (bu := fun j => if negb (Reqb (b j) 0) then 0 else @nopp RNum (@nmax RNum (bv j) 0)).
  assert (E' : center_ot_dual (N:=RNum) n m (fun i => u i + au i) (fun j => v j + bu j) a b = (u', v')) by exact E.
  clear E; rename E' into E.
  assert (Hau : forall i, (a i <> 0 -> au i = 0) /\ (a i = 0 -> au i = - Rmax (av i) 0)).
  { intros i. unfold au. destruct (Reqb (a i) 0) eqn:Z; cbn [negb].
    - apply Reqb_true in Z. split; [intros; contradiction|]. intros _. rewrite nmax_R. unfold nopp; cbn; lra.
    - apply Reqb_false in Z. split; auto. intros; contradiction. }
  assert (Hbu : forall j, (b j <> 0 -> bu j = 0) /\ (b j = 0 -> bu j = - Rmax (bv j) 0)).
  { intros j. unfold bu. destruct (Reqb (b j) 0) eqn:Z; cbn [negb].
    - apply Reqb_true in Z. split; [intros; contradiction|]. intros _. rewrite nmax_R. unfold nopp; cbn; lra.
    - apply Reqb_false in Z. split; auto. intros; contradiction. }
  apply center_spec in E; [|rewrite <- Hab; lra].
  destruct E as (E1 & E2 & E3).
  change (@nadd RNum) with Rplus in *.
  split; [|split; [|split]]; auto.
  - intros i j Hi Hj. rewrite E1.
    assert (Av : u i + v j - M i j <= av i) by (apply (nmaxk_ge (m - 1) (fun j => u i + v j - M i j)); lia).
    assert (Bv : u i + v j - M i j <= bv j) by (apply (nmaxk_ge (n - 1) (fun i => u i + v j - M i j)); lia).
    pose proof (Rmax_l (av i) 0). pose proof (Rmax_r (av i) 0).
    pose proof (Rmax_l (bv j) 0). pose proof (Rmax_r (bv j) 0).
    destruct (Hau i) as [A1 A2]. destruct (Hbu j) as [B1 B2].
    destruct (Req_dec (a i) 0) as [Za|Za]; destruct (Req_dec (b j) 0) as [Zb|Zb].
    + rewrite A2, B2 by auto. lra.
    + rewrite A2, B1 by auto. lra.
    + rewrite A1, B2 by auto. lra.
    + rewrite A1, B1 by auto. specialize (Hf i j Hi Hj Za Zb). lra.
  - rewrite E3 by auto. unfold dual_obj, dot. f_equal; apply rsum_ext.
    + intros i Hi. destruct (Req_dec (a i) 0) as [Z|Z]; [rewrite Z; ring|]. destruct (Hau i) as [A1 _].
      rewrite A1 by auto. ring.
    + intros j Hj. destruct (Req_dec (b j) 0) as [Z|Z]; [rewrite Z; ring|]. destruct (Hbu j) as [B1 _].
      rewrite B1 by auto. ring.
  - intros i j Za Zb. rewrite E1. destruct (Hau i) as [A1 _]. destruct (Hbu j) as [B1 _].
    rewrite A1, B1 by auto. lra.
Qed.

Lemma estimate_spec : forall n m u v a b M u' v',
  (0 < n)%nat -> (0 < m)%nat -> mass n a = mass m b -> mass n a <> 0 ->
  (forall i j, (i < n)%nat -> (j < m)%nat -> a i <> 0 -> b j <> 0 -> u i + v j <= M i j) ->
  estimate_dual_null_weights (N:=RNum) n m u v a b M = (u', v') ->
  dual_feasible n m M u' v' /\ dual_obj n m a b u' v' = dual_obj n m a b u v
  /\ dot n u' a = dot m v' b
  /\ (forall i j, a i <> 0 -> b j <> 0 -> u' i + v' j = u i + v j).
Proof.
  intros n m u v a b M u' v' Hn Hm Hab Ha Hf E.
  destruct (estimate_spec_eps n m u v a b M u' v' 0) as (A & B); auto; try lra.
  { intros; rewrite Rplus_0_r; auto. }
  split; auto. intros i j Hi Hj. specialize (A i j Hi Hj). lra.
Qed.

(** ** Reduction to the active support *)
Section Active.
Variables (n m : nat) (a b : vec) (M : mat).
Let ra := fun i => negb (Reqb (a i) 0).
Let rb := fun j => negb (Reqb (b j) 0).
Let r := flatnonzero n ra.
Let c := flatnonzero m rb.
Let a' := fun k => a (nth k r 0%nat).
Let b' := fun l => b (nth l c 0%nat).
Let M' := fun k l => M (nth k r 0%nat) (nth l c 0%nat).

Definition infl (G : mat) : mat := fun i j =>
  match index_of i r, index_of j c with Some k, Some l => G k l | _, _ => 0 end.

Lemma ra_false : forall i, ra i = false <-> a i = 0.
Proof. intros; unfold ra. rewrite negb_false_iff. apply Reqb_true. Qed.
Lemma rb_false : forall j, rb j = false <-> b j = 0.
Proof. intros; unfold rb. rewrite negb_false_iff. apply Reqb_true. Qed.

Lemma infl_nth : forall G k l, (k < length r)%nat -> (l < length c)%nat ->
  infl G (nth k r 0%nat) (nth l c 0%nat) = G k l.
Proof. intros. unfold infl. rewrite !index_of_nth by (auto; apply flatnonzero_NoDup). reflexivity. Qed.

Lemma infl_zero_row : forall G i j, (i < n)%nat -> ra i = false -> infl G i j = 0.
Proof. intros G i j Hi H. unfold infl. destruct (index_flat n ra i Hi) as [[_ E]|[E _]]; [|congruence]. fold r in E. rewrite E; auto. Qed.
Lemma infl_zero_col : forall G i j, (j < m)%nat -> rb j = false -> infl G i j = 0.
Proof.
  intros G i j Hj H. unfold infl. destruct (index_flat m rb j Hj) as [[_ E]|[E _]]; [|congruence]. fold c in E.
  rewrite E. destruct (index_of i r); auto. Qed.

Lemma double_active : forall f, (forall i j, (i < n)%nat -> (j < m)%nat -> ra i = false \/ rb j = false -> f i j = 0) ->
  rsum (length r) (fun k => rsum (length c) (fun l => f (nth k r 0%nat) (nth l c 0%nat))) =
  rsum n (fun i => rsum m (fun j => f i j)).
Proof.
  intros f Hf.
  assert (A : forall i, (i < n)%nat -> rsum (length c) (fun l => f i (nth l c 0%nat)) = rsum m (fun j => f i j)).
  { intros i Hi. apply (rsum_active m rb (fun j => f i j)). auto. }
  rewrite (rsum_ext (length r) _ (fun k => (fun i => rsum m (fun j => f i j)) (nth k r 0%nat))).
  - apply (rsum_active n ra (fun i => rsum m (fun j => f i j))). intros i Hi E. apply rsum_0; auto.
  - intros k Hk. apply A. assert (In (nth k r 0%nat) r) by (apply nth_In; auto).
    apply flatnonzero_In in H; tauto.
Qed.

Lemma infl_row : forall G k, (k < length r)%nat -> row_sum m (infl G) (nth k r 0%nat) = row_sum (length c) G k.
Proof.
  intros G k Hk. unfold row_sum.
  rewrite <- (rsum_active m rb (fun j => infl G (nth k r 0%nat) j)).
  - fold c. apply rsum_ext; intros l Hl. apply infl_nth; auto.
  - intros j Hj E. apply infl_zero_col; auto.
Qed.
Lemma infl_col : forall G l, (l < length c)%nat -> col_sum n (infl G) (nth l c 0%nat) = col_sum (length r) G l.
Proof.
  intros G l Hl. unfold col_sum.
  rewrite <- (rsum_active n ra (fun i => infl G i (nth l c 0%nat))).
  - fold r. apply rsum_ext; intros k Hk. apply infl_nth; auto.
  - intros i Hi E. apply infl_zero_row; auto.
Qed.

Lemma infl_nonneg : forall G, nonneg_mat (length r) (length c) G -> nonneg_mat n m (infl G).
Proof.
  intros G H i j Hi Hj. unfold infl.
  destruct (index_flat n ra i Hi) as [[_ E]|[_ (k & E & Hk & _)]]; fold r in E; rewrite E; [lra|].
  destruct (index_flat m rb j Hj) as [[_ E']|[_ (l & E' & Hl & _)]]; fold c in E'; rewrite E'; [lra|].
  apply H; auto.
Qed.

Lemma infl_coupling : forall G, coupling (length r) (length c) a' b' G -> coupling n m a b (infl G).
Proof.
  intros G (H1 & H2 & H3). split; [apply infl_nonneg; auto|]. split.
  - intros i Hi. destruct (index_flat n ra i Hi) as [[E F]|[_ (k & E & Hk & <-)]].
    + unfold row_sum. rewrite rsum_0; [symmetry; apply ra_false; auto|]. intros; apply infl_zero_row; auto.
    + fold r in Hk |- *. rewrite infl_row by auto. apply H2; auto.
  - intros j Hj. destruct (index_flat m rb j Hj) as [[E F]|[_ (l & E & Hl & <-)]].
    + unfold col_sum. rewrite rsum_0; [symmetry; apply rb_false; auto|]. intros; apply infl_zero_col; auto.
    + fold c in Hl |- *. rewrite infl_col by auto. apply H3; auto.
Qed.

Lemma infl_subcoupling : forall G, subcoupling (length r) (length c) a' b' G -> subcoupling n m a b (infl G).
Proof.
  intros G (H1 & H2 & H3). split; [apply infl_nonneg; auto|]. split.
  - intros i Hi. destruct (index_flat n ra i Hi) as [[E F]|[_ (k & E & Hk & <-)]].
    + unfold row_sum. rewrite rsum_0; [right; symmetry; apply ra_false; auto|]. intros; apply infl_zero_row; auto.
    + fold r in Hk |- *. rewrite infl_row by auto. apply H2; auto.
  - intros j Hj. destruct (index_flat m rb j Hj) as [[E F]|[_ (l & E & Hl & <-)]].
    + unfold col_sum. rewrite rsum_0; [right; symmetry; apply rb_false; auto|]. intros; apply infl_zero_col; auto.
    + fold c in Hl |- *. rewrite infl_col by auto. apply H3; auto.
Qed.

Lemma infl_cost : forall G, cost n m M (infl G) = cost (length r) (length c) M' G.
Proof.
  intros G. unfold cost. rewrite <- (double_active (fun i j => M i j * infl G i j)).
  - apply rsum_ext; intros k Hk; apply rsum_ext; intros l Hl. rewrite infl_nth by auto. reflexivity.
  - intros i j Hi Hj [E|E]; [rewrite infl_zero_row|rewrite infl_zero_col]; auto; ring.
Qed.

(** restriction of a full coupling *)
Lemma restrict_coupling : forall P, coupling n m a b P ->
  coupling (length r) (length c) a' b' (fun k l => P (nth k r 0%nat) (nth l c 0%nat))
  /\ cost (length r) (length c) M' (fun k l => P (nth k r 0%nat) (nth l c 0%nat)) = cost n m M P.
Proof.
  intros P (H1 & H2 & H3).
  assert (Zr : forall i j, (i < n)%nat -> (j < m)%nat -> ra i = false -> P i j = 0).
  { intros i j Hi Hj E. apply ra_false in E.
    apply (rsum_nonneg_zero m (fun j => P i j)); auto. rewrite <- E. apply H2; auto. }
  assert (Zc : forall i j, (i < n)%nat -> (j < m)%nat -> rb j = false -> P i j = 0).
  { intros i j Hi Hj E. apply rb_false in E.
    apply (rsum_nonneg_zero n (fun i => P i j)); auto. rewrite <- E. apply H3; auto. }
  assert (Ir : forall k, (k < length r)%nat -> (nth k r 0 < n)%nat).
  { intros k Hk. assert (In (nth k r 0%nat) r) by (apply nth_In; auto). apply flatnonzero_In in H; tauto. }
  assert (Ic : forall k, (k < length c)%nat -> (nth k c 0 < m)%nat).
  { intros k Hk. assert (In (nth k c 0%nat) c) by (apply nth_In; auto). apply flatnonzero_In in H; tauto. }
  split; [split; [|split]|].
  - intros k l Hk Hl. apply H1; auto.
  - intros k Hk. unfold a'. rewrite <- H2 by auto. unfold row_sum.
    apply (rsum_active m rb (fun j => P (nth k r 0%nat) j)). auto.
  - intros l Hl. unfold b'. rewrite <- H3 by auto. unfold col_sum.
    apply (rsum_active n ra (fun i => P i (nth l c 0%nat))). auto.
  - unfold cost, M'. apply (double_active (fun i j => M i j * P i j)).
    intros i j Hi Hj [E|E]; [rewrite Zr|rewrite Zc]; auto; ring.
Qed.

Lemma infl_optimal : forall G, optimal_coupling (length r) (length c) a' b' M' G ->
  optimal_coupling n m a b M (infl G).
Proof.
  intros G [H1 H2]. split; [apply infl_coupling; auto|]. intros P HP. rewrite infl_cost.
  destruct (restrict_coupling P HP) as [C E]. rewrite <- E. apply H2; auto.
Qed.

(** potentials *)
Definition inflv (l : list nat) (u : vec) : vec := fun i => match index_of i l with Some k => u k | None => 0 end.
Lemma infl_dual_obj : forall u v, dual_obj n m a b (inflv r u) (inflv c v) = dual_obj (length r) (length c) a' b' u v.
Proof.
  intros u v. unfold dual_obj, dot. f_equal.
  - rewrite <- (rsum_active n ra (fun i => inflv r u i * a i)).
    + fold r. apply rsum_ext; intros k Hk. unfold inflv. rewrite index_of_nth by (auto; apply flatnonzero_NoDup). reflexivity.
    + intros i Hi E. apply ra_false in E. rewrite E; ring.
  - rewrite <- (rsum_active m rb (fun i => inflv c v i * b i)).
    + fold c. apply rsum_ext; intros k Hk. unfold inflv. rewrite index_of_nth by (auto; apply flatnonzero_NoDup). reflexivity.
    + intros i Hi E. apply rb_false in E. rewrite E; ring.
Qed.
Lemma infl_feasible_on_support : forall u v, dual_feasible (length r) (length c) M' u v ->
  forall i j, (i < n)%nat -> (j < m)%nat -> a i <> 0 -> b j <> 0 -> inflv r u i + inflv c v j <= M i j.
Proof.
  intros u v H i j Hi Hj Ha Hb. unfold inflv.
  destruct (index_flat n ra i Hi) as [[E _]|[_ (k & E & Hk & Ek)]]; [apply ra_false in E; contradiction|].
  destruct (index_flat m rb j Hj) as [[E' _]|[_ (l & E' & Hl & El)]]; [apply rb_false in E'; contradiction|].
  fold r in E, Hk, Ek. fold c in E', Hl, El. rewrite E, E'. specialize (H k l Hk Hl). unfold M' in H. rewrite Ek, El in H. auto.
Qed.
Lemma active_mass_r : mass (length r) a' = mass n a.
Proof. unfold mass. apply (rsum_active n ra a). intros i Hi E. apply ra_false; auto. Qed.
Lemma active_mass_c : mass (length c) b' = mass m b.
Proof. unfold mass. apply (rsum_active m rb b). intros i Hi E. apply rb_false; auto. Qed.
End Active.

Lemma filter_all : forall (p : nat -> bool) l, forallb p l = true -> filter p l = l.
Proof.
  induction l as [|x l IH]; intros H; [reflexivity|]. simpl in *. apply andb_true_iff in H. destruct H as [-> H].
  rewrite IH; auto.
Qed.
