(** Facts about the sliced plans, at R. *)
From Coq Require Import Reals List Lra Lia Bool Permutation.
From Verif Require Import Num Sums Spec Monge Perm Emd1d_model Emd1d_proofs Emd1d_perm_proofs W1d_model W1d_proofs Emd1d_final Duals_proofs Utils_model Utils_proofs Utils_batch Circle_model Wp Sliced_model Sliced_proofs.
Import ListNotations.
Local Open Scope R_scope.

(** the ground distance of a metric name, as documented *)
Definition ground (mt : metric) (p : R) (d : nat) (X Y : mat) : mat := fun i j =>
  match mt with
  | Emd1d_model.SqEuclidean => rsum d (fun t => (X i t - Y j t) ^ 2)
  | Euclidean => sqrt (rsum d (fun t => (X i t - Y j t) ^ 2))
  | CityBlock => rsum d (fun t => Rabs (X i t - Y j t))
  | _ => rpow (rsum d (fun t => rpow (Rabs (X i t - Y j t)) p)) (1 / p)
  end.
Lemma rpow_Rpower : forall x p, 0 < x -> rpow x p = Rpower x p.
Proof. intros x p H. unfold rpow. destruct (Req_EM_T x 0); auto; lra. Qed.
Lemma rpow_2 : forall x, rpow (Rabs x) 2 = x ^ 2.
Proof.
  intros x. destruct (Req_dec x 0) as [-> |H].
  - rewrite Rabs_R0. rewrite rpow_0; ring.
  - assert (P := Rabs_pos_lt x H). rewrite rpow_Rpower by auto. replace 2 with (INR 2) by (cbn; lra). rewrite Rpower_pow by auto. rewrite RPow_abs, Rabs_right; auto. apply Rle_ge, pow2_ge_0.
Qed.
Lemma rpow_half : forall x, 0 <= x -> rpow x (1 / 2) = sqrt x.
Proof.
  intros x H. destruct (Req_dec x 0) as [-> |H'].
  - rewrite sqrt_0. apply rpow_0.
  - rewrite rpow_Rpower by lra. replace (1 / 2) with (/ 2) by lra. apply Rpower_sqrt. lra.
Qed.
Lemma nabs_R' : forall x : R, nabs (N:=RNum) x = Rabs x.
Proof. intros x. unfold nabs, nopp. cbn. unfold Rltb. destruct (Rlt_dec x 0); [rewrite Rabs_left by auto; ring|rewrite Rabs_right by lra; auto]. Qed.
Lemma pair_dist_ground : forall mt p d X Y i j, pair_dist (N:=RNum) rpow mt p d X Y i j = ground mt p d X Y i j.
Proof.
  intros mt p d X Y i j. unfold pair_dist, ground, dist_idxs, the_p, sp_of. destruct mt; cbn [nmul nsub nadd ndiv n1 RNum]; rewrite nsum_R.
  - apply rsum_ext; intros; cbn; ring.
  - rewrite (rsum_ext d _ (fun t => Rabs (X i t - Y j t))).
    + unfold Rdiv. rewrite Rinv_1, Rmult_1_r, rpow_1; auto. apply rsum_nonneg; intros; apply Rabs_pos.
    + intros t Ht. rewrite nabs_R', rpow_1; auto. apply Rabs_pos.
  - rewrite (rsum_ext d _ (fun t => (X i t - Y j t) ^ 2)) by (intros t Ht; rewrite nabs_R'; replace (1 + 1) with 2 by lra; apply rpow_2).
    replace (1 + 1) with 2 by lra. apply rpow_half. apply rsum_nonneg; intros; apply pow2_ge_0.
  - f_equal. apply rsum_ext; intros. rewrite nabs_R'. auto.
  - f_equal. apply rsum_ext; intros. rewrite nabs_R'. auto.
Qed.
Lemma full_dist_ground : forall mt p d X Y i j, full_dist (N:=RNum) rpow sqrt mt p d X Y i j = ground mt p d X Y i j.
Proof.
  intros mt p d X Y i j. unfold full_dist, ground. destruct mt; rewrite ?eucl_gen; unfold sqdist; auto.
  - cbn [nsub RNum]. rewrite nsum_R. apply rsum_ext; intros. apply nabs_R'.
  - cbn [nsub ndiv n1 RNum]. rewrite nsum_R. f_equal. apply rsum_ext; intros. rewrite nabs_R'. auto.
  - cbn [nsub ndiv n1 RNum]. rewrite nsum_R. f_equal. apply rsum_ext; intros. rewrite nabs_R'. auto.
Qed.
Lemma ground_nonneg : forall mt p d X Y i j, 0 <= ground mt p d X Y i j.
Proof.
  intros. unfold ground. destruct mt; try apply rpow_nonneg; try apply sqrt_pos; apply rsum_nonneg; intros; try apply pow2_ge_0; apply Rabs_pos.
Qed.

(** ** one sliced plan *)
Lemma is_perm_R : forall n m (a b : list R), is_perm (N:=RNum) n m a b = true -> length a = n -> length b = m ->
  n = m /\ (forall i, (i < n)%nat -> lnth a i = mass n (lnth a) / INR n) /\ (forall j, (j < m)%nat -> lnth b j = mass n (lnth a) / INR n).
Proof.
  intros n m a b H La Lb. unfold is_perm in H. apply andb_true_iff in H. destruct H as [H H3]. apply andb_true_iff in H. destruct H as [H1 H2].
  apply Nat.eqb_eq in H1. rewrite lsum_rsum, nofnat_INR in H2, H3. change (carrier RNum) with R in *. rewrite La in H2, H3. rewrite forallb_forall in H2, H3. split; auto. split; intros i Hi.
  - apply Reqb_true. apply H2. apply nth_In. exact (eq_ind_r (fun z => (i < z)%nat) Hi La).
  - apply Reqb_true. apply H3. apply nth_In. exact (eq_ind_r (fun z => (i < z)%nat) Hi Lb).
Qed.
Lemma is_perm_uniform : forall n c, (0 < n)%nat -> is_perm (N:=RNum) n n (repeat c n) (repeat c n) = true.
Proof.
  intros n c Hn. unfold is_perm. rewrite Nat.eqb_refl, andb_true_l.
  assert (F : forallb (fun x => neqb (n:=RNum) x (ndiv (n:=RNum) (lsum (N:=RNum) (repeat c n)) (nofnat n))) (repeat c n) = true).
  { apply forallb_forall. intros x Hx. apply repeat_spec in Hx. subst x. apply Reqb_true. rewrite lsum_rsum, nofnat_INR. change (carrier RNum) with R in *. rewrite repeat_length. rewrite (rsum_ext n _ (fun _ => c)).
    - rewrite rsum_const. cbn. assert (0 < INR n) by (apply lt_0_INR; auto). field. lra.
    - intros i Hi. apply lnth_repeat; auto. }
  rewrite F. auto.
Qed.
Lemma combine3_match : forall n (a : list R) (s t : list nat) c, length a = n -> length s = n -> length t = n -> (forall i, (i < n)%nat -> lnth a i = c) ->
  map (fun x : R * nat * nat => (fst (fst x), snd (fst x), snd x)) (combine (combine a s) t) = match_plan n c (pfun s) (pfun t).
Proof.
  intros n a s t c La Ls Lt Ha. unfold match_plan. apply nth_ext with (d := (fst (fst (0, 0%nat, 0%nat)), snd (fst (0, 0%nat, 0%nat)), snd (0, 0%nat, 0%nat))) (d' := (c, pfun s 0, pfun t 0)).
  - rewrite !map_length, !combine_length, seq_length. lia.
  - intros k Hk. rewrite map_length, !combine_length in Hk. rewrite nth_map_seq by lia.
    rewrite (map_nth (fun x : R * nat * nat => (fst (fst x), snd (fst x), snd x)) (combine (combine a s) t) (0, 0%nat, 0%nat) k). rewrite !combine_nth by (rewrite ?combine_length; lia). cbn [fst snd]. unfold pfun.
    rewrite <- (Ha k) by lia. reflexivity.
Qed.

Definition bs_ok (bs : option nat) : Prop := match bs with Some b => (0 < b)%nat | None => True end.
Definition is_plan (n m d : nat) (X Y th : mat) (a b : list R) (mt : metric) (p : R) (k : nat) (r : list (@entry RNum) * R) : Prop :=
  in_range n m (fst r) /\ optimal_coupling n m (lnth a) (lnth b) (slice_cost (the_p (N:=RNum) mt p) d X Y th k) (dmat (fst r)) /\
  (is_perm (N:=RNum) n m a b = true -> cost n m (ground mt p d X Y) (dmat (fst r)) = mass n (lnth a) * snd r).
Lemma plan_run : forall n m d X Y th (a b : list R) mt p bs k,
  length a = n -> length b = m -> (0 < n)%nat -> (0 < m)%nat -> nonneg_vec n (lnth a) -> nonneg_vec m (lnth b) -> mass n (lnth a) = mass m (lnth b) ->
  1 <= the_p (N:=RNum) mt p -> bs_ok bs ->
  exists r, sliced_plan (N:=RNum) rpow n m d X Y th a b mt p bs k = Ok r /\ is_plan n m d X Y th a b mt p k r.
Proof.
  intros n m d X Y th a b mt p bs k La Lb Hn Hm Ha Hb Hab Hp Hbs. unfold sliced_plan, is_plan. destruct (is_perm (N:=RNum) n m a b) eqn:P.
  - destruct (is_perm_R n m a b P La Lb) as (<- & Ea & Eb). set (c := mass n (lnth a) / INR n) in *.
    set (x := project (N:=RNum) n d X th k). set (y := project (N:=RNum) n d Y th k).
    destruct (argsort_sorts x) as [Px Sx]. destruct (argsort_sorts y) as [Py Sy].
    assert (Lx : length x = n) by apply project_len. assert (Ly : length y = n) by apply project_len. rewrite Lx in Px. rewrite Ly in Py. rewrite Lx in Sx. rewrite Ly in Sy.
    assert (L1 : length (argsort (N:=RNum) x) = n) by (rewrite (Permutation_length Px), seq_length; auto). assert (L2 : length (argsort (N:=RNum) y) = n) by (rewrite (Permutation_length Py), seq_length; auto).
    assert (Q1 := perm_list_on n _ Px). assert (Q2 := perm_list_on n _ Py).
    rewrite (sparse_dist_ok (pair_dist (N:=RNum) rpow mt p d X Y)); [|lia|exact I|destruct bs; cbn in Hbs; auto; lia|].
    2:{ intros z Hz. rewrite L1. apply (Permutation_in _ Px), in_seq in Hz. lia. }
    cbn [sp_to_res bind]. eexists. split; [reflexivity|]. cbn [fst snd].
    assert (CM := combine3_match n a (argsort (N:=RNum) x) (argsort (N:=RNum) y) c La L1 L2 Ea). cbn [carrier RNum] in CM |- *. rewrite CM.
    assert (Hc : 0 <= c). { rewrite <- (Ea 0%nat) by lia. apply Ha; lia. }
    assert (HNn : 0 < INR n) by (apply lt_0_INR; auto).
    split; [apply match_range; auto|]. split.
    + eapply optimal_ext; [| | | |apply (match_optimal n (prj d X th k) (prj d Y th k) (pfun (argsort (N:=RNum) x)) (pfun (argsort (N:=RNum) y)) c (the_p (N:=RNum) mt p) Q1 Q2 Hc Hp)]; auto.
      * intros i Hi; symmetry; auto.
      * intros i Hi; symmetry; auto.
      * intros i Hi. rewrite <- !(project_nth n) by (apply Q1; lia). apply Sx; auto.
      * intros i Hi. rewrite <- !(project_nth n) by (apply Q2; lia). apply Sy; auto.
    + intros _. rewrite cost_dmat by (apply match_range; auto). rewrite esum_seq. unfold sp_sum. rewrite L1. rewrite <- rsum_scal. apply rsum_ext; intros t Ht.
      rewrite pair_dist_ground. unfold pfun. assert (Z : nth (nth t (argsort (N:=RNum) x) 0%nat) (repeat (1 / INR n) n) 0 = 1 / INR n) by (apply (lnth_repeat (1 / INR n)); apply Q1; auto). rewrite Z. unfold c. field. lra.
  - destruct (slice_run n m d X Y th a b (the_p (N:=RNum) mt p) La Lb Hn Hm Ha Hb Hab Hp k) as ([w es] & E & O & V).
    match goal with |- context [bind ?x _] => replace x with (@Ok (RNum * list (@entry RNum)) (w, es)) by (symmetry; exact E) end.
    cbn [bind snd fst] in *. 
    assert (Pn : (0 < length (project (N:=RNum) n d X th k))%nat) by (rewrite project_len; auto). assert (Pm : (0 < length (project (N:=RNum) m d Y th k))%nat) by (rewrite project_len; auto).
    destruct (w1d_shape _ _ _ _ _ _ _ Pn Pm E) as [Les Res]. assert (Q1 := project_len n d X th k). assert (Q2 := project_len m d Y th k). cbn [carrier RNum] in *. rewrite Q1, Q2 in Les, Res.
    rewrite sparse_dist_ok.
    + cbn [sp_to_res bind]. eexists. split; [reflexivity|]. cbn [fst snd]. split; auto. split; auto. discriminate.
    + rewrite !map_length; auto.
    + rewrite !map_length; auto.
    + rewrite map_length. destruct bs; cbn in Hbs; auto. apply (Nat.lt_le_trans 0 (n + m)); [lia|exact (Nat.eq_le_incl _ _ (eq_sym Les))].
    + intros z Hz. rewrite map_length. apply in_map_iff in Hz. destruct Hz as (e & <- & He). unfold in_range in Res. rewrite Forall_forall in Res. destruct (Res e He) as [RH _].
      apply (Nat.lt_le_trans _ (n + m)); [apply (Nat.lt_le_trans _ n); [exact RH|lia]|exact (Nat.eq_le_incl _ _ (eq_sym Les))].
Qed.

(** ** all the plans *)
Lemma plans_run : forall n m d L X Y th (a b : list R) mt p bs,
  length a = n -> length b = m -> (0 < n)%nat -> (0 < m)%nat -> nonneg_vec n (lnth a) -> nonneg_vec m (lnth b) -> mass n (lnth a) = mass m (lnth b) ->
  1 <= the_p (N:=RNum) mt p -> bs_ok bs -> mt <> MOther -> (0 < L)%nat ->
  exists l, sliced_plans (N:=RNum) rpow n m d L X Y th (Some a) (Some b) mt p bs = Ok l /\ length l = L /\ forall k dflt, (k < L)%nat -> is_plan n m d X Y th a b mt p k (nth k l dflt).
Proof.
  intros n m d L X Y th a b mt p bs La Lb Hn Hm Ha Hb Hab Hp Hbs Hmt HL.
  destruct (all_ok_map _ _ (sliced_plan (N:=RNum) rpow n m d X Y th a b mt p bs) (is_plan n m d X Y th a b mt p) (seq 0 L)) as (ys & E & F).
  { intros k _. apply plan_run; auto. }
  assert (Q := fun dflt => Forall2_seq _ (is_plan n m d X Y th a b mt p) L 0 ys dflt F). destruct (Q ([], 0)) as [Ly _].
  exists ys. split; [|split; auto; intros k dflt Hk; apply (Q dflt); auto].
  unfold sliced_plans, full_weights. destruct mt; try contradiction; (match goal with |- context [all_ok ?z] => replace (all_ok z) with (Ok ys) by (symmetry; exact E) end); cbn [bind];
  destruct ys; auto; cbn in Ly; lia.
Qed.

(** ** numpy argmin *)
Lemma argmin_from_spec : forall (f : nat -> R) k i best, (best < i)%nat -> (forall t, (t < i)%nat -> f best <= f t) ->
  let r := argmin_from (N:=RNum) k i best (Some (f best)) (fun t => Some (f t)) in (r < i + k)%nat /\ forall t, (t < i + k)%nat -> f r <= f t.
Proof.
  induction k; intros i best Hb H; cbn [argmin_from]; [rewrite Nat.add_0_r; auto|]. cbn [nltb RNum]. destruct (Rltb (f i) (f best)) eqn:E.
  - apply Rltb_true in E. replace (i + S k)%nat with (S i + k)%nat by lia. apply (IHk (S i) i); [lia|]. intros t Ht. destruct (Nat.eq_dec t i) as [-> |]; [lra|]. specialize (H t ltac:(lia)). lra.
  - apply Rltb_false in E. replace (i + S k)%nat with (S i + k)%nat by lia. apply (IHk (S i) best); [lia|]. intros t Ht. destruct (Nat.eq_dec t i) as [-> |]; [lra|]. apply H; lia.
Qed.
Lemma argmin_spec : forall (f : nat -> R) k, (0 < k)%nat -> let r := argmin (N:=RNum) k (fun t => Some (f t)) in (r < k)%nat /\ forall t, (t < k)%nat -> f r <= f t.
Proof.
  intros f k Hk. destruct k as [|k]; [lia|]. unfold argmin. cbn [argmin_from]. apply (argmin_from_spec f k 1 0); [lia|]. intros t Ht. replace t with 0%nat by lia. lra.
Qed.

Lemma nth_map_d : forall (A B : Type) (f : A -> B) l k da db, (k < length l)%nat -> nth k (map f l) db = f (nth k l da).
Proof. intros. rewrite (nth_indep _ db (f da)) by (rewrite map_length; auto). apply map_nth. Qed.

(** ** mixing *)
Lemma esum_app : forall f (l1 l2 : list (@entry RNum)), esum f (l1 ++ l2) = esum f l1 + esum f l2.
Proof. intros f l1 l2. induction l1 as [|[[w i] j] l1 IH]; cbn; [ring|]. rewrite IH. ring. Qed.
Lemma esum_scale : forall f c (l : list (@entry RNum)), esum f (map (fun e : @entry RNum => (fst (fst e) * c, snd (fst e), snd e)) l) = c * esum f l.
Proof. intros f c l. induction l as [|[[w i] j] l IH]; [cbn; ring|]. cbn [map esum fst snd]. rewrite IH. ring. Qed.
Lemma dmat_esum : forall (es : list (@entry RNum)) i j, dmat es i j = esum (fun i' j' => ind ((i' =? i) && (j' =? j))%nat) es.
Proof. induction es as [|[[w i0] j0] es IH]; intros i j; [reflexivity|]. rewrite dmat_cons, IH. reflexivity. Qed.
Lemma esum_mix : forall f ws plans, length ws = length plans ->
  esum f (mix_plans (N:=RNum) ws plans) = rsum (length ws) (fun k => lnth ws k * esum f (nth k plans [])).
Proof.
  intros f. induction ws as [|w ws IH]; intros [|pl plans] E; try discriminate; [reflexivity|]. 
  change (mix_plans (N:=RNum) (w :: ws) (pl :: plans)) with (map (fun e : @entry RNum => (fst (fst e) * w, snd (fst e), snd e)) pl ++ mix_plans (N:=RNum) ws plans). rewrite esum_app. cbn [length].
  rewrite rsum_first. unfold lnth at 1. cbn [nth]. rewrite esum_scale. rewrite (IH plans (eq_add_S _ _ E)). f_equal.
Qed.
Lemma dmat_mix : forall ws plans i j, length ws = length plans -> dmat (mix_plans (N:=RNum) ws plans) i j = rsum (length ws) (fun k => lnth ws k * dmat (nth k plans []) i j).
Proof. intros. rewrite dmat_esum, esum_mix by auto. apply rsum_ext; intros. rewrite <- dmat_esum. auto. Qed.
Lemma coupling_mix : forall n m a b K (w : vec) (G : nat -> mat), (forall k, (k < K)%nat -> 0 <= w k) -> rsum K w = 1 -> (forall k, (k < K)%nat -> coupling n m a b (G k)) ->
  coupling n m a b (fun i j => rsum K (fun k => w k * G k i j)).
Proof.
  intros n m a b K w G Hw S HG. split; [|split].
  - intros i j Hi Hj. apply rsum_nonneg; intros k Hk. apply Rmult_le_pos; auto. apply (HG k Hk); auto.
  - intros i Hi. unfold row_sum. rewrite rsum_swap. rewrite (rsum_ext K _ (fun k => a i * w k)).
    + rewrite rsum_scal, S. ring.
    + intros k Hk. rewrite rsum_scal. destruct (HG k Hk) as (_ & R & _). unfold row_sum in R. rewrite R by auto. ring.
  - intros j Hj. unfold col_sum. rewrite rsum_swap. rewrite (rsum_ext K _ (fun k => b j * w k)).
    + rewrite rsum_scal, S. ring.
    + intros k Hk. rewrite rsum_scal. destruct (HG k Hk) as (_ & _ & C). unfold col_sum in C. rewrite C by auto. ring.
Qed.
Lemma cost_mix : forall n m M K (w : vec) (G : nat -> mat), cost n m M (fun i j => rsum K (fun k => w k * G k i j)) = rsum K (fun k => w k * cost n m M (G k)).
Proof.
  intros. unfold cost. rewrite (rsum_ext n _ (fun i => rsum K (fun k => w k * rsum m (fun j => M i j * G k i j)))).
  - rewrite rsum_swap. apply rsum_ext; intros. rewrite rsum_scal. auto.
  - intros i Hi. rewrite (rsum_ext m _ (fun j => rsum K (fun k => w k * (M i j * G k i j)))).
    + rewrite rsum_swap. apply rsum_ext; intros. rewrite rsum_scal. auto.
    + intros j Hj. rewrite <- rsum_scal. apply rsum_ext; intros. ring.
Qed.

(** ** the weights of the slices *)
Definition softw (L : nat) (beta : R) (c : vec) (k : nat) : R := exp (- beta * c k) / rsum L (fun t => exp (- beta * c t)).
Lemma softw_den : forall L beta c, (0 < L)%nat -> 0 < rsum L (fun t => exp (- beta * c t)).
Proof. intros. apply rsum_pos; auto. intros; apply exp_pos. Qed.
Lemma softw_sum : forall L beta c, (0 < L)%nat -> rsum L (softw L beta c) = 1.
Proof. intros L beta c HL. assert (P := softw_den L beta c HL). unfold softw. rewrite rsum_div. field. lra. Qed.
Lemma softw_pos : forall L beta c k, (0 < L)%nat -> 0 < softw L beta c k.
Proof. intros L beta c k HL. apply Rdiv_lt_0_compat; [apply exp_pos|apply softw_den; auto]. Qed.
Lemma slice_weights_R : forall L beta (cs : list R), length cs = L -> (0 < L)%nat ->
  length (slice_weights (N:=RNum) exp ln L beta cs) = L /\ forall k, (k < L)%nat -> lnth (slice_weights (N:=RNum) exp ln L beta cs) k = softw L beta (lnth cs) k.
Proof.
  intros L beta cs Lc HL. unfold slice_weights. cbn [neqb n0 RNum]. destruct (Reqb beta 0) eqn:B.
  - apply Reqb_true in B. subst beta. split; [apply repeat_length|]. intros k Hk. rewrite nofnat_INR. rewrite (lnth_repeat (1 / INR L)) by auto. unfold softw.
    rewrite (rsum_ext L _ (fun _ => 1)) by (intros; rewrite Ropp_0, Rmult_0_l; apply exp_0). rewrite rsum_const, Ropp_0, Rmult_0_l, exp_0. f_equal. ring.
  - assert (Hlen : forall t, (t < L)%nat -> (t < length cs)%nat) by (intros; rewrite Lc; auto). split; [rewrite !map_length; auto|]. intros k Hk. assert (P := softw_den L beta (lnth cs) HL).
    assert (E : lsum (N:=RNum) (map exp (map (fun c : RNum => nmul (n:=RNum) (nopp (N:=RNum) beta) c) cs)) = rsum L (fun t => exp (- beta * lnth cs t))).
    { rewrite lsum_rsum. rewrite !map_length. change (carrier RNum) with R in *. rewrite Lc. apply rsum_ext; intros t Ht. unfold lnth. rewrite map_map. rewrite (nth_map_d _ _ (fun x : RNum => exp (nmul (n:=RNum) (nopp (N:=RNum) beta) x)) cs t 0) by (exact (Hlen t Ht)).
      f_equal. unfold nopp. cbn. ring. }
    match goal with |- context [ln ?z] => replace z with (rsum L (fun t => exp (- beta * lnth cs t))) by (symmetry; exact E) end. unfold lnth at 1. rewrite map_map. rewrite (nth_map_d _ _ _ cs k 0) by (exact (Hlen k Hk)). unfold softw. cbn [nsub nmul RNum]. unfold Rminus. rewrite exp_plus, exp_Ropp, exp_ln by auto.
    unfold Rdiv. f_equal. f_equal. unfold nopp, lnth. cbn. ring.
Qed.
(** raising beta lowers the expected cost *)
Lemma softw_mono : forall L b1 b2 c, (0 < L)%nat -> b1 <= b2 -> rsum L (fun k => softw L b2 c k * c k) <= rsum L (fun k => softw L b1 c k * c k).
Proof.
  intros L b1 b2 c HL Hb. assert (P1 := softw_den L b1 c HL). assert (P2 := softw_den L b2 c HL).
  set (D := rsum L (fun k => rsum L (fun l => (c k - c l) * (softw L b2 c k * softw L b1 c l - softw L b2 c l * softw L b1 c k)))).
  assert (HD : D <= 0).
  { unfold D. rewrite <- (rsum_0 L (fun _ => 0)) by auto. apply rsum_le; intros k Hk. rewrite <- (rsum_0 L (fun _ => 0)) by auto. apply rsum_le; intros l Hl.
    unfold softw. set (Z1 := rsum L (fun t => exp (- b1 * c t))) in *. set (Z2 := rsum L (fun t => exp (- b2 * c t))) in *.
    replace (exp (- b2 * c k) / Z2 * (exp (- b1 * c l) / Z1) - exp (- b2 * c l) / Z2 * (exp (- b1 * c k) / Z1)) with ((exp (- b2 * c k + - b1 * c l) - exp (- b2 * c l + - b1 * c k)) * / (Z1 * Z2)).
    2:{ rewrite !exp_plus. field. lra. }
    assert (IZ : 0 < / (Z1 * Z2)) by (apply Rinv_0_lt_compat, Rmult_lt_0_compat; auto).
    rewrite <- Rmult_assoc. apply Rmult_le_reg_r with (Z1 * Z2); [apply Rmult_lt_0_compat; auto|]. rewrite Rmult_assoc, Rinv_l, Rmult_1_r, Rmult_0_l by (apply Rmult_integral_contrapositive; lra).
    assert (E : - b2 * c k + - b1 * c l - (- b2 * c l + - b1 * c k) = - (b2 - b1) * (c k - c l)) by ring.
    assert (M : forall x y, x <= y -> exp x <= exp y) by (intros x y [H| ->]; [left; apply exp_increasing; auto|right; auto]).
    destruct (Rle_or_lt (c l) (c k)) as [H|H].
    - assert (Q : (b2 - b1) * (c k - c l) >= 0) by (apply Rle_ge, Rmult_le_pos; lra). assert (T := M (- b2 * c k + - b1 * c l) (- b2 * c l + - b1 * c k) ltac:(lra)).
      rewrite <- (Rmult_0_r (c k - c l)). apply Rmult_le_compat_l; lra.
    - assert (Q : (b2 - b1) * (c l - c k) >= 0) by (apply Rle_ge, Rmult_le_pos; lra). assert (T := M (- b2 * c l + - b1 * c k) (- b2 * c k + - b1 * c l) ltac:(lra)).
      assert (0 <= (c l - c k) * (exp (- b2 * c k + - b1 * c l) - exp (- b2 * c l + - b1 * c k))) by (apply Rmult_le_pos; lra). lra. }
  assert (E : D = 2 * (rsum L (fun k => softw L b2 c k * c k) - rsum L (fun k => softw L b1 c k * c k))).
  { assert (S1 := softw_sum L b1 c HL). assert (S2 := softw_sum L b2 c HL). set (w1 := softw L b1 c) in *. set (w2 := softw L b2 c) in *. unfold D.
    rewrite (rsum_ext L _ (fun k => (w2 k * c k) * rsum L w1 - (w1 k * c k) * rsum L w2 - w2 k * rsum L (fun l => w1 l * c l) + w1 k * rsum L (fun l => w2 l * c l))).
    - rewrite rsum_plus, !rsum_minus, !rsum_scal_r, S1, S2. ring.
    - intros k Hk. rewrite <- !rsum_scal. rewrite <- !rsum_minus, <- rsum_plus. apply rsum_ext; intros l Hl. ring. }
  lra.
Qed.
