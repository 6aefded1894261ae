(** Sliced distances and plans (/repo/ot/sliced): C98, C99, C100. *)
From Coq Require Import Reals List Lra Lia Bool QArith.
From Verif Require Import Num Sums Spec Monge Perm Emd1d_model Emd1d_proofs Emd1d_perm_proofs W1d_model W1d_proofs Emd1d_final Duals_proofs Utils_model Utils_batch Circle_model Wp Sliced_model Sliced_proofs Sliced_plans.
Import ListNotations.
Local Open Scope R_scope.

(** a weighted sample: weights of the right length, nonnegative *)
Definition sample (n : nat) (a : list R) : Prop := length a = n /\ (0 < n)%nat /\ nonneg_vec n (lnth a).
Notation SW n m d L X Y th a b p := (sliced_wasserstein_distance (N:=RNum) rpow n m d L X Y th (Some a) (Some b) p).
Notation MSW n m d L X Y th a b p := (max_sliced_wasserstein_distance (N:=RNum) rpow n m d L X Y th (Some a) (Some b) p).

(** C98.  For any projection directions: both functions return a value; the sliced value is the
    p-mean of the exact transport values of the projected problems, the max-sliced one their
    maximum; and if no direction is longer than 1, both are lower bounds of the p-Wasserstein cost
    of every coupling of the two samples in R^d. *)
Theorem C98_sliced_distances : forall n m d L X Y th (a b : list R) p,
  sample n a -> sample m b -> mass n (lnth a) = mass m (lnth b) -> 1 <= p -> (0 < L)%nat ->
  exists sw ms (w : vec), SW n m d L X Y th a b p = Ok sw /\ MSW n m d L X Y th a b p = Ok ms /\
    (forall k, (k < L)%nat -> ot_value n m (lnth a) (lnth b) (fun i j => rpow (Rabs (rsum d (fun t => X i t * th t k) - rsum d (fun t => Y j t * th t k))) p) (w k)) /\
    sw = rpow (rsum L w / INR L) (1 / p) /\
    (exists k, (k < L)%nat /\ ms = rpow (w k) (1 / p)) /\ (forall k, (k < L)%nat -> rpow (w k) (1 / p) <= ms) /\
    0 <= sw <= ms /\
    ((forall k, (k < L)%nat -> rsum d (fun t => th t k ^ 2) <= 1) ->
     forall G, coupling n m (lnth a) (lnth b) G ->
       ms <= rpow (cost n m (fun i j => rpow (sqrt (rsum d (fun t => (X i t - Y j t) ^ 2))) p) G) (1 / p)).
Proof.
  intros n m d L X Y th a b p (La & Hn & Ha) (Lb & Hm & Hb) Hab Hp HL.
  destruct (sliced_value n m d L X Y th a b p La Lb Hn Hm Ha Hb Hab Hp) as (w & V & ES & EM). destruct (EM HL) as (k0 & Hk0 & Mx & EM').
  assert (Hi : 0 < 1 / p) by (apply Rdiv_lt_0_compat; lra).
  assert (P : forall k, (k < L)%nat -> 0 <= w k) by (intros k Hk; eapply ot_value_nonneg; [|apply (V k Hk)]; intros; apply slice_cost_nonneg).
  exists (rpow (rsum L w / INR L) (1 / p)), (rpow (w k0) (1 / p)), w. repeat split; auto.
  - exists k0; auto.
  - intros k Hk. apply rpow_le; auto.
  - apply rpow_nonneg.
  - apply rpow_le; auto. split; [apply mean_nonneg; auto|]. apply mean_le; auto.
  - intros U G CG. apply rpow_le; auto. split; auto. eapply Rle_trans; [apply (ot_value_le _ _ _ _ _ _ G (V k0 Hk0) CG)|].
    unfold cost. apply rsum_le; intros i Hi'. apply rsum_le; intros j Hj. apply Rmult_le_compat_r; [apply CG; auto|]. unfold slice_cost. apply rpow_mono; auto.
    split; [apply Rabs_pos|]. apply prj_contract; auto.
Qed.
Print Assumptions C98_sliced_distances.

(** the projections drawn by get_random_projections have length one *)
Theorem C98_projections_unit : forall d Z k, (exists t, (t < d)%nat /\ Z t k <> 0) ->
  rsum d (fun t => normalize_projections (N:=RNum) sqrt d Z t k ^ 2) = 1.
Proof.
  intros d Z k (t0 & Ht0 & Hz). unfold normalize_projections. cbn [nmul ndiv RNum]. rewrite nsum_R.
  set (S := rsum d (fun t => Z t k * Z t k)). assert (PS : 0 < S).
  { destruct (Rle_or_lt S 0) as [H|H]; auto. exfalso. assert (S0 : S = 0) by (apply Rle_antisym; auto; apply rsum_nonneg; intros; nra).
    assert (Q := rsum_nonneg_zero d (fun t => Z t k * Z t k) ltac:(intros; nra) S0 t0 Ht0). cbv beta in Q. nra. }
  rewrite (rsum_ext d _ (fun t => (Z t k * Z t k) / S)).
  - rewrite rsum_div. fold S. field. lra.
  - intros t Ht. assert (Q := sqrt_lt_R0 S PS). assert (E := sqrt_sqrt S (Rlt_le _ _ PS)). transitivity (Z t k * Z t k / (sqrt S * sqrt S)); [field; lra|rewrite E; auto].
Qed.
Print Assumptions C98_projections_unit.

(** with fixed directions both are pseudo-distances on weighted samples of the same mass *)
Theorem C98_symmetric : forall n m d L X Y th (a b : list R) p,
  sample n a -> sample m b -> mass n (lnth a) = mass m (lnth b) -> 1 <= p -> (0 < L)%nat ->
  SW n m d L X Y th a b p = SW m n d L Y X th b a p /\ MSW n m d L X Y th a b p = MSW m n d L Y X th b a p.
Proof.
  intros n m d L X Y th a b p Sa Sb Hab Hp HL.
  destruct (C98_sliced_distances n m d L X Y th a b p Sa Sb Hab Hp HL) as (s1 & m1 & w1 & -> & -> & V1 & -> & (k1 & H1 & E1) & M1 & _).
  destruct (C98_sliced_distances m n d L Y X th b a p Sb Sa (eq_sym Hab) Hp HL) as (s2 & m2 & w2 & -> & -> & V2 & -> & (k2 & H2 & E2) & M2 & _).
  assert (E : forall k, (k < L)%nat -> w1 k = w2 k).
  { intros k Hk. eapply ot_value_unique; [apply V1; auto|]. eapply ot_value_ext; [|apply ot_value_T, V2; auto]. intros i j _ _. cbv beta. f_equal. apply Rabs_minus_sym. }
  split; f_equal.
  - do 2 f_equal. apply rsum_ext; auto.
  - apply Rle_antisym; [rewrite E1, E by auto|rewrite E2, <- E by auto]; auto.
Qed.
Print Assumptions C98_symmetric.

Theorem C98_triangle : forall n m l d L X Y Z th (a b c : list R) p,
  sample n a -> sample m b -> sample l c -> mass n (lnth a) = mass m (lnth b) -> mass m (lnth b) = mass l (lnth c) -> 1 <= p -> (0 < L)%nat ->
  exists sxy syz sxz mxy myz mxz,
    SW n m d L X Y th a b p = Ok sxy /\ SW m l d L Y Z th b c p = Ok syz /\ SW n l d L X Z th a c p = Ok sxz /\ sxz <= sxy + syz /\
    MSW n m d L X Y th a b p = Ok mxy /\ MSW m l d L Y Z th b c p = Ok myz /\ MSW n l d L X Z th a c p = Ok mxz /\ mxz <= mxy + myz.
Proof.
  intros n m l d L X Y Z th a b c p Sa Sb Sc Hab Hbc Hp HL.
  destruct (C98_sliced_distances n m d L X Y th a b p Sa Sb Hab Hp HL) as (s1 & m1 & w1 & -> & -> & V1 & E1 & _ & M1 & _).
  destruct (C98_sliced_distances m l d L Y Z th b c p Sb Sc Hbc Hp HL) as (s2 & m2 & w2 & -> & -> & V2 & E2 & _ & M2 & _).
  destruct (C98_sliced_distances n l d L X Z th a c p Sa Sc (eq_trans Hab Hbc) Hp HL) as (s3 & m3 & w3 & -> & -> & V3 & E3 & (k3 & H3 & K3) & M3 & _).
  assert (T : forall k, (k < L)%nat -> rpow (w3 k) (1 / p) <= rpow (w1 k) (1 / p) + rpow (w2 k) (1 / p)).
  { intros k Hk. apply (slice_triangle n m l d X Y Z th (lnth a) (lnth b) (lnth c) p k); auto; [apply V1|apply V2|apply V3]; auto. }
  exists s1, s2, s3, m1, m2, m3. repeat split; auto.
  - subst s1 s2 s3. apply mean_triangle; auto; intros k Hk; eapply ot_value_nonneg; [|apply V1; auto| |apply V2; auto| |apply V3; auto]; intros; apply rpow_nonneg.
  - rewrite K3. eapply Rle_trans; [apply T; auto|]. apply Rplus_le_compat; auto.
Qed.
Print Assumptions C98_triangle.

Theorem C98_zero : forall n d L X th (a : list R) p, sample n a -> 1 <= p -> (0 < L)%nat ->
  SW n n d L X X th a a p = Ok 0 /\ MSW n n d L X X th a a p = Ok 0.
Proof.
  intros n d L X th a p Sa Hp HL.
  destruct (C98_sliced_distances n n d L X X th a a p Sa Sa eq_refl Hp HL) as (s1 & m1 & w1 & -> & -> & V1 & -> & (k & Hk & ->) & M1 & _).
  assert (E : forall k, (k < L)%nat -> w1 k = 0).
  { intros k' Hk'. apply Rle_antisym; [|eapply ot_value_nonneg; [|apply V1; auto]; intros; apply rpow_nonneg].
    destruct Sa as (_ & _ & Ha). set (G := fun i j => if Nat.eqb i j then lnth a i else 0).
    assert (C : coupling n n (lnth a) (lnth a) G).
    { split; [|split]; unfold G.
      - intros i j Hi Hj. destruct (Nat.eqb i j); [apply Ha; auto|lra].
      - intros i Hi. unfold row_sum. rewrite (rsum_single n i); [|auto|intros j Hj Hij; destruct (Nat.eqb_spec i j); congruence]. rewrite Nat.eqb_refl. auto.
      - intros j Hj. unfold col_sum. rewrite (rsum_single n j); [|auto|intros i Hi Hij; destruct (Nat.eqb_spec i j); congruence]. rewrite Nat.eqb_refl. auto. }
    eapply Rle_trans; [apply (ot_value_le _ _ _ _ _ _ G (V1 k' Hk') C)|]. right. unfold cost. apply rsum_0; intros i Hi. apply rsum_0; intros j Hj. unfold G. destruct (Nat.eqb_spec i j) as [-> |]; [|ring].
    rewrite Rminus_diag_eq, Rabs_R0, rpow_0 by auto. ring. }
  split; f_equal.
  - rewrite (rsum_ext L w1 (fun _ => 0)) by auto. rewrite rsum_0 by auto. unfold Rdiv at 1. rewrite Rmult_0_l. apply rpow_0.
  - rewrite E by auto. apply rpow_0.
Qed.
Print Assumptions C98_zero.

(** ** C99 *)
Notation minplan n m d L X Y th a b mt p bs := (min_sliced_transport_plan (N:=RNum) rpow n m d L X Y th (Some a) (Some b) mt p bs).
Notation plans n m d L X Y th a b mt p bs := (sliced_plans (N:=RNum) rpow n m d L X Y th (Some a) (Some b) mt p bs).
(** the exponent of the projected problem *)
Definition exponent (mt : metric) (p : R) : R := match mt with Euclidean => 2 | CityBlock => 1 | _ => p end.
Lemma exponent_the_p : forall mt p, the_p (N:=RNum) mt p = exponent mt p.
Proof. intros [] p; cbn; auto; lra. Qed.
(** [r] is the plan of direction k: an optimal coupling of the projected samples *)
Definition direction_plan (n m d : nat) (X Y th : mat) (a b : list R) (q : R) (k : nat) (G : mat) : Prop :=
  optimal_coupling n m (lnth a) (lnth b) (fun i j => rpow (Rabs (rsum d (fun t => X i t * th t k) - rsum d (fun t => Y j t * th t k))) q) G.

(** every direction yields an optimal coupling of the projected samples; with equal weights on
    both sides the reported cost times the total mass is the cost of that plan in R^d *)
Theorem C99_sliced_plans : forall n m d L X Y th (a b : list R) mt p bs,
  sample n a -> sample m b -> mass n (lnth a) = mass m (lnth b) -> 1 <= exponent mt p -> bs_ok bs -> mt <> MOther -> (0 < L)%nat ->
  exists l, plans n m d L X Y th a b mt p bs = Ok l /\ length l = L /\
   forall k, (k < L)%nat -> let r := nth k l ([], 0) in
     direction_plan n m d X Y th a b (exponent mt p) k (dmat (fst r)) /\
     (forall c, n = m -> a = repeat c n -> b = repeat c n -> cost n m (ground mt p d X Y) (dmat (fst r)) = mass n (lnth a) * snd r).
Proof.
  intros n m d L X Y th a b mt p bs (La & Hn & Ha) (Lb & Hm & Hb) Hab Hp Hbs Hmt HL. rewrite <- exponent_the_p in Hp.
  destruct (plans_run n m d L X Y th a b mt p bs La Lb Hn Hm Ha Hb Hab Hp Hbs Hmt HL) as (l & E & Ll & H).
  exists l. split; auto. split; auto. intros k Hk. destruct (H k ([], 0) Hk) as (_ & O & C). cbv zeta. rewrite exponent_the_p in O. split; [exact O|].
  intros c <- -> ->. apply C. apply is_perm_uniform; auto.
Qed.
Print Assumptions C99_sliced_plans.

(** min_sliced_transport_plan returns the plan of one of the directions, hence a coupling: its cost
    in R^d is at least the optimal transport value.  With equal normalised weights the reported cost is
    the cost of the returned plan, and no direction does better. *)
Theorem C99_min_sliced_plan : forall n m d L X Y th (a b : list R) mt p bs,
  sample n a -> sample m b -> mass n (lnth a) = mass m (lnth b) -> 1 <= exponent mt p -> bs_ok bs -> mt <> MOther -> (0 < L)%nat ->
  exists G c, minplan n m d L X Y th a b mt p bs = Ok (G, c) /\ coupling n m (lnth a) (lnth b) G /\
   (forall v, ot_value n m (lnth a) (lnth b) (ground mt p d X Y) v -> v <= cost n m (ground mt p d X Y) G) /\
   exists Gk : nat -> mat, (forall k, (k < L)%nat -> direction_plan n m d X Y th a b (exponent mt p) k (Gk k)) /\
     (exists k, (k < L)%nat /\ G = Gk k) /\
     (n = m -> a = repeat (1 / INR n) n -> b = repeat (1 / INR n) n ->
        c = cost n m (ground mt p d X Y) G /\ forall k, (k < L)%nat -> cost n m (ground mt p d X Y) G <= cost n m (ground mt p d X Y) (Gk k)).
Proof.
  intros n m d L X Y th a b mt p bs Sa Sb Hab Hp Hbs Hmt HL.
  destruct (C99_sliced_plans n m d L X Y th a b mt p bs Sa Sb Hab Hp Hbs Hmt HL) as (l & E & Ll & H).
  unfold min_sliced_transport_plan. rewrite E. cbn [bind].
  set (f := fun k => nth k (map snd l) 0). destruct (argmin_spec f L HL) as [A1 A2].
  change (@n0 RNum) with 0. assert (EL : length l = L) by exact Ll. rewrite EL. assert (Hl : forall k, (k < L)%nat -> (k < length l)%nat) by (intros; rewrite Ll; auto). fold f. change (fun k : nat => Some (nth k (map snd l) 0)) with (fun k => Some (f k)).
  set (pos := argmin (N:=RNum) L (fun t => Some (f t))) in *.
  assert (Ef : forall k, (k < L)%nat -> f k = snd (nth k l ([], 0))) by (intros k Hk; apply (nth_map_d _ _ snd l k ([], 0)); exact (Hl k Hk)).
  assert (Eg : nth pos (map fst l) [] = fst (nth pos l ([], 0))) by (apply (nth_map_d _ _ fst l pos ([], 0)); exact (Hl pos A1)).
  exists (dmat (fst (nth pos l ([], 0)))), (f pos). split; [|split; [|split]].
  - rewrite Eg. reflexivity.
  - destruct (H pos A1) as [[C _] _]. exact C.
  - intros v V. apply (ot_value_le _ _ _ _ _ _ _ V). destruct (H pos A1) as [[C _] _]. exact C.
  - exists (fun k => dmat (fst (nth k l ([], 0)))). split; [intros k Hk; apply H; auto|]. split; [exists pos; auto|].
    intros En Ea Eb. assert (Hn : 0 < INR n) by (apply lt_0_INR, Sa).
    assert (M1 : mass n (lnth a) = 1). { unfold mass. rewrite (rsum_ext n _ (fun _ => 1 / INR n)) by (intros i Hi; rewrite Ea; apply lnth_repeat; auto). rewrite rsum_const. field. lra. }
    assert (C : forall k, (k < L)%nat -> f k = cost n m (ground mt p d X Y) (dmat (fst (nth k l ([], 0))))).
    { intros k Hk. destruct (H k Hk) as [_ Q]. rewrite (Q (1 / INR n) En Ea Eb), M1, Rmult_1_l. auto. }
    split; [apply C; auto|]. intros k Hk. rewrite <- !C by auto. apply A2; auto.
Qed.
Print Assumptions C99_min_sliced_plan.

(** ** C100 *)
Notation explan n m d L X Y th a b mt p beta bs := (expected_sliced_plan (N:=RNum) rpow sqrt exp ln n m d L X Y th (Some a) (Some b) mt p beta bs).
(** expected_sliced_plan returns the average of the plans of the directions with weights
    proportional to exp(-beta * reported cost); it is a coupling for every beta; the returned cost is its
    cost in R^d when beta = 0, and for equal normalised weights when beta <> 0. *)
Theorem C100_expected_plan : forall n m d L X Y th (a b : list R) mt p beta bs,
  sample n a -> sample m b -> mass n (lnth a) = mass m (lnth b) -> 1 <= exponent mt p -> bs_ok bs -> mt <> MOther -> (0 < L)%nat ->
  exists G c l, explan n m d L X Y th a b mt p beta bs = Ok (G, c) /\ plans n m d L X Y th a b mt p bs = Ok l /\ length l = L /\
   coupling n m (lnth a) (lnth b) G /\
   (let cs := fun k => snd (nth k l ([], 0)) in
    forall i j, G i j = rsum L (fun k => exp (- beta * cs k) / rsum L (fun t => exp (- beta * cs t)) * dmat (fst (nth k l ([], 0))) i j)) /\
   (beta = 0 -> c = cost n m (ground mt p d X Y) G) /\
   (n = m -> a = repeat (1 / INR n) n -> b = repeat (1 / INR n) n -> c = cost n m (ground mt p d X Y) G).
Proof.
  intros n m d L X Y th a b mt p beta bs Sa Sb Hab Hp Hbs Hmt HL.
  destruct (C99_sliced_plans n m d L X Y th a b mt p bs Sa Sb Hab Hp Hbs Hmt HL) as (l & E & Ll & H).
  unfold expected_sliced_plan. rewrite E. cbn [bind].
  assert (Hl : forall k, (k < L)%nat -> (k < length l)%nat) by (intros; rewrite Ll; auto).
  assert (Lc : length (map snd l) = L) by (rewrite map_length; auto).
  destruct (slice_weights_R L beta (map snd l) Lc HL) as [W1 W2]. set (ws := slice_weights (N:=RNum) exp ln L beta (map snd l)) in *.
  set (cs := fun k => snd (nth k l ([], 0))).
  assert (Ec : forall k, (k < L)%nat -> lnth (map snd l) k = cs k) by (intros k Hk; apply (nth_map_d _ _ snd l k ([], 0)); exact (Hl k Hk)).
  assert (Es : forall k, softw L beta (lnth (map snd l)) k = exp (- beta * lnth (map snd l) k) / rsum L (fun t => exp (- beta * cs t))).
  { intros k. unfold softw. f_equal. apply rsum_ext; intros t Ht. rewrite Ec; auto. }
  assert (Wk : forall k, (k < L)%nat -> lnth ws k = softw L beta cs k). { intros k Hk. rewrite W2, Es, Ec by auto. reflexivity. }
  assert (Eg : forall k, (k < L)%nat -> nth k (map fst l) [] = fst (nth k l ([], 0))) by (intros k Hk; apply (nth_map_d _ _ fst l k ([], 0)); exact (Hl k Hk)).
  set (G := dense (mix_plans ws (map fst l))).
  assert (EG : forall i j, G i j = rsum L (fun k => softw L beta cs k * dmat (fst (nth k l ([], 0))) i j)).
  { intros i j. transitivity (dmat (mix_plans (N:=RNum) ws (map fst l)) i j); [reflexivity|]. rewrite (dmat_mix ws (map fst l) i j) by (rewrite map_length; exact (eq_trans W1 (eq_sym Ll))). rewrite W1. apply rsum_ext; intros k Hk. rewrite Wk by auto. do 2 f_equal. apply Eg; auto. }
  assert (CG : coupling n m (lnth a) (lnth b) G).
  { eapply coupling_ext; [| | |apply (coupling_mix n m (lnth a) (lnth b) L (softw L beta cs) (fun k => dmat (fst (nth k l ([], 0)))))]; auto.
    - intros k Hk. left. apply softw_pos; auto.
    - apply softw_sum; auto.
    - intros k Hk. destruct (H k Hk) as [[C _] _]. exact C. }
  assert (B0 : nsum (N:=RNum) n (fun i => nsum (N:=RNum) m (fun j => nmul (n:=RNum) (G i j) (full_dist (N:=RNum) rpow sqrt mt p d X Y i j))) = cost n m (ground mt p d X Y) G).
  { rewrite nsum_R. apply rsum_ext; intros i Hi. rewrite nsum_R. apply rsum_ext; intros j Hj. rewrite full_dist_ground. cbn. ring. }
  eexists G, _, l. split; [reflexivity|]. split; [exact eq_refl|]. split; auto. split; auto. split; [exact EG|]. split.
  - intros ->. replace (neqb (n:=RNum) 0 n0) with true by (symmetry; apply Reqb_true; auto). exact B0.
  - intros En Ea Eb. assert (Hn : 0 < INR n) by (apply lt_0_INR, Sa).
    assert (M1 : mass n (lnth a) = 1). { unfold mass. rewrite (rsum_ext n _ (fun _ => 1 / INR n)) by (intros i Hi; rewrite Ea; apply lnth_repeat; auto). rewrite rsum_const. field. lra. }
    destruct (neqb (n:=RNum) beta n0); [exact B0|].
    assert (EGc : cost n m (ground mt p d X Y) G = rsum L (fun k => softw L beta cs k * cost n m (ground mt p d X Y) (dmat (fst (nth k l ([], 0)))))).
    { rewrite <- cost_mix. apply cost_ext; auto. }
    rewrite EGc. rewrite lsum_rsum. rewrite map_length, combine_length. change (carrier RNum) with R in *. rewrite Lc, W1, Nat.min_id. apply rsum_ext; intros k Hk.
    unfold lnth at 1. rewrite (nth_map_d _ _ _ _ k (0, 0)) by (rewrite combine_length, Lc, W1; lia). rewrite combine_nth by lia. cbn [fst snd nmul RNum].
    destruct (H k Hk) as [_ Q]. rewrite (Q (1 / INR n) En Ea Eb), M1, Rmult_1_l. rewrite <- (Wk k Hk). fold (cs k). rewrite <- (Ec k Hk). unfold lnth. apply Rmult_comm.
Qed.
Print Assumptions C100_expected_plan.

(** for equal normalised weights, raising beta never raises the cost of the expected plan *)
Theorem C100_expected_plan_monotone : forall n d L X Y th mt p b1 b2 bs, let u := repeat (1 / INR n) n in
  (0 < n)%nat -> 1 <= exponent mt p -> bs_ok bs -> mt <> MOther -> (0 < L)%nat -> b1 <= b2 ->
  exists G1 c1 G2 c2, explan n n d L X Y th u u mt p b1 bs = Ok (G1, c1) /\ explan n n d L X Y th u u mt p b2 bs = Ok (G2, c2) /\ c2 <= c1.
Proof.
  intros n d L X Y th mt p b1 b2 bs u Hn Hp Hbs Hmt HL Hb.
  assert (P : 0 < INR n) by (apply lt_0_INR; auto).
  assert (Su : sample n u). { split; [apply repeat_length|]. split; auto. intros i Hi. unfold u. rewrite lnth_repeat by auto. apply Rle_mult_inv_pos; lra. }
  destruct (C100_expected_plan n n d L X Y th u u mt p b1 bs Su Su eq_refl Hp Hbs Hmt HL) as (G1 & c1 & l & E1 & El & Ll & _ & EG1 & _ & C1).
  destruct (C100_expected_plan n n d L X Y th u u mt p b2 bs Su Su eq_refl Hp Hbs Hmt HL) as (G2 & c2 & l' & E2 & El' & _ & _ & EG2 & _ & C2).
  assert (l' = l) by congruence. subst l'.
  destruct (C99_sliced_plans n n d L X Y th u u mt p bs Su Su eq_refl Hp Hbs Hmt HL) as (l' & El2 & _ & H). assert (l' = l) by congruence. subst l'.
  exists G1, c1, G2, c2. split; auto. split; auto.
  assert (M1 : mass n (lnth u) = 1). { unfold mass. rewrite (rsum_ext n _ (fun _ => 1 / INR n)) by (intros i Hi; unfold u; apply lnth_repeat; auto). rewrite rsum_const. field. lra. }
  set (cs := fun k => snd (nth k l ([], 0))) in *.
  assert (V : forall G be c, (forall i j, G i j = rsum L (fun k => softw L be cs k * dmat (fst (nth k l ([], 0))) i j)) -> c = cost n n (ground mt p d X Y) G -> c = rsum L (fun k => softw L be cs k * cs k)).
  { intros G be c EG ->. transitivity (cost n n (ground mt p d X Y) (fun i j => rsum L (fun k => softw L be cs k * dmat (fst (nth k l ([], 0))) i j))); [apply cost_ext; auto|].
    rewrite cost_mix. apply rsum_ext; intros k Hk. destruct (H k Hk) as [_ Q]. f_equal. transitivity (mass n (lnth u) * snd (nth k l ([], 0))); [exact (Q (1 / INR n) eq_refl eq_refl eq_refl)|]. rewrite M1, Rmult_1_l. reflexivity. }
  rewrite (V G1 b1 c1 EG1 (C1 eq_refl eq_refl eq_refl)), (V G2 b2 c2 EG2 (C2 eq_refl eq_refl eq_refl)). apply softw_mono; auto.
Qed.
Print Assumptions C100_expected_plan_monotone.

(** ** where the reported costs are wrong *)
Local Open Scope Q_scope.
Definition rX (i t : nat) : Q := nth t (nth i [[1; 1]; [0; 0]] []) 0.
Definition rY (i t : nat) : Q := nth t (nth i [[0; 2]; [1; 0]] []) 0.
Definition rth (t k : nat) : Q := if Nat.eqb t k then 1 else 0.
Definition ra : list Q := [1 # 4; 3 # 4].
Definition rb : list Q := [1 # 2; 1 # 2].
Definition qcost (n m : nat) (M G : nat -> nat -> Q) : Q := nsum (N:=QNum) n (fun i => nsum (N:=QNum) m (fun j => M i j * G i j)).
Definition qsq (i j : nat) : Q := (rX i 0 - rY j 0) * (rX i 0 - rY j 0) + (rX i 1 - rY j 1) * (rX i 1 - rY j 1).
(** unequal weights: the plan of the second axis costs 2, yet the first one is returned; it costs
    5/2 and is reported to cost 9/4 *)
Theorem C99_unequal_weights_refuted : exists G c, min_sliced_transport_plan (N:=QNum) (fun x _ => x) 2 2 2 2 rX rY rth (Some ra) (Some rb) Emd1d_model.SqEuclidean 2 None = Ok (G, c) /\
  c == 9 # 4 /\ qcost 2 2 qsq G == 5 # 2 /\
  exists l, sliced_plans (N:=QNum) (fun x _ => x) 2 2 2 2 rX rY rth (Some ra) (Some rb) Emd1d_model.SqEuclidean 2 None = Ok l /\ qcost 2 2 qsq (dense (fst (nth 1 l ([], 0)))) == 2.
Proof. eexists; eexists; split; [reflexivity|]. split; [vm_compute; reflexivity|]. split; [vm_compute; reflexivity|]. eexists; split; [reflexivity|]. vm_compute; reflexivity. Qed.
(** equal weights of mass 2: the reported cost is half of the cost of the plan *)
Theorem C99_unnormalised_refuted : exists G c, min_sliced_transport_plan (N:=QNum) (fun x _ => x) 2 2 2 2 rX rY rth (Some [1; 1]) (Some [1; 1]) Emd1d_model.SqEuclidean 2 None = Ok (G, c) /\
  c == 3 # 2 /\ qcost 2 2 qsq G == 3.
Proof. eexists; eexists; split; [reflexivity|]. split; vm_compute; reflexivity. Qed.
(** expected plan, beta <> 0, unequal weights (one direction, so its weight is 1 for any exp, log
    with exp(x - log(exp x)) = 1): 9/4 is reported for a plan of cost 5/2 *)
Theorem C100_unequal_weights_refuted : exists G c,
  expected_sliced_plan (N:=QNum) (fun x _ => x) (fun x => x) (fun x => 1) (fun x => x) 2 2 2 1 rX rY rth (Some ra) (Some rb) Emd1d_model.SqEuclidean 2 1 None = Ok (G, c) /\
  c == 9 # 4 /\ qcost 2 2 qsq G == 5 # 2.
Proof. eexists; eexists; split; [reflexivity|]. split; vm_compute; reflexivity. Qed.
Local Close Scope Q_scope.

(** ** the hypotheses are met by concrete data *)
Example sample_ex : sample 2 [1 / 4; 3 / 4] /\ sample 2 [1 / 2; 1 / 2] /\ mass 2 (lnth [1 / 4; 3 / 4]) = mass 2 (lnth [1 / 2; 1 / 2]).
Proof. split; [|split]; [split; [reflexivity|split; [lia|]]..|]; try (intros [|[|i]] Hi; unfold lnth; cbn; lra || lia). unfold mass, lnth; cbn; lra. Qed.
Example unit_directions_ex : forall k, (k < 2)%nat -> rsum 2 (fun t => (if Nat.eqb t k then 1 else 0) ^ 2) <= 1.
Proof. intros [|[|k]] Hk; cbn; lra || lia. Qed.
Example sw_ex : (sliced_wasserstein_distance (N:=QNum) (fun x _ => x) 2 2 2 2 rX rY rth (Some ra) (Some rb) 1 = Ok (1 # 2))%Q.
Proof. vm_compute. reflexivity. Qed.
Example minplan_uniform_ex : exists G c, (min_sliced_transport_plan (N:=QNum) (fun x _ => x) 2 2 2 2 rX rY rth None None Emd1d_model.SqEuclidean 2 None = Ok (G, c) /\ c == 3 # 2 /\ qcost 2 2 qsq G == 3 # 2)%Q.
Proof. eexists; eexists; split; [reflexivity|]. split; vm_compute; reflexivity. Qed.
