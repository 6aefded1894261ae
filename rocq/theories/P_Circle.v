(** C19, C20, C90, C91: transport on the circle R/Z (ot/lp/solver_circle.py).
    Points are reals read modulo 1; [circle_dist x y] is the length of the shorter arc. *)
From Coq Require Import Reals Lra Lia QArith Qround Arith Bool List.
Import ListNotations.
From Verif Require Import Num Sums Spec Perm Monge Duals_proofs Emd1d_model Emd1d_proofs Emd1d_perm_proofs W1d_model Circle_model Circle_proofs Circle_more Circle_bs.
Local Open Scope R_scope.

(** the ground distance is the shorter arc: the smallest |x - y - k| over the integers *)
Theorem circle_dist_is_arc : forall x y, (forall k : Z, circle_dist x y <= Rabs (x - y - IZR k)) /\ exists k : Z, circle_dist x y = Rabs (x - y - IZR k).
Proof. exact circle_dist_spec. Qed.

(** V is the optimal transport value for the arc length to the power p ([cpow 1 d = d]) *)
Definition circle_ot (n m : nat) (a b u v : vec) (p V : R) : Prop :=
  let C := fun i j => cpow p (circle_dist (u i) (v j)) in
  (forall G, coupling n m a b G -> V <= cost n m C G) /\ exists G, coupling n m a b G /\ cost n m C G = V.
Definition at_cut (n : nat) (u : vec) : Prop := exists i, (i < n)%nat /\ exists k : Z, u i = IZR k.

Lemma at_cut_frac : forall n u, at_cut n u -> exists i, (i < n)%nat /\ frac_part (u i) = 0.
Proof. intros n u (i & Hi & k & E). exists i. split; auto. rewrite E, (frac_shift _ k); lra. Qed.
Lemma cpow_1 : forall d, cpow 1 d = d.
Proof. intros. unfold cpow. destruct (Req_EM_T 1 1); congruence. Qed.

(** ** C19 *)
Theorem C19_w1_circle_optimal : forall n m (u v a b : vec) rs, (0 < n)%nat -> (0 < m)%nat -> nonneg_vec n a -> nonneg_vec m b -> mass n a = mass m b ->
  at_cut n u \/ at_cut m v -> circle_ot n m a b u v 1 (wasserstein1_circle (N:=RNum) rfloor n m u v (Some a) (Some b) rs).
Proof.
  intros n m u v a b rs Hn Hm Ha Hb Hab H.
  destruct (w1c_optimal n m u v a b rs Hn Hm Ha Hb Hab) as [L (G & CG & E)]; [destruct H as [H | H]; [left|right]; apply at_cut_frac; auto|].
  assert (EC : forall G', cost n m (fun i j => cpow 1 (circle_dist (u i) (v j))) G' = cost n m (fun i j => circle_dist (u i) (v j)) G') by (intros; apply cost_ext; auto; intros; apply cpow_1).
  split; [intros G' HG; rewrite EC; auto|]. exists G. split; auto. rewrite EC. exact E.
Qed.
(** rotating both measures by any angle does not change the value, when each configuration has a sample at the cut *)
Theorem C19_w1_circle_rotation : forall n m (u v a b : vec) rs rs' t, (0 < n)%nat -> (0 < m)%nat -> nonneg_vec n a -> nonneg_vec m b -> mass n a = mass m b ->
  let u' := fun i => u i + t in let v' := fun j => v j + t in at_cut n u \/ at_cut m v -> at_cut n u' \/ at_cut m v' ->
  wasserstein1_circle (N:=RNum) rfloor n m u' v' (Some a) (Some b) rs' = wasserstein1_circle (N:=RNum) rfloor n m u v (Some a) (Some b) rs.
Proof.
  intros n m u v a b rs rs' t Hn Hm Ha Hb Hab u' v' H H'.
  destruct (C19_w1_circle_optimal n m u v a b rs Hn Hm Ha Hb Hab H) as [L (G & CG & E)]. destruct (C19_w1_circle_optimal n m u' v' a b rs' Hn Hm Ha Hb Hab H') as [L' (G' & CG' & E')].
  assert (EC : forall g, cost n m (fun i j => cpow 1 (circle_dist (u' i) (v' j))) g = cost n m (fun i j => cpow 1 (circle_dist (u i) (v j))) g).
  { intros; apply cost_ext; auto. intros i j _ _. f_equal. apply (circle_dist_diff _ _ _ _ 0). unfold u', v'. ring. }
  apply Rle_antisym; [rewrite <- E; rewrite <- EC; apply L'; auto|rewrite <- E'; rewrite EC; apply L; auto].
Qed.
Definition qfloor (x : QNum) : QNum := inject_Z (Qfloor x).
Definition q1 (x : Q) : nat -> QNum := fun _ => x.
(** without a sample at the cut both claims fail: arcs 0.3 -> 0.95 and its rotation by -0.3 *)
Theorem C19_w1_circle_rotation_refuted :
  Qeq_bool (wasserstein1_circle (N:=QNum) qfloor 1 1 (q1 (3 # 10)) (q1 (19 # 20)) None None true) (1 # 20) = true /\
  Qeq_bool (wasserstein1_circle (N:=QNum) qfloor 1 1 (q1 0) (q1 (13 # 20)) None None true) (7 # 20) = true.
Proof. split; vm_compute; reflexivity. Qed.
(** hypotheses: {0, 1/2} against {1/4} *)
Example C19_w1_circle_nonvacuous : at_cut 2 (fun i => INR i / 2) /\ mass 2 (fun _ => 1 / 2) = mass 1 (fun _ => 1) /\
  Qeq_bool (wasserstein1_circle (N:=QNum) qfloor 2 1 (fun i => if Nat.eqb i 0 then 0%Q else 1 # 2) (q1 (1 # 4)) None None true) (1 # 4) = true.
Proof. split; [exists 0%nat; split; [lia|exists 0%Z; cbn; lra]|]. split; [unfold mass; cbn; lra|vm_compute; reflexivity]. Qed.

(** ** C20 *)
(** the closed form of the squared distance to the uniform measure: no order, no cut *)
Definition w2_unif (n : nat) (u a : vec) : R :=
  1 / 12 - 1 / 2 * rsum n (fun i => rsum n (fun j => a i * a j * (circle_dist (u i) (u j) * (1 - circle_dist (u i) (u j))))).
Lemma w2_unif_perm : forall n u a s, perm_on n s -> w2_unif n (fun i => u (s i)) (fun i => a (s i)) = w2_unif n u a.
Proof.
  intros n u a s Hs. unfold w2_unif. f_equal. f_equal.
  rewrite <- (rsum_perm n s (fun i => rsum n (fun j => a i * a j * (circle_dist (u i) (u j) * (1 - circle_dist (u i) (u j))))) Hs). apply rsum_ext. intros i Hi.
  apply (rsum_perm n s (fun j => a (s i) * a j * (circle_dist (u (s i)) (u j) * (1 - circle_dist (u (s i)) (u j)))) Hs).
Qed.
Lemma w2_unif_rot : forall n u a t, w2_unif n (fun i => u i + t) a = w2_unif n u a.
Proof.
  intros n u a t. unfold w2_unif. f_equal. f_equal. apply rsum_ext. intros i _. apply rsum_ext. intros j _. rewrite (circle_dist_diff (u i) (u j) _ _ 0); [reflexivity|ring].
Qed.
(** weights given in the order of the sorted samples *)
Theorem C20_semidiscrete_sorted : forall n (u a : vec), rsum n a = 1 -> (forall k, (S k < n)%nat -> frac_part (u k) <= frac_part (u (S k))) ->
  semidiscrete (N:=RNum) rfloor n u (Some a) = w2_unif n u a.
Proof. intros n u a Ha Hs. apply (semidiscrete_closed n u a a (fun i => i)); auto. split; auto. Qed.
(** default weights: any order of the samples, any rotation *)
Theorem C20_semidiscrete_uniform : forall n (u : vec), (0 < n)%nat -> semidiscrete (N:=RNum) rfloor n u None = w2_unif n u (fun _ => / INR n).
Proof.
  intros n u Hn. set (o := order (N:=RNum) n (fun i => frac_part (u i))).
  transitivity (semidiscrete (N:=RNum) rfloor n u (Some (fun _ => / INR n))).
  { unfold semidiscrete. cbv zeta. cbn [unif]. rewrite !nofnat_INR. cbn [ndiv n1 RNum]. unfold Rdiv. rewrite !Rmult_1_l. reflexivity. }
  apply (semidiscrete_closed n u (fun _ => / INR n) (fun _ => / INR n) o); auto; [apply order_perm|apply (order_sorted n (fun i => frac_part (u i)))|].
  rewrite rsum_const. apply Rinv_r. apply not_0_INR. lia.
Qed.
Theorem C20_semidiscrete_uniform_invariant : forall n (u : vec) s t, (0 < n)%nat -> perm_on n s ->
  semidiscrete (N:=RNum) rfloor n (fun i => u (s i) + t) None = semidiscrete (N:=RNum) rfloor n u None.
Proof.
  intros n u s t Hn Hs. rewrite !C20_semidiscrete_uniform by auto. rewrite (w2_unif_rot n (fun i => u (s i)) (fun _ => / INR n) t). apply (w2_unif_perm n u (fun _ => / INR n) s Hs).
Qed.
(** the weights are not moved with the samples: swapping two weighted samples changes the value *)
Definition q2 (x y : Q) : nat -> QNum := fun i => if Nat.eqb i 0 then x else y.
Theorem C20_semidiscrete_permutation_refuted :
  Qeq_bool (semidiscrete (N:=QNum) qfloor 3 (fun i => if Nat.eqb i 0 then 0%Q else if Nat.eqb i 1 then 1 # 10 else 1 # 2) (Some (fun i => if Nat.eqb i 0 then 1 # 2 else if Nat.eqb i 1 then 1 # 2 else 0%Q)))
           (semidiscrete (N:=QNum) qfloor 3 (fun i => if Nat.eqb i 0 then 0%Q else if Nat.eqb i 1 then 1 # 2 else 1 # 10) (Some (fun i => if Nat.eqb i 0 then 1 # 2 else if Nat.eqb i 1 then 0%Q else 1 # 2))) = false.
Proof. vm_compute; reflexivity. Qed.
Example C20_semidiscrete_nonvacuous : perm_on 2 (fun i => 1 - i)%nat /\ Qeq_bool (semidiscrete (N:=QNum) qfloor 2 (q2 (1 # 2) 0) None) (1 # 48) = true.
Proof. split; [split; intros; lia|vm_compute; reflexivity]. Qed.

(** ** C90: linear_circular_ot is a squared pseudo-distance *)
Definition lcot (grid n m : nat) (u v a b : vec) : R := linear_circular_ot (N:=RNum) rfloor grid n m u (Some v) (Some a) (Some b).
Theorem C90_lcot_pseudometric : forall grid n m l (u v w a b c : vec), (0 < grid)%nat ->
  0 <= lcot grid n m u v a b <= 1 / 4 /\ lcot grid n m u v a b = lcot grid m n v u b a /\ lcot grid n n u u a a = 0 /\
  sqrt (lcot grid n l u w a c) <= sqrt (lcot grid n m u v a b) + sqrt (lcot grid m l v w b c).
Proof.
  intros grid n m l u v w a b c Hg. assert (G0 : 0 < INR grid) by (apply lt_0_INR; auto). unfold lcot. rewrite !lcot_R.
  split; [split|split; [|split]].
  - apply Rmult_le_pos; [apply rsum_nonneg; intros; nra|left; apply Rinv_0_lt_compat; auto].
  - apply (Rmult_le_reg_r (INR grid)); auto. unfold Rdiv at 1. rewrite Rmult_assoc, Rinv_l, Rmult_1_r by lra. rewrite Rmult_comm, <- rsum_const. apply rsum_le. intros k _.
    match goal with |- gap ?x ?y * _ <= _ => pose proof (gap_range x y (emb_range _ _ _ _) (emb_range _ _ _ _)) end. nra.
  - f_equal. apply rsum_ext. intros k _. rewrite (gap_sym (emb n u a _)). reflexivity.
  - rewrite rsum_0; [unfold Rdiv; ring|]. intros k _. rewrite gap_self. ring.
  - rewrite !sqrt_div_alt by auto. unfold Rdiv. rewrite <- Rmult_plus_distr_r. apply Rmult_le_compat_r; [left; apply Rinv_0_lt_compat, sqrt_lt_R0; auto|].
    apply minkowski. intros k _. split; [apply gap_range; apply emb_range|apply gap_tri; apply emb_range].
Qed.
(** the quantile used by the embedding is the next atom: for a level q inside atom i it reads
    atom min (i + 1) (n - 1), because the cumulative weights are padded with a leading 0 *)
Theorem C90_lcot_quantile_shifted : forall n (ws : vec) q i, (i < n)%nat -> nonneg_vec n ws -> rsum i ws < q <= rsum (S i) ws ->
  quantile_idx (N:=RNum) n (0 :: map (fun i => nsum (N:=RNum) (S i) ws) (seq 0 n)) q = Nat.min (S i) (n - 1).
Proof. exact padded_index. Qed.
(** so {0, 1/2} with equal weights is treated as the single atom 1/2 on all but one of the 100 grid points *)
Theorem C90_lcot_quantile_refuted :
  Qeq_bool (linear_circular_ot (N:=QNum) qfloor 100 2 1 (q2 0 (1 # 2)) (Some (q1 (1 # 2))) None None) (1 # 400) = true.
Proof. vm_compute; reflexivity. Qed.
Example C90_lcot_nonvacuous : Qle_bool (1 # 100) (linear_circular_ot (N:=QNum) qfloor 10 3 2 (fun i => if Nat.eqb i 0 then 0%Q else if Nat.eqb i 1 then 1 # 3 else 1 # 2) (Some (q2 (1 # 5) (4 # 5))) None None) = true.
Proof. vm_compute; reflexivity. Qed.

(** ** C91: wasserstein_circle never underestimates, and its search ends *)
(** [deriv] stands for derivative_cost_on_circle and is arbitrary *)
Theorem C91_wasserstein_circle_upper : forall k fuel deriv (u v uw vw : list RNum) (p epsL thousandth tm tp : R) require_sort,
  let n := length u in let m := length v in length uw = n -> length vw = m -> (0 < n)%nat -> (0 < m)%nat -> nonneg_vec n (lnth uw) -> nonneg_vec m (lnth vw) ->
  mass n (lnth uw) = 1 -> mass m (lnth vw) = 1 -> 1 <= p -> tm <= tp -> tp - tm < epsL * 2 ^ k -> (k < fuel)%nat ->
  exists w, binary_search_circle (N:=RNum) rfloor rpow fuel deriv u v uw vw p epsL thousandth tm tp require_sort = Some w /\
    (exists G, coupling n m (lnth uw) (lnth vw) G /\ cost n m (fun i j => cpow p (circle_dist (lnth u i) (lnth v j))) G <= w) /\
    forall V, circle_ot n m (lnth uw) (lnth vw) (lnth u) (lnth v) p V -> V <= w.
Proof.
  intros k fuel deriv u v uw vw p epsL th tm tp rs n m Lu Lv Hn Hm Ha Hb Ma Mb Hp Ht He Hf.
  destruct (bs_upper k fuel deriv u v uw vw p epsL th tm tp rs Lu Lv Hn Hm Ha Hb Ma Mb Hp Ht He Hf) as (w & E & G & CG & LG). exists w. split; [exact E|]. split; [exists G; auto|].
  intros V [L _]. eapply Rle_trans; [apply L; exact CG|exact LG].
Qed.
(** the default arguments tm = -1, tp = 1, eps / L = 1e-7 need at most 25 halvings *)
Example C91_wasserstein_circle_default_fuel : 1 - -1 < / 10000000 * 2 ^ 25.
Proof. cbn. lra. Qed.
(** for one theta, on {0, 1/2} against {1/4}, p = 1: cost 1/4 at theta = 0, 3/4 at theta = 3/4 *)
Example C91_ot_cost_runs : Qeq_bool (ot_cost_on_circle (N:=QNum) qfloor (fun x _ => x) 0%Q [0; 1 # 2]%Q [1 # 4]%Q [1 # 2; 1]%Q [1]%Q 1%Q) (1 # 4) = true /\
  Qeq_bool (ot_cost_on_circle (N:=QNum) qfloor (fun x _ => x) (3 # 4) [0; 1 # 2]%Q [1 # 4]%Q [1 # 2; 1]%Q [1]%Q 1%Q) (3 # 4) = true.
Proof. split; vm_compute; reflexivity. Qed.

Print Assumptions C19_w1_circle_optimal.
Print Assumptions C19_w1_circle_rotation.
Print Assumptions C19_w1_circle_rotation_refuted.
Print Assumptions C20_semidiscrete_sorted.
Print Assumptions C20_semidiscrete_uniform.
Print Assumptions C20_semidiscrete_uniform_invariant.
Print Assumptions C20_semidiscrete_permutation_refuted.
Print Assumptions C90_lcot_pseudometric.
Print Assumptions C90_lcot_quantile_shifted.
Print Assumptions C90_lcot_quantile_refuted.
Print Assumptions C91_wasserstein_circle_upper.
