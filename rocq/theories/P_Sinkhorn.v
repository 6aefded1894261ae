(** C21-C29, C70-C72: balanced entropic transport (ot/bregman/_sinkhorn.py, ot/batch/_utils.py and
    the entropic branch of ot.solve).  Exact reals unless a theorem quantifies over [N : NumOps].
    [no_nan] says that no real is a NaN; [norm2] is the euclidean norm; where [norm] is a variable
    it can be anything. *)
From Coq Require Import List Arith Bool Reals Lra Lia QArith Qreals.
From Verif Require Import Num Sums Spec Duals_proofs Entropy Sinkhorn_model Sinkhorn_proofs Sinkhorn_more Sinkhorn_stab Sinkhorn_final.
Import ListNotations.
Local Open Scope R_scope.

(** the Gibbs kernel exp(-M/reg) and the plan diag(u) exp(-M/reg) diag(v) *)
Definition gibbs (M : mat) (reg : R) : mat := fun i j => exp (- M i j / reg).
Definition diag_plan (K : mat) (u v : vec) : mat := fun i j => u i * K i j * v j.
Lemma gibbs_pos : forall M reg i j, 0 < gibbs M reg i j. Proof. intros; apply exp_pos. Qed.
Definition pos_warm (n m : nat) (w : option (vec * vec)) : Prop :=
  match w with None => True | Some (u, v) => pos_vec n u /\ pos_vec m v end.
Lemma kp_init_pos : forall k, (0 < k)%nat -> pos_vec k (kp_init (N:=RNum) k).
Proof. intros k Hk i Hi. unfold kp_init. rewrite nat_num_INR. apply Rdiv_lt_0_compat; [cbn; lra|apply lt_0_INR; auto]. Qed.
Lemma sk_warm : forall n m a b norm nan thr K it w, (0 < n)%nat -> (0 < m)%nat -> pos_warm n m w ->
  exists u v, pos_vec n u /\ pos_vec m v /\
  sinkhorn_knopp (N:=RNum) n m a b norm nan thr K it w = kp_loop (N:=RNum) n m a b norm nan thr K it 0 u v [].
Proof.
  intros n m a b norm nan thr K it [[u v]|] Hn Hm W; [exists u, v; destruct W; auto|].
  exists (kp_init (N:=RNum) n), (kp_init (N:=RNum) m). repeat split; auto using kp_init_pos.
Qed.

(** C21: whenever at least one iteration is allowed, the returned plan is positive and its row sums
    are exactly a, wherever the loop stopped; sinkhorn_knopp from any positive warm start ... *)
Theorem C21_knopp_rows : forall n m a b K norm thr it warm,
  (0 < n)%nat -> (0 < m)%nat -> pos_vec n a -> pos_vec m b -> (forall i j, (i < n)%nat -> (j < m)%nat -> 0 < K i j) ->
  pos_warm n m warm -> (0 < it)%nat ->
  let o := sinkhorn_knopp (N:=RNum) n m a b norm no_nan thr K it warm in
  (forall i j, (i < n)%nat -> (j < m)%nat -> 0 < diag_plan K (sk_u o) (sk_v o) i j) /\
  (forall i, (i < n)%nat -> row_sum m (diag_plan K (sk_u o) (sk_v o)) i = a i) /\
  (forall k, sk_exit o <> NumErr k).
Proof.
  intros n m a b K norm thr it w Hn Hm Ha Hb HK W Hit.
  destruct (sk_warm n m a b norm no_nan thr K it w Hn Hm W) as (u & v & Hu & Hv & E). cbn zeta. rewrite E.
  destruct (kp_loop_post n m a b K Hn Hm Ha Hb HK norm thr it 0 u v [] Hu Hv) as (P1 & P2 & P3 & P4).
  split; [|split; auto].
  - intros. apply (pl_pos n m K HK); auto.
  - intros i Hi. rewrite (P4 Hit). apply (ku_row n m a K); auto.
Qed.
Print Assumptions C21_knopp_rows.
(** ... and sinkhorn_log from any warm start. *)
Theorem C21_log_rows : forall n m a b Mr norm thr it warm,
  (0 < n)%nat -> (0 < m)%nat -> pos_vec n a -> pos_vec m b -> (0 < it)%nat ->
  let o := sinkhorn_log (N:=RNum) n m a b norm thr exp ln Mr it warm in
  let P := fun i j => exp (Mr i j + sk_u o i + sk_v o j) in
  forall i, (i < n)%nat -> row_sum m P i = a i.
Proof.
  intros n m a b Mr norm thr it w Hn Hm Ha Hb Hit o P i Hi.
  assert (E : sk_u o = lg_u (N:=RNum) m a exp ln Mr (sk_v o)) by (destruct w as [[u v]|]; apply (lg_last RNum); auto).
  unfold P. rewrite E. apply (lu_row n m a Mr); auto.
Qed.
Print Assumptions C21_log_rows.

(** C22, any arithmetic: the loop ends in one of three ways.  Without warning: at an iteration
    divisible by 10, below numItermax, with the column error of the returned scalings (the last
    recorded one) below stopThr while all earlier recorded ones were not; with the non-convergence
    warning: all recorded errors are not below stopThr; or on a numerical error. *)
Theorem C22_stopping : forall (N : NumOps) n m (a b : nat -> N) norm nan thr K it warm,
  let o := sinkhorn_knopp n m a b norm nan thr K it warm in
  let final := norm m (fun j => nsub (nsum n (fun i => nmul (nmul (sk_u o i) (K i j)) (sk_v o j))) (b j)) in
  match sk_exit o with
  | Converged k => (k < it)%nat /\ (k mod 10 = 0)%nat /\ nltb final thr = true /\
       exists l, sk_err o = l ++ [final] /\ Forall (fun e => nltb e thr = false) l
  | NumErr k => (k < it)%nat
  | MaxIter => Forall (fun e => nltb e thr = false) (sk_err o)
  end.
Proof.
  intros N n m a b norm nan thr K it w.
  assert (G : forall u v, let o := kp_loop n m a b norm nan thr K it 0 u v [] in
    let final := norm m (fun j => nsub (nsum n (fun i => nmul (nmul (sk_u o i) (K i j)) (sk_v o j))) (b j)) in
    match sk_exit o with Converged k => (k < it)%nat /\ (k mod 10 = 0)%nat /\ nltb final thr = true /\
       exists l, sk_err o = l ++ [final] /\ Forall (fun e => nltb e thr = false) l
    | NumErr k => (k < it)%nat | MaxIter => Forall (fun e => nltb e thr = false) (sk_err o) end).
  { intros u v. assert (E := kp_exit N n m a b norm nan thr K it 0 u v []). cbn zeta in *.
    destruct (sk_exit _); [destruct E as (E1 & E2 & E3 & E4); split; [lia|split; auto]| lia | destruct E as (l & -> & F); exact F]. }
  destruct w as [[u v]|]; apply G.
Qed.
Print Assumptions C22_stopping.
(** all three exits happen *)
Example C22_exits :
  let run K it := sk_exit (sinkhorn_knopp (N:=QNum) 2 2 (fun _ => 1 # 2)%Q (fun j => nth j [1 # 4; 3 # 4]%Q 0%Q)
     (fun k f => fold_right Qplus 0%Q (map (fun j => Qmult (f j) (f j)) (seq 0 k))) (fun _ => false) (1 # 100)%Q K it None) in
  run (fun i j => if Nat.eqb i j then 2%Q else 1%Q) 20%nat = Converged 0 /\
  run (fun i j => if Nat.eqb i j then 12%Q else 1%Q) 5%nat = MaxIter /\ run (fun _ _ => 0%Q) 5%nat = NumErr 0.
Proof. vm_compute. repeat split; reflexivity. Qed.

(** C23: with the same limits and the default start, kernel and log-domain solvers stop at the same
    iteration, record the same errors and return the same plan, for at least one iteration. *)
Theorem C23_log_agrees : forall n m a b M reg (norm : nat -> (nat -> R) -> R) thr it,
  (0 < n)%nat -> (0 < m)%nat -> pos_vec n a -> pos_vec m b -> (0 < it)%nat ->
  (forall k f g, (forall j, (j < k)%nat -> f j = g j) -> norm k f = norm k g) ->
  let o := sinkhorn_knopp (N:=RNum) n m a b norm no_nan thr (gibbs M reg) it None in
  let l := sinkhorn_log (N:=RNum) n m a b norm thr exp ln (fun i j => - M i j / reg) it None in
  sk_exit o = sk_exit l /\ sk_err o = sk_err l /\
  forall i j, (i < n)%nat -> (j < m)%nat -> sk_u o i * gibbs M reg i j * sk_v o j = exp (- M i j / reg + sk_u l i + sk_v l j).
Proof.
  intros n m a b M reg norm thr it Hn Hm Ha Hb Hit HN.
  assert (N1 := lt_0_INR n Hn).
  apply (lockstep n m a b (gibbs M reg) Hn Hm Ha Hb (fun i j _ _ => gibbs_pos M reg i j) (fun i j => - M i j / reg) norm thr (fun _ _ => eq_refl) HN it 0 (/ INR n)).
  - apply Rinv_0_lt_compat; auto.
  - intros i Hi. unfold kp_init. rewrite nat_num_INR. change (@n0 RNum) with 0. rewrite exp_0. cbn. field. lra.
  - lia.
Qed.
Print Assumptions C23_log_agrees.
(** with numItermax = 0 they differ: K/(nm) against K *)
Theorem C23_zero_iterations_refuted : exists n m a b M reg,
  (0 < n)%nat /\ (0 < m)%nat /\ pos_vec n a /\ pos_vec m b /\ 0 < reg /\ forall norm thr,
  let o := sinkhorn_knopp (N:=RNum) n m a b norm no_nan thr (gibbs M reg) 0 None in
  let l := sinkhorn_log (N:=RNum) n m a b norm thr exp ln (fun i j => - M i j / reg) 0 None in
  sk_u o 0%nat * gibbs M reg 0%nat 0%nat * sk_v o 0%nat <> exp (- M 0%nat 0%nat / reg + sk_u l 0%nat + sk_v l 0%nat).
Proof.
  exists 2%nat, 2%nat, (fun _ => / 2), (fun _ => / 2), (fun _ _ => 0), 1. repeat split; try lia; try lra; try (intros i Hi; lra).
  intros norm thr. unfold gibbs. cbn. replace (- 0 / 1 + 0 + 0) with 0 by field. replace (- 0 / 1) with 0 by field. rewrite exp_0. lra.
Qed.
Print Assumptions C23_zero_iterations_refuted.

(** C24: a scaled Gibbs kernel that is a coupling is the unique minimiser of
    <M,P> + reg sum P log P over all couplings. *)
Theorem C24_fixed_point_optimal : forall n m a b M reg u v, 0 < reg -> pos_vec n u -> pos_vec m v ->
  let G := diag_plan (gibbs M reg) u v in coupling n m a b G ->
  forall P, coupling n m a b P ->
    ent_obj n m M reg G <= ent_obj n m M reg P /\
    (ent_obj n m M reg P <= ent_obj n m M reg G -> forall i j, (i < n)%nat -> (j < m)%nat -> P i j = G i j).
Proof. intros n m a b M reg u v Hr Hu Hv G HG P HP. apply (pl_opt n m a b M reg Hr u v Hu Hv HG P HP). Qed.
Print Assumptions C24_fixed_point_optimal.
Example C24_case : let K := gibbs (fun i j => if Nat.eqb i j then 0 else ln 3) 1 in
  coupling 2 2 (fun _ => / 2) (fun _ => / 2) (diag_plan K (fun _ => 3 / 8) (fun _ => 1)).
Proof.
  assert (E : exp (- ln 3) = / 3) by (rewrite exp_Ropp, exp_ln; lra).
  assert (D : forall i j, diag_plan (gibbs (fun i j => if Nat.eqb i j then 0 else ln 3) 1) (fun _ => 3 / 8) (fun _ => 1) i j = if Nat.eqb i j then 3 / 8 else / 8).
  { intros i j. unfold diag_plan, gibbs. destruct (Nat.eqb i j).
    - replace (- 0 / 1) with 0 by field. rewrite exp_0. lra.
    - replace (- ln 3 / 1) with (- ln 3) by field. rewrite E. lra. }
  split; [|split].
  - intros i j _ _. rewrite D. destruct (Nat.eqb i j); lra.
  - intros i Hi. unfold row_sum. cbn [rsum]. rewrite !D. destruct i as [|[|i]]; try lia; cbn; lra.
  - intros i Hi. unfold col_sum. cbn [rsum]. rewrite !D. destruct i as [|[|i]]; try lia; cbn; lra.
Qed.

(** C25: explicit bound: once numItermax * reg * stopThr^2 exceeds 80 A^2 (hi - lo), where A is the
    common mass and [lo, hi] contains the costs, both solvers stop without a warning. *)
Lemma exp_le : forall x y, x <= y -> exp x <= exp y.
Proof. intros x y [H|H]; [left; apply exp_increasing; auto|rewrite H; lra]. Qed.
Lemma gibbs_range : forall n m M reg lo hi, 0 < reg -> (forall i j, (i < n)%nat -> (j < m)%nat -> lo <= M i j <= hi) ->
  forall i j, (i < n)%nat -> (j < m)%nat -> exp (- hi / reg) <= gibbs M reg i j <= exp (- lo / reg).
Proof.
  intros n m M reg lo hi Hr HM i j Hi Hj. specialize (HM i j Hi Hj). unfold gibbs.
  split; apply exp_le; unfold Rdiv; apply Rmult_le_compat_r; try lra; left; apply Rinv_0_lt_compat; auto.
Qed.
Lemma ln_range : forall reg lo hi, 0 < reg -> ln (exp (- lo / reg) / exp (- hi / reg)) = (hi - lo) / reg.
Proof. intros. rewrite ln_div, !ln_exp by apply exp_pos. field. lra. Qed.
Theorem C25_converges : forall n m a b M reg lo hi thr it warm,
  (0 < n)%nat -> (0 < m)%nat -> pos_vec n a -> pos_vec m b -> mass n a = mass m b -> 0 < reg -> 0 < thr ->
  (forall i j, (i < n)%nat -> (j < m)%nat -> lo <= M i j <= hi) -> pos_warm n m warm ->
  80 * (mass n a * mass n a) * (hi - lo) < INR it * reg * (thr * thr) ->
  exists k, sk_exit (sinkhorn_knopp (N:=RNum) n m a b norm2 no_nan thr (gibbs M reg) it warm) = Converged k.
Proof.
  intros n m a b M reg lo hi thr it w Hn Hm Ha Hb HE Hr Ht HM W Hit.
  destruct (sk_warm n m a b norm2 no_nan thr (gibbs M reg) it w Hn Hm W) as (u & v & Hu & Hv & E). rewrite E.
  apply (kp_converges n m a b (gibbs M reg) Hn Hm Ha Hb (fun i j _ _ => gibbs_pos M reg i j) HE thr (exp (- hi / reg)) (exp (- lo / reg))); auto.
  - apply exp_pos.
  - apply gibbs_range; auto.
  - rewrite ln_range by auto. apply (Rmult_lt_reg_r reg); auto.
    replace (80 * (mass n a * mass n a) * ((hi - lo) / reg) * reg) with (80 * (mass n a * mass n a) * (hi - lo)) by (field; lra). lra.
Qed.
Print Assumptions C25_converges.
Theorem C25_log_converges : forall n m a b M reg lo hi thr it,
  (0 < n)%nat -> (0 < m)%nat -> pos_vec n a -> pos_vec m b -> mass n a = mass m b -> 0 < reg -> 0 < thr ->
  (forall i j, (i < n)%nat -> (j < m)%nat -> lo <= M i j <= hi) ->
  80 * (mass n a * mass n a) * (hi - lo) < INR it * reg * (thr * thr) ->
  exists k, sk_exit (sinkhorn_log (N:=RNum) n m a b norm2 thr exp ln (fun i j => - M i j / reg) it None) = Converged k.
Proof.
  intros n m a b M reg lo hi thr it Hn Hm Ha Hb HE Hr Ht HM Hit.
  destruct (C25_converges n m a b M reg lo hi thr it None Hn Hm Ha Hb HE Hr Ht HM I Hit) as (k & Hk).
  assert (Hl : (0 < it)%nat).
  { destruct it; [|lia]. exfalso. change (INR 0) with 0 in Hit. specialize (HM 0%nat 0%nat Hn Hm).
    assert (0 <= 80 * (mass n a * mass n a) * (hi - lo)) by (repeat apply Rmult_le_pos; try lra; apply rsum_nonneg; intros; left; auto). lra. }
  exists k. rewrite <- Hk. symmetry. apply (C23_log_agrees n m a b M reg norm2 thr it); auto. apply norm2_ext.
Qed.
Print Assumptions C25_log_converges.
Lemma INR_unbounded : forall x, exists k, INR k > x.
Proof.
  intros x. destruct (archimed x) as [H _]. exists (Z.to_nat (up x)). destruct (Z.le_gt_cases 0 (up x)) as [L|L].
  - rewrite INR_IZR_INZ, Z2Nat.id by auto. lra.
  - assert (B := pos_INR (Z.to_nat (up x))). apply IZR_lt in L. lra.
Qed.
(** some limit always suffices *)
Example C25_some_limit : forall n m a b M reg lo hi thr,
  (0 < n)%nat -> (0 < m)%nat -> pos_vec n a -> pos_vec m b -> mass n a = mass m b -> 0 < reg -> 0 < thr ->
  (forall i j, (i < n)%nat -> (j < m)%nat -> lo <= M i j <= hi) ->
  exists it, exists k, sk_exit (sinkhorn_knopp (N:=RNum) n m a b norm2 no_nan thr (gibbs M reg) it None) = Converged k.
Proof.
  intros n m a b M reg lo hi thr Hn Hm Ha Hb HE Hr Ht HM.
  assert (P : 0 < reg * (thr * thr)) by (repeat apply Rmult_lt_0_compat; auto).
  destruct (INR_unbounded (80 * (mass n a * mass n a) * (hi - lo) / (reg * (thr * thr)))) as (it & H). exists it.
  apply C25_converges with lo hi; auto; [exact I|]. apply (Rmult_gt_compat_r (reg * (thr * thr))) in H; auto.
  replace (80 * (mass n a * mass n a) * (hi - lo) / (reg * (thr * thr)) * (reg * (thr * thr))) with (80 * (mass n a * mass n a) * (hi - lo)) in H by (field; lra). lra.
Qed.

(** C26: at every exit of greenkhorn the stored plan is diag(u) K diag(v) and the stored violations
    are the true ones; when it stops without warning every row and column is within 2 stopThr. *)
Theorem C26_greenkhorn_bookkeeping : forall n m a b K thr it u v,
  (0 < n)%nat -> (0 < m)%nat -> pos_vec n a -> pos_vec m b -> (forall i j, (i < n)%nat -> (j < m)%nat -> 0 < K i j) ->
  pos_vec n u -> pos_vec m v ->
  let r := greenkhorn (N:=RNum) n m a b K thr it u v in let s := fst r in let P := diag_plan K (g_u s) (g_v s) in
  (forall i j, (i < n)%nat -> (j < m)%nat -> g_G s i j = P i j /\ 0 < P i j) /\
  (forall i, (i < n)%nat -> g_viol s i = row_sum m P i - a i) /\ (forall j, (j < m)%nat -> g_viol2 s j = col_sum n P j - b j) /\
  (forall k, snd r = Converged k -> (forall i, (i < n)%nat -> Rabs (row_sum m P i - a i) <= 2 * thr) /\ (forall j, (j < m)%nat -> Rabs (col_sum n P j - b j) <= 2 * thr)).
Proof.
  intros n m a b K thr it u v Hn Hm Ha Hb HK Hu Hv r s P.
  destruct (gk_loop_spec n m a b K Hn Hm Ha Hb HK thr it 0 _ (gk_init_inv n m a b K u v Hu Hv)) as [I1 I2].
  fold (greenkhorn (N:=RNum) n m a b K thr it u v) in I1, I2. fold r in I1, I2. fold s in I1, I2.
  split; [intros i j Hi Hj; split; [apply I1; auto|apply (pl_pos n m K HK); auto; apply I1]|].
  split; [intros i Hi; apply I1; auto|]. split; [intros i Hi; apply I1; auto|]. exact I2.
Qed.
Print Assumptions C26_greenkhorn_bookkeeping.
(** stopThr itself is not guaranteed: the test looks at the violations before the last update.
    Here it passes at iteration 0 with violations at most 11/100 and the returned plan misses the
    first column by more. *)
Definition gk_bad := greenkhorn (N:=QNum) 2 2 (fun _ => 1 # 2)%Q (fun j => nth j [9 # 10; 1 # 10]%Q 1%Q)
   (fun i j => nth j (nth i [[224 # 100; 2 # 10]; [1; 6 # 10]]%Q []) 1%Q) (11 # 100)%Q 1000 (fun _ => 1 # 2)%Q (fun _ => 1 # 2)%Q.
Theorem C26_within_threshold_refuted :
  snd gk_bad = Converged 0 /\
  (11 # 100 < nabs (N:=QNum) (nsub (n:=QNum) (nsum (N:=QNum) 2 (fun i => g_G (fst gk_bad) i 0%nat)) (9 # 10)))%Q.
Proof. vm_compute. split; reflexivity. Qed.
Print Assumptions C26_within_threshold_refuted.

(** C71: greenkhorn stops: some iteration limit is never exhausted. *)
Theorem C71_greenkhorn_terminates : forall n m a b K thr u v,
  (0 < n)%nat -> (0 < m)%nat -> pos_vec n a -> pos_vec m b -> mass n a = mass m b -> (forall i j, (i < n)%nat -> (j < m)%nat -> 0 < K i j) ->
  pos_vec n u -> pos_vec m v -> 0 < thr ->
  exists N0, forall it, (N0 <= it)%nat -> exists k, snd (greenkhorn (N:=RNum) n m a b K thr it u v) = Converged k.
Proof.
  intros n m a b K thr u v Hn Hm Ha Hb HE HK Hu Hv Ht.
  assert (A : 0 < mass n a) by (apply rsum_pos; auto).
  set (s0 := gk_init (N:=RNum) n m a b K u v).
  set (d := Rmin (thr * thr / (9 * mass n a)) (mass n a)).
  assert (D : 0 < d) by (apply Rmin_glb_lt; auto; apply Rdiv_lt_0_compat; [apply Rmult_lt_0_compat; auto|lra]).
  destruct (INR_unbounded (phi n m a b K u v / d)) as (N0 & H0). exists N0. intros it Hit.
  assert (X := gk_loop_exit n m a b K thr it 0 s0).
  unfold greenkhorn. fold s0. destruct (snd _) as [k|k|] eqn:E; [eauto|exfalso; apply (X k); auto|]. exfalso.
  assert (P := gk_loop_phi n m a b K Hn Hm Ha Hb HK HE thr it 0 s0 Ht (gk_init_inv n m a b K u v Hu Hv) E).
  change (INR it * d <= phi n m a b K u v) in P. apply le_INR in Hit.
  apply (Rmult_gt_compat_r d) in H0; auto. replace (phi n m a b K u v / d * d) with (phi n m a b K u v) in H0 by (field; lra).
  assert (INR N0 * d <= INR it * d) by (apply Rmult_le_compat_r; lra). lra.
Qed.
Print Assumptions C71_greenkhorn_terminates.

(** C27.  [kernel_iterate k] is the plan of the plain kernel iteration after k >= 1 passes from u. *)
Fixpoint knopp_u (n m : nat) (a b : vec) (K : mat) (k : nat) (u : vec) : vec :=
  match k with O => u | S k' => let u' := knopp_u n m a b K k' u in
    fun i => a i / rsum m (fun j => K i j * (b j / rsum n (fun i' => K i' j * u' i'))) end.
Definition kernel_iterate n m a b K k u : mat :=
  let u' := knopp_u n m a b K (k - 1) u in
  fun i j => knopp_u n m a b K k u i * K i j * (b j / rsum n (fun i' => K i' j * u' i')).
Lemma kernel_iterate_eq : forall n m a b M reg, (0 < n)%nat -> (0 < m)%nat -> pos_vec n a -> pos_vec m b -> forall k u, pos_vec n u ->
  pos_vec n (knopp_u n m a b (gibbs M reg) k u) /\ pos_vec n (kiter n m a b M reg k u) /\
  forall i, (i < n)%nat -> knopp_u n m a b (gibbs M reg) k u i = kiter n m a b M reg k u i.
Proof.
  intros n m a b M reg Hn Hm Ha Hb k u Hu.
  assert (HK : forall i j, (i < n)%nat -> (j < m)%nat -> 0 < kern M reg i j) by (intros; apply exp_pos).
  induction k; [cbn; auto|]. destruct IHk as (P1 & P2 & E).
  assert (V := kv_pos n m b _ Hn Hb HK _ P2). assert (U := ku_pos n m a _ Hm Ha HK _ V).
  assert (F : forall i, (i < n)%nat -> knopp_u n m a b (gibbs M reg) (S k) u i = kiter n m a b M reg (S k) u i).
  { intros i Hi. cbn [knopp_u kiter]. rewrite (ku_R n) by (auto; apply (kvs_pos n); auto). apply (f_equal (Rdiv (a i))). apply rsum_ext; intros j Hj.
    rewrite kv_R. unfold ktu. rewrite (rsum_ext n (fun i' => gibbs M reg i' j * knopp_u n m a b (gibbs M reg) k u i') (fun i' => kern M reg i' j * kiter n m a b M reg k u i')); [reflexivity|].
    intros i' Hi'. rewrite E by auto. reflexivity. }
  split; [|split; auto]. intros i Hi. rewrite F by auto. apply U; auto.
Qed.
(** After at least one iteration the plan of sinkhorn_stabilized is a plain kernel iterate, or that
    iterate divided by n*m, the latter exactly when the last iteration absorbed (some scaling
    exceeded tau); its rows are a or a/(nm) accordingly.  When it stops without warning the error
    was just recomputed and is at most stopThr. *)
Theorem C27_stabilized : forall n m a b M reg tau norm thr period it al be,
  (0 < n)%nat -> (0 < m)%nat -> pos_vec n a -> pos_vec m b -> 0 < reg -> (0 < it)%nat -> (0 < period)%nat ->
  (forall k f g, (forall j, (j < k)%nat -> f j = g j) -> norm k f = norm k g) ->
  let r := sinkhorn_stabilized (N:=RNum) n m a b norm no_nan exp ln M reg tau thr period it al be in
  let G := get_Gamma (N:=RNum) exp ln M reg (fst r) in
  exists k s0, (1 <= k <= it)%nat /\
    let s1 := st_update (N:=RNum) n m a b exp M reg s0 in
    let absorbed := st_big (N:=RNum) n m tau s1 in let d := if absorbed then INR n * INR m else 1 in
    (absorbed = false -> fst r = s1) /\
    (forall i j, (i < n)%nat -> (j < m)%nat -> G i j = kernel_iterate n m a b (gibbs M reg) k (fun i => exp (al i / reg)) i j / d) /\
    (forall i, (i < n)%nat -> row_sum m G i = a i / d) /\
    match snd r with
    | Converged q => q = (k - 1)%nat /\ (q mod period = 0)%nat /\ norm m (fun j => col_sum n G j - b j) <= thr
    | NumErr _ => False | MaxIter => k = it end.
Proof.
  intros n m a b M reg tau norm thr period it al be Hn Hm Ha Hb Hr Hit Hp HN r G.
  set (u0 := fun i => exp (al i / reg)).
  assert (N1 := lt_0_INR n Hn). assert (M1 := lt_0_INR m Hm).
  assert (T : tracks n reg (st_init (N:=RNum) n m al be) u0).
  { split; [|split].
    - intros i Hi. cbn [st_init s_u]. rewrite nat_num_INR. apply Rdiv_lt_0_compat; auto. cbn; lra.
    - intros i Hi. apply exp_pos.
    - exists (/ INR n). split; [apply Rinv_0_lt_compat; auto|]. intros i Hi. unfold hu, u0. cbn [st_init s_u s_al]. rewrite nat_num_INR. cbn. field. lra. }
  assert (S := st_loop_spec n m a b M reg tau Hn Hm Ha Hb Hr norm thr period it 0 1 _ u0 T). cbn zeta in S. change (@n1 RNum) with 1 in r. fold (sinkhorn_stabilized (N:=RNum) n m a b norm no_nan exp ln M reg tau thr period it al be) in S.
  change (sinkhorn_stabilized (N:=RNum) n m a b norm no_nan exp ln M reg tau thr period it al be) with r in S.
  destruct S as (S1 & S2). destruct (S2 Hit) as (k & s0 & K1 & K2 & K3 & K4 & K5). exists k, s0. split; auto. intros s1 absorbed d.
  destruct (step_tracks n m a b M reg tau Hn Hm Ha Hb Hr s0 _ K2) as (_ & EG). rewrite <- K3 in EG.
  destruct (kernel_iterate_eq n m a b M reg Hn Hm Ha Hb (k - 1) u0 ltac:(intros i Hi; apply exp_pos)) as (Q1 & Q2 & Q3).
  destruct (kernel_iterate_eq n m a b M reg Hn Hm Ha Hb k u0 ltac:(intros i Hi; apply exp_pos)) as (R1 & R2 & R3).
  assert (EGG : forall i j, (i < n)%nat -> (j < m)%nat -> G i j = kernel_iterate n m a b (gibbs M reg) k u0 i j / d).
  { intros i j Hi Hj. unfold G. rewrite EG by auto. apply (f_equal (fun x => x / d)). unfold kernel_iterate, scaled. rewrite R3 by auto.
    destruct k as [|k]; [lia|]. replace (S k - 1)%nat with k in * by lia. cbn [kiter]. rewrite (kv_R n b (kern M reg)). unfold ktu.
    rewrite (rsum_ext n (fun i' => gibbs M reg i' j * knopp_u n m a b (gibbs M reg) k u0 i') (fun i' => kern M reg i' j * kiter n m a b M reg k u0 i')); [reflexivity|].
    intros i' Hi'. rewrite Q3 by auto. reflexivity. }
  split; [|split; [exact EGG|split]].
  - intros HA. transitivity (st_step (N:=RNum) n m a b exp ln M reg tau s0); [exact K3|]. unfold st_step. fold s1. fold absorbed. rewrite HA. reflexivity.
  - intros i Hi. unfold row_sum.
    assert (HK : forall i j, (i < n)%nat -> (j < m)%nat -> 0 < kern M reg i j) by (intros; apply exp_pos).
    rewrite (rsum_ext m (fun j => G i j) (fun j => scaled (N:=RNum) (kern M reg) (kp_u (N:=RNum) m a (kern M reg) (kp_v (N:=RNum) n b (kern M reg) (kiter n m a b M reg (k - 1) u0))) (kp_v (N:=RNum) n b (kern M reg) (kiter n m a b M reg (k - 1) u0)) i j / d)).
    2:{ intros j Hj. exact (EG i j Hi Hj). }
    rewrite rsum_div. apply (f_equal (fun x => x / d)). apply (ku_row n m a (kern M reg)); auto. apply (kv_pos n m b _ Hn Hb HK); auto.
  - destruct (snd r) as [q|q|] eqn:E; [|exfalso; exact (S1 q E)|exact (K4 E)].
    destruct (K5 (or_intror (Nat.mod_0_l period ltac:(lia))) q E) as (F1 & F2 & F3). split; [lia|]. split; auto.
    unfold st_err in F3. eapply Rle_trans; [|exact F3]. right. apply HN. intros j Hj. rewrite nsum_R. reflexivity.
Qed.
Print Assumptions C27_stabilized.
(** Stopping without warning excludes the damaged plan, for tolerances below the error a plan of
    mass A/(nm) must have. *)
Theorem C27_converged_not_absorbed : forall n m a b M reg tau thr period it al be q,
  (0 < n)%nat -> (0 < m)%nat -> pos_vec n a -> pos_vec m b -> mass n a = mass m b -> 0 < reg -> (0 < it)%nat -> (0 < period)%nat ->
  0 <= thr -> INR m * (thr * thr) < Rsqr (mass n a * (1 - / (INR n * INR m))) ->
  let r := sinkhorn_stabilized (N:=RNum) n m a b norm2 no_nan exp ln M reg tau thr period it al be in
  let G := get_Gamma (N:=RNum) exp ln M reg (fst r) in
  snd r = Converged q -> forall i, (i < n)%nat -> row_sum m G i = a i.
Proof.
  intros n m a b M reg tau thr period it al be q Hn Hm Ha Hb HE Hr Hit Hp Ht Hsmall r G HC.
  destruct (C27_stabilized n m a b M reg tau norm2 thr period it al be Hn Hm Ha Hb Hr Hit Hp norm2_ext) as (k & s0 & _ & H). cbn zeta in H.
  destruct H as (_ & _ & HR & HX). fold r in HR, HX. fold G in HR, HX. rewrite HC in HX. destruct HX as (_ & _ & HX).
  destruct (st_big (N:=RNum) n m tau _); [|intros i Hi; rewrite HR by auto; field].
  exfalso. assert (N1 := lt_0_INR n Hn). assert (M1 := lt_0_INR m Hm).
  set (d := fun j => col_sum n G j - b j) in *.
  assert (D : rsum m d = - (mass n a * (1 - / (INR n * INR m)))).
  { unfold d. rewrite (rsum_minus m (fun j => col_sum n G j) b). replace (rsum m b) with (mass n a) by exact HE.
    replace (rsum m (fun i => col_sum n G i)) with (mass n a / (INR n * INR m)); [field; split; lra|].
    transitivity (total n m G); [|unfold total; rewrite rsum_swap; reflexivity].
    unfold total, mass. rewrite <- rsum_div. apply rsum_ext; intros i Hi. symmetry. apply HR; auto. }
  assert (C := rsum_CS m d (fun _ => 1)). cbn beta in C.
  rewrite (rsum_ext m (fun i => d i * 1) d) in C by (intros; ring). rewrite (rsum_const m (1 ^ 2)) in C. rewrite (rsum_ext m (fun i => d i ^ 2) (fun i => d i * d i)) in C by (intros; ring).
  assert (S : rsum m (fun i => d i * d i) <= thr * thr).
  { assert (Q : 0 <= rsum m (fun i => d i * d i)) by (apply rsum_nonneg; intros; apply Rle_0_sqr).
    change (sqrt (rsum m (fun j => d j * d j)) <= thr) in HX. rewrite <- (sqrt_sqrt _ Q). apply Rmult_le_compat; auto; apply sqrt_pos. }
  rewrite D in C. unfold Rsqr in Hsmall. nra.
Qed.
Print Assumptions C27_converged_not_absorbed.
(** The damaged plan is returned: 2 x 1, cost ln 2000, reg 1, tau 1000 (the default), one iteration:
    half the mass is gone. *)
Theorem C27_absorption_refuted :
  let r := sinkhorn_stabilized (N:=RNum) 2 1 (fun _ => / 2) (fun _ => 1) norm2 no_nan exp ln (fun _ _ => ln 2000) 1 1000 (1 / 100) 20 1 (fun _ => 0) (fun _ => 0) in
  let G := get_Gamma (N:=RNum) exp ln (fun _ _ => ln 2000) 1 (fst r) in
  (forall i, (i < 2)%nat -> row_sum 1 G i = / 4) /\ mass 2 (fun _ => / 2) = 1 /\ total 2 1 G = / 2.
Proof.
  intros r G.
  set (s0 := st_init (N:=RNum) 2 1 (fun _ => 0) (fun _ => 0)).
  set (s1 := st_update (N:=RNum) 2 1 (fun _ => / 2) (fun _ => 1) exp (fun _ _ => ln 2000) 1 s0).
  assert (Ek : exp (- ln 2000) = / 2000) by (rewrite exp_Ropp, exp_ln by lra; reflexivity).
  assert (EK : forall i j, get_K (N:=RNum) exp (fun _ _ => ln 2000) 1 (fun _ => 0) (fun _ => 0) i j = / 2000).
  { intros i j. unfold get_K, nopp. cbn. replace ((0 - (ln 2000 - 0 - 0)) / 1) with (- ln 2000) by field. exact Ek. }
  assert (V : s_v s1 0%nat = 2000).
  { unfold s1, st_update. cbn [s_v]. rewrite nsum_R. cbn [rsum s0 st_init s_al s_be s_u]. rewrite !EK. cbn. field. }
  assert (U : forall i, s_u s1 i = / 2).
  { intros i. change (s_u s1 i) with (/ 2 / nsum (N:=RNum) 1 (fun j => nmul (n:=RNum) (get_K (N:=RNum) exp (fun _ _ => ln 2000) 1 (fun _ => 0) (fun _ => 0) i j) (s_v s1 j))).
    rewrite nsum_R. cbn [rsum]. rewrite V, EK. cbn. field. }
  assert (B : st_big (N:=RNum) 2 1 1000 s1 = true).
  { unfold st_big. apply orb_true_iff. right. apply Rltb_true. cbn [nmaxk Nat.sub]. rewrite nabs_R, V, Rabs_right; lra. }
  assert (ST : st_step (N:=RNum) 2 1 (fun _ => / 2) (fun _ => 1) exp ln (fun _ _ => ln 2000) 1 1000 s0 = st_absorb (N:=RNum) 2 1 ln 1 s1).
  { unfold st_step. fold s1. rewrite B. reflexivity. }
  assert (F : fst r = st_absorb (N:=RNum) 2 1 ln 1 s1).
  { unfold r, sinkhorn_stabilized. change (st_init (N:=RNum) 2 1 (fun _ => 0) (fun _ => 0)) with s0. cbn [st_loop]. rewrite ST. destruct (nleb _ _); [reflexivity|]. rewrite !any_no_nan. reflexivity. }
  assert (G0 : forall i j, (i < 2)%nat -> (j < 1)%nat -> G i j = / 4).
  { intros i j Hi Hj. unfold G. rewrite F. replace j with 0%nat by lia.
    unfold get_Gamma, st_absorb. cbn [s_al s_be s_u s_v]. rewrite U, V, !nat_num_INR.
    change (exp ((0 - (ln 2000 - (0 + 1 * ln (/ 2)) - (0 + 1 * ln 2000))) / 1 + ln (1 / INR 2) + ln (1 / INR 1)) = / 4).
    replace ((0 - (ln 2000 - (0 + 1 * ln (/ 2)) - (0 + 1 * ln 2000))) / 1) with (ln (/ 2)) by field.
    change (INR 2) with 2. change (INR 1) with 1. rewrite !exp_plus, !exp_ln by lra. lra. }
  split; [|split].
  - intros i Hi. unfold row_sum. cbn [rsum]. rewrite G0 by lia. lra.
  - unfold mass. cbn [rsum]. lra.
  - unfold total. cbn [rsum]. rewrite !G0 by lia. lra.
Qed.
Print Assumptions C27_absorption_refuted.

Lemma some_inj : forall (A : Type) (x y : A), Some x = Some y -> x = y.
Proof. intros A x y H; injection H; auto. Qed.
(** C28: batched projections.  The column marginal of every element is exact for every
    max_iter >= 1, with or without last_step; stopping early without last_step means that every
    element's row error is below tol; and a large enough max_iter always stops early. *)
Theorem C28_batch : forall B n m a b K norm tol it last_step s e,
  (0 < B)%nat -> (0 < n)%nat -> (0 < m)%nat ->
  (forall q, (q < B)%nat -> pos_vec n (a q)) -> (forall q, (q < B)%nat -> pos_vec m (b q)) ->
  (forall q i j, (q < B)%nat -> (i < n)%nat -> (j < m)%nat -> 0 < K q i j) ->
  bregman_projection_batch (N:=RNum) B n m a b norm tol K it last_step = Some (s, e) ->
  let P := fun q => diag_plan (K q) (b_f s q) (b_g s q) in
  (forall q i j, (q < B)%nat -> (i < n)%nat -> (j < m)%nat -> 0 < P q i j) /\
  (forall q j, (q < B)%nat -> (j < m)%nat -> col_sum n (P q) j = b q j) /\
  (forall k, e <> NumErr k).
Proof.
  intros B n m a b K norm tol it last s e HB Hn Hm Ha Hb HK HS P.
  destruct it as [|it]; [discriminate|]. unfold bregman_projection_batch in HS.
  set (s0 := mk_bs (N:=RNum) (fun _ _ => n1) (fun _ _ => n1)) in HS.
  assert (H0 : forall q, (q < B)%nat -> pos_vec m (b_g s0 q)) by (intros q Hq j Hj; cbn; lra).
  destruct (bp_loop_spec B n m a b K HB Hn Hm Ha Hb HK norm tol (S it) 0 s0 H0) as (X1 & X2 & X3). specialize (X2 ltac:(lia)).
  assert (D : bdone B n m b K s /\ e = snd (bp_loop (N:=RNum) B n m a b norm tol K (S it) 0 s0)).
  { destruct last.
    - injection HS as <- <-. split; [|reflexivity]. apply (bstep_done B n m a b K Hn Hm Ha Hb HK _ (proj2 (proj1 X2))).
    - apply some_inj in HS. rewrite HS in X2 |- *. split; [exact X2|reflexivity]. }
  destruct D as [D E].
  assert (EP : forall q i j, P q i j = bp_T (N:=RNum) K s q i j) by (intros; unfold P, diag_plan, bp_T; cbn; ring).
  split; [|split].
  - intros q i j Hq Hi Hj. rewrite EP. apply (bT_pos B n m K HK s q i j (proj1 D)); auto.
  - intros q j Hq Hj. rewrite <- (bdone_col B n m b K Hn HK s q j D Hq Hj). apply rsum_ext; intros; apply EP.
  - rewrite E. exact X1.
Qed.
Print Assumptions C28_batch.
Theorem C28_batch_converged : forall B n m a b K tol it s k,
  (0 < B)%nat -> (0 < n)%nat -> (0 < m)%nat ->
  (forall q, (q < B)%nat -> pos_vec n (a q)) -> (forall q, (q < B)%nat -> pos_vec m (b q)) ->
  (forall q i j, (q < B)%nat -> (i < n)%nat -> (j < m)%nat -> 0 < K q i j) ->
  bregman_projection_batch (N:=RNum) B n m a b norm2 tol K it false = Some (s, Converged k) ->
  (k < it)%nat /\ forall q, (q < B)%nat -> norm2 n (fun i => row_sum m (diag_plan (K q) (b_f s q) (b_g s q)) i - a q i) < tol.
Proof.
  intros B n m a b K tol it s k HB Hn Hm Ha Hb HK HS.
  destruct it as [|it]; [discriminate|]. unfold bregman_projection_batch in HS.
  set (s0 := mk_bs (N:=RNum) (fun _ _ => n1) (fun _ _ => n1)) in HS.
  assert (H0 : forall q, (q < B)%nat -> pos_vec m (b_g s0 q)) by (intros q Hq j Hj; cbn; lra).
  destruct (bp_loop_spec B n m a b K HB Hn Hm Ha Hb HK norm2 tol (S it) 0 s0 H0) as (X1 & X2 & X3).
  apply some_inj in HS.
  assert (E : snd (bp_loop (N:=RNum) B n m a b norm2 tol K (S it) 0 s0) = Converged k) by (rewrite HS; reflexivity).
  destruct (X3 k E) as (Z & L). rewrite HS in L. cbn [fst] in L. split.
  - assert (Q : forall left ii s, snd (bp_loop (N:=RNum) B n m a b norm2 tol K left ii s) = Converged k -> (k < ii + left)%nat).
    { induction left; intros ii s2; cbn [bp_loop]; [discriminate|]. destruct (_ && _)%bool; [intros HH; injection HH as <-; lia|]. intros HH. apply IHleft in HH. lia. }
    apply Q in E. lia.
  - intros q Hq. eapply Rle_lt_trans; [|exact L]. unfold bp_err.
    eapply Rle_trans; [|apply (nmaxk_ge (B - 1) (fun q => norm2 n (fun i => nsub (n:=RNum) (nsum m (fun j => bp_T (N:=RNum) K s q i j)) (a q i))) q); lia].
    right. apply norm2_ext. intros i Hi. rewrite nsum_R. apply (f_equal (fun x => x - a q i)). apply rsum_ext; intros j Hj. unfold diag_plan, bp_T. cbn. ring.
Qed.
Print Assumptions C28_batch_converged.
Theorem C28_batch_terminates : forall B n m a b M reg lo hi tol it,
  (0 < B)%nat -> (0 < n)%nat -> (0 < m)%nat ->
  (forall q, (q < B)%nat -> pos_vec n (a q)) -> (forall q, (q < B)%nat -> pos_vec m (b q)) ->
  (forall q, (q < B)%nat -> mass n (a q) = mass m (b q)) -> 0 < reg -> 0 < tol ->
  (forall q i j, (q < B)%nat -> (i < n)%nat -> (j < m)%nat -> lo <= M q i j <= hi) ->
  80 * Rsqr (rsum B (fun q => mass n (a q))) * (hi - lo) < INR it * reg * (tol * tol) ->
  exists s k, bregman_projection_batch (N:=RNum) B n m a b norm2 tol (fun q => gibbs (M q) reg) it false = Some (s, Converged k).
Proof.
  intros B n m a b M reg lo hi tol it HB Hn Hm Ha Hb HE Hr Ht HM Hit.
  set (s0 := mk_bs (N:=RNum) (fun _ _ => n1) (fun _ _ => n1)).
  destruct (b_converges B n m a b (fun q => gibbs (M q) reg) HB Hn Hm Ha Hb (fun q i j _ _ _ => gibbs_pos (M q) reg i j) HE tol (exp (- hi / reg)) (exp (- lo / reg)) it s0) as (k & Hk); auto.
  - apply exp_pos.
  - intros q i j Hq Hi Hj. apply (gibbs_range n m (M q) reg lo hi Hr (fun i j => HM q i j Hq)); auto.
  - intros q Hq j Hj. cbn. lra.
  - rewrite ln_range by auto. apply (Rmult_lt_reg_r reg); auto. unfold Rsqr in Hit. fold (btot B n a) in Hit.
    replace (80 * (btot B n a * btot B n a) * ((hi - lo) / reg) * reg) with (80 * (btot B n a * btot B n a) * (hi - lo)) by (field; lra). lra.
  - destruct it as [|it].
    + exfalso. cbn in Hk. discriminate.
    + exists (fst (bp_loop (N:=RNum) B n m a b norm2 tol (fun q => gibbs (M q) reg) (S it) 0 s0)), k.
      unfold bregman_projection_batch. fold s0. rewrite <- Hk. rewrite <- surjective_pairing. reflexivity.
Qed.
Print Assumptions C28_batch_terminates.
(** the log-domain batch returns the same plans and stops at the same iteration *)
Theorem C28_batch_log_agrees : forall B n m a b L (norm : nat -> (nat -> R) -> R) tol it last_step s e,
  (0 < B)%nat -> (0 < n)%nat -> (0 < m)%nat ->
  (forall q, (q < B)%nat -> pos_vec n (a q)) -> (forall q, (q < B)%nat -> pos_vec m (b q)) ->
  (forall k f g, (forall j, (j < k)%nat -> f j = g j) -> norm k f = norm k g) ->
  bregman_projection_batch (N:=RNum) B n m a b norm tol (fun q i j => exp (L q i j)) it last_step = Some (s, e) ->
  exists l, bregman_log_projection_batch (N:=RNum) B n m a b norm tol exp ln L it last_step = Some (l, e) /\
  forall q i j, (q < B)%nat -> (i < n)%nat -> (j < m)%nat -> diag_plan (fun i j => exp (L q i j)) (b_f s q) (b_g s q) i j = exp (L q i j + b_f l q i + b_g l q j).
Proof.
  intros B n m a b L norm tol it last s e HB Hn Hm Ha Hb HN HS. destruct it as [|it]; [discriminate|].
  unfold bregman_projection_batch in HS. unfold bregman_log_projection_batch.
  set (s0 := mk_bs (N:=RNum) (fun _ _ => n1) (fun _ _ => n1)) in HS. set (l0 := mk_bs (N:=RNum) (fun _ _ => n0) (fun _ _ => n0)).
  assert (R0 : brel B n m s0 l0) by (split; intros; cbn; rewrite exp_0; reflexivity).
  destruct (b_lockstep B n m a b L norm tol HB Hn Hm Ha Hb HN (S it) 0 s0 l0 R0) as (R & E).
  change (bK L) with (fun q i j => exp (L q i j)) in R, E.
  assert (DP : forall s l q i j, brel B n m s l -> (q < B)%nat -> (i < n)%nat -> (j < m)%nat -> diag_plan (fun i j => exp (L q i j)) (b_f s q) (b_g s q) i j = exp (L q i j + b_f l q i + b_g l q j)).
  { intros s' l q i j [Rf Rg] Hq Hi Hj. unfold diag_plan. rewrite Rf, Rg, !exp_plus by auto. ring. }
  destruct last.
  - apply some_inj in HS. assert (HS1 := f_equal fst HS). assert (HS2 := f_equal snd HS). cbn [fst snd] in HS1, HS2. eexists. rewrite <- E, HS2. split; [reflexivity|].
    assert (U := bl_u_rel B n m a L Hm Ha _ _ (proj2 R)). assert (V := bl_v_rel B n m b L Hn Hb _ _ U).
    intros q i j Hq Hi Hj. subst s. apply DP; auto. split; [exact U|exact V].
  - apply some_inj in HS. exists (fst (bl_loop (N:=RNum) B n m a b norm tol exp ln L (S it) 0 l0)). split.
    + rewrite HS in E. cbn [snd] in E. rewrite E. rewrite <- surjective_pairing. reflexivity.
    + intros. apply DP; auto. rewrite HS in R. exact R.
Qed.
Print Assumptions C28_batch_log_agrees.
Example C28_runs : bregman_projection_batch (N:=QNum) 2 2 2 (fun _ _ => 1 # 2)%Q (fun q j => nth j (nth q [[1 # 4; 3 # 4]; [1 # 2; 1 # 2]]%Q []) 0%Q)
   (fun k f => fold_right Qplus 0%Q (map (fun j => Qmult (f j) (f j)) (seq 0 k))) (1 # 50)%Q (fun q i j => if Nat.eqb i j then 2%Q else 1%Q) 12 false <> None.
Proof. discriminate. Qed.

(** C29: grad='last_step'.  For max_iter >= 2 the returned plan has the column marginal b exactly
    (every other mode has the row marginal a exact, C21), and its u potential is the one
    sinkhorn_log already ended with. *)
Theorem C29_last_step : forall n m a b Mr norm thr it,
  (0 < n)%nat -> (0 < m)%nat -> pos_vec n a -> pos_vec m b -> (2 <= it)%nat ->
  exists P u v, solve_last_step (N:=RNum) n m a b norm thr exp ln Mr it = LsPlan P u v /\
   u = sk_u (sinkhorn_log (N:=RNum) n m a b norm thr exp ln Mr (it - 1) None) /\
   (forall i j, P i j = exp (Mr i j + u i + v j)) /\ (forall j, (j < m)%nat -> col_sum n P j = b j).
Proof.
  intros n m a b Mr norm thr it Hn Hm Ha Hb Hit. destruct it as [|it]; [lia|]. destruct it as [|it]; [lia|]. replace (S (S it) - 1)%nat with (S it) by lia.
  unfold solve_last_step. set (o := sinkhorn_log (N:=RNum) n m a b norm thr exp ln Mr (S it) None).
  assert (NI : exists k, niter (S it) o = Some k) by (unfold niter; destruct (sk_exit o); eauto). destruct NI as (k & NI).
  assert (L : sk_u o = lg_u (N:=RNum) m a exp ln Mr (sk_v o)) by (apply (lg_last RNum); lia).
  rewrite NI, <- L. do 3 eexists. split; [reflexivity|]. split; [reflexivity|]. split; [reflexivity|].
  intros j Hj. apply (lv_col n m b Mr); auto.
Qed.
Print Assumptions C29_last_step.
(** max_iter = 1 is accepted by the argument check and then fails on an unbound variable, in any
    arithmetic *)
Theorem C29_one_iteration_refuted : forall (N : NumOps) n m (a b : nat -> N) norm thr ex lg Mr,
  solve_last_step n m a b norm thr ex lg Mr 0 = LsValueError /\ solve_last_step n m a b norm thr ex lg Mr 1 = LsUnbound.
Proof. intros; split; reflexivity. Qed.
Print Assumptions C29_one_iteration_refuted.

(** C70: what a column error costs.  For the plan returned by sinkhorn_knopp at whatever iteration,
    with column sums c: it exceeds the regularised objective of any coupling by at most
    reg sum (c_j - b_j) ln b_j + (hi - lo) sum |c_j - b_j|. *)
Theorem C70_error_controls_objective : forall n m a b M reg lo hi norm thr it warm,
  (0 < n)%nat -> (0 < m)%nat -> pos_vec n a -> pos_vec m b -> mass n a = mass m b -> 0 < reg -> (0 < it)%nat ->
  (forall i j, (i < n)%nat -> (j < m)%nat -> lo <= M i j <= hi) -> pos_warm n m warm ->
  let o := sinkhorn_knopp (N:=RNum) n m a b norm no_nan thr (gibbs M reg) it warm in
  let G := diag_plan (gibbs M reg) (sk_u o) (sk_v o) in
  forall P, coupling n m a b P ->
  ent_obj n m M reg G - ent_obj n m M reg P <=
    reg * rsum m (fun j => ln (b j) * (col_sum n G j - b j)) + (hi - lo) * rsum m (fun j => Rabs (col_sum n G j - b j)).
Proof.
  intros n m a b M reg lo hi norm thr it w Hn Hm Ha Hb HE Hr Hit HM W o G P HP.
  assert (HK := fun i j (_ : (i < n)%nat) (_ : (j < m)%nat) => gibbs_pos M reg i j).
  destruct (C21_knopp_rows n m a b (gibbs M reg) norm thr it w Hn Hm Ha Hb HK W Hit) as (_ & C2 & _). fold o in C2.
  destruct (sk_warm n m a b norm no_nan thr (gibbs M reg) it w Hn Hm W) as (u & v & Hu & Hv & E).
  destruct (kp_last n m a b (gibbs M reg) Hn Hm Ha Hb HK norm thr it 0 u v [] Hu Hv Hit) as (u0 & U0 & V & UU). rewrite <- E in V, UU. fold o in V, UU.
  apply (pl_subopt n m a b M reg Hn Hb Hr (sk_u o) (sk_v o) lo hi u0 U0); auto.
  - rewrite UU. apply (ku_pos n m a (gibbs M reg) Hm Ha HK). rewrite V. apply (kv_pos n m b (gibbs M reg) Hn Hb HK); auto.
  - intros j. rewrite V. reflexivity.
Qed.
Print Assumptions C70_error_controls_objective.

(** C72: sinkhorn_epsilon_scaling runs max(35, numItermax) iterations and only tests from iteration
    36 on: with numItermax <= 36 it can only end with the non-convergence warning, whatever the
    inputs and the arithmetic. *)
Theorem C72_epsilon_scaling_always_warns : forall (N : NumOps) n m (a b : nat -> N) norm nan ex lg M get_reg tau thr inner period it al be G0,
  (it <= 36)%nat ->
  snd (sinkhorn_epsilon_scaling n m a b norm nan ex lg M get_reg tau thr inner period it al be G0) = MaxIter.
Proof.
  intros N n m a b norm nan ex lg M get_reg tau thr inner period it al be G0 Hit. unfold sinkhorn_epsilon_scaling.
  assert (X := ep_exit N n m a b norm nan thr ex lg M get_reg tau inner period (Nat.max 35 it) 0 n1 al be G0).
  assert (Y : forall left ii err al be G k, snd (ep_loop n m a b norm nan ex lg M get_reg tau thr inner period left ii err al be G) <> NumErr k).
  { induction left; intros ii err al' be' G k; cbn [ep_loop]; [discriminate|]. destruct (_ && _)%bool; [discriminate|auto]. }
  destruct (snd _) as [k|k|] eqn:E; [|exfalso; eapply Y; eauto|reflexivity]. specialize (X k eq_refl). lia.
Qed.
Print Assumptions C72_epsilon_scaling_always_warns.
(** with 37 iterations it may stop: 1 x 1 problem in rational arithmetic with exp = log = identity *)
Example C72_may_stop : snd (sinkhorn_epsilon_scaling (N:=QNum) 1 1 (fun _ => 0%Q) (fun _ => 0%Q) (fun _ _ => 0%Q) (fun _ => false) (fun x => x) (fun x => x)
   (fun _ _ => 1%Q) (fun _ => 1%Q) 1000%Q 1%Q 0 10 37 (fun _ => 0%Q) (fun _ => 0%Q) (fun _ _ => 0%Q)) = Converged 36.
Proof. vm_compute. reflexivity. Qed.
