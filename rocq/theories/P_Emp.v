(** C149: Sinkhorn from samples (ot/bregman/_empirical.py).  [D] is the matrix of the metric between the samples; exact
    reals unless a theorem quantifies over [N : NumOps]. *)
From Coq Require Import List Arith Bool ZArith Reals Lra Lia QArith ClassicalChoice.
From Verif Require Import Num Sums Spec Duals_proofs Entropy Exist Sinkhorn_model Sinkhorn_proofs Sinkhorn_more Sinkhorn_stab Sinkhorn_final P_Sinkhorn Sink_exist P_Sinkexist Emp_model Emp_proofs.
Import ListNotations.
Local Open Scope R_scope.

(** batch sizes in force: an int for both sides, or a pair; both at least 1 *)
Definition good_batch (bz : batch) : Prop := match bz with BInt k => (1 <= k)%nat | BPair s t => (1 <= s)%nat /\ (1 <= t)%nat | BOther => False end.
(** weights: the ones given, or uniform *)
Definition weights (n : nat) (a : option vec) : vec := match a with Some a => a | None => fun _ => 1 / INR n end.
(** the plan of two potentials *)
Definition potential_plan (D : mat) (reg : R) (f g : vec) : mat := fun i j => exp (f i + g j - D i j / reg).

Lemma good_sizes : forall bz, good_batch bz -> exists s t, sizes bz = Some (s, t) /\ (1 <= s)%nat /\ (1 <= t)%nat.
Proof. intros [k|s t|] H; cbn in H; [exists k, k|exists s, t|contradiction]; cbn; intuition. Qed.
Lemma lazy_ok : forall (N : NumOps) ex lg ns nt (D : nat -> nat -> N) reg a b it thr bz log warn warm x,
  lazy_sinkhorn ex lg ns nt D reg a b it thr bz log warn warm = EOk x ->
  exists s t f0 g0, (1 <= s)%nat /\ (1 <= t)%nat /\ sizes bz = Some (s, t) /\ (log = true -> (0 < it)%nat) /\
    (g0 = match warm with Some (_, g) => g | None => fun _ => n0 end) /\
    fst x = lz_loop ex lg ns nt D reg (or_unif ns a) (or_unif nt b) s t thr it 0 f0 g0 [] /\ snd x = (warn && warned (fst x))%bool.
Proof.
  intros N ex lg ns nt D reg a b it thr bz log warn warm x. unfold lazy_sinkhorn. destruct (sizes bz) as [[s t]|]; [|discriminate].
  destruct (Nat.eqb_spec s 0) as [|H1]; [discriminate|]. destruct (Nat.eqb_spec t 0) as [|H2]; [discriminate|]. cbn [orb].
  destruct log; cbn [andb]; [destruct (Nat.eqb_spec it 0) as [|H3]; [discriminate|]|]; intros E; injection E as <-.
  - do 4 eexists. split; [|split; [|split; [reflexivity|split; [|split; [reflexivity|split; reflexivity]]]]]; lia.
  - do 4 eexists. split; [|split; [|split; [reflexivity|split; [|split; [reflexivity|split; reflexivity]]]]]; try lia; discriminate.
Qed.
Lemma or_unif_R : forall n a, or_unif (N:=RNum) n a = weights n a.
Proof. intros n [a|]; [reflexivity|]. unfold or_unif, uniform, weights. rewrite nat_num_INR. reflexivity. Qed.

(** Any arithmetic: the batch sizes have no effect on the potentials, the recorded errors, the exit and the warning. *)
Theorem C149_batches : forall (N : NumOps) ex lg ns nt (D : nat -> nat -> N) reg a b it thr bz bz' log warn warm,
  good_batch bz -> good_batch bz' ->
  lazy_sinkhorn ex lg ns nt D reg a b it thr bz log warn warm = lazy_sinkhorn ex lg ns nt D reg a b it thr bz' log warn warm.
Proof.
  intros N ex lg ns nt D reg a b it thr bz bz' log warn warm H H'.
  destruct (good_sizes bz H) as (s & t & E & S1 & T1). destruct (good_sizes bz' H') as (s' & t' & E' & S1' & T1').
  unfold lazy_sinkhorn. rewrite E, E'. rewrite (proj2 (Nat.eqb_neq s 0)), (proj2 (Nat.eqb_neq t 0)), (proj2 (Nat.eqb_neq s' 0)), (proj2 (Nat.eqb_neq t' 0)) by lia. cbn [orb].
  rewrite (loop_batches N ex lg ns nt D reg _ _ thr s t s' t') by lia. reflexivity.
Qed.
Print Assumptions C149_batches.

(** Any arithmetic: which calls fail. *)
Theorem C149_errors : forall (N : NumOps) ex lg ns nt (D : nat -> nat -> N) reg a b it thr bz log warn warm,
  let r := lazy_sinkhorn ex lg ns nt D reg a b it thr bz log warn warm in
  (r = EValueError <-> ~ good_batch bz) /\ (r = EUnbound <-> good_batch bz /\ log = true /\ it = 0%nat) /\
  ((exists x, r = EOk x) <-> good_batch bz /\ (log = false \/ (0 < it)%nat)).
Proof.
  intros N ex lg ns nt D reg a b it thr bz log warn warm r.
  assert (B : good_batch bz \/ ~ good_batch bz).
  { destruct bz as [[|k]|[|s] [|t]|]; cbn; (left; lia) || (right; lia) || (right; tauto). }
  destruct B as [G|G].
  - destruct (good_sizes bz G) as (s & t & E & S1 & T1). unfold r, lazy_sinkhorn. rewrite E.
    rewrite (proj2 (Nat.eqb_neq s 0)), (proj2 (Nat.eqb_neq t 0)) by lia. cbn [orb].
    destruct log; cbn [andb]; [destruct (Nat.eqb_spec it 0) as [Z|Z]|]; (split; [|split]); split; try discriminate; try tauto; intros H;
      try (destruct H as (x & H); discriminate); try (destruct H as (_ & H & H'); try discriminate; try lia);
      try (destruct H as (_ & [H|H]); [discriminate|lia]); try (split; [exact G|]; auto; right; lia); eauto.
  - assert (V : r = EValueError).
    { unfold r, lazy_sinkhorn. destruct bz as [[|k]|[|s] [|t]|]; cbn in G |- *; try reflexivity; exfalso; apply G; lia. }
    rewrite V. split; [|split]; split; try discriminate; try tauto. intros (x & H); discriminate.
Qed.
Print Assumptions C149_errors.

(** Any arithmetic: what a run without warning guarantees.  The test runs at every tenth iteration on the l1 error of the
    first marginal; a warning appears exactly when it never succeeded and warn is set. *)
Theorem C149_stopping : forall (N : NumOps) ex lg ns nt (D : nat -> nat -> N) reg a b it thr bz log warn warm o w,
  lazy_sinkhorn ex lg ns nt D reg (Some a) (Some b) it thr bz log warn warm = EOk (o, w) ->
  let m1 i := nsum nt (fun j => ex (nsub (nadd (sk_u o i) (sk_v o j)) (ndiv (D i j) reg))) in
  let final := nsum ns (fun i => nabs (nsub (m1 i) (a i))) in
  match sk_exit o with
  | Converged k => (k < it)%nat /\ ((k + 1) mod 10 = 0)%nat /\ nleb final thr = true /\ w = false /\
      exists l, sk_err o = l ++ [final] /\ Forall (fun e => nleb e thr = false) l
  | MaxIter => w = warn /\ Forall (fun e => nleb e thr = false) (sk_err o)
  | NumErr _ => False
  end.
Proof.
  intros N ex lg ns nt D reg a b it thr bz log warn warm o w H m1 final.
  destruct (lazy_ok _ _ _ _ _ _ _ _ _ _ _ _ _ _ _ _ H) as (s & t & f0 & g0 & S1 & T1 & _ & _ & _ & E & W). cbn [fst snd or_unif] in E, W.
  assert (X := loop_exit N ex lg ns nt D reg a b s t thr it 0 f0 g0 []). cbn zeta in X. rewrite <- E in X.
  assert (EF : lz_err ex ns nt D reg a s (sk_u o) (sk_v o) = final).
  { unfold lz_err, final. assert (NE : forall k (p q : nat -> N), (forall i, (i < k)%nat -> p i = q i) -> nsum k p = nsum k q).
    { induction k; intros p q HH; [reflexivity|]. cbn [nsum]. rewrite (IHk p q), (HH k) by (auto; lia). reflexivity. }
    apply NE. intros i Hi. do 2 f_equal. rewrite by_batches_all by auto. unfold lnth.
    rewrite (nth_indep _ _ (m1 0%nat)) by (rewrite map_length, seq_length; auto). rewrite (map_nth m1), seq_nth by auto. reflexivity. }
  rewrite EF in X. unfold warned in W. destruct (sk_exit o).
  - destruct X as (X1 & X2 & X3 & l & X4 & X5). rewrite Nat.add_1_r. rewrite andb_false_r in W. split; [lia|]. split; [auto|]. split; [auto|]. split; [auto|]. exists l. auto.
  - auto.
  - destruct X as (l & X4 & X5). rewrite andb_true_r in W. split; [auto|]. rewrite X4. exact X5.
Qed.
Print Assumptions C149_stopping.

(** The potentials of any run of at least one iteration: the plan is positive, its columns are exact, and its regularised
    objective exceeds that of any coupling by at most what the row errors allow.  The first potential of a warm start is
    not used. *)
Theorem C149_plan : forall ns nt D reg a b it thr bz log warn warm o w,
  (0 < ns)%nat -> (0 < nt)%nat -> pos_vec ns (weights ns a) -> pos_vec nt (weights nt b) -> 0 < reg -> (0 < it)%nat ->
  lazy_sinkhorn (N:=RNum) exp ln ns nt D reg a b it thr bz log warn warm = EOk (o, w) ->
  let G := potential_plan D reg (sk_u o) (sk_v o) in
  (forall i j, 0 < G i j) /\ (forall j, (j < nt)%nat -> col_sum ns G j = weights nt b j) /\
  (forall lo hi P, mass ns (weights ns a) = mass nt (weights nt b) -> (forall i j, (i < ns)%nat -> (j < nt)%nat -> lo <= D i j <= hi) ->
    coupling ns nt (weights ns a) (weights nt b) P ->
    ent_obj ns nt D reg G - ent_obj ns nt D reg P <=
      reg * rsum ns (fun i => ln (weights ns a i) * (row_sum nt G i - weights ns a i)) + (hi - lo) * rsum ns (fun i => Rabs (row_sum nt G i - weights ns a i))) /\
  (forall f', match warm with
     | Some (f, g) => lazy_sinkhorn (N:=RNum) exp ln ns nt D reg a b it thr bz log warn (Some (f', g)) = EOk (o, w)
     | None => True
     end).
Proof.
  intros ns nt D reg a b it thr bz log warn warm o w Hs Ht Ha Hb Hr Hl H G.
  destruct (lazy_ok RNum exp ln ns nt D reg a b it thr bz log warn warm (o, w) H) as (s & t & f0 & g0 & S1 & T1 & ES & _ & EG & E & W). cbn [fst snd] in E, W.
  rewrite !or_unif_R in E.
  destruct (loop_last RNum exp ln ns nt D reg (weights ns a) (weights nt b) s t thr it 0 f0 g0 [] Hl) as (g1 & EU & EV). rewrite <- E in EU, EV.
  split; [intros; apply exp_pos|]. split; [|split].
  - intros j Hj. unfold G. rewrite EV. apply (col_exact ns nt D reg (weights nt b) t Hs Hb T1 (sk_u o) j Hj).
  - intros lo hi P HM HD HP. unfold G. rewrite E. apply (lazy_subopt ns nt D reg (weights ns a) (weights nt b) s t Hs Ht Ha Hb S1 T1 HM lo hi thr it f0 g0 0 [] Hr Hl HD P HP).
  - intros f'. destruct warm as [[f g]|]; [|exact I]. rewrite <- H. unfold lazy_sinkhorn. rewrite ES.
    rewrite (loop_first RNum exp ln ns nt D reg (or_unif (N:=RNum) ns a) (or_unif (N:=RNum) nt b) s t thr it 0 f' f g [] Hl). reflexivity.
Qed.
Print Assumptions C149_plan.

(** Convergence, from any warm start: 80 mass^2 (hi - lo) < (numIterMax - 9) reg stopThr^2 suffices. *)
Theorem C149_converges : forall ns nt D reg a b it thr bz log warn warm lo hi,
  (0 < ns)%nat -> (0 < nt)%nat -> pos_vec ns (weights ns a) -> pos_vec nt (weights nt b) -> mass ns (weights ns a) = mass nt (weights nt b) ->
  0 < reg -> 0 < thr -> good_batch bz -> (forall i j, (i < ns)%nat -> (j < nt)%nat -> lo <= D i j <= hi) ->
  80 * (mass nt (weights nt b) * mass nt (weights nt b)) * (hi - lo) < (INR it - 9) * reg * (thr * thr) ->
  exists o k, lazy_sinkhorn (N:=RNum) exp ln ns nt D reg a b it thr bz log warn warm = EOk (o, false) /\ sk_exit o = Converged k.
Proof.
  intros ns nt D reg a b it thr bz log warn warm lo hi Hs Ht Ha Hb HM Hr Hth HB HD Hit.
  destruct (good_sizes bz HB) as (s & t & E & S1 & T1). unfold lazy_sinkhorn. rewrite E.
  rewrite (proj2 (Nat.eqb_neq s 0)), (proj2 (Nat.eqb_neq t 0)) by lia. cbn [orb]. rewrite !or_unif_R.
  set (f0 := match warm with Some (f, _) => f | None => fun _ => n0 end). set (g0 := match warm with Some (_, g) => g | None => fun _ => n0 end).
  destruct (lazy_converges ns nt D reg (weights ns a) (weights nt b) s t Hs Ht Ha Hb S1 T1 HM lo hi thr it f0 g0 Hr Hth HD Hit) as (k & Hk).
  assert (X := loop_exit RNum exp ln ns nt D reg (weights ns a) (weights nt b) s t thr it 0 f0 g0 []). cbn zeta in X. rewrite Hk in X. destruct X as (X & _).
  rewrite (proj2 (Nat.eqb_neq it 0)) by lia. rewrite andb_false_r. eexists; exists k. split; [|exact Hk]. do 2 f_equal. unfold warned. rewrite Hk. apply andb_false_r.
Qed.
Print Assumptions C149_converges.

(** Runs that end without reaching the limit, with thresholds tending to 0: their plans converge entry by entry to the
    entropic optimal plan, and the losses of empirical_sinkhorn2 to its transport cost. *)
Theorem C149_limit : forall ns nt D reg a b (it : nat -> nat) (thr : nat -> R) (bz : nat -> batch) log warn (warm : nat -> option (vec * vec)) (o : nat -> sk (N:=RNum)) w,
  (0 < ns)%nat -> (0 < nt)%nat -> pos_vec ns (weights ns a) -> pos_vec nt (weights nt b) -> 0 < reg -> Un_cv thr 0 ->
  (forall k, lazy_sinkhorn (N:=RNum) exp ln ns nt D reg a b (it k) (thr k) (bz k) log warn (warm k) = EOk (o k, w k)) ->
  (forall k, exists i, sk_exit (o k) = Converged i) ->
  exists P, sinkhorn_plan ns nt (weights ns a) (weights nt b) D reg P /\
    (forall i j, (i < ns)%nat -> (j < nt)%nat -> Un_cv (fun k => potential_plan D reg (sk_u (o k)) (sk_v (o k)) i j) (P i j)) /\
    (forall loss w', (forall k, sinkhorn2_ (N:=RNum) exp ln norm2 no_nan true ns nt D reg a b (it k) (thr k) (bz k) log warn (warm k) = EOk (loss k, w' k)) ->
       Un_cv loss (cost ns nt D P)).
Proof.
  intros ns nt D reg a b it thr bz log warn warm o w Hs Ht Ha Hb Hr CV H HC.
  set (G := fun k => potential_plan D reg (sk_u (o k)) (sk_v (o k))).
  assert (F : forall k, (0 < it k)%nat /\ (forall i, (i < ns)%nat -> Rabs (row_sum nt (G k) i - weights ns a i) <= thr k) /\ (forall j, (j < nt)%nat -> col_sum ns (G k) j = weights nt b j)).
  { intros k. destruct (HC k) as (i & EX).
    destruct (lazy_ok RNum exp ln ns nt D reg a b (it k) (thr k) (bz k) log warn (warm k) (o k, w k) (H k)) as (s & t & f0 & g0 & S1 & T1 & ES & _ & EG & E & W). cbn [fst snd] in E, W.
    rewrite !or_unif_R in E.
    assert (X := loop_exit RNum exp ln ns nt D reg (weights ns a) (weights nt b) s t (thr k) (it k) 0 f0 g0 []). cbn zeta in X. rewrite <- E, EX in X.
    destruct X as (X1 & X2 & X3 & _). split; [lia|]. split.
    - intros r Hrr. change (nleb (n:=RNum)) with Rleb in X3. apply Rleb_true in X3. rewrite err_R in X3 by auto. eapply Rle_trans; [|exact X3].
      apply (rsum_le_one ns (fun i => Rabs (row_sum nt (G k) i - weights ns a i)) r); auto. intros; apply Rabs_pos.
    - apply (C149_plan ns nt D reg a b (it k) (thr k) (bz k) log warn (warm k) (o k) (w k)); auto; lia. }
  destruct (scalings_converge ns nt (weights ns a) (weights nt b) D reg G) as (L & CL & SL & ML); auto.
  - intros k. exists (fun i => exp (sk_u (o k) i)), (fun j => exp (sk_v (o k) j)). split; [intros i _; apply exp_pos|]. split; [intros i _; apply exp_pos|].
    intros i j _ _. unfold G, potential_plan, diag_plan, gibbs. unfold Rminus. rewrite !exp_plus. replace (- (D i j / reg)) with (- D i j / reg) by (unfold Rdiv; ring). ring.
  - intros i Hi e He. destruct (CV e He) as (N0 & HN). exists N0. intros k Hk. specialize (HN k Hk). unfold R_dist in *. rewrite Rminus_0_r in HN.
    eapply Rle_lt_trans; [apply (F k); auto|]. eapply Rle_lt_trans; [apply Rle_abs|exact HN].
  - intros j Hj. eapply cv_ext; [|apply (cv_const (weights nt b j))]. intros k. cbn beta. symmetry. apply (F k); auto.
  - exists (rsum nt (fun j => Rabs (weights nt b j))). intros k i j Hi Hj.
    eapply Rle_trans; [apply (rsum_le_one ns (fun i => G k i j) i); auto; intros; left; apply exp_pos|]. change (col_sum ns (G k) j <= rsum nt (fun j => Rabs (weights nt b j))).
    rewrite (proj2 (proj2 (F k)) j Hj). eapply Rle_trans; [apply Rle_abs|]. apply (rsum_le_one nt (fun i => Rabs (weights nt b i)) j); auto. intros; apply Rabs_pos.
  - exists L. split; [split; auto|]. split; [exact ML|].
    intros loss w' HL. apply (cv_ext (fun k => cost ns nt D (G k))).
    + intros k. specialize (HL k). unfold sinkhorn2_ in HL. rewrite (H k) in HL.
      destruct (lazy_ok RNum exp ln ns nt D reg a b (it k) (thr k) (bz k) log warn (warm k) (o k, w k) (H k)) as (s & t & f0 & g0 & S1 & T1 & ES & _ & EG & E & W).
      rewrite ES in HL. injection HL as HL _. rewrite loss_R in HL by auto. rewrite <- HL. unfold cost. apply rsum_ext; intros i Hi; apply rsum_ext; intros j Hj. unfold G, potential_plan, pot_plan. ring.
    + apply (cost_cont ns nt D); exact ML.
Qed.
Print Assumptions C149_limit.

(** The returned losses are the transport costs of the plans, whatever the batches. *)
Lemma sinkhorn2_lazy : forall ns nt D reg a b it thr bz log warn warm o w,
  lazy_sinkhorn (N:=RNum) exp ln ns nt D reg a b it thr bz log warn warm = EOk (o, w) ->
  sinkhorn2_ (N:=RNum) exp ln norm2 no_nan true ns nt D reg a b it thr bz log warn warm = EOk (cost ns nt D (potential_plan D reg (sk_u o) (sk_v o)), w).
Proof.
  intros ns nt D reg a b it thr bz log warn warm o w H. unfold sinkhorn2_. rewrite H.
  destruct (lazy_ok RNum exp ln ns nt D reg a b it thr bz log warn warm (o, w) H) as (s & t & f0 & g0 & S1 & T1 & ES & _). rewrite ES, loss_R by auto. reflexivity.
Qed.
Theorem C149_loss : forall ns nt D reg a b it thr bz log warn warm,
  let r := lazy_sinkhorn (N:=RNum) exp ln ns nt D reg a b it thr bz log warn warm in
  let l := sinkhorn2_ (N:=RNum) exp ln norm2 no_nan true ns nt D reg a b it thr bz log warn warm in
  (forall o w, r = EOk (o, w) -> l = EOk (cost ns nt D (potential_plan D reg (sk_u o) (sk_v o)), w)) /\
  (r = EValueError -> l = EValueError) /\ (r = EUnbound -> l = EUnbound) /\
  let d := dense_sinkhorn (N:=RNum) exp norm2 no_nan ns nt D reg a b it thr warn warm in
  sinkhorn2_ (N:=RNum) exp ln norm2 no_nan false ns nt D reg a b it thr bz log warn warm = EOk (cost ns nt D (fst (fst d)), (warn && snd d)%bool).
Proof.
  intros ns nt D reg a b it thr bz log warn warm r l. split; [|split; [|split]].
  - intros o w H. apply sinkhorn2_lazy. exact H.
  - intros H. unfold l, sinkhorn2_. unfold r in H. rewrite H. reflexivity.
  - intros H. unfold l, sinkhorn2_. unfold r in H. rewrite H. reflexivity.
  - cbn zeta. unfold sinkhorn2_. destruct (dense_sinkhorn _ _ _ _ _ _ _ _ _ _ _ _ _) as [[G o] w]. cbn [fst snd]. do 2 f_equal.
    rewrite nsum_R. apply rsum_ext; intros i Hi. rewrite nsum_R. reflexivity.
Qed.
Print Assumptions C149_loss.

(** The lazy solver is the dense solver of the swapped problem: with a negative threshold on one side and 0 on the other
    (no early stop), after any number of iterations its plan is the transpose of that of sinkhorn(b, a, M^T). *)
Theorem C149_swapped : forall ns nt D reg a b it thr bz log warn o w,
  (0 < ns)%nat -> (0 < nt)%nat -> pos_vec ns (weights ns a) -> pos_vec nt (weights nt b) -> (0 < it)%nat -> thr < 0 ->
  lazy_sinkhorn (N:=RNum) exp ln ns nt D reg a b it thr bz log warn None = EOk (o, w) ->
  let s := sinkhorn_knopp (N:=RNum) nt ns (weights nt b) (weights ns a) norm2 no_nan 0 (gibbs (fun j i => D i j) reg) it None in
  forall i j, (i < ns)%nat -> (j < nt)%nat ->
    potential_plan D reg (sk_u o) (sk_v o) i j = diag_plan (gibbs (fun j i => D i j) reg) (sk_u s) (sk_v s) j i.
Proof.
  intros ns nt D reg a b it thr bz log warn o w Hs Ht Ha Hb Hl Hth H s i j Hi Hj.
  destruct (lazy_ok RNum exp ln ns nt D reg a b it thr bz log warn None (o, w) H) as (s0 & t & f0 & g0 & S1 & T1 & ES & _ & EG & E & W). cbn [fst snd] in E, W.
  rewrite !or_unif_R in E. assert (N1 := lt_0_INR nt Ht).
  assert (Q := swapped ns nt D reg (weights ns a) (weights nt b) s0 t Hs Ht Ha Hb S1 T1 thr it 0 0 (/ INR nt) (kp_init (N:=RNum) nt) (kp_init (N:=RNum) ns) f0 g0 [] [] Hth
    ltac:(apply Rinv_0_lt_compat; auto) Hl). cbn zeta in Q. rewrite <- E in Q. apply Q; auto.
  intros k Hk. rewrite EG. unfold kp_init. rewrite nat_num_INR. change (@n0 RNum) with 0. rewrite exp_0. cbn. field. lra.
Qed.
Print Assumptions C149_swapped.

(** ** isLazy changes the answer *)
Definition ab_D : mat := fun i j => if Nat.eqb i j then 0 else ln 2.
Definition ab_a : vec := fun _ => / 2.
Definition ab_b : vec := fun j => match j with O => / 4 | _ => 3 / 4 end.
Lemma ab_gibbs : forall i j, gibbs ab_D 1 i j = if Nat.eqb i j then 1 else / 2.
Proof.
  intros i j. unfold gibbs, ab_D. destruct (Nat.eqb i j).
  - replace (- 0 / 1) with 0 by field. apply exp_0.
  - replace (- ln 2 / 1) with (- ln 2) by field. rewrite exp_Ropp, exp_ln by lra. reflexivity.
Qed.
Lemma ab_pos : pos_vec 2 ab_a /\ pos_vec 2 ab_b.
Proof. split; intros [|[|i]] H; unfold ab_a, ab_b; try lia; lra. Qed.
Lemma ab_K : forall i j, kernel (N:=RNum) exp ab_D 1 i j = if Nat.eqb i j then 1 else / 2.
Proof. intros i j. rewrite <- ab_gibbs. unfold gibbs, kernel. f_equal. unfold nopp. cbn. unfold Rdiv. ring. Qed.
Lemma ab_first : forall thr, let x := sinkhorn_knopp (N:=RNum) 2 2 ab_a ab_b norm2 no_nan thr (kernel (N:=RNum) exp ab_D 1) 1 None in
  sk_u x 0%nat = 3 / 5 /\ sk_u x 1%nat = 3 / 7 /\ sk_v x 0%nat = 1 / 3.
Proof.
  intros thr x. set (K0 := kernel (N:=RNum) exp ab_D 1). set (u0 := kp_init (N:=RNum) 2).
  assert (KP : forall i j, (i < 2)%nat -> (j < 2)%nat -> 0 < K0 i j) by (intros i j _ _; unfold K0; rewrite ab_K; destruct (Nat.eqb i j); lra).
  assert (V : forall j, (j < 2)%nat -> kp_v (N:=RNum) 2 ab_b K0 u0 j = ab_b j / (3 / 4)).
  { intros j Hj. rewrite kv_R. f_equal. unfold ktu, u0, kp_init. cbn [rsum nat_num]. unfold K0. rewrite !ab_K. destruct j as [|[|j]]; try lia; cbn; lra. }
  assert (U : forall i, (i < 2)%nat -> kp_u (N:=RNum) 2 ab_a K0 (kp_v (N:=RNum) 2 ab_b K0 u0) i = match i with O => 3 / 5 | _ => 3 / 7 end).
  { intros i Hi. unfold kp_u. rewrite !nsum_R. cbn [rsum nmul ndiv n1 RNum]. change (carrier RNum) with R. rewrite !V by lia. unfold K0. rewrite !ab_K. unfold ab_a, ab_b. destruct i as [|[|i]]; try lia; cbn [Nat.eqb]; field. }
  assert (XU : sk_u x = kp_u (N:=RNum) 2 ab_a K0 (kp_v (N:=RNum) 2 ab_b K0 u0) /\ sk_v x = kp_v (N:=RNum) 2 ab_b K0 u0).
  { unfold x, sinkhorn_knopp. cbn [kp_loop]. fold K0. rewrite (bad_false 2 2 K0 ltac:(lia) KP) by (apply kp_init_pos; lia).
    destruct (Nat.eqb (0 mod 10) 0); [destruct (nltb _ thr)|]; split; reflexivity. }
  destruct XU as (-> & ->). rewrite !U, V by lia. unfold ab_b. change (carrier RNum) with R. split; [|split]; cbn -[Rdiv]; field.
Qed.
(** after one iteration on the same arguments, the lazy plan has the second marginal b, the dense one does not *)
Theorem C149_lazy_differs_refuted : exists ns nt D reg a b, (0 < ns)%nat /\ (0 < nt)%nat /\ pos_vec ns a /\ pos_vec nt b /\ mass ns a = mass nt b /\ 0 < reg /\
  forall thr bz warn, good_batch bz ->
  exists o w, lazy_sinkhorn (N:=RNum) exp ln ns nt D reg (Some a) (Some b) 1 thr bz false warn None = EOk (o, w) /\
    col_sum ns (potential_plan D reg (sk_u o) (sk_v o)) 0 = b 0%nat /\
    col_sum ns (fst (fst (dense_sinkhorn (N:=RNum) exp norm2 no_nan ns nt D reg (Some a) (Some b) 1 thr warn None))) 0 <> b 0%nat.
Proof.
  exists 2%nat, 2%nat, ab_D, 1, ab_a, ab_b. destruct ab_pos as (Pa & Pb).
  split; [lia|]. split; [lia|]. split; [auto|]. split; [auto|]. split; [unfold mass, ab_a, ab_b; cbn [rsum]; lra|]. split; [lra|].
  intros thr bz warn HB.
  assert (Z := C149_errors RNum exp ln 2 2 ab_D 1 (Some ab_a) (Some ab_b) 1 thr bz false warn None). cbn zeta in Z. destruct Z as (_ & _ & Z).
  destruct (proj2 Z) as ((o & w) & EO); [split; auto|]. exists o, w. split; [exact EO|]. split.
  - apply (C149_plan 2 2 ab_D 1 (Some ab_a) (Some ab_b) 1 thr bz false warn None o w); auto; try lia; lra.
  - destruct (ab_first thr) as (U0 & U1 & V0). unfold dense_sinkhorn. cbn [fst or_unif exp_warm].
    set (x := sinkhorn_knopp _ _ _ _ _ _ _ _ _ _) in *. unfold col_sum. cbn [rsum]. unfold scaled. rewrite !ab_K. cbn [nmul RNum Nat.eqb]. change (carrier RNum) with R in *. rewrite U0, U1, V0. unfold ab_b. lra.
Qed.
Print Assumptions C149_lazy_differs_refuted.

(** ** warn *)
(** the dense branch of empirical_sinkhorn does not look at warn: it warns whenever the loop is exhausted.  The lazy branch
    with warn=False and both branches of empirical_sinkhorn2 stay silent. *)
Theorem C149_warn : forall (N : NumOps) ex lg norm nan ns nt (D : nat -> nat -> N) reg a b it thr bz log warm lazy,
  (forall warn, snd (dense_sinkhorn ex norm nan ns nt D reg a b it thr warn warm) = warned (snd (fst (dense_sinkhorn ex norm nan ns nt D reg a b it thr false warm)))) /\
  (forall o w, lazy_sinkhorn ex lg ns nt D reg a b it thr bz log false warm = EOk (o, w) -> w = false) /\
  (forall x w, sinkhorn2_ ex lg norm nan lazy ns nt D reg a b it thr bz log false warm = EOk (x, w) -> w = false).
Proof.
  intros N ex lg norm nan ns nt D reg a b it thr bz log warm lazy.
  assert (L : forall o w, lazy_sinkhorn ex lg ns nt D reg a b it thr bz log false warm = EOk (o, w) -> w = false).
  { intros o w H. destruct (lazy_ok _ _ _ _ _ _ _ _ _ _ _ _ _ _ _ _ H) as (s & t & f0 & g0 & _ & _ & _ & _ & _ & _ & W). exact W. }
  split; [reflexivity|]. split; [exact L|]. intros x w. unfold sinkhorn2_. destruct lazy.
  - destruct (lazy_sinkhorn ex lg ns nt D reg a b it thr bz log false warm) as [[o w0]| |] eqn:E; try discriminate.
    destruct (sizes bz) as [[s t]|]; [|discriminate]. intros H; injection H as _ <-. exact (L o w0 eq_refl).
  - cbn. intros H; injection H as _ <-. reflexivity.
Qed.
Print Assumptions C149_warn.
Theorem C149_warn_refuted : exists ns nt (D : mat) reg a b it thr, pos_vec ns a /\ pos_vec nt b /\ mass ns a = mass nt b /\ 0 < reg /\ 0 < thr /\ (0 < it)%nat /\
  snd (dense_sinkhorn (N:=RNum) exp norm2 no_nan ns nt D reg (Some a) (Some b) it thr false None) = true.
Proof.
  exists 2%nat, 2%nat, ab_D, 1, ab_a, ab_b, 1%nat, (/ 100). destruct ab_pos as (Pa & Pb).
  split; [auto|]. split; [auto|]. split; [unfold mass, ab_a, ab_b; cbn [rsum]; lra|]. split; [lra|]. split; [lra|]. split; [lia|].
  set (x := sinkhorn_knopp (N:=RNum) 2 2 ab_a ab_b norm2 no_nan (/ 100) (kernel (N:=RNum) exp ab_D 1) 1 None).
  change (warned x = true). unfold warned. destruct (sk_exit x) as [k|k|] eqn:E; [exfalso| |reflexivity].
  - assert (Q := C22_stopping RNum 2 2 ab_a ab_b norm2 no_nan (/ 100) (kernel (N:=RNum) exp ab_D 1) 1 None). cbn zeta in Q. fold x in Q. rewrite E in Q.
    destruct Q as (_ & _ & Q & _). apply Rltb_true in Q.
    match type of Q with norm2 2 ?h < _ => assert (NE := norm2_entry 2 h 0 ltac:(lia)) end. cbn beta in NE.
    destruct (ab_first (/ 100)) as (U0 & U1 & V0). fold x in U0, U1, V0.
    rewrite nsum_R in NE. cbn [rsum nmul nsub RNum] in NE. change (carrier RNum) with R in *. rewrite U0, U1, V0, !ab_K in NE. cbn [Nat.eqb] in NE. unfold ab_b in NE.
    match type of NE with Rabs ?z <= _ => replace z with (3 / 140) in NE by field end.
    rewrite Rabs_pos_eq in NE by lra. match type of Q with ?z < _ => match type of NE with _ <= ?z' => change z' with z in NE end end. lra.
  - exfalso. assert (KP : forall i j, (i < 2)%nat -> (j < 2)%nat -> 0 < kernel (N:=RNum) exp ab_D 1 i j) by (intros; apply exp_pos).
    destruct (C21_knopp_rows 2 2 ab_a ab_b (kernel (N:=RNum) exp ab_D 1) norm2 (/ 100) 1 None ltac:(lia) ltac:(lia) Pa Pb KP I ltac:(lia)) as (_ & _ & Q). apply (Q k). exact E.
Qed.
Print Assumptions C149_warn_refuted.

(** ** divergence *)
Theorem C149_divergence : forall lazy ns nt Dab Daa Dbb reg a b it thr bz log warn warm x,
  divergence (N:=RNum) exp ln norm2 no_nan lazy (/ 2) ns nt Dab Daa Dbb reg a b it thr bz log warn warm = EOk x ->
  0 <= x /\ (ns = nt -> Daa = Dab -> Dbb = Dab -> a = b -> warm = None -> x = 0).
Proof.
  intros lazy ns nt Dab Daa Dbb reg a b it thr bz log warn warm x H. split.
  - unfold divergence in H. repeat match type of H with context [match ?z with _ => _ end] => destruct z end; try discriminate; injection H as <-; rewrite nmax_R; apply Rmax_l.
  - intros -> -> -> -> ->. unfold divergence in H. destruct (sinkhorn2_ _ _ _ _ _ _ _ _ _ _ _ _ _ _ _ _ _) as [[l w]| |]; try discriminate.
    injection H as <-. rewrite nmax_R. cbn [n0 nsub nmul nadd RNum]. replace (l - / 2 * (l + l)) with 0 by field. apply Rmax_left. lra.
Qed.
Print Assumptions C149_divergence.
Lemma cv_max0 : forall u l, Un_cv u l -> Un_cv (fun k => Rmax 0 (u k)) (Rmax 0 l).
Proof.
  intros u l H e He. destruct (H e He) as (n & Hn). exists n. intros k Hk. specialize (Hn k Hk). unfold R_dist in *. eapply Rle_lt_trans; [|exact Hn].
  unfold Rmax. destruct (Rle_dec 0 (u k)), (Rle_dec 0 l); unfold Rabs; repeat destruct (Rcase_abs _); lra.
Qed.
(** lazy runs with thresholds tending to 0 and enough iterations: the divergence succeeds and tends to its definition from the three entropic plans *)
Theorem C149_divergence_limit : forall ns nt Dab Daa Dbb reg a b (it : nat -> nat) (thr : nat -> R) bz log warn lo hi,
  (0 < ns)%nat -> (0 < nt)%nat -> pos_vec ns (weights ns a) -> pos_vec nt (weights nt b) -> mass ns (weights ns a) = mass nt (weights nt b) -> 0 < reg -> good_batch bz ->
  (forall i j, lo <= Dab i j <= hi) -> (forall i j, lo <= Daa i j <= hi) -> (forall i j, lo <= Dbb i j <= hi) ->
  (forall k, 0 < thr k) -> Un_cv thr 0 ->
  (forall k, 80 * (mass nt (weights nt b) * mass nt (weights nt b)) * (hi - lo) < (INR (it k) - 9) * reg * (thr k * thr k)) ->
  exists P Pa Pb x, sinkhorn_plan ns nt (weights ns a) (weights nt b) Dab reg P /\ sinkhorn_plan ns ns (weights ns a) (weights ns a) Daa reg Pa /\
    sinkhorn_plan nt nt (weights nt b) (weights nt b) Dbb reg Pb /\
    (forall k, divergence (N:=RNum) exp ln norm2 no_nan true (/ 2) ns nt Dab Daa Dbb reg a b (it k) (thr k) bz log warn None = EOk (x k)) /\
    Un_cv x (Rmax 0 (cost ns nt Dab P - (cost ns ns Daa Pa + cost nt nt Dbb Pb) / 2)).
Proof.
  intros ns nt Dab Daa Dbb reg a b it thr bz log warn lo hi Hs Ht Ha Hb HM Hr HB D1 D2 D3 T0 CV Hit.
  assert (ST : forall n m D aa bb, (0 < n)%nat -> (0 < m)%nat -> pos_vec n (weights n aa) -> pos_vec m (weights m bb) -> mass n (weights n aa) = mass m (weights m bb) ->
     mass m (weights m bb) = mass nt (weights nt b) -> (forall i j, lo <= D i j <= hi) ->
     exists P o w, sinkhorn_plan n m (weights n aa) (weights m bb) D reg P /\
       (forall k, lazy_sinkhorn (N:=RNum) exp ln n m D reg aa bb (it k) (thr k) bz log warn None = EOk (o k, w k)) /\
       Un_cv (fun k => cost n m D (potential_plan D reg (sk_u (o k)) (sk_v (o k)))) (cost n m D P)).
  { intros n m D aa bb Hn Hm Pa Pb MM M2 HD.
    assert (X : forall k, exists o, lazy_sinkhorn (N:=RNum) exp ln n m D reg aa bb (it k) (thr k) bz log warn None = EOk (o, false) /\ exists i, sk_exit o = Converged i).
    { intros k. destruct (C149_converges n m D reg aa bb (it k) (thr k) bz log warn None lo hi Hn Hm Pa Pb MM Hr (T0 k) HB (fun i j _ _ => HD i j)) as (o & i & E1 & E2); [rewrite M2; apply Hit|].
      exists o. split; [exact E1|]. exists i. exact E2. }
    destruct (choice _ X) as (o & Ho).
    destruct (C149_limit n m D reg aa bb it thr (fun _ => bz) log warn (fun _ => None) o (fun _ => false) Hn Hm Pa Pb Hr CV (fun k => proj1 (Ho k)) (fun k => proj2 (Ho k))) as (P & SP & _ & LP).
    exists P, o, (fun _ => false). split; [exact SP|]. split; [intros k; apply Ho|]. apply (LP _ (fun _ => false)). intros k. apply sinkhorn2_lazy. apply Ho. }
  destruct (ST ns nt Dab a b) as (P & o & w & S1 & E1 & C1); auto.
  destruct (ST ns ns Daa a a) as (Pa & oa & wa & S2 & E2 & C2); auto.
  destruct (ST nt nt Dbb b b) as (Pb & ob & wb & S3 & E3 & C3); auto.
  set (c := fun n m D (o : nat -> sk (N:=RNum)) k => cost n m D (potential_plan D reg (sk_u (o k)) (sk_v (o k)))).
  exists P, Pa, Pb, (fun k => Rmax 0 (c ns nt Dab o k - (c ns ns Daa oa k + c nt nt Dbb ob k) / 2)).
  split; [auto|]. split; [auto|]. split; [auto|]. split.
  - intros k. unfold divergence. rewrite (sinkhorn2_lazy _ _ _ _ _ _ _ _ _ _ _ _ _ _ (E1 k)), (sinkhorn2_lazy _ _ _ _ _ _ _ _ _ _ _ _ _ _ (E2 k)), (sinkhorn2_lazy _ _ _ _ _ _ _ _ _ _ _ _ _ _ (E3 k)).
    f_equal. rewrite nmax_R. cbn [n0 nsub nmul nadd RNum]. unfold c. f_equal. field.
  - apply cv_max0. apply (CV_minus (c ns nt Dab o) (fun k => (c ns ns Daa oa k + c nt nt Dbb ob k) / 2)); [exact C1|].
    apply (CV_mult (fun k => c ns ns Daa oa k + c nt nt Dbb ob k) (fun _ => / 2)); [|apply cv_const]. apply (CV_plus (c ns ns Daa oa) (c nt nt Dbb ob)); auto.
Qed.
Print Assumptions C149_divergence_limit.

(** ** entries of the lazy plan *)
(** an index from 0, or from the end up to -2, reads the entry of the plan ... *)
Theorem C149_lazy_plan : forall (N : NumOps) ex ns nt (D : nat -> nat -> N) reg f g i j,
  let entry r c := ex (nsub (nadd (f r) (g c)) (ndiv (D r c) reg)) in
  (forall r c, i = Z.of_nat r -> j = Z.of_nat c -> (r < ns)%nat -> (c < nt)%nat -> lazy_at ex ns nt D reg f g i j = [[entry r c]]) /\
  (forall r c, i = (Z.of_nat r - Z.of_nat ns)%Z -> j = (Z.of_nat c - Z.of_nat nt)%Z -> (r + 1 < ns)%nat -> (c + 1 < nt)%nat -> lazy_at ex ns nt D reg f g i j = [[entry r c]]).
Proof.
  intros N ex ns nt D reg f g i j entry.
  assert (A1 : forall n r, (r < n)%nat -> at_index n (Z.of_nat r) = [r]).
  { intros n r H. unfold at_index, py_slice. rewrite (proj2 (Z.ltb_ge _ _)) by lia. rewrite (proj2 (Z.ltb_ge _ _)) by lia.
    rewrite !Z.min_l by lia. replace (Z.of_nat r + 1 - Z.of_nat r)%Z with 1%Z by lia. rewrite Nat2Z.id. reflexivity. }
  assert (A2 : forall n r, (r + 1 < n)%nat -> at_index n (Z.of_nat r - Z.of_nat n) = [r]).
  { intros n r H. unfold at_index, py_slice. rewrite (proj2 (Z.ltb_lt _ _)) by lia. rewrite (proj2 (Z.ltb_lt _ _)) by lia.
    rewrite !Z.max_r by lia. replace (Z.of_nat r - Z.of_nat n + 1 + Z.of_nat n - (Z.of_nat r - Z.of_nat n + Z.of_nat n))%Z with 1%Z by lia.
    replace (Z.of_nat r - Z.of_nat n + Z.of_nat n)%Z with (Z.of_nat r) by lia. rewrite Nat2Z.id. reflexivity. }
  split; intros r c -> -> Hr Hc; unfold lazy_at; rewrite ?A1, ?A2 by auto; reflexivity.
Qed.
Print Assumptions C149_lazy_plan.
(** ... but -1, the last row, reads nothing *)
Theorem C149_last_row_refuted : forall (N : NumOps) ex ns nt (D : nat -> nat -> N) reg f g j, lazy_at ex ns nt D reg f g (-1) j = [].
Proof.
  intros N ex ns nt D reg f g j. unfold lazy_at. replace (at_index ns (-1)) with (@nil nat); [reflexivity|]. unfold at_index, py_slice. change (-1 + 1 <? 0)%Z with false. change (-1 <? 0)%Z with true. cbv iota.
  match goal with |- _ = seq ?a ?n => replace n with 0%nat by lia end. reflexivity.
Qed.
Print Assumptions C149_last_row_refuted.

(** ** warm start *)
(** With and without isLazy the iterations start from the plan of the warm-start potentials: it is what 0 iterations return. *)
Theorem C149_warm : forall ns nt D reg a b thr bz warn f g, good_batch bz -> reg <> 0 ->
  (forall norm nan i j, fst (fst (dense_sinkhorn (N:=RNum) exp norm nan ns nt D reg a b 0 thr warn (Some (f, g)))) i j = potential_plan D reg f g i j) /\
  (exists o w, lazy_sinkhorn (N:=RNum) exp ln ns nt D reg a b 0 thr bz false warn (Some (f, g)) = EOk (o, w) /\
     forall i j, lz_entry (N:=RNum) exp D reg (sk_u o) (sk_v o) i j = potential_plan D reg f g i j).
Proof.
  intros ns nt D reg a b thr bz warn f g Hb Hr. split.
  - intros norm nan i j. unfold dense_sinkhorn, sinkhorn_knopp, exp_warm, scaled, kernel, potential_plan. cbn [fst kp_loop sk_u sk_v nmul ndiv nopp RNum].
    unfold nopp. cbn [nsub RNum]. change (@n0 RNum) with 0. rewrite <- !exp_plus. f_equal. field. exact Hr.
  - destruct (good_sizes bz Hb) as (s & t & E & Hs & Ht). unfold lazy_sinkhorn. rewrite E.
    destruct (Nat.eqb_spec s 0); [lia|]. destruct (Nat.eqb_spec t 0); [lia|]. cbn [orb andb].
    do 2 eexists. split; [reflexivity|]. intros i j. cbn [lz_loop sk_u sk_v]. reflexivity.
Qed.
Print Assumptions C149_warm.

(** the hypotheses are met: two samples on each side *)
Example C149_case : exists it thr, 0 < thr /\
  exists o k, lazy_sinkhorn (N:=RNum) exp ln 2 2 ab_D 1 None (Some ab_b) it thr (BPair 1 2) true true None = EOk (o, false) /\ sk_exit o = Converged k.
Proof.
  destruct ab_pos as (_ & Pb).
  destruct (INR_unbounded (80 * (mass 2 ab_b * mass 2 ab_b) * (ln 2 - 0) + 9)) as (it & H). exists it, 1. split; [lra|].
  assert (L2 : 0 < ln 2) by (rewrite <- ln_1; apply ln_increasing; lra).
  apply (C149_converges 2 2 ab_D 1 None (Some ab_b) it 1 (BPair 1 2) true true None 0 (ln 2)); try lia; try lra; auto.
  - intros i _. unfold weights. cbn [INR]. lra.
  - unfold mass, weights, ab_b. cbn [rsum INR]. lra.
  - cbn. lia.
  - intros i j _ _. unfold ab_D. destruct (Nat.eqb i j); lra.
  - change (weights 2 (Some ab_b)) with ab_b. lra.
Qed.
