(** C150: stochastic Gromov-Wasserstein estimators (ot/gromov/_estimators.py).  Exact reals unless a theorem quantifies
    over [N : NumOps]. *)
From Coq Require Import List Arith Bool Reals Lra Lia.
From Verif Require Import Num Sums Spec Duals_proofs Sinkhorn_model Sinkhorn_stab Monge Emd1d_model Emd1d_proofs Emd1d_final Estim_model Estim_proofs.
Import ListNotations.
Local Open Scope R_scope.

(** probability vectors; numpy accepts them *)
Definition prob (n : nat) (p : vec) : Prop := (forall i, (i < n)%nat -> 0 <= p i) /\ rsum n p = 1.
Definition numpy_accepts (prob_ok : nat -> vec -> bool) : Prop := forall k x, (forall i, (i < k)%nat -> 0 <= x i) -> rsum k x = 1 -> prob_ok k x = true.
(** what choice(n, size, p, replace=False) returns: distinct indices of positive probability *)
Definition drawn_rows (n size : nat) (p : vec) (s : nat -> nat) : Prop :=
  (forall r, (r < size)%nat -> (s r < n)%nat /\ 0 < p (s r)) /\ (forall r t, (r < size)%nat -> (t < size)%nat -> s r = s t -> r = t).
(** what choice(m, size, T[i]/sum(T[i])) returns for each drawn row *)
Definition drawn_cols (m np nq : nat) (T : mat) (s : nat -> nat) (c : nat -> nat -> nat) : Prop :=
  forall r x, (r < np)%nat -> (x < nq)%nat -> (c r x < m)%nat /\ 0 < T (s r) (c r x).
(** the Gromov-Wasserstein loss of a plan *)
Definition gw_of (n m : nat) (loss : R -> R -> R) (C1 C2 T : mat) : R :=
  rsum n (fun i => rsum n (fun j => rsum m (fun k => rsum m (fun l => loss (C1 i j) (C2 k l) * T i k * T j l)))).

(** Any arithmetic: with fewer source than target points the problem is transposed, the loss keeping its first argument
    for the larger side. *)
Theorem C150_swap : forall (N : NumOps) loss root prob_ok heur ns nt (C1 C2 : nat -> nat -> N) p q T sparse nbp nbq std d,
  (ns < nt)%nat ->
  gw_estimate loss root prob_ok heur ns nt C1 C2 p q T sparse nbp nbq std d =
  gw_estimate loss root prob_ok heur nt ns C2 C1 q p (fun i j => T j i) sparse nbp nbq std d.
Proof.
  intros. unfold gw_estimate. rewrite (proj2 (Nat.ltb_lt ns nt)) by auto. rewrite (proj2 (Nat.ltb_ge nt ns)) by lia. reflexivity.
Qed.
Print Assumptions C150_swap.

Lemma sample_var_const : forall loss A B nq d r s c, (0 < nq)%nat -> (forall x, (x < nq)%nat -> sample_value (N:=RNum) loss A B d r s x = c) ->
  sample_var (N:=RNum) loss A B nq d r s = 0.
Proof.
  intros loss A B nq d r s c Hq H. unfold sample_var. rewrite !nsum_R, !nat_num_INR. cbn [ndiv nsub nmul RNum].
  assert (Iq := lt_0_INR nq Hq).
  assert (E : rsum nq (fun x => sample_value (N:=RNum) loss A B d r s x) / INR nq = c).
  { rewrite (rsum_ext nq _ (fun _ => c)) by auto. rewrite rsum_const. field. lra. }
  change (carrier RNum) with R in *. rewrite E. rewrite (rsum_ext nq _ (fun _ => 0)).
  - rewrite (rsum_0 _ (fun _ => 0)) by auto. unfold Rdiv. ring.
  - intros x Hx. rewrite H by auto. ring.
Qed.

(** Which calls fail, and where the estimate lies: between the extreme losses on pairs of matched pairs. *)
Theorem C150_estimate : forall loss root (prob_ok : nat -> vec -> bool) heur n m C1 C2 p q T (sparse : bool) nbp nbq (std : bool) d,
  numpy_accepts prob_ok -> (m <= n)%nat -> prob n p -> coupling n m p q T ->
  let np := match nbp with None => if sparse then Nat.min (heur n) n else n | Some k => Nat.min k n end in
  let nq := let k := match nbq with None => 1%nat | Some k => k end in if std then Nat.max 2 k else k in
  drawn_rows n np p (d_i d) -> drawn_rows n np p (d_j d) -> drawn_cols m np nq T (d_i d) (d_k d) -> drawn_cols m np nq T (d_j d) (d_l d) -> (0 < nq)%nat ->
  let r := gw_estimate (N:=RNum) loss root prob_ok heur n m C1 C2 p q T sparse nbp nbq std d in
  ((support_size (N:=RNum) n p < np)%nat -> r = GValueError) /\
  (np = 0%nat -> r = GOk None) /\
  ((0 < np <= support_size (N:=RNum) n p)%nat -> exists v s, r = GOk (Some (v, s)) /\
     (forall lo hi, (forall i j k l, (i < n)%nat -> (j < n)%nat -> (k < m)%nat -> (l < m)%nat -> 0 < T i k -> 0 < T j l -> lo <= loss (C1 i j) (C2 k l) <= hi) -> lo <= v <= hi) /\
     (forall c, (forall i j k l, (i < n)%nat -> (j < n)%nat -> (k < m)%nat -> (l < m)%nat -> 0 < T i k -> 0 < T j l -> loss (C1 i j) (C2 k l) = c) -> root 0 = 0 -> v = c /\ s = 0)).
Proof.
  intros loss root prob_ok heur n m C1 C2 p q T sparse nbp nbq std d OK Hmn (P0 & P1) HT np nq DI DJ DK DL Hq r.
  assert (E : r = if (np <=? support_size (N:=RNum) n p)%nat then
    if (np =? 0)%nat then GOk None else GOk (Some (sample_mean (N:=RNum) loss C1 C2 np nq d, if std then sample_std (N:=RNum) loss root C1 C2 np nq d else 0))
    else GValueError).
  { apply (estimate_ok loss root prob_ok heur n m C1 C2 p q T sparse nbp nbq std d); auto. intros x Hx. split; [apply DI|apply DJ]; auto. }
  assert (LR : forall lo hi, (forall i j k l, (i < n)%nat -> (j < n)%nat -> (k < m)%nat -> (l < m)%nat -> 0 < T i k -> 0 < T j l -> lo <= loss (C1 i j) (C2 k l) <= hi) ->
     forall x y c, (x < np)%nat -> (y < np)%nat -> (c < nq)%nat -> lo <= sample_value (N:=RNum) loss C1 C2 d x y c <= hi).
  { intros lo hi H x y c Hx Hy Hc. unfold sample_value. destruct (DK x c Hx Hc). destruct (DL y c Hy Hc). destruct (proj1 DI x Hx). destruct (proj1 DJ y Hy). apply H; auto. }
  split; [|split].
  - intros H. rewrite E, (proj2 (Nat.leb_gt _ _)) by auto. reflexivity.
  - intros H. rewrite E, H. reflexivity.
  - intros (H1 & H2). rewrite E, (proj2 (Nat.leb_le _ _)) by auto. rewrite (proj2 (Nat.eqb_neq np 0)) by lia.
    do 2 eexists. split; [reflexivity|]. split.
    + intros lo hi H. rewrite sample_mean_R. apply mean_range; auto.
    + intros c H R0. assert (V : forall x y z, (x < np)%nat -> (y < np)%nat -> (z < nq)%nat -> sample_value (N:=RNum) loss C1 C2 d x y z = c).
      { intros x y z Hx Hy Hz. apply Rle_antisym; apply (LR c c); auto; intros; rewrite H; auto; lra. }
      split.
      * rewrite sample_mean_R. apply Rle_antisym; apply (mean_range np nq _ c c); auto; intros; rewrite V; auto; lra.
      * destruct std; [|reflexivity]. unfold sample_std. rewrite nsum_R, (rsum_ext np _ (fun _ => 0)).
        -- rewrite (rsum_0 _ (fun _ => 0)) by auto. cbn [ndiv RNum]. rewrite R0. apply Rmult_0_l.
        -- intros x Hx. rewrite nsum_R, (rsum_ext np _ (fun _ => 0)); [apply rsum_0; auto|]. intros y Hy. apply (sample_var_const _ _ _ _ _ _ _ c); auto.
Qed.
Print Assumptions C150_estimate.
(** a row of weight zero makes the default call fail *)
Theorem C150_zero_weight_refuted : exists (n m : nat) p q T, prob n p /\ prob m q /\ coupling n m p q T /\
  forall loss root (prob_ok : nat -> vec -> bool) heur C1 C2 nbq std d, gw_estimate (N:=RNum) loss root prob_ok heur n m C1 C2 p q T false None nbq std d = GValueError.
Proof.
  exists 2%nat, 1%nat, (fun i => match i with O => 1 | _ => 0 end), (fun _ => 1), (fun i _ => match i with O => 1 | _ => 0 end).
  split; [split; [intros [|i] _; lra|cbn; lra]|]. split; [split; [intros; lra|cbn; lra]|].
  split; [split; [intros [|i] j _ _; lra|split; [intros [|[|i]] Hi; unfold row_sum; cbn; try lia; lra|intros [|j] Hj; unfold col_sum; cbn; try lia; lra]]|].
  intros. unfold gw_estimate. change (2 <? 1)%nat with false. cbv zeta. unfold choice_ok at 1.
  pose proof (support_lt 2 (fun i => match i with O => 1 | _ => 0 end) 1 ltac:(lia) ltac:(lra)) as S.
  rewrite (proj2 (Nat.leb_gt _ _) S). rewrite orb_false_r, andb_false_r. reflexivity.
Qed.
Print Assumptions C150_zero_weight_refuted.

(** ** bias *)
(** a plan carried by a map: all draws give the same number, the unweighted mean over pairs of points *)
Lemma rsum2_ext : forall n m (f g : nat -> nat -> R), (forall i j, (i < n)%nat -> (j < m)%nat -> f i j = g i j) -> rsum n (fun i => rsum m (f i)) = rsum n (fun i => rsum m (g i)).
Proof. intros n m f g H. apply rsum_ext; intros i Hi. apply rsum_ext; intros j Hj. auto. Qed.
Lemma gw_of_map : forall n m loss C1 C2 p q T s, coupling n m p q T -> (forall i k, (i < n)%nat -> (k < m)%nat -> 0 < T i k -> k = s i) ->
  gw_of n m loss C1 C2 T = rsum n (fun i => rsum n (fun j => loss (C1 i j) (C2 (s i) (s j)) * p i * p j)).
Proof.
  intros n m loss C1 C2 p q T s (NN & HR & _) H. unfold gw_of. apply rsum2_ext. intros i j Hi Hj.
  rewrite (rsum2_ext m m _ (fun k l => (loss (C1 i j) (C2 (s i) (s j)) * T i k) * T j l)).
  - rewrite (rsum_ext m _ (fun k => (loss (C1 i j) (C2 (s i) (s j)) * p j) * T i k)).
    + rewrite rsum_scal. change (rsum m (T i)) with (row_sum m T i). rewrite HR by auto. ring.
    + intros k _. rewrite rsum_scal. change (rsum m (T j)) with (row_sum m T j). rewrite HR by auto. ring.
  - intros k l Hk Hl. destruct (NN i k Hi Hk) as [A|A]; [|rewrite <- A; ring]. destruct (NN j l Hj Hl) as [B|B]; [|rewrite <- B; ring].
    rewrite <- (H i k Hi Hk A), <- (H j l Hj Hl B). reflexivity.
Qed.
Theorem C150_map_plan : forall loss root (prob_ok : nat -> vec -> bool) heur n m C1 C2 p q T nbq (std : bool) d s,
  numpy_accepts prob_ok -> (0 < m <= n)%nat -> pos_vec n p -> rsum n p = 1 -> coupling n m p q T ->
  (forall i k, (i < n)%nat -> (k < m)%nat -> 0 < T i k -> k = s i) ->
  let nq := let k := match nbq with None => 1%nat | Some k => k end in if std then Nat.max 2 k else k in
  drawn_rows n n p (d_i d) -> drawn_rows n n p (d_j d) -> drawn_cols m n nq T (d_i d) (d_k d) -> drawn_cols m n nq T (d_j d) (d_l d) -> (0 < nq)%nat -> root 0 = 0 ->
  let v := rsum n (fun i => rsum n (fun j => loss (C1 i j) (C2 (s i) (s j)))) / (INR n * INR n) in
  gw_estimate (N:=RNum) loss root prob_ok heur n m C1 C2 p q T false None nbq std d = GOk (Some (v, 0)) /\
  ((forall i, (i < n)%nat -> p i = 1 / INR n) -> v = gw_of n m loss C1 C2 T).
Proof.
  intros loss root prob_ok heur n m C1 C2 p q T nbq std d s OK (Hm & Hmn) Pp P1 HT HS nq DI DJ DK DL Hq R0 v.
  assert (In := lt_0_INR n ltac:(lia)). assert (Iq := lt_0_INR nq Hq). split.
  - rewrite (estimate_ok loss root prob_ok heur n m C1 C2 p q T false None nbq std d); auto.
    2:{ intros i Hi. left. apply Pp; auto. }
    2:{ intros r Hr. split; [apply DI|apply DJ]; auto. }
    cbv zeta. fold nq. rewrite support_full by auto. rewrite Nat.leb_refl. rewrite (proj2 (Nat.eqb_neq n 0)) by lia.
    assert (V : forall x y z, (x < n)%nat -> (y < n)%nat -> (z < nq)%nat -> sample_value (N:=RNum) loss C1 C2 d x y z = loss (C1 (d_i d x) (d_j d y)) (C2 (s (d_i d x)) (s (d_j d y)))).
    { intros x y z Hx Hy Hz. unfold sample_value. destruct (DK x z Hx Hz) as (K1 & K2). destruct (DL y z Hy Hz) as (L1 & L2).
      destruct (proj1 DI x Hx) as (I1 & _). destruct (proj1 DJ y Hy) as (J1 & _). rewrite (HS _ _ I1 K1 K2), (HS _ _ J1 L1 L2). reflexivity. }
    do 2 f_equal. f_equal.
    + rewrite sample_mean_R. rewrite (rsum2_ext n n _ (fun x y => loss (C1 (d_i d x) (d_j d y)) (C2 (s (d_i d x)) (s (d_j d y))) * INR nq)).
      2:{ intros x y Hx Hy. rewrite (rsum_ext nq _ (fun _ => loss (C1 (d_i d x) (d_j d y)) (C2 (s (d_i d x)) (s (d_j d y))))) by (intros z Hz; apply V; auto). rewrite rsum_const. ring. }
      set (F := fun i j => loss (C1 i j) (C2 (s i) (s j))).
      rewrite (rsum_ext n _ (fun x => rsum n (F (d_i d x)) * INR nq)).
      2:{ intros x Hx. rewrite rsum_scal_r. f_equal. apply (rsum_inj n (d_j d) (F (d_i d x))); [apply DJ|apply DJ]. }
      rewrite rsum_scal_r. rewrite (rsum_inj n (d_i d) (fun i => rsum n (F i))); [|apply DI|apply DI]. unfold v, F. match goal with |- _ = ?y => change (@eq R (rsum n (fun i => rsum n (fun j => loss (C1 i j) (C2 (s i) (s j)))) * INR nq / (INR n * INR n * INR nq)) y) end. field. lra.
    + destruct std; [|reflexivity]. unfold sample_std. rewrite nsum_R, (rsum_ext n _ (fun _ => 0)).
      * rewrite (rsum_0 _ (fun _ => 0)) by auto. cbn [ndiv RNum]. rewrite R0. apply Rmult_0_l.
      * intros x Hx. rewrite nsum_R, (rsum_ext n _ (fun _ => 0)); [apply rsum_0; auto|]. intros y Hy. eapply sample_var_const; auto.
  - intros U. symmetry. rewrite (gw_of_map n m loss C1 C2 p q T s HT HS).
    rewrite (rsum2_ext n n _ (fun i j => loss (C1 i j) (C2 (s i) (s j)) * (1 / INR n * (1 / INR n)))) by (intros i j Hi Hj; rewrite !U by auto; ring).
    rewrite (rsum_ext n (fun i => rsum n (fun j => loss (C1 i j) (C2 (s i) (s j)) * (1 / INR n * (1 / INR n)))) (fun i => rsum n (fun j => loss (C1 i j) (C2 (s i) (s j))) * (1 / INR n * (1 / INR n)))) by (intros i Hi; apply rsum_scal_r).
    rewrite rsum_scal_r. unfold v. field. lra.
Qed.
Print Assumptions C150_map_plan.
(** the documented unbiasedness fails for weights that are not uniform: here every draw gives 1/2, the loss is 3/8 *)
Definition two_p : vec := fun i => match i with O => 1 / 4 | _ => 3 / 4 end.
Definition two_T : mat := fun i j => if Nat.eqb i j then two_p i else 0.
Definition two_C : mat := fun i j => if Nat.eqb i j then 0 else 1.
Lemma two_ok : pos_vec 2 two_p /\ rsum 2 two_p = 1 /\ coupling 2 2 two_p two_p two_T.
Proof.
  split; [|split].
  - intros [|i] _; unfold two_p; lra.
  - cbn [rsum]. unfold two_p. lra.
  - split; [|split].
    + intros [|i] [|j] _ _; unfold two_T, two_p; cbn [Nat.eqb]; try lra. destruct (Nat.eqb i j); lra.
    + intros [|[|i]] Hi; try lia; unfold row_sum, two_T, two_p; cbn [rsum Nat.eqb]; lra.
    + intros [|[|i]] Hi; try lia; unfold col_sum, two_T, two_p; cbn [rsum Nat.eqb]; lra.
Qed.
Theorem C150_unbiased_refuted : exists n C1 C2 p T, pos_vec n p /\ rsum n p = 1 /\ coupling n n p p T /\
  forall root (prob_ok : nat -> vec -> bool) heur nbq (std : bool) d, numpy_accepts prob_ok -> root 0 = 0 ->
  let nq := let k := match nbq with None => 1%nat | Some k => k end in if std then Nat.max 2 k else k in
  drawn_rows n n p (d_i d) -> drawn_rows n n p (d_j d) -> drawn_cols n n nq T (d_i d) (d_k d) -> drawn_cols n n nq T (d_j d) (d_l d) -> (0 < nq)%nat ->
  let loss x y := (x - y) * (x - y) in
  gw_estimate (N:=RNum) loss root prob_ok heur n n C1 C2 p p T false None nbq std d = GOk (Some (1 / 2, 0)) /\ gw_of n n loss C1 C2 T = 3 / 8.
Proof.
  exists 2%nat, two_C, (fun _ _ => 0), two_p, two_T. destruct two_ok as (A & B & C). split; [auto|]. split; [auto|]. split; [auto|].
  intros root prob_ok heur nbq std d OK R0 nq DI DJ DK DL Hq loss.
  assert (HS : forall i k, (i < 2)%nat -> (k < 2)%nat -> 0 < two_T i k -> k = i).
  { intros i k _ _ H. unfold two_T in H. destruct (Nat.eqb_spec i k); [auto|lra]. }
  destruct (C150_map_plan loss root prob_ok heur 2 2 two_C (fun _ _ => 0) two_p two_p two_T nbq std d (fun i => i) OK ltac:(lia) A B C HS DI DJ DK DL Hq R0) as (E & _).
  split.
  - rewrite E. do 3 f_equal. unfold loss, two_C. cbn [rsum Nat.eqb INR]. field.
  - unfold gw_of, loss, two_C, two_T, two_p. cbn [rsum Nat.eqb]. field.
Qed.
Print Assumptions C150_unbiased_refuted.
(** the loss is evaluated with its arguments exchanged when there are fewer source than target points *)
Theorem C150_loss_order_refuted : exists ns nt C1 C2 p q T, prob ns p /\ prob nt q /\ coupling ns nt p q T /\
  forall root (prob_ok : nat -> vec -> bool) heur d, numpy_accepts prob_ok -> drawn_rows nt nt q (d_i d) -> drawn_rows nt nt q (d_j d) ->
  drawn_cols ns nt 1 (fun j i => T i j) (d_i d) (d_k d) -> drawn_cols ns nt 1 (fun j i => T i j) (d_j d) (d_l d) -> root 0 = 0 ->
  let loss (x y : R) := x in
  gw_estimate (N:=RNum) loss root prob_ok heur ns nt C1 C2 p q T false None None false d = GOk (Some (0, 0)) /\ gw_of ns nt loss C1 C2 T = 1.
Proof.
  exists 1%nat, 2%nat, (fun _ _ => 1), (fun _ _ => 0), (fun _ => 1), (fun _ => 1 / 2), (fun _ _ => 1 / 2).
  assert (CP : coupling 1 2 (fun _ => 1) (fun _ => 1 / 2) (fun _ _ => 1 / 2)).
  { split; [intros i j _ _; lra|]. split; intros i Hi; unfold row_sum, col_sum; cbn [rsum]; lra. }
  split; [split; [intros; lra|cbn; lra]|]. split; [split; [intros; lra|cbn; lra]|]. split; [exact CP|].
  intros root prob_ok heur d OK DI DJ DK DL R0 loss. split.
  - rewrite C150_swap by lia.
    destruct (C150_map_plan loss root prob_ok heur 2 1 (fun _ _ => 0) (fun _ _ => 1) (fun _ => 1 / 2) (fun _ => 1) (fun _ _ => 1 / 2) None false d (fun _ => 0%nat)) as (E & _); auto.
    + intros i Hi; lra.
    + cbn [rsum]; lra.
    + split; [intros i j _ _; lra|]. split; intros i Hi; unfold row_sum, col_sum; cbn [rsum]; lra.
    + intros i k _ Hk _. lia.
    + rewrite E. do 3 f_equal. unfold loss. cbn [rsum INR]. field.
  - unfold gw_of, loss. cbn [rsum]. field.
Qed.
Print Assumptions C150_loss_order_refuted.

(** Expected value over the columns, drawn independently from the rows of the plan. *)
Definition row_laws (np nq : nat) (p : vec) (T : mat) (s : nat -> nat) : list vec :=
  flat_map (fun r => repeat (fun k => T (s r) k / p (s r)) nq) (seq 0 np).
Definition draws_of (i j : nat -> nat) (nq : nat) (lk ll : list nat) : draws :=
  Draws i j (fun r c => nth (r * nq + c) lk 0%nat) (fun s c => nth (s * nq + c) ll 0%nat).
Definition value_of (r : gout (option (R * R))) : R := match r with GOk (Some (v, _)) => v | _ => 0 end.

Lemma row_laws_nth : forall np nq p T s r c, (r < np)%nat -> (c < nq)%nat -> nth (r * nq + c) (row_laws np nq p T s) (fun _ => 0) = (fun k => T (s r) k / p (s r)).
Proof.
  intros np nq p T s r c Hr Hc. unfold row_laws.
  enough (G : forall a k x, (x < k)%nat -> nth (x * nq + c) (flat_map (fun r => repeat (fun k => T (s r) k / p (s r)) nq) (seq a k)) (fun _ => 0) = (fun k => T (s (a + x)%nat) k / p (s (a + x)%nat))).
  { apply (G 0%nat np r Hr). }
  intros a k; revert a; induction k as [|k IH]; intros a x Hx; [lia|]. cbn [seq flat_map]. destruct x as [|x].
  - rewrite Nat.add_0_r. cbn [Nat.mul Nat.add]. rewrite app_nth1 by (rewrite repeat_length; auto).
    rewrite (nth_indep _ _ (fun k => T (s a) k / p (s a))) by (rewrite repeat_length; auto). apply nth_repeat.
  - rewrite app_nth2; rewrite repeat_length; [|nia]. replace (S x * nq + c - nq)%nat with (x * nq + c)%nat by nia. rewrite IH by lia.
    replace (a + S x)%nat with (S a + x)%nat by lia. reflexivity.
Qed.
Lemma row_laws_len : forall np nq p T s, length (row_laws np nq p T s) = (np * nq)%nat.
Proof.
  intros np nq p T s. unfold row_laws. generalize 0%nat as a. induction np as [|np IH]; intros a; cbn [seq flat_map]; [reflexivity|]. rewrite app_length, repeat_length, IH. lia.
Qed.
Lemma row_laws_ok : forall n m np nq p q T s, coupling n m p q T -> (forall r, (r < np)%nat -> (s r < n)%nat /\ 0 < p (s r)) -> Forall (is_law m) (row_laws np nq p T s).
Proof.
  intros n m np nq p q T s HT H. apply Forall_forall. intros d Hd. unfold row_laws in Hd. apply in_flat_map in Hd. destruct Hd as (r & Hr & Hd).
  apply repeat_spec in Hd. subst d. apply in_seq in Hr. destruct (H r ltac:(lia)) as (A & B). destruct (row_law n m p q T (s r) HT A B) as (L & _ & E).
  unfold is_law in *. rewrite <- L. apply rsum_ext; intros k _. rewrite E. reflexivity.
Qed.
Theorem C150_expectation : forall loss root (prob_ok : nat -> vec -> bool) heur n m C1 C2 p q T (sparse : bool) nbp nbq i j,
  numpy_accepts prob_ok -> (m <= n)%nat -> prob n p -> coupling n m p q T ->
  let np := match nbp with None => if sparse then Nat.min (heur n) n else n | Some k => Nat.min k n end in
  let nq := match nbq with None => 1%nat | Some k => k end in
  drawn_rows n np p i -> drawn_rows n np p j -> (0 < nq)%nat -> (0 < np <= support_size (N:=RNum) n p)%nat ->
  let mean := expect m (row_laws np nq p T i) (fun lk => expect m (row_laws np nq p T j) (fun ll =>
    value_of (gw_estimate (N:=RNum) loss root prob_ok heur n m C1 C2 p q T sparse nbp nbq false (draws_of i j nq lk ll)))) in
  let cond x y := rsum m (fun k => rsum m (fun l => T x k / p x * (T y l / p y * loss (C1 x y) (C2 k l)))) in
  mean = rsum np (fun r => rsum np (fun s => cond (i r) (j s))) / (INR np * INR np) /\
  (np = n -> mean = rsum n (fun x => rsum n (fun y => cond x y)) / (INR n * INR n)) /\
  (np = n -> (forall x, (x < n)%nat -> p x = 1 / INR n) -> mean = gw_of n m loss C1 C2 T).
Proof.
  intros loss root prob_ok heur n m C1 C2 p q T sparse nbp nbq i j OK Hmn (P0 & P1) HT np nq DI DJ Hq (H1 & H2) mean cond.
  assert (Ip := lt_0_INR np H1). assert (Iq := lt_0_INR nq Hq).
  assert (LI := row_laws_ok n m np nq p q T i HT (proj1 DI)). assert (LJ := row_laws_ok n m np nq p q T j HT (proj1 DJ)).
  assert (IX : forall r c, (r < np)%nat -> (c < nq)%nat -> (r * nq + c < np * nq)%nat) by (intros; nia).
  assert (E : mean = rsum np (fun r => rsum np (fun s => cond (i r) (j s))) / (INR np * INR np)).
  { unfold mean. set (X := / (INR np * INR np * INR nq)).
    rewrite (expect_ext m _ _ (fun lk => X * rsum np (fun r => rsum np (fun s => rsum nq (fun c =>
       rsum m (fun l => T (j s) l / p (j s) * loss (C1 (i r) (j s)) (C2 (nth (r * nq + c) lk 0%nat) l))))))).
    - rewrite expect_scal, expect_sum.
      rewrite (rsum_ext np _ (fun r => rsum np (fun s => cond (i r) (j s) * INR nq))).
      + rewrite (rsum_ext np _ (fun r => rsum np (fun s => cond (i r) (j s)) * INR nq)) by (intros r _; apply rsum_scal_r). rewrite rsum_scal_r. unfold X. field. lra.
      + intros r Hr. rewrite expect_sum. apply rsum_ext; intros s Hs. rewrite expect_sum.
        rewrite (rsum_ext nq _ (fun _ => cond (i r) (j s))); [rewrite rsum_const; ring|]. intros c Hc.
        rewrite (expect_nth m (row_laws np nq p T i) (r * nq + c) (fun k => rsum m (fun l => T (j s) l / p (j s) * loss (C1 (i r) (j s)) (C2 k l)))) by (auto; rewrite row_laws_len; auto).
        rewrite row_laws_nth by auto. unfold cond. apply rsum_ext; intros k Hk. rewrite <- rsum_scal. apply rsum_ext; intros l Hl. ring.
    - intros lk _. rewrite (expect_ext m _ _ (fun ll => X * rsum np (fun r => rsum np (fun s => rsum nq (fun c => loss (C1 (i r) (j s)) (C2 (nth (r * nq + c) lk 0%nat) (nth (s * nq + c) ll 0%nat))))))).
      + rewrite expect_scal, expect_sum. f_equal. apply rsum_ext; intros r Hr. rewrite expect_sum. apply rsum_ext; intros s Hs. rewrite expect_sum. apply rsum_ext; intros c Hc.
        rewrite (expect_nth m (row_laws np nq p T j) (s * nq + c) (fun l => loss (C1 (i r) (j s)) (C2 (nth (r * nq + c) lk 0%nat) l))) by (auto; rewrite row_laws_len; auto).
        rewrite row_laws_nth by auto. reflexivity.
      + intros ll _. rewrite (estimate_ok loss root prob_ok heur n m C1 C2 p q T sparse nbp nbq false (draws_of i j nq lk ll)); auto.
        2:{ intros r Hr. split; [apply DI|apply DJ]; auto. }
        cbv zeta. fold np. fold nq. rewrite (proj2 (Nat.leb_le _ _)) by auto. rewrite (proj2 (Nat.eqb_neq np 0)) by lia. cbn [value_of]. rewrite sample_mean_R. unfold X, Rdiv. rewrite Rmult_comm. reflexivity. }
  assert (E2 : np = n -> mean = rsum n (fun x => rsum n (fun y => cond x y)) / (INR n * INR n)).
  { intros EN. rewrite E. rewrite EN in *. f_equal. rewrite (rsum_ext n _ (fun r => rsum n (cond (i r)))).
    - apply (rsum_inj n i (fun x => rsum n (cond x))); apply DI.
    - intros r _. apply (rsum_inj n j (cond (i r))); apply DJ. }
  split; [exact E|]. split; [exact E2|]. intros EN U. rewrite (E2 EN). rewrite EN in Ip. unfold gw_of. unfold Rdiv at 1. rewrite <- rsum_scal_r. apply rsum_ext; intros x Hx. rewrite <- rsum_scal_r. apply rsum_ext; intros y Hy.
  unfold cond. rewrite <- rsum_scal_r. apply rsum_ext; intros k Hk. rewrite <- rsum_scal_r. apply rsum_ext; intros l Hl. rewrite !U by auto. field. lra.
Qed.
Print Assumptions C150_expectation.
