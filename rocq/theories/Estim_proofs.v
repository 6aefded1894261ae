(** Proofs about the stochastic Gromov-Wasserstein estimators (Estim_model). *)
From Coq Require Import List Arith Bool Reals Lra Lia Permutation.
From Verif Require Import Num Sums Perm Spec Duals_proofs Sinkhorn_model Sinkhorn_stab Emd1d_model Monge Emd1d_proofs Emd1d_final Estim_model.
Import ListNotations.
Local Open Scope R_scope.

(** ** finite expectations: independent draws, one law per position *)
Fixpoint expect (m : nat) (laws : list vec) (f : list nat -> R) : R :=
  match laws with
  | [] => f []
  | d :: laws' => rsum m (fun x => d x * expect m laws' (fun l => f (x :: l)))
  end.
Definition is_law (m : nat) (d : vec) : Prop := rsum m d = 1.

Lemma expect_ext : forall m laws f g, (forall l, length l = length laws -> f l = g l) -> expect m laws f = expect m laws g.
Proof.
  intros m laws; induction laws as [|d laws IH]; intros f g H; cbn [expect]; [apply H; reflexivity|].
  apply rsum_ext; intros x Hx. f_equal. apply IH. intros l Hl. apply H. cbn. lia.
Qed.
Lemma expect_const : forall m laws c, Forall (is_law m) laws -> expect m laws (fun _ => c) = c.
Proof.
  intros m laws c H; induction H as [|d laws Hd _ IH]; cbn [expect]; [reflexivity|].
  rewrite (rsum_ext m _ (fun x => c * d x)) by (intros x _; rewrite IH; ring). rewrite rsum_scal. unfold is_law in Hd. rewrite Hd. ring.
Qed.
Lemma expect_scal : forall m laws c f, expect m laws (fun l => c * f l) = c * expect m laws f.
Proof.
  intros m laws c; induction laws as [|d laws IH]; intros f; cbn [expect]; [reflexivity|].
  rewrite <- rsum_scal. apply rsum_ext; intros x _. rewrite IH. ring.
Qed.
Lemma expect_sum : forall m laws n f, expect m laws (fun l => rsum n (fun i => f i l)) = rsum n (fun i => expect m laws (f i)).
Proof.
  intros m laws n; induction laws as [|d laws IH]; intros f; cbn [expect]; [reflexivity|].
  rewrite rsum_swap. apply rsum_ext; intros x _. rewrite IH, <- rsum_scal. reflexivity.
Qed.
Lemma expect_nth : forall m laws r F, Forall (is_law m) laws -> (r < length laws)%nat ->
  expect m laws (fun l => F (nth r l 0%nat)) = rsum m (fun x => nth r laws (fun _ => 0) x * F x).
Proof.
  intros m laws r F H; revert r; induction H as [|d laws Hd HL IH]; intros r Hr; [cbn in Hr; lia|]. cbn [expect]. destruct r as [|r]; cbn [nth].
  - apply rsum_ext; intros x _. rewrite expect_const by auto. reflexivity.
  - rewrite (rsum_ext m _ (fun x => rsum m (fun y => nth r laws (fun _ => 0) y * F y) * d x)).
    + rewrite rsum_scal. unfold is_law in Hd. rewrite Hd. ring.
    + intros x _. rewrite IH by (cbn in Hr; lia). ring.
Qed.

(** ** numbers of samples *)
Lemma filter_len : forall {A} (f : A -> bool) l, (length (filter f l) <= length l)%nat.
Proof. intros A f l; induction l as [|x l IH]; cbn; [lia|]. destruct (f x); cbn; lia. Qed.
Lemma support_le : forall (N : NumOps) n (p : nat -> N), (support_size n p <= n)%nat.
Proof. intros N n p. unfold support_size. pose proof (filter_len (fun i => nltb n0 (p i)) (seq 0 n)). rewrite seq_length in H. lia. Qed.
Lemma support_full : forall n (p : vec), pos_vec n p -> support_size (N:=RNum) n p = n.
Proof.
  intros n p H. unfold support_size. assert (E : forall l, (forall i, In i l -> (i < n)%nat) -> filter (fun i => nltb (n:=RNum) n0 (p i)) l = l).
  { induction l as [|i l IH]; intros Hl; cbn [filter]; [reflexivity|]. replace (nltb (n:=RNum) n0 (p i)) with true by (symmetry; apply Rltb_true; apply H, Hl; left; auto).
    f_equal. apply IH. intros; apply Hl; right; auto. }
  rewrite E, seq_length; auto. intros i Hi. apply in_seq in Hi. lia.
Qed.
Lemma support_lt : forall n (p : vec) i, (i < n)%nat -> p i <= 0 -> (support_size (N:=RNum) n p < n)%nat.
Proof.
  intros n p i Hi H. unfold support_size. enough (E : forall l, In i l -> (length (filter (fun i => nltb (n:=RNum) n0 (p i)) l) < length l)%nat).
  { specialize (E (seq 0 n)). rewrite seq_length in E. apply E. apply in_seq. lia. }
  induction l as [|x l IH]; [intros []|]. intros [->|Hx]; cbn [filter].
  - replace (nltb (n:=RNum) n0 (p i)) with false by (symmetry; apply Rltb_false; cbn; lra).
    pose proof (filter_len (fun i => nltb (n:=RNum) n0 (p i)) l). cbn [length]. lia.
  - specialize (IH Hx). destruct (nltb (n:=RNum) n0 (p x)); cbn [length]; lia.
Qed.

(** ** exact row law *)
Lemma row_law : forall n m p q T i, coupling n m p q T -> (i < n)%nat -> 0 < p i ->
  is_law m (row_prob (N:=RNum) m T i) /\ (forall k, (k < m)%nat -> 0 <= row_prob (N:=RNum) m T i k) /\ (forall k, row_prob (N:=RNum) m T i k = T i k / p i).
Proof.
  intros n m p q T i (NN & HR & _) Hi Hp. specialize (HR i Hi).
  assert (E : forall k, row_prob (N:=RNum) m T i k = T i k / p i).
  { intros k. unfold row_prob. rewrite nsum_R. cbn. f_equal. exact HR. }
  split; [|split; auto].
  - unfold is_law. rewrite (rsum_ext m _ (fun k => / p i * T i k)) by (intros k _; rewrite E; unfold Rdiv; ring). rewrite rsum_scal.
    change (rsum m (T i)) with (row_sum m T i). rewrite HR. field. lra.
  - intros k Hk. rewrite E. apply Rmult_le_pos; [apply NN; auto|left; apply Rinv_0_lt_compat; auto].
Qed.

(** ** averages over rows drawn without replacement: all of them *)
Lemma rsum_inj : forall n (s : nat -> nat) F, (forall r, (r < n)%nat -> (s r < n)%nat) -> (forall r t, (r < n)%nat -> (t < n)%nat -> s r = s t -> r = t) ->
  rsum n (fun r => F (s r)) = rsum n F.
Proof.
  intros n s F H1 H2.
  assert (L : forall k G, rsum k G = fold_right Rplus 0 (map G (seq 0 k))).
  { intros k G; induction k as [|k IH]; [reflexivity|]. cbn [rsum]. rewrite IH, seq_S, map_app. cbn [map plus].
    generalize (map G (seq 0 k)). intros l. induction l as [|x l IHl]; cbn; lra. }
  rewrite !L. rewrite <- (map_map s F).
  assert (P : Permutation (map s (seq 0 n)) (seq 0 n)).
  { apply NoDup_Permutation_bis.
    - assert (Q : forall l, NoDup l -> (forall x, In x l -> (x < n)%nat) -> NoDup (map s l)).
      { induction 1 as [|x l Hx Hl IH]; intros B; cbn [map]; constructor.
        - intros Hin. apply in_map_iff in Hin. destruct Hin as (y & E & Hy). apply H2 in E; [subst; auto|apply B; right; auto|apply B; left; auto].
        - apply IH. intros; apply B; right; auto. }
      apply Q; [apply seq_NoDup|]. intros x Hx. apply in_seq in Hx. lia.
    - rewrite map_length. lia.
    - intros x Hx. apply in_map_iff in Hx. destruct Hx as (y & <- & Hy). apply in_seq in Hy. apply in_seq. specialize (H1 y). lia. }
  apply (Permutation_map F) in P. induction P; cbn [fold_right]; lra.
Qed.

Lemma sample_mean_R : forall loss A B np nq d, sample_mean (N:=RNum) loss A B np nq d =
  rsum np (fun r => rsum np (fun s => rsum nq (fun c => sample_value (N:=RNum) loss A B d r s c))) / (INR np * INR np * INR nq).
Proof.
  intros. unfold sample_mean. rewrite !nat_num_INR, nsum_R. cbn [ndiv nmul RNum]. unfold Rdiv. f_equal.
  apply rsum_ext; intros r _. rewrite nsum_R. apply rsum_ext; intros s _. rewrite nsum_R. reflexivity.
Qed.
Lemma mean_range : forall np nq (v : nat -> nat -> nat -> R) lo hi, (0 < np)%nat -> (0 < nq)%nat ->
  (forall r s c, (r < np)%nat -> (s < np)%nat -> (c < nq)%nat -> lo <= v r s c <= hi) ->
  lo <= rsum np (fun r => rsum np (fun s => rsum nq (fun c => v r s c))) / (INR np * INR np * INR nq) <= hi.
Proof.
  intros np nq v lo hi Hp Hq H. assert (Ip := lt_0_INR np Hp). assert (Iq := lt_0_INR nq Hq).
  assert (I3 : 0 < INR np * INR np * INR nq) by (repeat apply Rmult_lt_0_compat; auto).
  assert (C : forall x, rsum np (fun _ => rsum np (fun _ => rsum nq (fun _ => x))) = x * (INR np * INR np * INR nq)) by (intros x; rewrite !rsum_const; ring).
  set (X := INR np * INR np * INR nq) in *. set (S := rsum np _).
  assert (Q : S / X * X = S) by (field; lra).
  split; apply (Rmult_le_reg_r X); auto; rewrite Q, <- C;
    apply rsum_le; intros r Hr; apply rsum_le; intros s Hs; apply rsum_le; intros c Hc; apply H; auto.
Qed.

(** ** success of the estimation *)
Lemma estimate_ok : forall loss root (prob_ok : nat -> vec -> bool) heur n m C1 C2 p q T (sparse : bool) nbp nbq (std : bool) d,
  (forall k (x : vec), (forall i, (i < k)%nat -> 0 <= x i) -> rsum k x = 1 -> prob_ok k x = true) ->
  (m <= n)%nat -> coupling n m p q T -> rsum n p = 1 -> (forall i, (i < n)%nat -> 0 <= p i) ->
  let np := match nbp with None => if sparse then Nat.min (heur n) n else n | Some k => Nat.min k n end in
  let nq := let k := match nbq with None => 1%nat | Some k => k end in if std then Nat.max 2 k else k in
  (forall r, (r < np)%nat -> ((d_i d r < n)%nat /\ 0 < p (d_i d r)) /\ ((d_j d r < n)%nat /\ 0 < p (d_j d r))) -> (0 < nq)%nat ->
  gw_estimate (N:=RNum) loss root prob_ok heur n m C1 C2 p q T sparse nbp nbq std d =
  if (np <=? support_size (N:=RNum) n p)%nat then
    if (np =? 0)%nat then GOk None else GOk (Some (sample_mean (N:=RNum) loss C1 C2 np nq d, if std then sample_std (N:=RNum) loss root C1 C2 np nq d else 0))
  else GValueError.
Proof.
  intros loss root prob_ok heur n m C1 C2 p q T sparse nbp nbq std d OK Hmn HT Hp Hp0 np nq Hd Hq.
  unfold gw_estimate. replace (n <? m)%nat with false by (symmetry; apply Nat.ltb_ge; auto). cbv zeta. fold np. fold nq.
  unfold choice_ok at 1. rewrite (OK n p Hp0 Hp). cbn [andb orb]. destruct (np <=? support_size (N:=RNum) n p)%nat; cbn [negb]; [|reflexivity].
  assert (EX : existsb (fun r => negb (choice_ok (N:=RNum) prob_ok m nq (row_prob (N:=RNum) m T (d_i d r)) true && choice_ok (N:=RNum) prob_ok m nq (row_prob (N:=RNum) m T (d_j d r)) true)) (seq 0 np) = false).
  { apply not_true_is_false. intros E. apply existsb_exists in E. destruct E as (r & Hr & E). apply in_seq in Hr. destruct (Hd r ltac:(lia)) as ((A1 & A2) & (B1 & B2)).
    destruct (row_law n m p q T (d_i d r) HT A1 A2) as (X1 & X2 & _). destruct (row_law n m p q T (d_j d r) HT B1 B2) as (Y1 & Y2 & _).
    unfold choice_ok in E. rewrite (OK m _ X2 X1), (OK m _ Y2 Y1) in E. discriminate E. }
  rewrite EX. replace (nq =? 0)%nat with false by (symmetry; apply Nat.eqb_neq; lia). destruct (np =? 0)%nat; reflexivity.
Qed.

(** ** 1-D plans *)
Definition row_cost (C1 C2 : mat) (i j : nat) : mat := fun k l => (C1 i k - C2 j l) ^ 2.
Lemma lnth_to_list : forall n (x : vec) i, (i < n)%nat -> lnth (to_list (N:=RNum) n x) i = x i.
Proof.
  intros n x i Hi. unfold lnth, to_list. rewrite (nth_indep _ _ (x 0%nat)) by (rewrite map_length, seq_length; auto).
  rewrite map_nth, seq_nth by auto. reflexivity.
Qed.
Lemma plan_1d_ok : forall close n m C1 C2 p q i j, (0 < n)%nat -> (0 < m)%nat ->
  (forall i, (i < n)%nat -> 0 <= p i) -> (forall j, (j < m)%nat -> 0 <= q j) -> rsum n p = rsum m q -> 0 < rsum m q -> (forall x, close x x = true) ->
  exists T, plan_1d (N:=RNum) rpow close n m C1 C2 p q i j = Some T /\ optimal_coupling n m p q (row_cost C1 C2 i j) T.
Proof.
  intros close n m C1 C2 p q i j Hn Hm Hp Hq HM HP HC.
  assert (LL : forall k (x : vec), length (to_list (N:=RNum) k x) = k) by (intros; unfold to_list; rewrite map_length, seq_length; auto).
  assert (W : forall k (x : vec) h, (0 < k)%nat -> weights (N:=RNum) (Some (to_list (N:=RNum) k x)) h = to_list (N:=RNum) k x).
  { intros [|k] x h Hk; [lia|]. reflexivity. }
  assert (MM : forall k (x : vec), mass k (lnth (to_list (N:=RNum) k x)) = rsum k x).
  { intros k x. unfold mass. apply rsum_ext; intros h Hh. apply lnth_to_list; auto. }
  assert (X := c17 close true (to_list (N:=RNum) n (C1 i)) (to_list (N:=RNum) m (C2 j)) (Some (to_list (N:=RNum) n p)) (Some (to_list (N:=RNum) m q)) SqEuclidean 1).
  cbv zeta in X. rewrite !LL, !W, !MM, !LL in X by auto.
  destruct X as (es & c & E & _ & _ & (CP & OP)); auto; try discriminate.
  - intros h Hh. rewrite lnth_to_list by auto. auto.
  - intros h Hh. rewrite lnth_to_list by auto. auto.
  - exists (dmat es). split; [unfold plan_1d; change (@n1 RNum) with 1; rewrite E; reflexivity|].
    assert (CC : forall G, coupling n m (lnth (to_list (N:=RNum) n p)) (lnth (to_list (N:=RNum) m q)) G <-> coupling n m p q G).
    { intros G. split; intros (A & B & C); (split; [auto|split]); intros h Hh; [rewrite B|rewrite C|rewrite B|rewrite C]; auto; rewrite lnth_to_list; auto. }
    assert (CO : forall G, cost n m (fun a b => metric_cost SqEuclidean 1 (lnth (to_list (N:=RNum) n (C1 i)) a) (lnth (to_list (N:=RNum) m (C2 j)) b)) G = cost n m (row_cost C1 C2 i j) G).
    { intros G. unfold cost. apply rsum_ext; intros a Ha. apply rsum_ext; intros b Hb. rewrite !lnth_to_list by auto. unfold row_cost, metric_cost. cbn. try f_equal; try ring. }
    split; [apply CC; exact CP|]. intros G HG. rewrite <- !CO. apply OP. apply CC. exact HG.
Qed.
