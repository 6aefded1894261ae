(** C151, C152: bijections between point clouds by binary space partitions
    (ot/bsp). *)
From Coq Require Import List Arith Reals QArith Lra Lia Bool Permutation.
From Verif Require Import Num Sums Monge Emd1d_model Emd1d_perm_proofs Duals_proofs Perm
  Bsp_model Bsp_proofs Bsp_cost Bsp_match Bsp_exact.
Import ListNotations.
Local Open Scope R_scope.

(** ** specification *)
(** every index of [0, n) is hit exactly once *)
Definition bijection (n : nat) (p : nat -> nat) : Prop :=
  (forall i, (i < n)%nat -> (p i < n)%nat) /\
  (forall k, (k < n)%nat -> exists i, (i < n)%nat /\ p i = k /\ forall i', (i' < n)%nat -> p i' = k -> i' = i).

(** mean cost of the pairs (i, p i) *)
Definition mean_cost (n : nat) (cost : nat -> nat -> R) (p : nat -> nat) : R := rsum n (fun i => cost i (p i)) / INR n.

(** rankPlans lists every plan once *)
Definition lists_all {N : NumOps} (rank : list N -> list nat) : Prop :=
  forall l, Permutation (rank l) (seq 0 (length l)).

Lemma bij_perm : forall n p, bijection n p <-> perm_on n p.
Proof.
  intros n p. split.
  - intros [A B]. split; [auto|]. intros i j Hi Hj E. destruct (B (p i) (A i Hi)) as (k & Hk & _ & U).
    rewrite (U i Hi eq_refl). symmetry. apply U; auto.
  - intros H. split; [apply H|]. intros k Hk. destruct (perm_on_surj n p k H Hk) as (i & Hi & E). exists i.
    split; [auto|]. split; [auto|]. intros i' Hi' E'. apply H; auto. congruence.
Qed.

Lemma mean_le : forall n cost p q, tcost n cost p <= tcost n cost q -> mean_cost n cost p <= mean_cost n cost q.
Proof.
  intros n cost p q H. unfold mean_cost, Rdiv. destruct n; [simpl; lra|]. apply Rmult_le_compat_r; [|exact H].
  apply Rlt_le, Rinv_0_lt_compat, lt_0_INR; lia.
Qed.

Lemma mean_eq : forall n (cost : nat -> nat -> R) (T : nat -> nat),
  ndiv (n:=RNum) (nsum (N:=RNum) n (fun i => cost i (T i))) (nofnat (N:=RNum) n) = mean_cost n cost T.
Proof. intros. rewrite nsum_R, nofnat_INR. reflexivity. Qed.

(** ** C151: merging bijections *)

(** Merging bijections gives a bijection, in every arithmetic (NaN included). *)
Theorem C151_bijection : forall (N : NumOps) n (rank : list N -> list nat) (cost : nat -> nat -> N) plans T0,
  lists_all rank -> plans <> [] -> (forall p, In p plans -> bijection n p) ->
  (forall T, T0 = Some T -> bijection n T) ->
  exists T, merge_plans n rank cost plans T0 = MOk T /\ bijection n T.
Proof.
  intros N n rank cost plans T0 Hr Hn Hp HT.
  destruct (merge_plans_perm n cost rank plans T0 Hr Hn) as (T & E & P).
  - intros p Hi. apply bij_perm; auto.
  - intros T E. apply bij_perm; auto.
  - exists T. split; [auto|]. apply bij_perm; auto.
Qed.

(** The merged bijection costs no more than any of the merged ones, nor than
    the initial one. *)
Theorem C151_cost : forall n rank (cost : nat -> nat -> R) plans T0,
  lists_all (N:=RNum) rank -> plans <> [] -> (forall p, In p plans -> bijection n p) ->
  (forall T, T0 = Some T -> bijection n T) ->
  exists T, merge_plans (N:=RNum) n rank cost plans T0 = MOk T /\ bijection n T /\
    (forall p, In p plans -> mean_cost n cost T <= mean_cost n cost p) /\
    (forall T1, T0 = Some T1 -> mean_cost n cost T <= mean_cost n cost T1).
Proof.
  intros n rank cost plans T0 Hr Hn Hp HT.
  destruct (merge_plans_cost n cost rank plans T0 Hr Hn) as (T & E & P & A & B).
  - intros p Hi. apply bij_perm; auto.
  - intros T E. apply bij_perm; auto.
  - exists T. split; [auto|]. split; [apply bij_perm; auto|]. split; intros; apply mean_le; auto.
Qed.

(** Reading plan [i] of the array handed by the user. *)
Definition row (n : nat) (buf : nat -> nat) (i : nat) : nat -> nat := fun j => buf (i * n + j)%nat.

(** merge_bijections on at least as many bijections as points: the guarantee
    covers the first [n] of them (all of them when there are exactly [n]). *)
Theorem C151_wrapper : forall n d rank (cost : nat -> nat -> R) rows buf,
  lists_all (N:=RNum) rank -> (1 <= n)%nat -> (n <= rows)%nat ->
  (forall i, (i < n)%nat -> bijection n (row n buf i)) ->
  exists T, merge_bijections (N:=RNum) [n; d] [n; d] rank cost rows n buf = BRet (N:=RNum) (mean_cost n cost T) T /\
    bijection n T /\ (forall i, (i < n)%nat -> mean_cost n cost T <= mean_cost n cost (row n buf i)).
Proof.
  intros n d rank cost rows buf Hr Hn Hrows Hb.
  set (plans := map (fun i j => buf (i * n + j)%nat) (seq 0 n)).
  destruct (C151_cost n rank cost plans None Hr) as (T & E & P & A & _).
  - unfold plans. destruct n; [lia|]. discriminate.
  - intros p Hp. apply in_map_iff in Hp. destruct Hp as (i & <- & Hi). apply in_seq in Hi. apply (Hb i). lia.
  - discriminate.
  - exists T. split.
    + unfold merge_bijections. replace (shape_eqb [n; d] [n; d]) with true.
      2:{ unfold shape_eqb. destruct (list_eq_dec _ _ _); congruence. }
      cbn [negb]. unfold merge_bijections_c.
      assert (L : (rows * n <? n * n)%nat = false) by (apply Nat.ltb_ge; nia). rewrite L.
      match goal with |- match ?m with _ => _ end = _ => replace m with (MOk T) by (symmetry; exact E) end.
      rewrite mean_eq. reflexivity.
    + split; [auto|]. intros i Hi. apply (A (row n buf i)). unfold plans. apply in_map_iff. exists i. split; auto.
      apply in_seq; lia.
Qed.

(** With fewer bijections than points the buffer is read past its end,
    whatever the data. *)
Theorem C151_fewer_refuted : forall (N : NumOps) n d (rank : list N -> list nat) (cost : nat -> nat -> N) rows buf,
  (1 <= n)%nat -> (rows < n)%nat ->
  merge_bijections [n; d] [n; d] rank cost rows n buf = BUndefined.
Proof.
  intros N n d rank cost rows buf Hn Hrows. unfold merge_bijections.
  replace (shape_eqb [n; d] [n; d]) with true.
  2:{ unfold shape_eqb. destruct (list_eq_dec _ _ _); congruence. }
  cbn [negb]. unfold merge_bijections_c.
  assert (L : (rows * n <? n * n)%nat = true) by (apply Nat.ltb_lt; nia). rewrite L. reflexivity.
Qed.

(** With more bijections than points the extra ones are ignored: three
    bijections of two points, the third one perfect, and the result costs 1. *)
Definition ignored_buf (k : nat) : nat := nth k [1; 0; 1; 0; 0; 1]%nat 0%nat.
Definition gap_cost (i j : nat) : Q := if Nat.eqb i j then 0%Q else 1%Q.

Theorem C151_ignored_refuted :
  (forall i, (i < 3)%nat -> bijection 2 (row 2 ignored_buf i)) /\
  exists T, merge_bijections (N:=QNum) [2; 1]%nat [2; 1]%nat argsort gap_cost 3 2 ignored_buf = BRet (N:=QNum) 1%Q T /\
    eval_matching (N:=QNum) 2 gap_cost (row 2 ignored_buf 2) = 0%Q.
Proof.
  split.
  - intros i Hi. apply bij_perm. split.
    + intros k Hk. destruct i as [|[|[|]]]; try lia; destruct k as [|[|]]; try lia; vm_compute; lia.
    + intros j k Hj Hk. destruct i as [|[|[|]]]; try lia; destruct j as [|[|]]; try lia; destruct k as [|[|]]; try lia;
        vm_compute; lia.
  - destruct (merge_bijections_c (N:=QNum) 2 argsort gap_cost 3 2 ignored_buf) as [T| |] eqn:E;
      [|vm_compute in E; discriminate|vm_compute in E; discriminate].
    exists T. split; [|vm_compute; reflexivity].
    assert (V : ndiv (n:=QNum) (nsum (N:=QNum) 2 (fun i => gap_cost i (T i))) (nofnat (N:=QNum) 2) = 1%Q).
    { vm_compute in E. injection E as <-. vm_compute. reflexivity. }
    unfold merge_bijections. replace (shape_eqb [2%nat; 1%nat] [2%nat; 1%nat]) with true by (vm_compute; reflexivity).
    cbn [negb]. rewrite E, V. reflexivity.
Qed.

(** Nothing to merge, arguments of different shapes, arguments that are not
    matrices. *)
Theorem C151_errors : forall (N : NumOps) (rank : list N -> list nat) (cost : nat -> nat -> N),
  (forall n T0, merge_plans n rank cost [] T0 = MUndefined) /\
  (forall shX shY rows cols buf, shX <> shY -> merge_bijections shX shY rank cost rows cols buf = BRaise BValueError) /\
  (forall sh rows cols buf, length sh <> 2%nat -> merge_bijections sh sh rank cost rows cols buf = BRaise BValueError).
Proof.
  intros N rank cost. split; [auto|]. split.
  - intros. unfold merge_bijections, shape_eqb. destruct (list_eq_dec _ _ _); [contradiction|]. reflexivity.
  - intros sh rows cols buf H. unfold merge_bijections, shape_eqb. destruct (list_eq_dec _ _ _); [|reflexivity]. cbn [negb].
    destruct sh as [|a [|b [|c sh]]]; auto. contradiction H; reflexivity.
Qed.

(** Two bijections of four points, wrong on different halves: the merge takes
    the right half of each. *)
Definition half1 (k : nat) : nat := nth k [1; 0; 2; 3]%nat 0%nat.
Definition half2 (k : nat) : nat := nth k [0; 1; 3; 2]%nat 0%nat.
Example C151_case :
  lists_all (N:=QNum) argsort /\ bijection 4 half1 /\ bijection 4 half2 /\
  match merge_plans (N:=QNum) 4 argsort gap_cost [half1; half2] None with
  | MOk T => map T [0; 1; 2; 3]%nat = [0; 1; 2; 3]%nat
  | _ => False
  end.
Proof.
  split; [intros l; apply (argsort_aux_perm (N:=QNum))|].
  split; [apply bij_perm; split;
    [intros k Hk; destruct k as [|[|[|[|]]]]; try lia; vm_compute; lia
    |intros j k Hj Hk; destruct j as [|[|[|[|]]]]; try lia; destruct k as [|[|[|[|]]]]; try lia; vm_compute; lia]|].
  split; [apply bij_perm; split;
    [intros k Hk; destruct k as [|[|[|[|]]]]; try lia; vm_compute; lia
    |intros j k Hj Hk; destruct j as [|[|[|[|]]]]; try lia; destruct k as [|[|[|[|]]]]; try lia; vm_compute; lia]|].
  vm_compute. reflexivity.
Qed.

(** ** C152: the matchings and the solver *)

(** Whatever the slices and the pivots, a BSP matching is a bijection, in every
    arithmetic. *)
Theorem C152_bijection : forall (N : NumOps) n (ch : bsp_choices N), (1 <= n)%nat -> choices_ok ch ->
  exists p, compute_matching n ch = Some p /\ bijection n p.
Proof.
  intros N n ch Hn Hc. destruct (compute_matching_perm n ch Hn Hc) as (p & E & P). exists p. split; [auto|].
  apply bij_perm; auto.
Qed.

Lemma shape_refl : forall n d, shape_eqb [n; d] [n; d] = true.
Proof. intros; unfold shape_eqb. destruct (list_eq_dec _ _ _); congruence. Qed.

(** The solver returns a bijection and its mean cost, which is at most the mean
    cost of each of its own matchings and of the initial bijection. *)
Theorem C152_solver : forall n d rank (cost : nat -> nat -> R) (chs : list (bsp_choices RNum)) init,
  lists_all (N:=RNum) rank -> (1 <= n)%nat -> chs <> [] -> (forall ch, In ch chs -> choices_ok ch) ->
  (forall ip, init = Some ip -> ip_shape ip = [n] /\ ip_int32 ip = true /\ bijection n (ip_perm ip)) ->
  exists T, compute_bspot [n; d] [n; d] rank cost chs init = BRet (N:=RNum) (mean_cost n cost T) T /\ bijection n T /\
    (forall ch, In ch chs -> exists p, compute_matching n ch = Some p /\ bijection n p /\ mean_cost n cost T <= mean_cost n cost p) /\
    (forall ip, init = Some ip -> mean_cost n cost T <= mean_cost n cost (ip_perm ip)).
Proof.
  intros n d rank cost chs init Hr Hn Hne Hc Hi.
  destruct (all_matchings_ok n chs (perm_on n)) as (plans & EP & LP & HP).
  { intros ch Hch. apply compute_matching_perm; auto. }
  assert (Inp : forall ch, In ch chs -> exists p, compute_matching n ch = Some p /\ In p plans).
  { clear - EP. revert plans EP. induction chs as [|c r IH]; intros plans EP ch Hch; [inversion Hch|]. simpl in EP.
    destruct (compute_matching n c) as [p|] eqn:E1; [|discriminate]. destruct (all_matchings n r) as [l|] eqn:E2; [|discriminate].
    inversion EP; subst. destruct Hch as [<-|Hch]; [exists p; split; simpl; auto|].
    destruct (IH l eq_refl ch Hch) as (q & A & B). exists q; split; simpl; auto. }
  destruct (C151_cost n rank cost plans (option_map ip_perm init) Hr) as (T & E & P & A & B).
  - intros ->. destruct chs; [congruence|discriminate].
  - intros p Hp. apply bij_perm; auto.
  - intros T. destruct init as [ip|]; [|discriminate]. intros X; inversion X; subst. apply Hi; auto.
  - exists T. split.
    + unfold compute_bspot. rewrite shape_refl. cbn [negb].
      assert (G1 : match init with Some ip => negb (shape_eqb (ip_shape ip) [n]) | None => false end = false).
      { destruct init as [ip|]; auto. destruct (Hi ip eq_refl) as (-> & _). unfold shape_eqb.
        destruct (list_eq_dec _ _ _); [reflexivity|congruence]. }
      assert (G2 : match init with Some ip => negb (ip_int32 ip) | None => false end = false).
      { destruct init as [ip|]; auto. destruct (Hi ip eq_refl) as (_ & -> & _). auto. }
      rewrite G1, G2, EP.
      match goal with |- match ?m with _ => _ end = _ => replace m with (MOk T) by (symmetry; exact E) end.
      rewrite mean_eq. reflexivity.
    + split; [auto|]. split.
      * intros ch Hch. destruct (Inp ch Hch) as (p & E1 & E2). exists p. split; [auto|]. split; [apply bij_perm; auto|]. auto.
      * intros ip ->. apply B. reflexivity.
Qed.

(** On the line (slices along the line), the solver is optimal for every
    exponent at least 1, with a single plan already. *)
Theorem C152_line : forall n rank (x y : nat -> R) e (chs : list (bsp_choices RNum)) init,
  lists_all (N:=RNum) rank -> (1 <= n)%nat -> chs <> [] -> 1 <= e ->
  (forall ch, In ch chs -> choices_ok ch) -> (forall ch, In ch chs -> line_slices x y ch) ->
  (forall ip, init = Some ip -> ip_shape ip = [n] /\ ip_int32 ip = true /\ bijection n (ip_perm ip)) ->
  exists T, compute_bspot [n; 1%nat] [n; 1%nat] rank (fun i j => rpow (Rabs (x i - y j)) e) chs init
      = BRet (N:=RNum) (mean_cost n (fun i j => rpow (Rabs (x i - y j)) e) T) T /\ bijection n T /\
    forall q, bijection n q ->
      mean_cost n (fun i j => rpow (Rabs (x i - y j)) e) T <= mean_cost n (fun i j => rpow (Rabs (x i - y j)) e) q.
Proof.
  intros n rank x y e chs init Hr Hn Hne He Hc HL Hi.
  destruct (C152_solver n 1 rank (fun i j => rpow (Rabs (x i - y j)) e) chs init Hr Hn Hne Hc Hi) as (T & E & P & A & _).
  exists T. split; [exact E|]. split; [auto|]. intros q Hq.
  destruct chs as [|ch chs']; [congruence|]. destruct (A ch) as (p & Ep & _ & Hle); [simpl; auto|].
  destruct (line_comono n x y ch Hn) as (p' & Ep' & Hp' & Hco); [apply Hc; simpl; auto|apply HL; simpl; auto|].
  assert (p' = p) by congruence. subst p'.
  eapply Rle_trans; [exact Hle|]. apply mean_le. unfold tcost. apply comono_optimal; auto. apply bij_perm; auto.
Qed.

(** If the second cloud is a scaled, translated and relabelled copy of the
    first one and no slice merges two points, every matching is that
    relabelling, and the solver returns the optimal squared cost. *)
Theorem C152_similar : forall n d rank (X Y : nat -> nat -> R) c (t : nat -> R) s (chs : list (bsp_choices RNum)),
  lists_all (N:=RNum) rank -> (1 <= n)%nat -> chs <> [] -> 0 < c -> bijection n s ->
  (forall i k, (i < n)%nat -> (k < d)%nat -> Y (s i) k = c * X i k + t k) ->
  (forall ch, In ch chs -> choices_ok ch) -> (forall ch, In ch chs -> proj_slices d X Y n ch) ->
  (forall ch, In ch chs -> exists p, compute_matching n ch = Some p /\ forall i, (i < n)%nat -> p i = s i) /\
  exists T, compute_bspot [n; d] [n; d] rank (fun i j => sq_dist d (X i) (Y j)) chs None
      = BRet (N:=RNum) (mean_cost n (fun i j => sq_dist d (X i) (Y j)) s) T /\ bijection n T /\
    forall q, bijection n q ->
      mean_cost n (fun i j => sq_dist d (X i) (Y j)) s <= mean_cost n (fun i j => sq_dist d (X i) (Y j)) q.
Proof.
  intros n d rank X Y c t s chs Hr Hn Hne Hc Hs HY Hok HP. apply bij_perm in Hs.
  assert (M : forall ch, In ch chs -> exists p, compute_matching n ch = Some p /\ forall i, (i < n)%nat -> p i = s i).
  { intros ch Hch. apply (similar_plan n d X Y c t s ch); auto. }
  split; [exact M|].
  destruct (C152_solver n d rank (fun i j => sq_dist d (X i) (Y j)) chs None Hr Hn Hne Hok) as (T & E & P & A & _); [discriminate|].
  assert (Opt : forall q, bijection n q ->
    mean_cost n (fun i j => sq_dist d (X i) (Y j)) s <= mean_cost n (fun i j => sq_dist d (X i) (Y j)) q).
  { intros q Hq. apply mean_le. unfold tcost. apply (similar_optimal n d X Y c t s); auto. apply bij_perm; auto. }
  exists T. split; [|split; auto]. rewrite E. f_equal. apply Rle_antisym; [|apply Opt; auto].
  destruct chs as [|ch chs']; [congruence|]. destruct (A ch) as (p & Ep & _ & Hle); [simpl; auto|].
  destruct (M ch) as (p' & Ep' & Es); [simpl; auto|]. assert (p' = p) by congruence. subst p'.
  eapply Rle_trans; [exact Hle|]. apply mean_le. unfold tcost. apply Req_le. apply rsum_ext. intros i Hi. rewrite Es; auto.
Qed.

(** Errors: clouds of different shapes, not matrices, an initial bijection of
    the wrong length; an initial bijection whose dtype is not int32 (numpy's
    default is int64) is refused although documented; no plan at all is
    undefined behaviour. *)
Theorem C152_errors : forall (N : NumOps) (rank : list N -> list nat) (cost : nat -> nat -> N) (chs : list (bsp_choices N)),
  (forall shX shY init, shX <> shY -> compute_bspot shX shY rank cost chs init = BRaise BValueError) /\
  (forall sh init, length sh <> 2%nat -> compute_bspot sh sh rank cost chs init = BRaise BValueError) /\
  (forall n d ip, ip_shape ip <> [n] -> compute_bspot [n; d] [n; d] rank cost chs (Some ip) = BRaise BValueError).
Proof.
  intros N rank cost chs. split; [|split].
  - intros. unfold compute_bspot, shape_eqb. destruct (list_eq_dec _ _ _); [contradiction|]. reflexivity.
  - intros sh init H. unfold compute_bspot. destruct sh as [|a [|b [|c sh]]]; try (contradiction H; reflexivity);
      unfold shape_eqb; destruct (list_eq_dec _ _ _); reflexivity.
  - intros n d ip H. unfold compute_bspot. rewrite shape_refl. cbn [negb]. 
    assert (G : shape_eqb (ip_shape ip) [n] = false). { unfold shape_eqb. destruct (list_eq_dec _ _ _); [contradiction|auto]. }
    rewrite G. reflexivity.
Qed.

Theorem C152_initial_dtype_refuted : forall (N : NumOps) (rank : list N -> list nat) (cost : nat -> nat -> N)
  (chs : list (bsp_choices N)) n d p,
  compute_bspot [n; d] [n; d] rank cost chs (Some (mk_init [n] false p)) = BRaise BBufferMismatch.
Proof.
  intros. unfold compute_bspot. rewrite shape_refl. cbn [negb ip_shape ip_int32].
  assert (G : shape_eqb [n] [n] = true) by (unfold shape_eqb; destruct (list_eq_dec _ _ _); congruence).
  rewrite G. reflexivity.
Qed.

Theorem C152_no_plan_refuted : forall (N : NumOps) (rank : list N -> list nat) (cost : nat -> nat -> N) n d,
  compute_bspot [n; d] [n; d] rank cost [] None = BUndefined.
Proof. intros. unfold compute_bspot. rewrite shape_refl. reflexivity. Qed.

(** In dimension one the slice of the orthogonal mode (default mode on fewer
    than 50 points) is, in exact arithmetic, the zero vector: it orders
    nothing, and the solver may return a bijection that is not optimal. *)
Definition flat_choices : bsp_choices RNum :=
  mk_choices (N:=RNum) (fun _ _ _ => (fun _ => 0, fun _ => 0)) (fun _ _ _ => 1%nat) (fun _ _ l _ => l).
Definition pt_x (i : nat) : R := INR i.
Definition pt_y (j : nat) : R := 1 - INR j.

Theorem C152_gaussian_line_refuted :
  (forall g prev : nat -> R, prev 0%nat <> 0 -> orth_slice (N:=RNum) 1 g prev 0%nat = 0) /\
  choices_ok flat_choices /\
  (forall path la lb, exists g prev : nat -> R, prev 0%nat <> 0 /\
     (forall i, fst (ch_slice flat_choices path la lb) i = orth_slice (N:=RNum) 1 g prev 0%nat * pt_x i) /\
     (forall j, snd (ch_slice flat_choices path la lb) j = orth_slice (N:=RNum) 1 g prev 0%nat * pt_y j)) /\
  (exists T, compute_bspot (N:=RNum) [2; 1]%nat [2; 1]%nat argsort (fun i j => Rabs (pt_x i - pt_y j)) [flat_choices] None
     = BRet (N:=RNum) 1 T) /\
  mean_cost 2 (fun i j => Rabs (pt_x i - pt_y j)) (fun i => (1 - i)%nat) = 0.
Proof.
  assert (Z : forall g prev : nat -> R, prev 0%nat <> 0 -> orth_slice (N:=RNum) 1 g prev 0%nat = 0).
  { intros g prev H. unfold orth_slice. cbn [nsum nadd nmul ndiv nsub n0 RNum]. match goal with |- @eq _ ?a ?b => change (@eq R a b) end. field. auto. }
  split; [exact Z|]. split; [|split; [|split]].
  - split.
    + intros path la lb. split; (split; [apply Permutation_refl|]); intros x y _ _; apply Rltb_false; cbn; lra.
    + intros path la lb H. cbn. lia.
  - intros path la lb. exists (fun _ => 1), (fun _ => 1). split; [lra|]. rewrite Z by lra. cbn [ch_slice flat_choices fst snd].
    split; intros; match goal with |- @eq _ ?a ?b => change (@eq R a b) end; ring.
  - eexists. unfold compute_bspot. rewrite shape_refl. cbn.
    match goal with |- BRet ?a ?b = _ => replace a with (n1 (n:=RNum)); [reflexivity|] end.
    change (@eq R 1 ((0 + Rabs (0 - pt_y 0) + Rabs (1 - pt_y 1)) / (0 + 1 + 1))).
    unfold pt_y. simpl. replace (0 - (1 - 0)) with (-1) by ring. replace (1 - (1 - 1)) with 1 by ring.
    rewrite (Rabs_left (-1)), Rabs_R1 by lra. field.
  - unfold mean_cost, pt_x, pt_y. cbn [rsum]. simpl.
    replace (0 - (1 - 1)) with 0 by ring. replace (1 - (1 - 0)) with 0 by ring. rewrite Rabs_R0. field.
Qed.

(** Admissible choices exist for every rule giving the slices: split in the
    middle and sort. *)
Fixpoint key_ins (key : nat -> R) (x : nat) (l : list nat) : list nat :=
  match l with [] => [x] | y :: l' => if Rlt_dec (key y) (key x) then y :: key_ins key x l' else x :: l end.
Definition key_sort (key : nat -> R) (l : list nat) : list nat := fold_right (key_ins key) [] l.
Definition sort_choices (slice : list bool -> list nat -> list nat -> (nat -> R) * (nat -> R)) : bsp_choices RNum :=
  mk_choices (N:=RNum) slice (fun _ la _ => Nat.div2 (length la)) (fun _ key l _ => key_sort key l).

Lemma key_ins_perm : forall key x l, Permutation (key_ins key x l) (x :: l).
Proof.
  induction l as [|y l IH]; simpl; auto. destruct (Rlt_dec (key y) (key x)); auto.
  rewrite IH. apply perm_swap.
Qed.
Lemma key_sort_perm : forall key l, Permutation (key_sort key l) l.
Proof. induction l; simpl; auto. rewrite key_ins_perm. auto. Qed.

Lemma key_ins_sorted : forall key x l, ForallOrdPairs (fun a b => key a <= key b) l ->
  ForallOrdPairs (fun a b => key a <= key b) (key_ins key x l).
Proof.
  induction l as [|y l IH]; intros H; simpl; [repeat constructor|]. inversion H; subst.
  destruct (Rlt_dec (key y) (key x)) as [L|L].
  - constructor; auto. apply Forall_forall. intros z Hz. eapply Permutation_in in Hz; [|apply key_ins_perm].
    destruct Hz as [<-|Hz]; [lra|]. rewrite Forall_forall in H2; auto.
  - constructor; auto. apply Forall_forall. intros z [<-|Hz]; [lra|]. rewrite Forall_forall in H2. specialize (H2 z Hz). lra.
Qed.

Lemma fop_split : forall (key : nat -> R) k l, ForallOrdPairs (fun a b => key a <= key b) l ->
  forall x y, In x (firstn k l) -> In y (skipn k l) -> key x <= key y.
Proof.
  induction k; intros l H x y Hx Hy; [inversion Hx|]. destruct l as [|z l]; [inversion Hx|]. inversion H; subst.
  simpl in Hx, Hy. destruct Hx as [<-|Hx]; [|apply (IHk l); auto]. rewrite Forall_forall in H2. apply H2.
  rewrite <- (firstn_skipn k l). apply in_app_iff; auto.
Qed.

Lemma sort_choices_ok : forall slice, choices_ok (sort_choices slice).
Proof.
  intros slice.
  assert (G : forall key l k, nth_spec (N:=RNum) key l (key_sort key l) k).
  { intros key l k. split; [apply key_sort_perm|]. intros x y Hx Hy. apply Rltb_false. apply (fop_split key k (key_sort key l)); auto.
    clear. induction l; simpl; [constructor|]. apply key_ins_sorted; auto. }
  split.
  - intros path la lb. split; apply G.
  - intros path la lb H. cbn [ch_pivot sort_choices]. destruct (length la) as [|[|m]] eqn:E; try lia.
    split; [simpl; lia|]. apply Nat.lt_div2. lia.
Qed.

(** The hypotheses of [C152_line] and [C152_similar] on two swapped points. *)
Definition line_ch : bsp_choices RNum := sort_choices (fun _ _ _ => (fun i => 2 * pt_x i, fun j => 2 * pt_y j)).
Example C152_case :
  choices_ok line_ch /\ line_slices pt_x pt_y line_ch /\ bijection 2 (fun i => (1 - i)%nat) /\
  (forall i k, (i < 2)%nat -> (k < 1)%nat -> pt_y (1 - i) = 1 * pt_x i + 0) /\
  proj_slices 1 (fun i _ => pt_x i) (fun j _ => pt_y j) 2 line_ch.
Proof.
  split; [apply sort_choices_ok|]. split; [|split; [|split]].
  - intros path la lb. exists 2. split; [lra|]. split; intros; reflexivity.
  - apply bij_perm. split; intros; lia.
  - intros i k Hi Hk. unfold pt_x, pt_y. destruct i as [|[|]]; try lia; simpl; ring.
  - intros path la lb. exists (fun _ => 2). split; [|split].
    + intros i. unfold dotp. cbn. ring.
    + intros j. unfold dotp. cbn. ring.
    + intros i j Hi Hj Hne. unfold dotp, pt_x. cbn [rsum]. destruct i as [|[|]], j as [|[|]]; try lia; simpl; lra.
Qed.

Print Assumptions C151_bijection.
Print Assumptions C151_cost.
Print Assumptions C151_wrapper.
Print Assumptions C151_fewer_refuted.
Print Assumptions C151_ignored_refuted.
Print Assumptions C151_errors.
Print Assumptions C152_bijection.
Print Assumptions C152_solver.
Print Assumptions C152_line.
Print Assumptions C152_similar.
Print Assumptions C152_errors.
Print Assumptions C152_initial_dtype_refuted.
Print Assumptions C152_no_plan_refuted.
Print Assumptions C152_gaussian_line_refuted.
