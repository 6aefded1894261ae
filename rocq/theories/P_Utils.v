(** C52-C56, C68: helpers of ot/utils.py. *)
From Coq Require Import List Reals Lra Lia QArith.
Import ListNotations.
From Verif Require Import Num Sums Spec Utils_model Utils_proofs Utils_batch.
Local Open Scope R_scope.

(** C52.  For z > 0, proj_simplex returns the point of the simplex of mass z closest to v;
    the last clause (Pythagoras) also makes it the only closest point.
    [sqdist n x y] is the sum of (x_i - y_i)^2. *)
Theorem C52_proj_simplex : forall n v z, (0 < n)%nat -> 0 < z ->
  let w := proj_simplex (N:=RNum) n v z in
  nonneg_vec n w /\ mass n w = z /\
  forall x, nonneg_vec n x -> mass n x = z -> sqdist n v w + sqdist n w x <= sqdist n v x.
Proof.
  intros n v z Hn Hz w. split; [apply proj_nonneg|]. split; [apply proj_mass; auto|].
  intros; apply proj_best; auto.
Qed.
Print Assumptions C52_proj_simplex.
(** every vector of the right mass that is at least as close is the returned one *)
Corollary C52_proj_simplex_unique : forall n v z x, (0 < n)%nat -> 0 < z -> nonneg_vec n x -> mass n x = z ->
  sqdist n v x <= sqdist n v (proj_simplex (N:=RNum) n v z) -> forall i, (i < n)%nat -> proj_simplex (N:=RNum) n v z i = x i.
Proof.
  intros n v z x Hn Hz Hx Mx H. destruct (C52_proj_simplex n v z Hn Hz) as (_ & _ & B). specialize (B x Hx Mx).
  assert (0 <= sqdist n (proj_simplex (N:=RNum) n v z) x) by apply sqdist_nonneg. apply sqdist_zero. lra.
Qed.
Print Assumptions C52_proj_simplex_unique.
Example proj_ex : map (proj_simplex (N:=QNum) 3 (fun i => nth i [2; 1 # 2; -1]%Q 0%Q) 2%Q) (seq 0 3) = [7 # 4; 1 # 4; 0]%Q.
Proof. vm_compute. reflexivity. Qed.

(** C68.  projection_sparse_simplex returns, among the points of the simplex of mass z with at
    most max_nz non-zero entries, one closest to v. *)
Theorem C68_sparse_projection : forall n v k z, 0 < z ->
  ((1 <= k <= n)%nat -> projection_sparse_simplex (N:=RNum) n v k z <> None) /\
  forall w, projection_sparse_simplex (N:=RNum) n v k z = Some w ->
  nonneg_vec n w /\ mass n w = z /\ (nnz n w <= k)%nat /\
  forall x, nonneg_vec n x -> mass n x = z -> (nnz n x <= k)%nat -> sqdist n v w <= sqdist n v x.
Proof.
  intros n v k z Hz. split.
  - intros [A B]. unfold projection_sparse_simplex. apply Nat.leb_le in A. apply Nat.leb_le in B. rewrite A, B. discriminate.
  - intros w E. split; [eapply sparse_nonneg; eauto|]. split; [eapply sparse_mass; eauto|].
    split; [eapply sparse_nnz; eauto|]. intros; eapply sparse_best; eauto.
Qed.
Print Assumptions C68_sparse_projection.
Example sparse_ex : option_map (fun w => map w (seq 0 4)) (projection_sparse_simplex (N:=QNum) 4 (fun i => nth i [1; 3; 2; 5 # 2]%Q 0%Q) 2 1%Q) = Some [0; 3 # 4; 0; 1 # 4]%Q.
Proof. vm_compute. reflexivity. Qed.

(** C53.  euclidean_distances: exact squared distances, never negative; with squared=False the
    Euclidean distance; the diagonal reset done when X is Y changes nothing. *)
Theorem C53_distances : forall d (X Y : mat) i j,
  let dist := rsum d (fun k => (X i k - Y j k) ^ 2) in
  euclidean_distances (N:=RNum) sqrt d X Y true false i j = dist /\ 0 <= dist /\
  euclidean_distances (N:=RNum) sqrt d X Y false false i j = sqrt dist /\
  forall sq, euclidean_distances (N:=RNum) sqrt d X X sq true i j = euclidean_distances (N:=RNum) sqrt d X X sq false i j.
Proof.
  intros d X Y i j dist. split; [apply eucl_sq|]. split; [apply (sqdist_nonneg d (X i) (Y j))|].
  split; [exact (eucl_gen sqrt d X Y false i j)|].
  intros sq. rewrite eucl_same. destruct (Nat.eqb_spec i j) as [-> |]; [|apply Rmult_1_r].
  rewrite eucl_gen. assert (Z : sqdist d (X j) (X j) = 0) by (apply rsum_0; intros; ring).
  rewrite Z, sqrt_0. destruct sq; apply Rmult_0_l.
Qed.
Print Assumptions C53_distances.
Example dist_ex : (euclidean_distances (N:=QNum) (fun x => x) 2 (fun i k => nth k [1; 2]%Q 0%Q) (fun _ k => nth k [3; 5]%Q 0%Q) true false 0 0 == 13)%Q.
Proof. reflexivity. Qed.

(** C54.  Batched reductions: any positive batch size, any number of slices.  A function that
    is additive over concatenation (sum) for axis=None; a function acting slice by slice for
    axis 0 and 1, with both code paths (slice assignment, concatenation). *)
Theorem C54_reduce_lazytensor : forall (A B : Type) (a : list A) bs, (0 < bs)%nat ->
  (forall func : list A -> R, func [] = 0 -> (forall x y, func (x ++ y) = func x + func y) ->
     reduce_all (N:=RNum) func a bs = Some (func a)) /\
  (forall (g : A -> B) (zero : B), reduce_axis zero (map g) a bs = Some (map g a)) /\
  (forall (g : A -> B), a <> [] -> reduce_axis_concat (map g) a bs = Some (map g a)).
Proof.
  intros A B a bs Hb. split; [|split].
  - intros; apply reduce_all_ok; auto.
  - intros g zero. apply reduce_axis_ok; auto using map_length, map_app.
  - intros g Ha. apply reduce_axis_concat_ok; auto using map_length, map_app.
Qed.
Print Assumptions C54_reduce_lazytensor.
(** the boundary: a function that is not additive gives batch-dependent results, and batch size
    0 raises *)
Theorem C54_not_additive_refuted : exists (func : list Q -> Q) a,
  reduce_all (N:=QNum) func a 1 = Some 5%Q /\ reduce_all (N:=QNum) func a 2 = Some 3%Q /\ func a = 3%Q /\ reduce_all (N:=QNum) func a 0 = None.
Proof. exists (fold_right (fun x y => if Qle_bool x y then y else x) 0%Q), [2; 3]%Q. vm_compute. auto. Qed.
Print Assumptions C54_not_additive_refuted.
Example reduce_ex : reduce_axis 0%nat (map S) [1; 2; 3; 4; 5]%nat 2 = Some [2; 3; 4; 5; 6]%nat.
Proof. reflexivity. Qed.

(** C55.  For every batch size, sparse_ot_dist returns the sum of w[i_k] d(i_k, j_k): the weight
    is looked up by sample number.  This is the documented sum of w_k d(i_k, j_k) when
    w[i_k] = w[k] for all k, e.g. for i the identity or constant weights. *)
Theorem C55_sparse_ot_dist : forall dist i j w obs,
  length i = length j -> length w = length i -> (forall x, In x i -> (x < length w)%nat) ->
  match obs with Some b => (0 < b)%nat | None => (0 < length i)%nat end ->
  sparse_ot_dist (N:=RNum) dist i j (Some w) obs =
    SpOk (rsum (length i) (fun k => dist (nth k i 0%nat) (nth k j 0%nat) * nth (nth k i 0%nat) w 0)) /\
  ((forall k, (k < length i)%nat -> nth (nth k i 0%nat) w 0 = nth k w 0) ->
   sparse_ot_dist (N:=RNum) dist i j (Some w) obs =
    SpOk (rsum (length i) (fun k => nth k w 0 * dist (nth k i 0%nat) (nth k j 0%nat)))).
Proof.
  intros dist i j w obs L Lw Hi Hb.
  assert (M := sparse_dist_ok dist i j (Some w) obs L Lw Hb ltac:(rewrite <- Lw; auto)).
  rewrite M. split; [reflexivity|]. intros H. f_equal. apply rsum_ext; intros k Hk. rewrite H; auto. ring.
Qed.
Print Assumptions C55_sparse_ot_dist.
(** The defect: the pairs (1,0) and (0,1) with weights 1/4 and 3/4 and costs 4 and 0 should give
    1; the code returns 3. *)
Theorem C55_weights_by_sample_refuted :
  exists (dist : nat -> nat -> Q) i j w, length i = length j /\ length w = length i /\
   sparse_ot_dist (N:=QNum) dist i j (Some w) None = SpOk 3%Q /\
   (fold_right Qplus 0 (map (fun k => nth k w 0 * dist (nth k i 0%nat) (nth k j 0%nat)) (seq 0 2)) == 1)%Q.
Proof.
  exists (fun i j => if Nat.eqb i 1 then 4%Q else 0%Q), [1; 0]%nat, [0; 1]%nat, [1 # 4; 3 # 4]%Q.
  vm_compute. auto.
Qed.
Print Assumptions C55_weights_by_sample_refuted.
(** Also a defect: a sample number that is not below the number of pairs is an IndexError, even
    with the default weights. *)
Theorem C55_index_error_refuted : exists i j, length i = length j /\
  sparse_ot_dist (N:=QNum) (fun i j => 1%Q) i j None None = SpIndexError.
Proof. exists [0; 2]%nat, [0; 0]%nat. vm_compute. auto. Qed.
Print Assumptions C55_index_error_refuted.

(** C56.  DataScaler, fitted on the rows of one or several arrays (X is their concatenation).
    standard: every column gets mean 0 and second moment 1, a constant column becomes 0. *)
Theorem C56_standard : forall d nm (l : list (data (N:=RNum))) s,
  nm = Standard -> let X := concat_data l in (0 < rows X)%nat ->
  fit (N:=RNum) sqrt (new_scaler nm) l = ScOk s ->
  exists T, transform (N:=RNum) sqrt d s X = ScOk T /\ rows T = rows X /\
  forall k, rsum (rows X) (fun i => entry_ T i k) = 0 /\
   ((forall i i', (i < rows X)%nat -> (i' < rows X)%nat -> entry_ X i k = entry_ X i' k) -> forall i, (i < rows X)%nat -> entry_ T i k = 0) /\
   (~ (forall i i', (i < rows X)%nat -> (i' < rows X)%nat -> entry_ X i k = entry_ X i' k) -> rsum (rows X) (fun i => (entry_ T i k) ^ 2) = INR (rows X)).
Proof.
  intros d nm l s -> X HX E. assert (F := fit_norm _ l s HX E). destruct F as [F1 F2]. cbn in F1.
  exists (apply_transform (N:=RNum) sqrt d s X). split; [unfold transform; rewrite F1, F2; reflexivity|].
  split; [unfold apply_transform; rewrite F1; reflexivity|].
  exact (standard_ok d (new_scaler Standard) l s HX E eq_refl).
Qed.
Print Assumptions C56_standard.
(** minmax: the fitted data fill [0,1] in every column; a constant column becomes 0. *)
Theorem C56_minmax : forall d nm (l : list (data (N:=RNum))) s,
  nm = MinMax -> let X := concat_data l in (0 < rows X)%nat ->
  fit (N:=RNum) sqrt (new_scaler nm) l = ScOk s ->
  exists T, transform (N:=RNum) sqrt d s X = ScOk T /\ rows T = rows X /\
  forall k, (forall i, (i < rows X)%nat -> 0 <= entry_ T i k <= 1) /\ (exists i, (i < rows X)%nat /\ entry_ T i k = 0) /\
    ((forall i i', (i < rows X)%nat -> (i' < rows X)%nat -> entry_ X i k = entry_ X i' k) \/ exists i, (i < rows X)%nat /\ entry_ T i k = 1).
Proof.
  intros d nm l s -> X HX E. assert (F := fit_norm _ l s HX E). destruct F as [F1 F2]. cbn in F1.
  exists (apply_transform (N:=RNum) sqrt d s X). split; [unfold transform; rewrite F1, F2; reflexivity|].
  split; [unfold apply_transform; rewrite F1; reflexivity|].
  exact (minmax_ok d (new_scaler MinMax) l s HX E eq_refl).
Qed.
Print Assumptions C56_minmax.
(** l2: rows of unit norm, zero rows left alone; no fit needed. *)
Theorem C56_l2 : forall d (X : data (N:=RNum)),
  exists T, transform (N:=RNum) sqrt d (new_scaler L2) X = ScOk T /\ rows T = rows X /\ forall i,
   let sq := rsum d (fun k => entry_ X i k ^ 2) in
   (sq = 0 -> forall k, (k < d)%nat -> entry_ T i k = 0) /\
   (sq <> 0 -> rsum d (fun k => entry_ T i k ^ 2) = 1 /\ forall k, entry_ T i k = entry_ X i k / sqrt sq).
Proof. intros. apply l2_ok. reflexivity. Qed.
Print Assumptions C56_l2.

(** Call histories, any arithmetic: after any sequence of successful fits only the last one
    matters; without a fit, transform raises unless the norm is l2. *)
Fixpoint fit_all {N : NumOps} (sq : N -> N) (s : scaler (N:=N)) (h : list (list (data (N:=N)))) : sc_res (scaler (N:=N)) :=
  match h with
  | [] => ScOk s
  | l :: h' => match fit sq s l with ScOk s' => fit_all sq s' h' | e => e end
  end.
Theorem C56_history : forall (N : NumOps) (sq : N -> N) d nm,
  (forall X, nm <> L2 -> transform sq d (new_scaler nm) X = ScRuntimeError) /\
  (forall h l s X, fit_all sq (new_scaler nm) (h ++ [l]) = ScOk s ->
     exists s1, fit sq (new_scaler nm) l = ScOk s1 /\ transform sq d s X = transform sq d s1 X /\
       exists T, transform sq d s X = ScOk T).
Proof.
  intros N sq d nm. split.
  - intros X H. unfold transform, new_scaler. destruct nm; cbn; auto. congruence.
  - intros h l s X. assert (G : forall s0, sc_norm s0 = nm -> fit_all sq s0 (h ++ [l]) = ScOk s ->
      exists s1, fit sq (new_scaler nm) l = ScOk s1 /\ transform sq d s X = transform sq d s1 X /\ exists T, transform sq d s X = ScOk T).
    { induction h as [|l0 h IH]; intros s0 E F.
      - cbn [app fit_all] in F. destruct (fit sq s0 l) eqn:Ef; try discriminate. injection F as <-.
        unfold fit in *. destruct l as [|x0 l]; [discriminate|]. rewrite E in Ef. cbn [new_scaler sc_norm].
        destruct nm; injection Ef as <-; eexists; (split; [reflexivity|]); split; try reflexivity; eexists; reflexivity.
      - cbn [app fit_all] in F. destruct (fit sq s0 l0) eqn:Ef; try discriminate. apply (IH x); auto.
        unfold fit in Ef. destruct l0; [discriminate|]. destruct (sc_norm s0) eqn:Es; injection Ef as <-; cbn; congruence. }
    apply G. reflexivity.
Qed.
Print Assumptions C56_history.
(** a two-column data set, second column constant, scaled with minmax *)
Example scaler_ex :
  match fit (N:=QNum) (fun x => x) (new_scaler MinMax) [mkdata (N:=QNum) 3 (fun i k => nth k [nth i [4; 2; 3]%Q 0%Q; 7]%Q 0%Q)] with
  | ScOk s => match transform (N:=QNum) (fun x => x) 2 s (mkdata (N:=QNum) 3 (fun i k => nth k [nth i [4; 2; 3]%Q 0%Q; 7]%Q 0%Q)) with
     | ScOk T => map (fun i => (entry_ T i 0%nat, entry_ T i 1%nat)) (seq 0 3) = [(1, 0); (0, 0); (1 # 2, 0)]%Q
     | _ => False end
  | _ => False end.
Proof. vm_compute. reflexivity. Qed.
