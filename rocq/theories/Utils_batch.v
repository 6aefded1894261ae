(** Proofs about Utils_model: distances, batched loops, DataScaler. *)
From Coq Require Import List Arith Bool Reals Lra Lia Permutation.
From Verif Require Import Num Sums Spec Perm Duals_proofs Optim_proofs Emd1d_model Emd1d_proofs Emd1d_perm_proofs Utils_model Utils_proofs Graph_proofs.
Import ListNotations.
Local Open Scope R_scope.

(** ** euclidean_distances *)
Lemma eucl_sq : forall (f : R -> R) d X Y i j,
  euclidean_distances (N:=RNum) f d X Y true false i j = sqdist d (X i) (Y j).
Proof.
  intros. unfold euclidean_distances. rewrite nmax_R. unfold nopp. rewrite !nsum_R. cbn.
  assert (E : (0 - (1 + 1)) * rsum d (fun k => X i k * Y j k) + rsum d (fun k => X i k * X i k) + rsum d (fun k => Y j k * Y j k) = sqdist d (X i) (Y j)).
  { unfold sqdist. rewrite <- rsum_scal, <- !rsum_plus. apply rsum_ext; intros; ring. }
  rewrite E. apply Rmax_left. apply sqdist_nonneg.
Qed.
Lemma eucl_gen : forall (f : R -> R) d X Y sq i j,
  euclidean_distances (N:=RNum) f d X Y sq false i j = if sq then sqdist d (X i) (Y j) else f (sqdist d (X i) (Y j)).
Proof. intros. destruct sq; [apply eucl_sq|]. exact (f_equal f (eucl_sq f d X Y i j)). Qed.
Lemma eucl_same : forall (f : R -> R) d X Y sq i j,
  euclidean_distances (N:=RNum) f d X Y sq true i j
  = euclidean_distances (N:=RNum) f d X Y sq false i j * (if Nat.eqb i j then 0 else 1).
Proof. intros. unfold euclidean_distances. cbn [nmul nsub n1 n0 RNum]. destruct (Nat.eqb i j); cbn; f_equal; ring. Qed.

(** ** batches *)
Lemma slice_app : forall A (a : list A) b bs, skipn b a = slice a b (b + bs) ++ skipn (b + bs) a.
Proof.
  intros. unfold slice. replace (b + bs - b)%nat with bs by lia.
  assert (S : skipn (b + bs) a = skipn bs (skipn b a)).
  { revert a; induction b; intros; [reflexivity|]. destruct a; cbn; [destruct bs; reflexivity|apply IHb]. }
  rewrite S. symmetry. apply firstn_skipn.
Qed.
Lemma slice_len : forall A (a : list A) b bs, length (slice a b (b + bs)) = Nat.min bs (length a - b).
Proof. intros. unfold slice. rewrite firstn_length, skipn_length. lia. Qed.
Lemma slice_map : forall A B (f : A -> B) a b e, slice (map f a) b e = map f (slice a b e).
Proof. intros. unfold slice. rewrite skipn_map, firstn_map. reflexivity. Qed.

Section Batches.
Context {A : Type}.
Lemma batches_concat : forall fuel start (a : list A) bs, (0 < bs)%nat -> (length a - start <= fuel)%nat ->
  concat (map (fun i => slice a i (i + bs)) (range_from fuel start (length a) bs)) = skipn start a.
Proof.
  induction fuel; intros start a bs Hb Hf; cbn [range_from].
  - cbn. rewrite skipn_all2 by lia. reflexivity.
  - destruct (Nat.ltb_spec start (length a)).
    + cbn [map concat]. rewrite IHfuel by lia. symmetry. apply slice_app.
    + cbn. rewrite skipn_all2 by lia. reflexivity.
Qed.
Lemma reduce_all_ok : forall (func : list A -> R) (a : list A) bs, (0 < bs)%nat ->
  func [] = 0 -> (forall x y, func (x ++ y) = func x + func y) ->
  reduce_all (N:=RNum) func a bs = Some (func a).
Proof.
  intros func a bs Hb H0 Ha. unfold reduce_all, range. destruct (Nat.eqb_spec bs 0); [lia|]. f_equal.
  assert (F : forall fuel start (r : R), (length a - start <= fuel)%nat ->
     reduce_all_loop (N:=RNum) func a bs (range_from fuel start (length a) bs) r = r + func (skipn start a)).
  { induction fuel; intros start r Hf; cbn [range_from].
    - cbn [reduce_all_loop]. rewrite skipn_all2 by lia. rewrite H0. lra.
    - destruct (Nat.ltb_spec start (length a)); cbn [reduce_all_loop].
      + rewrite IHfuel by lia. rewrite (slice_app A a start bs), Ha. cbn. lra.
      + rewrite skipn_all2 by lia. rewrite H0. lra. }
  rewrite F by lia. cbn. lra.
Qed.

Context {B : Type}.
Variables (func : list A -> list B).
Hypothesis Hlen : forall x, length (func x) = length x.
Hypothesis Happ : forall x y, func (x ++ y) = func x ++ func y.
Lemma reduce_axis_loop_ok : forall fuel start (a : list A) bs z, (0 < bs)%nat -> (length a - start <= fuel)%nat -> (start <= length a)%nat ->
  reduce_axis_loop func a bs (range_from fuel start (length a) bs) (func (firstn start a) ++ repeat z (length a - start)) = Some (func a).
Proof.
  induction fuel; intros start a bs z Hb Hf Hs; cbn [range_from reduce_axis_loop].
  - replace (length a - start)%nat with 0%nat by lia. cbn. rewrite app_nil_r, firstn_all2 by lia. reflexivity.
  - destruct (Nat.ltb_spec start (length a)); cbn [reduce_axis_loop].
    2:{ replace (length a - start)%nat with 0%nat by lia. cbn. rewrite app_nil_r, firstn_all2 by lia. reflexivity. }
    set (q := Nat.min bs (length a - start)).
    assert (L1 : length (func (firstn start a)) = start) by (rewrite Hlen, firstn_length; lia).
    assert (L2 : length (func (slice a start (start + bs))) = q) by (rewrite Hlen, slice_len; reflexivity).
    assert (NX : set_slice (func (firstn start a) ++ repeat z (length a - start)) start bs (func (slice a start (start + bs)))
                 = Some (func (firstn (start + q) a) ++ repeat z (length a - (start + q)))).
    { unfold set_slice. rewrite slice_len, app_length, repeat_length, L1, L2.
      replace (Nat.min bs (start + (length a - start) - start)) with q by (unfold q; lia). rewrite Nat.eqb_refl. f_equal.
      rewrite firstn_app, L1. replace (start - start)%nat with 0%nat by lia. rewrite firstn_O, app_nil_r, (firstn_all2 (func (firstn start a))) by lia.
      rewrite skipn_app, L1. rewrite (skipn_all2 (func (firstn start a))) by lia. cbn [app].
      replace (start + q - start)%nat with q by lia.
      assert (R : forall k c, skipn k (repeat z c) = repeat z (c - k)).
      { clear. induction k; intros c; [rewrite Nat.sub_0_r; reflexivity|]. destruct c; [reflexivity|]. cbn. apply IHk. }
      rewrite R. replace (length a - start - q)%nat with (length a - (start + q))%nat by lia.
      rewrite app_assoc, <- Happ. f_equal. f_equal.
      assert (T : firstn (start + q) a = firstn start a ++ firstn q (skipn start a)).
      { rewrite <- (firstn_skipn start a) at 1. rewrite firstn_app, firstn_firstn, firstn_length.
        replace (Nat.min (start + q) start) with start by lia.
        replace (start + q - Nat.min start (length a))%nat with q by lia. reflexivity. }
      rewrite T. f_equal. unfold slice. replace (start + bs - start)%nat with bs by lia. unfold q.
      destruct (Nat.le_ge_cases bs (length a - start)) as [Hq|Hq].
      + rewrite Nat.min_l by lia. reflexivity.
      + rewrite Nat.min_r by lia. rewrite !firstn_all2; auto; rewrite skipn_length; lia. }
    rewrite NX. destruct (Nat.le_ge_cases bs (length a - start)) as [Hq|Hq].
    + unfold q. rewrite Nat.min_l by lia. apply IHfuel; lia.
    + unfold q. rewrite Nat.min_r by lia. replace (length a - (start + (length a - start)))%nat with 0%nat by lia.
      cbn [repeat]. rewrite app_nil_r. rewrite firstn_all2 by lia.
      destruct fuel; [reflexivity|]. cbn [range_from]. destruct (Nat.ltb_spec (start + bs) (length a)); [lia|reflexivity].
Qed.
Lemma reduce_axis_ok : forall z (a : list A) bs, (0 < bs)%nat -> reduce_axis z func a bs = Some (func a).
Proof.
  intros z a bs Hb. unfold reduce_axis, range. destruct (Nat.eqb_spec bs 0); [lia|].
  assert (N : func [] = []) by (apply length_zero_iff_nil; rewrite Hlen; auto).
  replace (repeat z (length a)) with (func (firstn 0 a) ++ repeat z (length a - 0)).
  - apply reduce_axis_loop_ok; lia.
  - cbn [firstn]. rewrite N, Nat.sub_0_r. reflexivity.
Qed.
Lemma reduce_axis_concat_ok : forall (a : list A) bs, (0 < bs)%nat -> a <> [] -> reduce_axis_concat func a bs = Some (func a).
Proof.
  intros a bs Hb Ha. unfold reduce_axis_concat, range. destruct (Nat.eqb_spec bs 0); [lia|].
  assert (N : func [] = []) by (apply length_zero_iff_nil; rewrite Hlen; auto).
  assert (C : concat (map (fun i => func (slice a i (i + bs))) (range_from (length a) 0 (length a) bs)) = func a).
  { transitivity (func (concat (map (fun i => slice a i (i + bs)) (range_from (length a) 0 (length a) bs)))).
    - generalize (range_from (length a) 0 (length a) bs). induction l; cbn; [auto|]. rewrite Happ, IHl; auto.
    - rewrite batches_concat by lia. reflexivity. }
  destruct (range_from (length a) 0 (length a) bs) eqn:E.
  - destruct a; [congruence|]. cbn in E. discriminate.
  - rewrite <- E in *. f_equal. exact C.
Qed.
End Batches.

(** ** sparse_ot_dist *)
Lemma take_app : forall A (w : list A) i1 i2, take w (i1 ++ i2) =
  match take w i1, take w i2 with Some a, Some b => Some (a ++ b) | _, _ => None end.
Proof.
  induction i1; intros; cbn; [destruct (take w i2); reflexivity|]. rewrite IHi1.
  destruct (nth_error w a); [|destruct (take w i1), (take w i2); reflexivity].
  destruct (take w i1), (take w i2); reflexivity.
Qed.
Lemma take_len : forall A (w : list A) i l, take w i = Some l -> length l = length i.
Proof.
  induction i; intros l H; cbn in H; [injection H as <-; reflexivity|].
  destruct (nth_error w a), (take w i); try discriminate. injection H as <-. cbn. f_equal. apply IHi; auto.
Qed.
Definition sp_sum (dist : nat -> nat -> R) (w : list R) (i j : list nat) : R :=
  rsum (length i) (fun k => dist (nth k i 0%nat) (nth k j 0%nat) * nth (nth k i 0%nat) w 0).
Lemma sp_batch_ok : forall dist (w : list R) i j, length i = length j -> (forall x, In x i -> (x < length w)%nat) ->
  sp_batch (N:=RNum) dist w i j = SpOk (sp_sum dist w i j).
Proof.
  intros dist w i j L H. unfold sp_batch. rewrite (take_ok (carrier RNum) 0 w i H). f_equal.
  rewrite lsum_rsum. unfold sp_sum, lnth. rewrite map_length, !combine_length, map_length, <- L, !Nat.min_id.
  apply rsum_ext; intros k Hk.
  set (f := fun t : nat * nat * RNum => _). rewrite (nth_indep _ 0 (f (0%nat, 0%nat, nth 0 w 0))) by (rewrite map_length, !combine_length, map_length; lia).
  rewrite map_nth. rewrite combine_nth by (rewrite combine_length, map_length; lia). rewrite combine_nth by auto.
  unfold f. cbn [fst snd nmul RNum]. f_equal.
  exact (map_nth (fun k => nth k w 0) i 0%nat k).
Qed.
Lemma sp_sum_app : forall dist w i1 i2 j1 j2, length i1 = length j1 -> sp_sum dist w (i1 ++ i2) (j1 ++ j2) = sp_sum dist w i1 j1 + sp_sum dist w i2 j2.
Proof.
  intros. unfold sp_sum. rewrite app_length, rsum_split. f_equal.
  - apply rsum_ext; intros k Hk. rewrite !app_nth1 by lia. reflexivity.
  - apply rsum_ext; intros k Hk. rewrite !app_nth2 by lia. rewrite <- H. replace (length i1 + k - length i1)%nat with k by lia. reflexivity.
Qed.
Lemma sp_loop_ok : forall dist (w : list R) i j bs, (0 < bs)%nat -> length i = length j -> (forall x, In x i -> (x < length w)%nat) ->
  forall fuel start (d : R), (length i - start <= fuel)%nat ->
  sp_loop (N:=RNum) dist w i j bs (range_from fuel start (length i) bs) d = SpOk (d + sp_sum dist w (skipn start i) (skipn start j)).
Proof.
  intros dist w i j bs Hb L H. induction fuel; intros start d Hf; cbn [range_from sp_loop].
  - rewrite !skipn_all2 by lia. f_equal. unfold sp_sum. cbn. lra.
  - destruct (Nat.ltb_spec start (length i)); cbn [sp_loop].
    2:{ rewrite !skipn_all2 by lia. f_equal. unfold sp_sum. cbn. lra. }
    rewrite sp_batch_ok.
    + rewrite IHfuel by lia. f_equal. rewrite (slice_app nat i start bs), (slice_app nat j start bs).
      rewrite sp_sum_app by (rewrite !slice_len; lia). cbn. lra.
    + rewrite !slice_len. lia.
    + intros x Hx. apply H. unfold slice in Hx. apply (In_nth _ _ 0%nat) in Hx. destruct Hx as (k & K1 & <-).
      rewrite firstn_length, skipn_length in K1.
      assert (T : forall (l : list nat) k c, (k < c)%nat -> nth k (firstn c l) 0%nat = nth k l 0%nat).
      { clear. induction l; intros k c Hk; [rewrite firstn_nil; reflexivity|]. destruct c; [lia|]. destruct k; cbn; auto. apply IHl; lia. }
      rewrite T by lia. assert (U : forall (l : list nat) s k, nth k (skipn s l) 0%nat = nth (s + k) l 0%nat).
      { clear. induction l; intros s k; [rewrite skipn_nil; destruct k, s; reflexivity|]. destruct s; cbn; auto. }
      rewrite U. apply nth_In. lia.
Qed.
Lemma sparse_dist_ok : forall dist i j ow obs,
  length i = length j -> match ow with Some w => length w = length i | None => True end ->
  match obs with Some b => (0 < b)%nat | None => (0 < length i)%nat end ->
  (forall x, In x i -> (x < length i)%nat) ->
  sparse_ot_dist (N:=RNum) dist i j ow obs =
   SpOk (sp_sum dist (match ow with Some w => w | None => repeat (1 / INR (length i)) (length i) end) i j).
Proof.
  intros dist i j ow obs L Lw Hb Hi. unfold sparse_ot_dist. rewrite L, Nat.eqb_refl. cbn [negb].
  rewrite <- L. replace (match ow with Some w => negb (length w =? length i)%nat | None => false end) with false.
  2:{ destruct ow as [w|]; auto. symmetry. apply negb_false_iff, Nat.eqb_eq. exact Lw. }
  rewrite nofnat_INR.
  set (bs := match obs with Some b => b | None => length i end). assert (0 < bs)%nat by (unfold bs; destruct obs; auto).
  unfold range. destruct (Nat.eqb_spec bs 0); [lia|].
  rewrite sp_loop_ok; auto; [|destruct ow as [w|]; [intros x Hx; apply Hi in Hx; cbn in *; lia|rewrite repeat_length; auto] |lia].
  f_equal. cbn. rewrite Rplus_0_l. reflexivity.
Qed.

(** ** DataScaler *)
Lemma concat_rows : forall (l : list (data (N:=RNum))), rows (concat_data l) = fold_right (fun x s => (rows x + s)%nat) 0%nat l.
Proof. induction l; cbn; auto. Qed.

Lemma cancel_mul : forall c e : R, 0 < c -> e = c * e / c.
Proof. intros. field. lra. Qed.

Lemma centre_zero : forall S c h : R, 0 < c -> 0 < h -> (S - c * (S / c)) / h = 0.
Proof. intros. field. lra. Qed.
Lemma self_one : forall h : R, h <> 0 -> h / h = 1.
Proof. intros. field. auto. Qed.
Lemma self_zero : forall x h : R, 0 < h -> (x - x) / h = 0.
Proof. intros. field. lra. Qed.
Lemma sq_div : forall x h : R, 0 < h -> (x / h) ^ 2 = x * x / (h * h).
Proof. intros. field. lra. Qed.
Lemma cancel_sq : forall c h : R, h <> 0 -> c * (h * h) / (h * h) = c.
Proof. intros. field. auto. Qed.

Section Scale.
Variables (d : nat) (s : scaler (N:=RNum)) (l : list (data (N:=RNum))) (s' : scaler (N:=RNum)).
Let X := concat_data l.
Let n := rows X.
Hypothesis Hn : (0 < n)%nat.
Hypothesis Hf : fit (N:=RNum) sqrt s l = ScOk s'.

Lemma INRn : 0 < INR n. Proof. apply lt_0_INR; auto. Qed.
Lemma var_nonneg : forall k, 0 <= rsum n (fun i => (entry_ X i k - mean (N:=RNum) X k) * (entry_ X i k - mean (N:=RNum) X k)).
Proof. intros. apply rsum_nonneg; intros. apply Rle_0_sqr. Qed.
Lemma mean_R : forall k, mean (N:=RNum) X k = rsum n (fun i => entry_ X i k) / INR n.
Proof. intros. unfold mean. rewrite nsum_R, nofnat_INR. reflexivity. Qed.
Lemma std_R : forall k, std (N:=RNum) sqrt X k = sqrt (rsum n (fun i => (entry_ X i k - mean (N:=RNum) X k) * (entry_ X i k - mean (N:=RNum) X k)) / INR n).
Proof. intros. unfold std. rewrite nsum_R, nofnat_INR. reflexivity. Qed.
Lemma std_nonneg : forall k, 0 <= std (N:=RNum) sqrt X k.
Proof. intros. rewrite std_R. apply sqrt_pos. Qed.
Lemma std_sq : forall k, INR n * (std (N:=RNum) sqrt X k * std (N:=RNum) sqrt X k) = rsum n (fun i => (entry_ X i k - mean (N:=RNum) X k) * (entry_ X i k - mean (N:=RNum) X k)).
Proof.
  intros. rewrite std_R. assert (P := INRn). rewrite sqrt_sqrt.
  - field. lra.
  - apply Rmult_le_pos; [apply var_nonneg|]. apply Rlt_le, Rinv_0_lt_compat; auto.
Qed.
Lemma std_zero : forall k, std (N:=RNum) sqrt X k = 0 <-> (forall i i', (i < n)%nat -> (i' < n)%nat -> entry_ X i k = entry_ X i' k).
Proof.
  intros k. split.
  - intros E. assert (S := std_sq k). rewrite E in S.
    assert (Z : forall i, (i < n)%nat -> entry_ X i k = mean (N:=RNum) X k).
    { intros i Hi. assert ((entry_ X i k - mean (N:=RNum) X k) * (entry_ X i k - mean (N:=RNum) X k) = 0).
      { apply (rsum_nonneg_zero n (fun i => (entry_ X i k - mean (N:=RNum) X k) * (entry_ X i k - mean (N:=RNum) X k))); auto; [intros; apply Rle_0_sqr|lra]. }
      apply Rmult_integral in H. cbn in *. destruct H; lra. }
    intros i i' Hi Hi'. rewrite !Z; auto.
  - intros E. rewrite std_R. rewrite (rsum_0 n). unfold Rdiv. rewrite Rmult_0_l. apply sqrt_0.
    intros i Hi. assert (H : @eq R (entry_ X i k) (mean (N:=RNum) X k)).
    { rewrite mean_R. rewrite (rsum_ext n _ (fun _ => entry_ X i k)) by (intros; apply E; auto).
      rewrite rsum_const. exact (cancel_mul _ _ INRn). }
    rewrite <- H. cbn. ring.
Qed.

Lemma fit_norm : sc_norm s' = sc_norm s /\ sc_fitted s' = true.
Proof. unfold fit in Hf. destruct l; [discriminate|]. destruct (sc_norm s); injection Hf as <-; auto. Qed.
Lemma fit_standard : sc_norm s = Standard -> (forall k, sc_lo s' k = mean (N:=RNum) X k) /\
  (forall k, sc_hi s' k = if Reqb (std (N:=RNum) sqrt X k) 0 then 1 else std (N:=RNum) sqrt X k).
Proof. intros E. unfold fit in Hf. rewrite E in Hf. unfold X. destruct l; [discriminate|]. injection Hf as <-. auto. Qed.
Lemma fit_minmax : sc_norm s = MinMax -> let mn := fun k => @nmink RNum (n - 1) (fun i => entry_ X i k) in
  let mx := fun k => @nmaxk RNum (n - 1) (fun i => entry_ X i k) in
  (forall k, sc_lo s' k = mn k) /\ (forall k, sc_hi s' k = if Reqb (mx k) (mn k) then mn k + 1 else mx k).
Proof. intros E. unfold fit in Hf. rewrite E in Hf. unfold n, X. destruct l; [discriminate|]. injection Hf as <-. auto. Qed.

Lemma hi_pos : sc_norm s = Standard -> forall k, 0 < sc_hi s' k.
Proof.
  intros E k. destruct (fit_standard E) as [_ H]. rewrite H. unfold Reqb. destruct (Req_EM_T (std (N:=RNum) sqrt X k) 0); [lra|].
  assert (H1 := std_nonneg k). cbn in *. lra.
Qed.
Lemma standard_ok : sc_norm s = Standard -> let T := entry_ (apply_transform (N:=RNum) sqrt d s' X) in
  forall k, rsum n (fun i => T i k) = 0 /\
    ((forall i i', (i < n)%nat -> (i' < n)%nat -> entry_ X i k = entry_ X i' k) -> forall i, (i < n)%nat -> T i k = 0) /\
    (~ (forall i i', (i < n)%nat -> (i' < n)%nat -> entry_ X i k = entry_ X i' k) -> rsum n (fun i => (T i k) ^ 2) = INR n).
Proof.
  intros E T k. destruct (fit_standard E) as [Hl Hh]. assert (P := INRn). assert (Q := hi_pos E k).
  assert (TE : forall i, T i k = (entry_ X i k - mean (N:=RNum) X k) / sc_hi s' k).
  { intros i. unfold T, apply_transform. rewrite (proj1 fit_norm), E. cbn. rewrite Hl. reflexivity. }
  split; [|split].
  - rewrite (rsum_ext n _ (fun i => (entry_ X i k - mean (N:=RNum) X k) / sc_hi s' k)) by (intros; apply TE).
    rewrite rsum_div, rsum_minus, rsum_const, mean_R. exact (centre_zero _ _ _ P Q).
  - intros C i Hi. rewrite TE. assert (H : @eq R (entry_ X i k) (mean (N:=RNum) X k)).
    { rewrite mean_R. rewrite (rsum_ext n _ (fun _ => entry_ X i k)) by (intros; apply C; auto). rewrite rsum_const. exact (cancel_mul _ _ P). }
    rewrite H. exact (self_zero _ _ Q).
  - intros C. rewrite (rsum_ext n _ (fun i => ((entry_ X i k - mean (N:=RNum) X k) * (entry_ X i k - mean (N:=RNum) X k)) / (sc_hi s' k * sc_hi s' k))).
    2:{ intros i Hi. rewrite TE. exact (sq_div _ _ Q). }
    rewrite rsum_div, <- std_sq, Hh. unfold Reqb. destruct (Req_EM_T (std (N:=RNum) sqrt X k) 0) as [Z|Z]; [exfalso; apply C, std_zero; auto|].
    exact (cancel_sq _ _ Z).
Qed.
Lemma minmax_ok : sc_norm s = MinMax -> let T := entry_ (apply_transform (N:=RNum) sqrt d s' X) in
  forall k, (forall i, (i < n)%nat -> 0 <= T i k <= 1) /\ (exists i, (i < n)%nat /\ T i k = 0) /\
    ((forall i i', (i < n)%nat -> (i' < n)%nat -> entry_ X i k = entry_ X i' k) \/ exists i, (i < n)%nat /\ T i k = 1).
Proof.
  intros E T k. destruct (fit_minmax E) as [Hl Hh].
  set (f := fun i => entry_ X i k).
  destruct (nmink_R (n - 1) f) as [A1 (i0 & A2 & A3)].
  assert (B1 := nmaxk_ge (n - 1) f). destruct (nmaxk_In (n - 1) f) as (i1 & B2 & B3).
  set (mn := @nmink RNum (n - 1) f) in *. set (mx := @nmaxk RNum (n - 1) f) in *.
  assert (Hlo : sc_lo s' k = mn) by apply Hl. assert (Hhi : sc_hi s' k = if Reqb mx mn then mn + 1 else mx) by apply Hh.
  assert (TE : forall i, T i k = (f i - mn) / (sc_hi s' k - mn)).
  { intros i. unfold T, apply_transform. rewrite (proj1 fit_norm), E. cbn. cbn in Hlo. rewrite Hlo. reflexivity. }
  assert (MM : mn <= mx). { apply Rle_trans with (f 0%nat); [apply A1; lia|apply B1; lia]. }
  assert (W : mn < sc_hi s' k). { rewrite Hhi. unfold Reqb. destruct (Req_EM_T mx mn); cbn in *; lra. }
  assert (V : mx <= sc_hi s' k). { rewrite Hhi. unfold Reqb. destruct (Req_EM_T mx mn); cbn in *; lra. }
  split; [|split].
  - intros i Hi. rewrite TE. assert (mn <= f i) by (apply A1; lia). assert (f i <= mx) by (apply B1; lia).
    assert (P : 0 < sc_hi s' k - mn) by (cbn in *; lra). split.
    + apply Rmult_le_pos; [cbn in *; lra|]. apply Rlt_le, Rinv_0_lt_compat; auto.
    + apply (Rmult_le_reg_r (sc_hi s' k - mn)); auto. unfold Rdiv. rewrite Rmult_assoc, Rinv_l by (cbn in *; lra). cbn in *. lra.
  - exists i0. split; [lia|]. rewrite TE, <- A3. apply (self_zero mn (sc_hi s' k - mn)). cbn in *. lra.
  - unfold Reqb in Hhi. destruct (Req_EM_T mx mn) as [Z|Z].
    + left. intros i i' Hi Hi'. change (f i = f i'). assert (mn <= f i) by (apply A1; lia). assert (f i <= mx) by (apply B1; lia).
      assert (mn <= f i') by (apply A1; lia). assert (f i' <= mx) by (apply B1; lia). cbn in *. lra.
    + right. exists i1. split; [lia|]. rewrite TE, <- B3, Hhi. apply (self_one (mx - mn)). cbn in *. lra.
Qed.
End Scale.
Lemma l2_ok : forall d (s : scaler (N:=RNum)) (X : data (N:=RNum)), sc_norm s = L2 ->
  exists T, transform (N:=RNum) sqrt d s X = ScOk T /\ rows T = rows X /\ forall i,
   let sq := rsum d (fun k => entry_ X i k ^ 2) in
   (sq = 0 -> forall k, (k < d)%nat -> entry_ T i k = 0) /\
   (sq <> 0 -> rsum d (fun k => entry_ T i k ^ 2) = 1 /\ forall k, entry_ T i k = entry_ X i k / sqrt sq).
Proof.
  intros d s X E. eexists. split; [unfold transform; rewrite E; reflexivity|]. unfold apply_transform. rewrite E. cbn [rows entry_].
  split; [reflexivity|]. intros i. set (sq := rsum d (fun k => entry_ X i k ^ 2)). rewrite nsum_R.
  assert (S : rsum d (fun k => nmul (entry_ X i k) (entry_ X i k)) = sq) by (apply rsum_ext; intros; cbn; ring).
  rewrite S. assert (P : 0 <= sq) by (apply rsum_nonneg; intros; apply pow2_ge_0).
  split.
  - intros Z k Hk. assert (entry_ X i k ^ 2 = 0).
    { apply (rsum_nonneg_zero d (fun k => entry_ X i k ^ 2)); auto. intros; apply pow2_ge_0. }
    assert (entry_ X i k = 0) by (cbn in *; nra). cbn. rewrite H0. unfold Rdiv. ring.
  - intros Z. assert (Q : 0 < sq) by lra. apply sqrt_lt_R0 in Q.
    assert (N : (if neqb (n:=RNum) (sqrt sq) (@n0 RNum) then @n1 RNum else sqrt sq) = sqrt sq).
    { cbn. unfold Reqb. destruct (Req_EM_T (sqrt sq) 0); auto. lra. }
    rewrite N. split; [|reflexivity].
    rewrite (rsum_ext d _ (fun k => entry_ X i k ^ 2 / (sqrt sq * sqrt sq))).
    2:{ intros k Hk. cbn. field. lra. }
    rewrite rsum_div. fold sq. rewrite sqrt_sqrt by lra. field. lra.
Qed.
