(** partial_wasserstein_1d: what the preprocessing of the model computes *)
From Coq Require Import Reals Lra Lia List Arith ZArith Permutation Bool.
From Verif Require Import Num Sums Spec Emd1d_model Emd1d_proofs Emd1d_perm_proofs W1d_model W1d_proofs Pw1d_model Pw1d_core Pw1d_loop Pw1d_cost.
Import ListNotations.
Local Open Scope nat_scope.

(** the number of indices before m where f holds *)
Fixpoint ct (f : nat -> bool) (m : nat) : nat := match m with O => 0 | S m' => ct f m' + (if f m' then 1 else 0) end.
Lemma ct_first : forall m f, ct f (S m) = (if f 0 then 1 else 0) + ct (fun i => f (S i)) m.
Proof. induction m; intros f; [cbn; destruct (f 0); lia|]. replace (ct f (S (S m))) with (ct f (S m) + (if f (S m) then 1 else 0)) by reflexivity. rewrite IHm. cbn [ct]. lia. Qed.
Lemma ct_ext : forall m f g, (forall i, i < m -> f i = g i) -> ct f m = ct g m.
Proof. induction m; intros f g H; [reflexivity|]. cbn. rewrite (IHm f g) by (intros; apply H; lia). rewrite H by lia. reflexivity. Qed.
Lemma ct_le : forall f m m', m <= m' -> ct f m <= ct f m'.
Proof. intros f m m' H. induction H; [lia|]. cbn. lia. Qed.
Lemma ct_neg : forall f m, ct f m + ct (fun i => negb (f i)) m = m.
Proof. induction m; [reflexivity|]. cbn. destruct (f m); cbn; lia. Qed.
Lemma ct_at : forall f m k, k < ct f m -> exists i, i < m /\ f i = true /\ ct f i = k.
Proof.
  induction m as [|m IH]; intros k H; [cbn in H; lia|]. cbn in H. destruct (Nat.lt_ge_cases k (ct f m)) as [L|G].
  - destruct (IH k L) as (i & I1 & I2). exists i. split; [lia|auto].
  - destruct (f m) eqn:E; [|lia]. exists m. split; [lia|]. split; [auto|lia].
Qed.
Lemma ct_inj : forall f i j, f i = true -> f j = true -> ct f i = ct f j -> i = j.
Proof.
  assert (G : forall f i j, f i = true -> i < j -> ct f i < ct f j).
  { intros f i j Fi Hij. pose proof (ct_le f (S i) j Hij) as Q. cbn in Q. rewrite Fi in Q. lia. }
  intros f i j Fi Fj E. destruct (Nat.lt_trichotomy i j) as [L|[L|L]]; auto; [pose proof (G f i j Fi L)|pose proof (G f j i Fj L)]; lia.
Qed.

(** ** merging two sorted arrays *)
Section Merge.
Variables (nx ny : nat) (x y : nat -> R).
Hypothesis sx : forall i, S i < nx -> (x i <= x (S i))%R.
Hypothesis sy : forall i, S i < ny -> (y i <= y (S i))%R.
Let v (k : nat) : R := if k <? nx then x k else y (k - nx).
Lemma sx_le : forall i d, i + d < nx -> (x i <= x (i + d))%R.
Proof. intros i. induction d; intros H; [rewrite Nat.add_0_r; lra|]. rewrite Nat.add_succ_r. apply Rle_trans with (1 := IHd ltac:(lia)). apply sx. lia. Qed.
Lemma sy_le : forall i d, i + d < ny -> (y i <= y (i + d))%R.
Proof. intros i. induction d; intros H; [rewrite Nat.add_0_r; lra|]. rewrite Nat.add_succ_r. apply Rle_trans with (1 := IHd ltac:(lia)). apply sy. lia. Qed.
Lemma ai_spec : forall left ix iy, ix <= nx -> iy <= ny -> left = (nx - ix) + (ny - iy) ->
  let L := arg_insert (N:=RNum) nx ny x y left ix iy in
  length L = left
  /\ (forall t, t < left -> let k := nth t L 0 in
       (k < nx /\ k = ix + ct (fun i => nth i L 0 <? nx) t) \/ (nx <= k < nx + ny /\ k = nx + iy + ct (fun i => negb (nth i L 0 <? nx)) t))
  /\ (forall t, S t < left -> (v (nth t L 0%nat) <= v (nth (S t) L 0%nat))%R).
Proof.
  induction left as [|left IH]; intros ix iy Hx Hy HL; cbv zeta.
  { split; [reflexivity|]. split; intros; lia. }
  (* one step: the head k0 and the rest *)
  assert (STEP : forall k0 ix' iy', (k0 = ix /\ ix < nx /\ ix' = S ix /\ iy' = iy) \/ (k0 = nx + iy /\ iy < ny /\ ix' = ix /\ iy' = S iy) ->
    (forall i, ix <= i < nx -> (v k0 <= x i)%R) -> (forall j, iy <= j < ny -> (v k0 <= y j)%R) ->
    let L := k0 :: arg_insert (N:=RNum) nx ny x y left ix' iy' in
    length L = S left
    /\ (forall t, t < S left -> let k := nth t L 0 in
       (k < nx /\ k = ix + ct (fun i => nth i L 0 <? nx) t) \/ (nx <= k < nx + ny /\ k = nx + iy + ct (fun i => negb (nth i L 0 <? nx)) t))
    /\ (forall t, S t < S left -> (v (nth t L 0%nat) <= v (nth (S t) L 0%nat))%R)).
  { intros k0 ix' iy' HC Bx By. cbv zeta. destruct (IH ix' iy') as (I1 & I2 & I3); [lia|lia|lia|]. cbv zeta in I2.
    set (L' := arg_insert (N:=RNum) nx ny x y left ix' iy') in *. split; [cbn; f_equal; exact I1|]. split.
    - intros t Ht. cbv zeta. destruct t as [|t].
      + cbn [nth ct]. destruct HC as [(-> & C & _)|(-> & C & _)]; [left|right]; split; lia.
      + rewrite !ct_first. cbn [nth]. specialize (I2 t ltac:(lia)).
        destruct HC as [(E0 & C & -> & ->)|(E0 & C & -> & ->)].
        * rewrite E0, (proj2 (Nat.ltb_lt ix nx)) by lia. cbn [negb]. destruct I2 as [[A B]|[A B]]; [left|right]; split; lia.
        * rewrite E0, (proj2 (Nat.ltb_ge (nx + iy) nx)) by lia. cbn [negb]. destruct I2 as [[A B]|[A B]]; [left|right]; split; lia.
    - intros t Ht. destruct t as [|t]; cbn [nth]; [|apply I3; lia].
      specialize (I2 0 ltac:(lia)). cbn [ct] in I2. unfold v at 2. destruct I2 as [[A B]|[A B]].
      + rewrite (proj2 (Nat.ltb_lt (nth 0 L' 0) nx)) by lia. apply Bx. lia.
      + rewrite (proj2 (Nat.ltb_ge (nth 0 L' 0) nx)) by lia. apply By. lia. }
  assert (Vx : ix < nx -> v ix = x ix) by (intros; unfold v; rewrite (proj2 (Nat.ltb_lt ix nx)) by lia; reflexivity).
  assert (Vy : v (nx + iy) = y iy) by (unfold v; rewrite (proj2 (Nat.ltb_ge (nx + iy) nx)) by lia; f_equal; lia).
  cbn [arg_insert]. destruct (Nat.eqb_spec ix nx) as [Ex|Dx]; [|destruct (Nat.eqb_spec iy ny) as [Ey|Dy]; [|destruct (nleb (n:=RNum) (x ix) (y iy)) eqn:C]].
  - apply STEP; [right; repeat split; lia|intros; lia|]. intros j Hj. rewrite Vy. replace j with (iy + (j - iy)) by lia. apply sy_le. lia.
  - apply STEP; [left; repeat split; lia| |intros; lia]. intros i Hi. rewrite Vx by lia. replace i with (ix + (i - ix)) by lia. apply sx_le. lia.
  - apply Rleb_true in C. apply STEP; [left; repeat split; lia| |].
    + intros i Hi. rewrite Vx by lia. replace i with (ix + (i - ix)) by lia. apply sx_le. lia.
    + intros j Hj. rewrite Vx by lia. apply Rle_trans with (1 := C). replace j with (iy + (j - iy)) by lia. apply sy_le. lia.
  - apply Rleb_false in C. apply STEP; [right; repeat split; lia| |].
    + intros i Hi. rewrite Vy. apply Rle_trans with (x ix); [lra|]. replace i with (ix + (i - ix)) by lia. apply sx_le. lia.
    + intros j Hj. rewrite Vy. replace j with (iy + (j - iy)) by lia. apply sy_le. lia.
Qed.
End Merge.

Section Prep.
Variables (x y : list RNum).
Let nx := length x.
Let ny := length y.
Let n := nx + ny.
Let q := preprocess (N:=RNum) x y.
Let isx := pre_isx q.
Let nis := fun i => negb (isx i).
Let z : nat -> R := pre_z q.
Let xs := map (fun k => nth k x (n0 (n:=RNum))) (argsort x).
Let ys := map (fun k => nth k y (n0 (n:=RNum))) (argsort y).
Let L := arg_insert (N:=RNum) nx ny (fun i => nth i xs (n0 (n:=RNum))) (fun j => nth j ys (n0 (n:=RNum))) (nx + ny) 0 0.

Lemma argsort_len : forall l : list RNum, length (argsort l) = length l.
Proof. intros l. destruct (argsort_sorts l) as [P _]. rewrite (Permutation_length P), seq_length. reflexivity. Qed.
Lemma sorted_arr : forall l : list RNum, forall i, S i < length l ->
  (nth i (map (fun k => nth k l (n0 (n:=RNum))) (argsort l)) (n0 (n:=RNum)) <= nth (S i) (map (fun k => nth k l (n0 (n:=RNum))) (argsort l)) (n0 (n:=RNum)))%R.
Proof.
  intros l i Hi. destruct (argsort_sorts l) as [P S]. specialize (S i Hi). pose proof (argsort_len l).
  pose proof (lnth_take l (argsort l) i ltac:(lia)) as E1. pose proof (lnth_take l (argsort l) (Datatypes.S i) ltac:(lia)) as E2. rewrite <- E1, <- E2 in S. exact S.
Qed.
Lemma len_xs : length xs = nx. Proof. unfold xs. rewrite map_length. apply argsort_len. Qed.
Lemma len_ys : length ys = ny. Proof. unfold ys. rewrite map_length. apply argsort_len. Qed.

Lemma at_spec : length L = n
  /\ (forall t, t < n -> (isx t = true /\ nth t L 0 < nx /\ nth t L 0 = ct isx t) \/ (isx t = false /\ nth t L 0 = nx + ct nis t /\ ct nis t < ny))
  /\ (forall t, S t < n -> (z t <= z (S t))%R).
Proof.
  pose proof (ai_spec nx ny _ _ (sorted_arr x) (sorted_arr y) (nx + ny) 0 0 ltac:(lia) ltac:(lia) ltac:(lia)) as (H1 & H2 & H3). cbv zeta in *.
  split; [exact H1|]. split.
  - intros t Ht. specialize (H2 t Ht). unfold isx, nis. cbn [q preprocess pre_isx]. fold nx ny xs ys. fold L. destruct H2 as [[A B]|[A B]]; [left|right].
    + split; [apply Nat.ltb_lt; exact A|]. split; [exact A|exact B].
    + assert (B' : nth t L 0 = nx + 0 + ct nis t) by exact B. assert (A' : nx <= nth t L 0 < nx + ny) by exact A.
      split; [apply Nat.ltb_ge; apply A'|]. split; [change (nth t L 0 = nx + ct nis t); lia|change (ct nis t < ny); lia].
  - intros t Ht. specialize (H3 t Ht). fold xs ys in H3. fold L in H3.
    assert (V : forall k, k < n -> nth k (xs ++ ys) (n0 (n:=RNum)) = (if k <? nx then nth k xs (n0 (n:=RNum)) else nth (k - nx) ys (n0 (n:=RNum)))).
    { intros k Hk. pose proof len_xs. destruct (Nat.ltb_spec k nx); [rewrite app_nth1 by lia; auto|rewrite app_nth2 by lia; f_equal; lia]. }
    assert (B : forall t, t < n -> nth t L 0 < n).
    { intros u Hu. specialize (H2 u Hu). fold xs ys in H2. fold L in H2. unfold n. lia. }
    unfold z. cbn [q preprocess pre_z]. fold nx ny xs ys. fold L. rewrite !V by (apply B; lia). exact H3.
Qed.
Lemma ct_x : ct isx n = nx /\ ct nis n = ny.
Proof.
  destruct at_spec as (H1 & H2 & _).
  assert (G : forall m, m <= n -> ct isx m <= nx /\ ct nis m <= ny).
  { induction m as [|m IH]; intros Hm; [cbn; lia|]. specialize (IH ltac:(lia)). specialize (H2 m ltac:(lia)). cbn [ct]. change (nis m) with (negb (isx m)). destruct H2 as [(E & A & B)|(E & A & B)]; rewrite E; cbn [negb]; lia. }
  specialize (G n ltac:(lia)). pose proof (ct_neg isx n) as Q. fold nis in Q. unfold n in *. lia.
Qed.
(** the user's index of a position *)
Definition ux (i : nat) : nat := nth (pre_rank q i) (pre_sx q) 0.
Definition uy (i : nat) : nat := nth (pre_rank q i) (pre_sy q) 0.
Lemma rank_x : forall i, i < n -> isx i = true -> pre_rank q i = ct isx i /\ ct isx i < nx.
Proof.
  intros i Hi E. destruct at_spec as (_ & H2 & _). destruct (H2 i Hi) as [(_ & A & B)|(E' & _)]; [|congruence]. split; [|lia].
  change (pre_rank q i) with (nth (nth i L 0) (seq 0 nx ++ seq 0 ny) 0). rewrite app_nth1 by (rewrite seq_length; lia). rewrite seq_nth by lia. lia.
Qed.
Lemma rank_y : forall i, i < n -> isx i = false -> pre_rank q i = ct nis i /\ ct nis i < ny.
Proof.
  intros i Hi E. destruct at_spec as (_ & H2 & _). destruct (H2 i Hi) as [(E' & _)|(_ & A & B)]; [congruence|]. split; [|lia].
  change (pre_rank q i) with (nth (nth i L 0) (seq 0 nx ++ seq 0 ny) 0). rewrite app_nth2 by (rewrite seq_length; lia). rewrite seq_length, A. replace (nx + ct nis i - nx) with (ct nis i) by lia. rewrite seq_nth by lia. lia.
Qed.
Lemma z_x : forall i, i < n -> isx i = true -> z i = nth (ct isx i) xs (n0 (n:=RNum)).
Proof.
  intros i Hi E. destruct at_spec as (_ & H2 & _). destruct (H2 i Hi) as [(_ & A & B)|(E' & _)]; [|congruence].
  change (z i) with (nth (nth i L 0) (xs ++ ys) (n0 (n:=RNum))). pose proof len_xs. rewrite app_nth1 by lia. rewrite B. reflexivity.
Qed.
Lemma z_y : forall i, i < n -> isx i = false -> z i = nth (ct nis i) ys (n0 (n:=RNum)).
Proof.
  intros i Hi E. destruct at_spec as (_ & H2 & _). destruct (H2 i Hi) as [(E' & _)|(_ & A & B)]; [congruence|].
  change (z i) with (nth (nth i L 0) (xs ++ ys) (n0 (n:=RNum))). pose proof len_xs. rewrite app_nth2 by lia. rewrite A. f_equal. lia.
Qed.
Lemma xs_at : forall k, k < nx -> nth k xs (n0 (n:=RNum)) = nth (nth k (argsort x) 0) x (n0 (n:=RNum)).
Proof. intros k Hk. exact (lnth_take x (argsort x) k ltac:(rewrite argsort_len; exact Hk)). Qed.
Lemma ys_at : forall k, k < ny -> nth k ys (n0 (n:=RNum)) = nth (nth k (argsort y) 0) y (n0 (n:=RNum)).
Proof. intros k Hk. exact (lnth_take y (argsort y) k ltac:(rewrite argsort_len; exact Hk)). Qed.
Lemma ux_z : forall i, i < n -> isx i = true -> ux i < nx /\ nth (ux i) x (n0 (n:=RNum)) = z i.
Proof.
  intros i Hi E. destruct (rank_x i Hi E) as [R1 R2]. unfold ux. rewrite R1. change (pre_sx q) with (argsort x). split.
  - destruct (argsort_sorts x) as [P _]. assert (In (nth (ct isx i) (argsort x) 0) (seq 0 nx)) as Q by (apply (Permutation_in _ P), nth_In; rewrite argsort_len; exact R2). apply in_seq in Q. lia.
  - rewrite (z_x i Hi E), xs_at by lia. reflexivity.
Qed.
Lemma uy_z : forall i, i < n -> isx i = false -> uy i < ny /\ nth (uy i) y (n0 (n:=RNum)) = z i.
Proof.
  intros i Hi E. destruct (rank_y i Hi E) as [R1 R2]. unfold uy. rewrite R1. change (pre_sy q) with (argsort y). split.
  - destruct (argsort_sorts y) as [P _]. assert (In (nth (ct nis i) (argsort y) 0) (seq 0 ny)) as Q by (apply (Permutation_in _ P), nth_In; rewrite argsort_len; exact R2). apply in_seq in Q. lia.
  - rewrite (z_y i Hi E), ys_at by lia. reflexivity.
Qed.
Lemma perm_inj : forall (l : list nat) m, Permutation l (seq 0 m) -> forall a b, a < m -> b < m -> nth a l 0 = nth b l 0 -> a = b.
Proof.
  intros l m P a b Ha Hb E. assert (ND : NoDup l) by (apply (Permutation_NoDup (Permutation_sym P)), seq_NoDup).
  assert (LL : length l = m) by (rewrite (Permutation_length P), seq_length; auto). apply (proj1 (NoDup_nth l 0) ND); lia.
Qed.
Lemma ux_inj : forall i j, i < n -> j < n -> isx i = true -> isx j = true -> ux i = ux j -> i = j.
Proof.
  intros i j Hi Hj Ei Ej E. destruct (rank_x i Hi Ei) as [A1 A2], (rank_x j Hj Ej) as [B1 B2]. unfold ux in E. rewrite A1, B1 in E.
  apply (ct_inj isx i j Ei Ej). destruct (argsort_sorts x) as [P _]. apply (perm_inj _ _ P); auto.
Qed.
Lemma uy_inj : forall i j, i < n -> j < n -> isx i = false -> isx j = false -> uy i = uy j -> i = j.
Proof.
  intros i j Hi Hj Ei Ej E. destruct (rank_y i Hi Ei) as [A1 A2], (rank_y j Hj Ej) as [B1 B2]. unfold uy in E. rewrite A1, B1 in E.
  apply (ct_inj nis i j); [unfold nis; rewrite Ei; auto|unfold nis; rewrite Ej; auto|]. destruct (argsort_sorts y) as [P _]. apply (perm_inj _ _ P); auto.
Qed.
Lemma ux_onto : forall a, a < nx -> exists i, i < n /\ isx i = true /\ ux i = a.
Proof.
  intros a Ha. destruct (argsort_sorts x) as [P _]. assert (Q : In a (argsort x)) by (apply (Permutation_in _ (Permutation_sym P)), in_seq; fold nx; lia).
  apply (In_nth _ _ 0) in Q. destruct Q as (k & K1 & K2). rewrite argsort_len in K1. fold nx in K1. destruct (ct_at isx n k) as (i & I1 & I2 & I3); [rewrite (proj1 ct_x); auto|].
  exists i. split; [auto|]. split; [auto|]. unfold ux. rewrite (proj1 (rank_x i I1 I2)), I3. exact K2.
Qed.
Lemma uy_onto : forall a, a < ny -> exists i, i < n /\ isx i = false /\ uy i = a.
Proof.
  intros a Ha. destruct (argsort_sorts y) as [P _]. assert (Q : In a (argsort y)) by (apply (Permutation_in _ (Permutation_sym P)), in_seq; fold ny; lia).
  apply (In_nth _ _ 0) in Q. destruct Q as (k & K1 & K2). rewrite argsort_len in K1. fold ny in K1. destruct (ct_at nis n k) as (i & I1 & I2 & I3); [rewrite (proj2 ct_x); auto|].
  apply negb_true_iff in I2. exists i. split; [auto|]. split; [auto|]. unfold uy. rewrite (proj1 (rank_y i I1 I2)), I3. exact K2.
Qed.

(** the differences of ranks and of cumulative sums *)
Lemma diff_ok : forall e, e < n -> pre_diff q e = HH q (S e).
Proof.
  assert (R : forall e, e < n -> insert_constant 0%Z (fun i => if isx i then (Z.of_nat (pre_rank q i) + 1)%Z else 0%Z) isx e = Z.of_nat (ct isx (S e))).
  { induction e as [|e IH]; intros He; cbn [insert_constant].
    - cbn [ct]. destruct (isx 0) eqn:E; [|reflexivity]. destruct (rank_x 0 He E) as [-> _]. reflexivity.
    - destruct (isx (S e)) eqn:E; [destruct (rank_x (S e) He E) as [-> _]|rewrite IH by lia]; cbn [ct]; rewrite E; lia. }
  assert (R2 : forall e, e < n -> insert_constant 0%Z (fun i => if isx i then 0%Z else (Z.of_nat (pre_rank q i) + 1)%Z) (fun i => negb (isx i)) e = Z.of_nat (ct nis (S e))).
  { induction e as [|e IH]; intros He; cbn [insert_constant].
    - cbn [ct]. unfold nis at 1. destruct (isx 0) eqn:E; cbn [negb]; [reflexivity|]. destruct (rank_y 0 He E) as [-> _]. reflexivity.
    - cbn [ct]. change (nis (S e)) with (negb (isx (S e))). destruct (isx (S e)) eqn:E; cbn [negb]; [rewrite IH by lia; cbn [ct]; lia|]. destruct (rank_y (S e) He E) as [-> _]. cbn [ct]. lia. }
  assert (R3 : forall m, HH q m = (Z.of_nat (ct isx m) - Z.of_nat (ct nis m))%Z).
  { induction m as [|m IH]; [reflexivity|]. rewrite HH_S, IH. fold isx. cbn [ct]. change (nis m) with (negb (isx m)). destruct (isx m); cbn [negb sgn]; lia. }
  intros e He. rewrite R3, <- R, <- R2 by auto. reflexivity.
Qed.
Lemma cum_ok : forall e, e < n -> pre_cum q e = SC q (S e).
Proof.
  set (fx := fun i => if isx i then z i else 0%R). set (fy := fun i => if isx i then 0%R else z i).
  assert (X : forall m, m <= n -> rsum (ct isx m) (lnth xs) = rsum m fx).
  { induction m as [|m IH]; intros Hm; [reflexivity|]. cbn [ct rsum]. rewrite <- IH by lia. unfold fx at 1. destruct (isx m) eqn:E; [|rewrite Nat.add_0_r; lra].
    rewrite Nat.add_1_r. cbn [rsum]. rewrite (z_x m) by (auto; lia). reflexivity. }
  assert (Y : forall m, m <= n -> rsum (ct nis m) (lnth ys) = rsum m fy).
  { induction m as [|m IH]; intros Hm; [reflexivity|]. cbn [ct rsum]. rewrite <- IH by lia. change (nis m) with (negb (isx m)). unfold fy at 1. destruct (isx m) eqn:E; cbn [negb]; [rewrite Nat.add_0_r; lra|].
    rewrite Nat.add_1_r. cbn [rsum]. rewrite (z_y m) by (auto; lia). reflexivity. }
  set (cum := fun i => nth (nth i L 0) (cumsum xs ++ cumsum ys) (n0 (n:=RNum))).
  assert (CX : forall e, e < n -> isx e = true -> cum e = rsum (S e) fx).
  { intros e He E. destruct at_spec as (_ & H2 & _). destruct (H2 e He) as [(_ & A & B)|(E' & _)]; [|congruence]. pose proof len_xs as Lx.
    unfold cum. rewrite app_nth1 by (unfold cumsum; rewrite cumsum_from_length; lia). rewrite B.
    etransitivity; [exact (cumsum_nth xs (ct isx e) ltac:(lia))|]. rewrite <- X by lia. cbn [ct]. rewrite E, Nat.add_1_r. reflexivity. }
  assert (CY : forall e, e < n -> isx e = false -> cum e = rsum (S e) fy).
  { intros e He E. destruct at_spec as (_ & H2 & _). destruct (H2 e He) as [(E' & _)|(_ & A & B)]; [congruence|]. pose proof len_xs as Lx. pose proof len_ys as Ly.
    unfold cum. rewrite app_nth2 by (unfold cumsum; rewrite cumsum_from_length; lia). rewrite A. unfold cumsum at 1. rewrite cumsum_from_length, Lx. replace (nx + ct nis e - nx) with (ct nis e) by lia.
    etransitivity; [exact (cumsum_nth ys (ct nis e) ltac:(lia))|]. rewrite <- Y by lia. cbn [ct]. change (nis e) with (negb (isx e)). rewrite E. cbn [negb]. rewrite Nat.add_1_r. reflexivity. }
  assert (IX : forall e, e < n -> insert_constant (n0 (n:=RNum)) cum isx e = rsum (S e) fx).
  { induction e as [|e IH]; intros He; cbn [insert_constant].
    - destruct (isx 0) eqn:E; [apply CX; auto|]. cbn [rsum]. unfold fx. rewrite E. cbn. lra.
    - destruct (isx (S e)) eqn:E; [apply CX; auto|]. rewrite IH by lia. replace (rsum (S (S e)) fx) with (rsum (S e) fx + fx (S e))%R by reflexivity. replace (fx (S e)) with 0%R by (unfold fx; rewrite E; reflexivity). lra. }
  assert (IY : forall e, e < n -> insert_constant (n0 (n:=RNum)) cum (fun i => negb (isx i)) e = rsum (S e) fy).
  { induction e as [|e IH]; intros He; cbn [insert_constant].
    - destruct (isx 0) eqn:E; cbn [negb]; [|apply CY; auto]. cbn [rsum]. unfold fy. rewrite E. cbn. lra.
    - destruct (isx (S e)) eqn:E; cbn [negb]; [|apply CY; auto]. rewrite IH by lia. replace (rsum (S (S e)) fy) with (rsum (S e) fy + fy (S e))%R by reflexivity. replace (fy (S e)) with 0%R by (unfold fy; rewrite E; reflexivity). lra. }
  intros e He. change (pre_cum q e) with (insert_constant (n0 (n:=RNum)) cum isx e - insert_constant (n0 (n:=RNum)) cum (fun i => negb (isx i)) e)%R.
  rewrite IX, IY by auto. rewrite <- rsum_minus. unfold SC. apply rsum_ext. intros i Hi. unfold fx, fy. fold isx z. destruct (isx i); cbn [sgn]; ring.
Qed.
End Prep.
