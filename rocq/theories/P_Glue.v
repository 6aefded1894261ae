(** C57, C58: NorthWestMMGluing and _clean_discrete_measure (ot/lp/_barycenter_solvers.py).
    [lsum f l] is the sum of f over a list; [at_ k j e] is the weight of the entry e if its k-th
    index is j and 0 otherwise, so that [lsum (at_ k j) d] is the k-th marginal of d at j. *)
From Coq Require Import Reals Lra Lia QArith Arith Bool List.
Import ListNotations.
From Verif Require Import Num Sums Spec Duals_proofs Optim_model Gw_model Ugw_proofs Glue_model Glue_proofs.
Local Open Scope R_scope.

Definition plans_of (n : nat) (a : vec) (plans : list (nat * mat)) : Prop := plans <> [] /\
  forall p, In p plans -> (forall i j, (i < n)%nat -> (j < fst p)%nat -> 0 <= snd p i j) /\ forall i, (i < n)%nat -> row_sum (fst p) (snd p) i = a i.
Definition widths (plans : list (nat * mat)) : nat := fold_right (fun p s => (fst p + s)%nat) 0%nat plans.

Lemma lsum_ge_one : forall A (f : A -> R) l x, (forall y, In y l -> 0 <= f y) -> In x l -> f x <= lsum f l.
Proof.
  induction l as [|y l IH]; intros x H Hx; [destruct Hx|]. cbn [lsum]. assert (0 <= lsum f l) by (apply lsum_nonneg; intros; apply H; right; auto). pose proof (H y (or_introl eq_refl)).
  destruct Hx as [-> | Hx]; [lra|]. specialize (IH x (fun z Hz => H z (or_intror Hz)) Hx). lra.
Qed.
Lemma row_state_ok : forall n a plans i, plans_of n a plans -> (i < n)%nat ->
  row_state (N:=RNum) plans i <> [] /\ 0 <= a i /\ (forall l, In l (row_state (N:=RNum) plans i) -> cpos l /\ ctot l = a i /\ NoDup (map fst l)) /\ (slen (row_state (N:=RNum) plans i) <= row_fuel (N:=RNum) plans)%nat.
Proof.
  intros n a plans i [Hne H] Hi. repeat split.
  - destruct plans; [congruence|discriminate].
  - destruct plans as [|p pl]; [congruence|]. destruct (H p (or_introl eq_refl)) as [P S]. rewrite <- (S i Hi). apply rsum_nonneg; auto.
  - apply in_map_iff in H0. destruct H0 as (p & <- & Hp). apply cells_pos.
  - apply in_map_iff in H0. destruct H0 as (p & <- & Hp). destruct (H p Hp) as [P S]. rewrite cells_tot by auto. apply S; auto.
  - apply in_map_iff in H0. destruct H0 as (p & <- & Hp). apply cells_nodup.
  - clear. induction plans as [|p pl IH]; [cbn; auto|]. unfold row_state, row_fuel in *. cbn [map slen fold_right]. pose proof (cells_len (fst p) (snd p i)) as L. exact (Nat.add_le_mono _ _ _ _ L IH).
Qed.
Lemma glue_rows_ok : forall n a a' plans rows, plans_of n a plans -> (forall i, (i < n)%nat -> a' i = a i) -> (forall i, In i rows -> (i < n)%nat) ->
  exists f, glue_rows (N:=RNum) plans a' rows = Some (map (fun i => (i, f i)) rows) /\ forall i, In i rows ->
    (forall k p, nth_error plans k = Some p -> forall j, lsum (at_ k j) (f i) = if Nat.ltb j (fst p) then snd p i j else 0) /\
    (forall e, In e (f i) -> 0 < snd e /\ length (fst e) = length plans) /\ lsum snd (f i) = a i /\ NoDup (map fst (f i)) /\ (length (f i) <= widths plans + 1 - length plans)%nat.
Proof.
  intros n a a' plans rows HP Ha Hr. 
  assert (X : forall i, (i < n)%nat -> exists r, glue_row (N:=RNum) (row_fuel (N:=RNum) plans) (a' i) (row_state (N:=RNum) plans i) = Some r /\
    (forall k p, nth_error plans k = Some p -> forall j, lsum (at_ k j) r = if Nat.ltb j (fst p) then snd p i j else 0) /\
    (forall e, In e r -> 0 < snd e /\ length (fst e) = length plans) /\ lsum snd r = a i /\ NoDup (map fst r) /\ (length r <= widths plans + 1 - length plans)%nat).
  { intros i Hi. destruct (row_state_ok n a plans i HP Hi) as (A & B & C & D). rewrite Ha by auto.
    destruct (glue_row_ok (row_fuel (N:=RNum) plans) (a i) (row_state (N:=RNum) plans i) A B (fun l Hl => conj (proj1 (C l Hl)) (proj1 (proj2 (C l Hl)))) D) as (r & Er & R1 & R2 & R3 & R4).
    pose proof (glue_row_nodup _ _ _ _ A B C D Er) as ND.
    exists r. split; [exact Er|]. split; [|split; [|split; [auto|split; [auto|]]]].
    - intros k p Ep j. rewrite (R1 k (cells (N:=RNum) (fst p) (snd p i)) (map_nth_error _ k plans Ep)). apply cells_mass. destruct HP as [_ HP]. intros; apply (proj1 (HP p (nth_error_In _ _ Ep))); auto.
    - intros e He. destruct (R2 e He) as [Q L]. split; auto. unfold row_state in L. rewrite map_length in L. auto.
    - destruct R4 as [-> | R4]; [cbn; lia|]. unfold row_state in R4 at 1. rewrite map_length in R4. apply Nat.le_add_le_sub_r. eapply Nat.le_trans; [exact R4|]. apply Nat.add_le_mono_r. exact D. }
  induction rows as [|i rows IH].
  - exists (fun _ => []). split; [reflexivity|intros i []].
  - destruct IH as (f & Ef & Hf); [intros; apply Hr; right; auto|]. destruct (X i (Hr i (or_introl eq_refl))) as (r & Er & HR).
    exists (fun k => if Nat.eqb k i then r else f k). split.
    + cbn [glue_rows map]. rewrite Er, Ef, Nat.eqb_refl. f_equal. f_equal. apply map_ext_in. intros k Hk. destruct (Nat.eqb_spec k i); [|reflexivity]. subst.
      assert (E : glue_row (N:=RNum) (row_fuel (N:=RNum) plans) (a' i) (row_state (N:=RNum) plans i) = Some (f i)).
      { clear - Ef Hk. revert Ef Hk. generalize f. intro g. induction rows as [|x rows IH]; intros Ef Hk; [destruct Hk|]. cbn [glue_rows map] in Ef.
        destruct (glue_row (N:=RNum) (row_fuel (N:=RNum) plans) (a' x) (row_state (N:=RNum) plans x)) eqn:E1; [|discriminate]. destruct (glue_rows (N:=RNum) plans a' rows) eqn:E2; [|discriminate].
        injection Ef as Q1 Q2. destruct Hk as [-> | Hk]; [rewrite E1, Q1; reflexivity|]. apply IH; auto. rewrite Q2. reflexivity. }
      rewrite Er in E. injection E as <-. reflexivity.
    + intros k Hk. destruct (Nat.eqb_spec k i) as [->|E]; [exact HR|]. apply Hf. destruct Hk; [congruence|auto].
Qed.

(** C57.  For plans (n x n_k, nonnegative) with common first marginal a: the loop ends, the returned
    list d of (multi-index, weight) has distinct keys of length K with k-th index below n_k, positive weights, total mass
    sum a, and k-th marginal equal to that of the k-th plan; it is the projection of a (K+1)-plan
    (the rows f i) whose (0, k) marginal is the k-th plan; inside a row no key repeats, so that the
    tensor log["gamma"] filled by assignment is that (K+1)-plan; d has at most n (sum_k n_k + 1 - K) entries. *)
Theorem C57_north_west_gluing : forall n a plans oa, plans_of n a plans -> match oa with Some a' => forall i, (i < n)%nat -> a' i = a i | None => True end ->
  exists d f, NorthWestMMGluing (N:=RNum) n plans oa = Some (d, map (fun i => (i, f i)) (seq 0 n)) /\
  (forall i, (i < n)%nat -> NoDup (map fst (f i)) /\ (forall e, In e (f i) -> 0 < snd e /\ length (fst e) = length plans /\ forall k p, nth_error plans k = Some p -> (nth k (fst e) 0 < fst p)%nat) /\
     forall k p, nth_error plans k = Some p -> forall j, (j < fst p)%nat -> lsum (at_ k j) (f i) = snd p i j) /\
  (forall phi, lsum (fun e => phi (fst e) * snd e) d = rsum n (fun i => lsum (fun e => phi (fst e) * snd e) (f i))) /\
  (forall k p, nth_error plans k = Some p -> forall j, (j < fst p)%nat -> lsum (at_ k j) d = col_sum n (snd p) j) /\
  NoDup (map fst d) /\ (forall e, In e d -> 0 < snd e /\ length (fst e) = length plans /\ forall k p, nth_error plans k = Some p -> (nth k (fst e) 0 < fst p)%nat) /\ lsum snd d = rsum n a /\ (length d <= n * (widths plans + 1 - length plans))%nat.
Proof.
  intros n a plans oa HP Hoa. set (a' := match oa with Some a => a | None => match plans with [] => fun _ => 0 | p :: _ => rowsum (N:=RNum) (fst p) (snd p) end end).
  assert (Ha : forall i, (i < n)%nat -> a' i = a i).
  { intros i Hi. unfold a'. destruct oa; auto. destruct HP as [Hne H]. destruct plans as [|p pl]; [congruence|]. rewrite rowsum_R. apply (H p (or_introl eq_refl)); auto. }
  destruct (glue_rows_ok n a a' plans (seq 0 n) HP Ha) as (f & Ef & Hf); [intros i Hi; apply in_seq in Hi; lia|].
  set (tr := flat_map snd (map (fun i => (i, f i)) (seq 0 n))).
  exists (fold_left (fun d e => dict_add (N:=RNum) d (fst e) (snd e)) tr []), f. assert (HS : forall i, (i < n)%nat -> In i (seq 0 n)) by (intros; apply in_seq; lia).
  assert (Htr : forall g : list nat * R -> R, lsum g tr = rsum n (fun i => lsum g (f i))).
  { intro g. unfold tr. rewrite lsum_flat, lsum_map, lsum_seq. apply rsum_ext; intros. reflexivity. }
  assert (Hd : forall phi, lsum (fun e => phi (fst e) * snd e) (fold_left (fun d e => dict_add (N:=RNum) d (fst e) (snd e)) tr []) = rsum n (fun i => lsum (fun e => phi (fst e) * snd e) (f i))).
  { intro phi. rewrite dict_all. cbn [lsum]. rewrite Htr. lra. }
  assert (Kb : forall i, (i < n)%nat -> forall e, In e (f i) -> forall k p, nth_error plans k = Some p -> (nth k (fst e) 0 < fst p)%nat).
  { intros i Hi e He k p Ep. destruct (Hf i (HS i Hi)) as (A & B & _). destruct (B e He) as [Pe Le]. destruct (le_gt_dec (fst p) (nth k (fst e) 0%nat)) as [G|G]; [exfalso|exact G].
    assert (Hk : (k < length (fst e))%nat) by (rewrite Le; apply nth_error_Some; congruence).
    pose proof (A k p Ep (nth k (fst e) 0%nat)) as Z. destruct (Nat.ltb_spec (nth k (fst e) 0%nat) (fst p)); [lia|].
    assert (Q : at_ k (nth k (fst e) 0%nat) e <= lsum (at_ k (nth k (fst e) 0%nat)) (f i)).
    { apply lsum_ge_one; auto. intros x Hx. unfold at_. destruct (nth_error (fst x) k); [destruct (Nat.eqb n0 (nth k (fst e) 0%nat))|]; try lra. left. apply (B x Hx). }
    assert (Qa : at_ k (nth k (fst e) 0%nat) e = snd e) by (exact (eq_trans (f_equal (fun o => match o with Some j' => if Nat.eqb j' (nth k (fst e) 0%nat) then snd e else 0 | None => 0 end) (nth_error_nth' _ 0%nat Hk)) (f_equal (fun b : bool => if b then snd e else 0) (Nat.eqb_refl _)))).
    assert (Q2 : snd e <= 0) by (refine (Rle_trans _ _ _ (Req_le _ _ (eq_sym Qa)) (Rle_trans _ _ _ Q (Req_le _ _ Z)))). exact (Rlt_irrefl _ (Rlt_le_trans _ _ _ Pe Q2)). }
  assert (Ptr : forall e, In e tr -> 0 < snd e /\ length (fst e) = length plans /\ forall k p, nth_error plans k = Some p -> (nth k (fst e) 0 < fst p)%nat).
  { intros e He. unfold tr in He. apply in_flat_map in He. destruct He as ((i, r) & Hi & He). apply in_map_iff in Hi. destruct Hi as (i' & E & Hi). injection E as -> <-. destruct (Hf i Hi) as (_ & B & _). destruct (B e He). split; auto. split; auto. intros k p Ep. refine (Kb i _ e He k p Ep). apply in_seq in Hi; lia. }
  destruct (dict_keys tr [] (NoDup_nil _) (fun e (H : In e []) => match H with end) (fun e He => proj1 (Ptr e He))) as (D1 & D2 & D3 & D4).
  split; [|split; [|split; [|split; [|split; [|split; [|split]]]]]].
  - unfold NorthWestMMGluing. change (match glue_rows (N:=RNum) plans a' (seq 0 n) with None => None | Some g => Some (fold_left (fun d e => dict_add (N:=RNum) d (fst e) (snd e)) (flat_map snd g) [], g) end = Some (fold_left (fun d e => dict_add (N:=RNum) d (fst e) (snd e)) tr [], map (fun i => (i, f i)) (seq 0 n))). rewrite Ef. reflexivity.
  - intros i Hi. destruct (Hf i (HS i Hi)) as (A & B & _ & C & _). split; auto. split; [intros e He; destruct (B e He); split; auto; split; auto; intros k p Ep; apply (Kb i Hi e He k p Ep)|]. intros k p Ep j Hj. rewrite (A k p Ep j). destruct (Nat.ltb_spec j (fst p)); [auto|lia].
  - exact Hd.
  - intros k p Ep j Hj. rewrite (lsum_ext _ _ (fun e => (match nth_error (fst e) k with Some j' => if Nat.eqb j' j then 1 else 0 | None => 0 end) * snd e)).
    2:{ intros e _. unfold at_. destruct (nth_error (fst e) k); [destruct (Nat.eqb n0 j)|]; lra. }
    rewrite (Hd (fun key => match nth_error key k with Some j' => if Nat.eqb j' j then 1 else 0 | None => 0 end)). unfold col_sum. apply rsum_ext; intros i Hi.
    destruct (Hf i (HS i Hi)) as (A & _). specialize (A k p Ep j). destruct (Nat.ltb_spec j (fst p)); [|lia]. rewrite <- A. apply lsum_ext. intros e _. unfold at_. destruct (nth_error (fst e) k); [destruct (Nat.eqb n0 j)|]; lra.
  - exact D1.
  - intros e He. split; [apply D2; auto|]. destruct (D4 (fst e)) as [[]|X]; [apply in_map; auto|]. apply in_map_iff in X. destruct X as (e' & <- & He'). apply (Ptr e' He').
  - rewrite (lsum_ext _ _ (fun e => 1 * snd e)) by (intros; lra). rewrite (Hd (fun _ => 1)). apply rsum_ext; intros i Hi. destruct (Hf i (HS i Hi)) as (_ & _ & E & _). rewrite <- E. apply lsum_ext; intros; lra.
  - eapply Nat.le_trans; [exact D3|]. cbn [length Nat.add]. unfold tr.
    assert (Q : forall l, (forall i, In i l -> (length (f i) <= widths plans + 1 - length plans)%nat) -> (length (flat_map snd (map (fun i => (i, f i)) l)) <= length l * (widths plans + 1 - length plans))%nat).
    { induction l as [|x l IH]; intros H; cbn; [lia|]. rewrite app_length. specialize (IH (fun i Hi => H i (or_intror Hi))). specialize (H x (or_introl eq_refl)). change (carrier RNum) with R in *. lia. }
    eapply Nat.le_trans; [apply Q; intros i Hi; apply (Hf i Hi)|]. rewrite seq_length. auto.
Qed.
Print Assumptions C57_north_west_gluing.
(** two plans from 2 points to 2 and 3 points *)
Example C57_case : NorthWestMMGluing (N:=QNum) 2
   [(2%nat, fun i j => if Nat.eqb i 0 then (if Nat.eqb j 0 then 1 # 4 else 1 # 4) else (if Nat.eqb j 0 then 1 # 2 else 0))%Q;
    (3%nat, fun i j => if Nat.eqb i 0 then (if Nat.eqb j 0 then 1 # 8 else if Nat.eqb j 1 then 3 # 8 else 0) else (if Nat.eqb j 2 then 1 # 2 else 0))%Q] None
  = Some ([([0; 0], 1 # 8); ([0; 1], 1 # 8); ([1; 1], 1 # 4); ([0; 2], 1 # 2)]%nat,
          [(0%nat, [([0; 0], 1 # 8); ([0; 1], 1 # 8); ([1; 1], 1 # 4)]%nat); (1%nat, [([0; 2], 1 # 2)]%nat)]).
Proof. vm_compute. reflexivity. Qed.

(** C58.  Whatever the closeness relation (it need not be symmetric or transitive), the merged
    measure is the image of the input under a map f sending every point to a representative it is
    linked to by a chain of detected-close pairs: weights are the masses of the classes, the total
    is preserved, representatives are points of the input sent to themselves, in increasing order
    and pairwise not close. *)
Theorem C58_merge_is_image : forall n close (a : vec), (forall i, (i < n)%nat -> close i i = true) ->
  let U := fst (clean_discrete_measure (N:=RNum) n close a) in let b := snd (clean_discrete_measure (N:=RNum) n close a) in
  exists f, length b = length U /\
    (forall i, (i < n)%nat -> (f i < length U)%nat /\ linked n close i (nth (f i) U 0%nat)) /\
    (forall y, (y < length U)%nat -> (nth y U 0 < n)%nat /\ f (nth y U 0%nat) = y /\ nth y b 0 = rsum n (fun i => if Nat.eqb (f i) y then a i else 0)) /\
    (forall y z, (y < z)%nat -> (z < length U)%nat -> (nth y U 0 < nth z U 0)%nat /\ close (nth y U 0%nat) (nth z U 0%nat) = false) /\
    rsum (length U) (fun y => nth y b 0) = rsum n a.
Proof.
  intros n close a Hc. cbv zeta. unfold clean_discrete_measure. cbn [fst snd]. set (st := clean (N:=RNum) n close a).
  destruct (clean_rinv n close a Hc) as ((I1 & I2 & I3 & I4) & K & B & _ & D). fold st in I1, I2, I3, I4, K, B, D.
  set (f := fun i => match c_map st i with Some y => y | None => 0%nat end).
  assert (Fk : forall i, (i < n)%nat -> c_map st i = Some (f i)) by (intros i Hi; unfold f; specialize (K i Hi); unfold known in K; destruct (c_map st i); [auto|congruence]).
  assert (Fl : forall i, (i < n)%nat -> (f i < length (c_uniq st))%nat).
  { intros i Hi. destruct (I1 i (f i) (Fk i Hi)) as (_ & r & Hr & _). apply nth_error_Some. congruence. }
  assert (Bs : forall y, (y < length (c_uniq st))%nat -> nth y (c_b st) 0 = rsum n (fun i => if Nat.eqb (f i) y then a i else 0)).
  { intros y Hy. rewrite (I4 y Hy). unfold share. apply rsum_ext; intros i Hi. rewrite (Fk i Hi). reflexivity. }
  exists f. repeat split.
  - exact I3.
  - auto.
  - destruct (I1 i (f i) (Fk i H)) as (_ & r & Hr & L). rewrite (nth_error_nth _ _ 0%nat Hr). exact L.
  - destruct (nth_error (c_uniq st) y) as [r|] eqn:E; [|apply nth_error_None in E; lia]. rewrite (nth_error_nth _ _ 0%nat E). apply (I1 r y (I2 y r E)).
  - destruct (nth_error (c_uniq st) y) as [r|] eqn:E; [|apply nth_error_None in E; lia]. rewrite (nth_error_nth _ _ 0%nat E). unfold f. rewrite (I2 y r E). reflexivity.
  - apply Bs; auto.
  - destruct (nth_error (c_uniq st) y) as [r|] eqn:E; [|apply nth_error_None in E; lia]. destruct (nth_error (c_uniq st) z) as [r'|] eqn:E'; [|apply nth_error_None in E'; lia].
    rewrite (nth_error_nth _ _ 0%nat E), (nth_error_nth _ _ 0%nat E'). apply (D y z r r'); auto.
  - destruct (nth_error (c_uniq st) y) as [r|] eqn:E; [|apply nth_error_None in E; lia]. destruct (nth_error (c_uniq st) z) as [r'|] eqn:E'; [|apply nth_error_None in E'; lia].
    rewrite (nth_error_nth _ _ 0%nat E), (nth_error_nth _ _ 0%nat E'). apply (D y z r r'); auto.
  - rewrite (rsum_ext _ _ _ Bs), rsum_swap. apply rsum_ext; intros i Hi. rewrite (rsum_single _ (f i)); [rewrite Nat.eqb_refl; auto|auto|]. intros y _ Hy. destruct (Nat.eqb_spec (f i) y); [congruence|auto].
Qed.
Print Assumptions C58_merge_is_image.
(** but not "points closer than tol": closeness is tested on squared distances (dist defaults to
    sqeuclidean), so that 0 and 1/10 are merged at tol = 1/50; and chains are followed, so that of the
    points 0, 9/10, 18/10 at tol = 1 only 0 remains, although the last is at (squared) distance 81/25 *)
Definition sq_close (x : nat -> Q) (tol : Q) (i j : nat) : bool := nltb (n:=QNum) ((x i - x j) * (x i - x j))%Q tol.
Theorem C58_moves_less_than_tol_refuted :
  (clean_discrete_measure (N:=QNum) 2 (sq_close (fun i => if Nat.eqb i 0 then 0 else 1 # 10)%Q (1 # 50)%Q) (fun _ => (1 # 2)%Q) = ([0%nat], [1%Q]) /\ ((1 # 50) < (1 # 10) - 0)%Q) /\
  (clean_discrete_measure (N:=QNum) 3 (sq_close (fun i => match i with O => 0 | S O => 9 # 10 | _ => 18 # 10 end)%Q 1%Q) (fun _ => (1 # 4)%Q) = ([0%nat], [(3 # 4)%Q]) /\ (1 < ((18 # 10) - 0) * ((18 # 10) - 0))%Q).
Proof. repeat split; vm_compute; reflexivity. Qed.
Print Assumptions C58_moves_less_than_tol_refuted.
