(** C59, C87, C89: free-support barycenters (ot/lp/_barycenter_solvers.py).
    [sqeu d X Y r s] is the squared Euclidean distance between row r of X and row s of Y. *)
From Coq Require Import Reals Lra Lia QArith Arith Bool List FunctionalExtensionality.
Import ListNotations.
From Verif Require Import Num Sums Spec Duals_model Duals_proofs Duals_final NS_model NS_emd_model Emd_model Emd_proofs P_Emd Utils_model Emd1d_model Optim_model Gw_model Glue_model Glue_proofs Fsb_model Emd1d_perm_proofs Fsb_proofs.
Local Open Scope R_scope.

(** specification: e is the weighted sum of the optimal transport costs from (X, b) to the measures *)
Definition bary_value (k p : nat) (b : vec) (m : nat -> nat) (C : nat -> mat) (a : nat -> vec) (w : vec) (e : R) : Prop :=
  exists T, (forall i, (i < p)%nat -> optimal_coupling k (m i) b (a i) (C i) (T i)) /\ e = rsum p (fun i => w i * cost k (m i) (C i) (T i)).
Lemma bary_value_unique : forall k p b m C a w e e', bary_value k p b m C a w e -> bary_value k p b m C a w e' -> e = e'.
Proof.
  intros k p b m C a w e e' (T & HT & ->) (T' & HT' & ->). apply rsum_ext. intros i Hi. f_equal. destruct (HT i Hi) as [C1 O1]. destruct (HT' i Hi) as [C2 O2]. apply Rle_antisym; auto.
Qed.

(** C87.  With weights summing to one and an exact inner solver, free_support_barycenter lowers the
    barycenter objective at every iteration by at least sum_r b_r |X'_r - X_r|^2; hence the sum of
    the logged displacements is bounded, it stops on the threshold after at most
    1 + objective / (min(b) stopThr) iterations, and if it stopped before numItermax the last
    displacement is at most stopThr. *)
Theorem C87_free_support_descent : forall emd k d p m Y a X0 b w it thr bmin e0,
  pos_vec k b -> nonneg_vec p w -> rsum p w = 1 -> 0 < bmin -> (forall r, (r < k)%nat -> bmin <= b r) ->
  (forall i M, (i < p)%nat -> optimal_coupling k (m i) b (a i) M (emd k (m i) b (a i) M)) ->
  bary_value k p b m (fun i => sqeu d X0 (Y i)) a w e0 ->
  let r := free_support_barycenter (N:=RNum) emd k d p m Y a X0 (Some b) (Some w) it thr in
  (exists e, bary_value k p b m (fun i => sqeu d (fst r) (Y i)) a w e /\ e + bmin * lsum (fun x => x) (snd r) <= e0) /\
  (length (snd r) <= it)%nat /\ ((length (snd r) < it)%nat -> snd r <> [] /\ last (snd r) 0 <= thr) /\
  (0 < thr -> INR (length (snd r) - 1) * (bmin * thr) <= e0).
Proof.
  intros emd k d p m Y a X0 b w it thr bmin e0 Hb Hw0 Hw Hbm Hbr Hemd He0. cbv zeta. unfold free_support_barycenter. cbn [odflt nadd n1 RNum].
  destruct (fsb_loop_decr emd k d p b m Y a w Hb Hw0 Hw Hemd bmin Hbr it thr (thr + 1) X0) as (D & L & G & S1 & _). change (carrier RNum) with R in *.
  set (r := fsb_loop (N:=RNum) emd k d p b m Y a w it thr (thr + 1) X0) in *.
  assert (E : forall X, bary_value k p b m (fun i => sqeu d X (Y i)) a w (fsb_energy emd k d p b m Y a w X)).
  { intros X. exists (fsb_plan (N:=RNum) emd k d b m Y a X). split; [intros i Hi; apply (plan_opt emd k d p b m Y a Hemd X i Hi)|reflexivity]. }
  rewrite (bary_value_unique _ _ _ _ _ _ _ _ _ (E X0) He0) in D.
  split; [exists (fsb_energy emd k d p b m Y a w (fst r)); split; auto|]. split; [exact L|]. split; [intros Hl; apply S1; auto; lra|]. intros Ht.
  pose proof (energy_nonneg emd k d p b m Y a w Hw0 Hemd (fst r)) as E0.
  assert (Q : forall l : list R, (forall j, (S j < length l)%nat -> thr < nth j l 0) -> (forall x, In x l -> 0 <= x) -> INR (length l - 1) * thr <= lsum (fun x => x) l).
  { induction l as [|x l IH]; intros H1 H2; [cbn; lra|]. destruct l as [|y l]; [cbn; specialize (H2 x (or_introl eq_refl)); lra|].
    specialize (IH (fun j Hj => H1 (S j) ltac:(cbn [length] in *; lia)) (fun z Hz => H2 z (or_intror Hz))). pose proof (H1 0%nat ltac:(cbn; lia)) as H0. cbn [nth] in H0.
    replace (length (x :: y :: l) - 1)%nat with (S (length (y :: l) - 1)) by (cbn [length]; lia). rewrite S_INR. cbn [lsum] in *. lra. }
  assert (P : forall it' thr' dd X x, In x (snd (fsb_loop (N:=RNum) emd k d p b m Y a w it' thr' dd X)) -> 0 <= x).
  { induction it'; intros thr' dd X x Hx; cbn [fsb_loop] in Hx; [destruct Hx|]. destruct (nltb (n:=RNum) thr' dd); [|destruct Hx]. cbv zeta in Hx. cbn [snd] in Hx. destruct Hx as [<- | Hx]; [|apply IHit' in Hx; auto].
    rewrite displacement_R. apply rsum_nonneg; intros. apply rsum_nonneg; intros. apply pow2_ge_0. }
  specialize (Q (snd r) G (fun x Hx => P _ _ _ _ x Hx)). assert (F : forall x y z : R, 0 <= x -> x + y <= z -> y <= z) by (intros; lra). refine (Rle_trans _ _ _ _ (F _ _ _ E0 D)). clear E0 D F.
  apply (Rmult_le_compat_l bmin) in Q; [|lra]. refine (Rle_trans _ _ _ _ Q). right. change (carrier RNum) with R. ring.
Qed.
Print Assumptions C87_free_support_descent.
(** the same step with the network simplex of C01-C05 as inner solver: whenever its calls at X and
    at the next iterate end with status OPTIMAL, the objective decreases as above up to its pivot
    tolerance (costs bounded by C) *)
Definition ns_plan (fuel it : nat) (n m : nat) (a b : vec) (M : mat) : mat :=
  match emd (N:=RNum) fuel it true n m a b M with Ret o => eo_G o | _ => fun _ _ => 0 end.
Definition ns_ends_optimal (fuel it : nat) (n m : nat) (a b : vec) (M : mat) : Prop := exists o, emd (N:=RNum) fuel it true n m a b M = Ret o /\ eo_type o = NS_model.OPTIMAL.
Lemma rescale_same : forall n m a b, mass n a = mass m b -> 0 < mass m b -> rescale n m a b = b.
Proof. intros. apply functional_extensionality. intro j. unfold rescale. rewrite H. field. lra. Qed.
Lemma ns_plan_ok : forall fuel it n m a b M C, nonneg_vec n a -> nonneg_vec m b -> mass n a = 1 -> mass m b = 1 -> ns_ends_optimal fuel it n m a b M -> nonneg_mat n m M -> bounded n m M C ->
  coupling n m a b (ns_plan fuel it n m a b M) /\ forall G', coupling n m a b G' -> cost n m M (ns_plan fuel it n m a b M) <= cost n m M G' + ns_tol n m C.
Proof.
  intros fuel it n m a b M C Ha Hb Ma Mb (o & E & Ht) HM HC. unfold ns_plan. rewrite E.
  assert (R1 : rescale n m a b = b) by (apply rescale_same; lra). assert (B : benign n m a (rescale n m a b) M) by (left; auto).
  pose proof (C01_emd_coupling fuel it true n m a b M o Ha Hb ltac:(lra) ltac:(lra) E Ht B) as H1.
  pose proof (C02_emd_optimal fuel it true n m a b M o C Ha Hb ltac:(lra) ltac:(lra) E Ht B HC) as [_ H2]. rewrite R1 in *. split; auto. intros G' HG. specialize (H2 G' HG). rewrite Ma in H2. lra.
Qed.
Theorem C87_step_with_network_simplex : forall fuel it k d p m Y a X b w C,
  pos_vec k b -> mass k b = 1 -> nonneg_vec p w -> rsum p w = 1 -> (forall i, (i < p)%nat -> nonneg_vec (m i) (a i) /\ mass (m i) (a i) = 1) ->
  let solver := ns_plan fuel it in let X' := fsb_step (N:=RNum) solver k d p b m Y a w X in
  (forall i, (i < p)%nat -> ns_ends_optimal fuel it k (m i) b (a i) (sq_cost (N:=RNum) d X (Y i)) /\ ns_ends_optimal fuel it k (m i) b (a i) (sq_cost (N:=RNum) d X' (Y i)) /\
     bounded k (m i) (sqeu d X (Y i)) C /\ bounded k (m i) (sqeu d X' (Y i)) C) ->
  let E := fun X => rsum p (fun i => w i * cost k (m i) (sqeu d X (Y i)) (solver k (m i) b (a i) (sq_cost (N:=RNum) d X (Y i)))) in
  forall tol, (forall i, (i < p)%nat -> ns_tol k (m i) C <= tol) ->
  E X' + rsum k (fun r => b r * rsum d (fun t => (X' r t - X r t) ^ 2)) <= E X + tol.
Proof.
  intros fuel it k d p m Y a X b w C Hb Mb Hw0 Hw Ha solver X' HO E tol Ht.
  assert (Hb0 : nonneg_vec k b) by (intros r Hr; left; apply Hb; auto).
  assert (NM : forall Z i, nonneg_mat k (m i) (sq_cost (N:=RNum) d Z (Y i))) by (intros Z i r s _ _; rewrite sq_cost_R; apply sqeu_nonneg).
  assert (EM : forall Z i, sq_cost (N:=RNum) d Z (Y i) = sqeu d Z (Y i)) by (intros; apply functional_extensionality; intro; apply functional_extensionality; intro; apply sq_cost_R).
  apply (fsb_step_decr_eps solver k d p b m Y a w Hb Hw0 Hw X tol).
  - intros i Hi. destruct (HO i Hi) as (O1 & _ & B1 & _). destruct (Ha i Hi). unfold fsb_plan. apply (ns_plan_ok fuel it k (m i) b (a i) (sq_cost (N:=RNum) d X (Y i)) C); auto. rewrite EM. auto.
  - intros i G' Hi HG. destruct (HO i Hi) as (_ & O2 & _ & B2). destruct (Ha i Hi). unfold fsb_plan at 1. fold X'.
    destruct (ns_plan_ok fuel it k (m i) b (a i) (sq_cost (N:=RNum) d X' (Y i)) C) as [_ Q]; auto; [rewrite EM; auto|]. specialize (Q G' HG). rewrite EM in Q. specialize (Ht i Hi).
    fold solver in Q. unfold fsb_plan. rewrite EM. fold X'. lra.
Qed.
Print Assumptions C87_step_with_network_simplex.

(** a case: one free point, two measures on the line with two atoms each; the solver returns the
    only coupling, and the point moves to the mean of the means *)
Definition one_row (n m : nat) (b a : vec) (M : mat) : mat := fun _ s => a s.
Example C87_case : let a := fun (i s : nat) => if Nat.eqb s 0 then 1 / 4 else 3 / 4 in
  (forall i M, (i < 2)%nat -> optimal_coupling 1 2 (fun _ => 1) (a i) M (one_row 1 2 (fun _ => 1) (a i) M)) /\
  fsb_step (N:=RNum) one_row 1 1 2 (fun _ => 1) (fun _ => 2%nat) (fun i s _ => INR i + INR s) a (fun _ => 1 / 2) (fun _ _ => 0) 0%nat 0%nat = 5 / 4.
Proof.
  split.
  - intros i M _. assert (U : forall G, coupling 1 2 (fun _ => 1) (fun s => if Nat.eqb s 0 then 1 / 4 else 3 / 4) G -> cost 1 2 M G = cost 1 2 M (one_row 1 2 (fun _ => 1) (fun s => if Nat.eqb s 0 then 1 / 4 else 3 / 4) M)).
    { intros G (_ & _ & C). apply rsum_ext; intros r Hr. apply rsum_ext; intros s Hs. specialize (C s Hs). unfold col_sum in C. cbn in C. replace r with 0%nat by lia. f_equal. rewrite Rplus_0_l in C. exact C. }
    split; [|intros G' HG; rewrite (U G' HG); apply Rle_refl]. repeat split.
    + intros r s _ _. unfold one_row. destruct (Nat.eqb s 0); lra.
    + intros r Hr. unfold row_sum, one_row. cbn. lra.
    + intros s Hs. unfold col_sum, one_row. cbn. lra.
  - cbn. field.
Qed.

(** C59.  generalized_free_support_barycenter does not use the weights as weights: they only enter
    through A = sum_i weights_i P_i^T P_i, so that with one common P any two weight vectors of the
    same sum give the same answer. *)
Theorem C59_weights_only_through_A : forall emd is k d p m q X a (P : mat) Y0 b w w' it thr eps (qc : nat), (forall i, q i = qc) ->
  rsum p w = rsum p w' ->
  generalized_free_support_barycenter (N:=RNum) emd is k d p m q X a (fun _ => P) Y0 b (Some w) it thr eps =
  generalized_free_support_barycenter (N:=RNum) emd is k d p m q X a (fun _ => P) Y0 b (Some w') it thr eps.
Proof.
  intros. assert (E : gen_A (N:=RNum) d p q (fun _ => P) w eps = gen_A (N:=RNum) d p q (fun _ => P) w' eps).
  { apply functional_extensionality; intro s. apply functional_extensionality; intro t. unfold gen_A. f_equal. rewrite !nsum_R.
    rewrite (rsum_ext p _ (fun i => w i * nsum (N:=RNum) qc (fun u => P u s * P u t))) by (intros; rewrite H; reflexivity). symmetry.
    rewrite (rsum_ext p _ (fun i => w' i * nsum (N:=RNum) qc (fun u => P u s * P u t))) by (intros; rewrite H; reflexivity). rewrite !rsum_scal_r, H0. reflexivity. }
  unfold generalized_free_support_barycenter. cbn [odflt]. rewrite E. reflexivity.
Qed.
Print Assumptions C59_weights_only_through_A.
(** two Diracs at 0 and 1 with weights 3/4 and 1/4: the answer is 1/2, not the weighted barycenter 1/4 *)
Theorem C59_weights_refuted : exists r, generalized_free_support_barycenter (N:=QNum) (fun _ _ b _ _ => fun i _ => b i) (fun _ A => A) 1 1 2 (fun _ => 1%nat) (fun _ => 1%nat)
   (fun i _ _ => if Nat.eqb i 0 then 0%Q else 1%Q) (fun _ _ => 1%Q) (fun _ _ _ => 1%Q) (fun _ _ => 0%Q) None (Some (fun i => if Nat.eqb i 0 then (3 # 4)%Q else (1 # 4)%Q)) 10 (1 # 100)%Q 0%Q = r /\
   fst r 0%nat 0%nat = (1 # 2)%Q /\ length (snd r) = 2%nat /\
   (let obj := fun y => ((3 # 4) * ((y - 0) * (y - 0)) + (1 # 4) * ((y - 1) * (y - 1)))%Q in obj (1 # 4) < obj (fst r 0%nat 0%nat))%Q.
Proof. eexists. split; [reflexivity|]. repeat split; vm_compute; reflexivity. Qed.
Print Assumptions C59_weights_refuted.
(** Y_init is used in the transformed space: with no iteration the answer is Y_init B^T, here 1/2 for Y_init = 1, P = 2 *)
Theorem C59_initial_point_refuted : fst (generalized_free_support_barycenter (N:=QNum) (fun _ _ b _ _ => fun i _ => b i) (fun _ _ => fun _ _ => (1 # 2)%Q) 1 1 1 (fun _ => 1%nat) (fun _ => 1%nat)
   (fun _ _ _ => 0%Q) (fun _ _ => 1%Q) (fun _ _ _ => 2%Q) (fun _ _ => 1%Q) None None 0 (1 # 100)%Q 0%Q) 0%nat 0%nat = (1 # 2)%Q /\
   gen_A (N:=QNum) 1 1 (fun _ => 1%nat) (fun _ _ _ => 2%Q) (fun _ => 1%Q) 0%Q 0%nat 0%nat = 4%Q.
Proof. split; vm_compute; reflexivity. Qed.
Print Assumptions C59_initial_point_refuted.
(** with uniform weights (and eps = 0, B the symmetric inverse square root of A) the reduction is
    exact: for all couplings the weighted generalized objective at Y = Z B^T and the plain
    objective at Z differ by a constant *)
Definition bmul (d : nat) (Z B : mat) : mat := fun r t => rsum d (fun s => Z r s * B t s).
Definition proj (d : nat) (Y P : mat) : mat := fun r u => rsum d (fun s => P u s * Y r s).
Lemma quad_expand : forall q (x y : vec), rsum q (fun u => (x u - y u) ^ 2) = rsum q (fun u => x u ^ 2) - 2 * rsum q (fun u => x u * y u) + rsum q (fun u => y u ^ 2).
Proof. intros. rewrite <- rsum_scal, <- rsum_minus, <- rsum_plus. apply rsum_ext; intros; ring. Qed.
Lemma cost_marg : forall k m b a T (f : mat) g h, coupling k m b a T -> cost k m (fun r s => g r + f r s + h s) T = cost k m f T + rsum k (fun r => g r * b r) + rsum m (fun s => h s * a s).
Proof.
  intros k m b a T f g h (_ & R1 & C1). unfold cost. rewrite (rsum_ext k _ (fun r => rsum m (fun s => f r s * T r s) + g r * b r + rsum m (fun s => h s * T r s))).
  - rewrite !rsum_plus. f_equal. rewrite rsum_swap. apply rsum_ext; intros s Hs. rewrite rsum_scal. rewrite <- (C1 s Hs). reflexivity.
  - intros r Hr. rewrite <- (R1 r Hr). unfold row_sum. rewrite <- rsum_scal, <- !rsum_plus. apply rsum_ext; intros; ring.
Qed.
Lemma gen_inner : forall d (q : nat -> nat) (X P : nat -> mat) (B Z : mat) i r s, (forall s t, B s t = B t s) ->
  rsum (q i) (fun u => proj d (bmul d Z B) (P i) r u * X i s u) = rsum d (fun t => Z r t * gen_Z (N:=RNum) d q P X B i s t).
Proof.
  intros d q X P B Z i r s Bs. unfold proj, bmul, gen_Z.
    rewrite (rsum_ext d (fun t => Z r t * nsum (N:=RNum) d (fun s0 => nmul (n:=RNum) (nsum (N:=RNum) (q i) (fun u => nmul (n:=RNum) (X i s u) (P i u s0))) (B t s0))) (fun t => rsum d (fun s0 => rsum (q i) (fun u => X i s u * P i u s0 * B t s0 * Z r t)))).
    2:{ intros t Ht. rewrite nsum_R, <- rsum_scal. apply rsum_ext; intros s0 H0. rewrite nsum_R. cbn [nmul RNum]. rewrite <- rsum_scal_r, <- rsum_scal. apply rsum_ext; intros; ring. }
    rewrite (rsum_ext (q i) _ (fun u => rsum d (fun s0 => rsum d (fun t => X i s u * P i u s0 * B t s0 * Z r t)))).
    2:{ intros u Hu. rewrite <- rsum_scal_r. apply rsum_ext; intros s0 H0. rewrite <- rsum_scal, <- rsum_scal_r. apply rsum_ext; intros t Ht. rewrite (Bs t s0). ring. }
    rewrite rsum_swap. rewrite (rsum_ext d _ (fun s0 => rsum d (fun t => rsum (q i) (fun u => X i s u * P i u s0 * B t s0 * Z r t)))) by (intros; apply rsum_swap). apply rsum_swap.
Qed.
Lemma gen_opt_transfer : forall d k m (q : nat -> nat) (X P : nat -> mat) (B Z : mat) b a i T, (forall s t, B s t = B t s) ->
  optimal_coupling k m b a (sqeu d Z (gen_Z (N:=RNum) d q P X B i)) T -> optimal_coupling k m b a (sqeu (q i) (proj d (bmul d Z B) (P i)) (X i)) T.
Proof.
  intros d k m q X P B Z b a i T Bs [C O]. split; auto. intros G' HG. specialize (O G' HG). set (y := bmul d Z B) in *. set (Zi := gen_Z (N:=RNum) d q P X B) in *.
  assert (L : forall G, coupling k m b a G -> cost k m (sqeu (q i) (proj d y (P i)) (X i)) G = cost k m (fun r s => -2 * rsum d (fun t => Z r t * Zi i s t)) G + rsum k (fun r => rsum (q i) (fun u => proj d y (P i) r u ^ 2) * b r) + rsum m (fun s => rsum (q i) (fun u => X i s u ^ 2) * a s)).
  { intros G H. rewrite <- (cost_marg k m b a G _ _ _ H). apply cost_ext_M. intros r s _ _. unfold sqeu. rewrite (quad_expand (q i) (proj d y (P i) r) (X i s)). unfold y. rewrite (gen_inner d q X P B Z i r s Bs). fold Zi. lra. }
  assert (L' : forall G, coupling k m b a G -> cost k m (sqeu d Z (Zi i)) G = cost k m (fun r s => -2 * rsum d (fun t => Z r t * Zi i s t)) G + rsum k (fun r => rsum d (fun t => Z r t ^ 2) * b r) + rsum m (fun s => rsum d (fun t => Zi i s t ^ 2) * a s)).
  { intros G H. rewrite <- (cost_marg k m b a G _ _ _ H). apply cost_ext_M. intros r s _ _. unfold sqeu. rewrite (quad_expand d (Z r) (Zi i s)). lra. }
  rewrite (L T C), (L G' HG). rewrite (L' T C), (L' G' HG) in O. lra.
Qed.
Theorem C59_uniform_weights_exact : forall d p k (m q : nat -> nat) (X P : nat -> mat) (B : mat) b a w,
  rsum p w = 1 -> (forall s t, B s t = B t s) ->
  (forall s t, (s < d)%nat -> (t < d)%nat -> rsum d (fun u => rsum d (fun v => B s u * gen_A (N:=RNum) d p q P w 0 u v * B v t)) = if Nat.eqb s t then 1 else 0) ->
  exists C, forall Z T, (forall i, (i < p)%nat -> coupling k (m i) b (a i) (T i)) ->
  rsum p (fun i => w i * cost k (m i) (sqeu (q i) (proj d (bmul d Z B) (P i)) (X i)) (T i)) =
  rsum p (fun i => w i * cost k (m i) (sqeu d Z (gen_Z (N:=RNum) d q P X B i)) (T i)) + C.
Proof.
  intros d p k m q X P B b a w Hw Bs BAB. set (Zi := gen_Z (N:=RNum) d q P X B).
  exists (rsum p (fun i => w i * rsum (m i) (fun s => (rsum (q i) (fun u => X i s u ^ 2) - rsum d (fun t => Zi i s t ^ 2)) * a i s))). intros Z T HT.
  set (y := bmul d Z B).
  assert (In_ : forall i r s, rsum (q i) (fun u => proj d y (P i) r u * X i s u) = rsum d (fun t => Z r t * Zi i s t)) by (intros; apply gen_inner; auto).
  assert (No : forall r, rsum p (fun i => w i * rsum (q i) (fun u => proj d y (P i) r u ^ 2)) = rsum d (fun t => Z r t ^ 2)).
  { intros r. transitivity (rsum d (fun s => rsum d (fun t => y r s * gen_A (N:=RNum) d p q P w 0 s t * y r t))).
    - rewrite (rsum_ext p _ (fun i => rsum d (fun s => rsum d (fun t => y r s * (w i * rsum (q i) (fun u => P i u s * P i u t)) * y r t)))).
      + rewrite rsum_swap. apply rsum_ext; intros s Hs. rewrite rsum_swap. apply rsum_ext; intros t Ht. unfold gen_A. rewrite nsum_R. cbn [nadd nmul RNum].
        rewrite (rsum_ext p (fun i => w i * nsum (N:=RNum) (q i) (fun u => P i u s * P i u t)) (fun i => w i * rsum (q i) (fun u => P i u s * P i u t))) by (intros; rewrite nsum_R; auto).
        rewrite rsum_scal_r, rsum_scal. ring.
      + intros i Hi. rewrite <- rsum_scal. rewrite (rsum_ext (q i) _ (fun u => rsum d (fun s => rsum d (fun t => w i * (P i u s * P i u t) * y r s * y r t)))).
        * rewrite rsum_swap. apply rsum_ext; intros s Hs. rewrite rsum_swap. apply rsum_ext; intros t Ht. rewrite <- rsum_scal, <- rsum_scal, <- rsum_scal_r. apply rsum_ext; intros; ring.
        * intros u Hu. unfold proj. replace (rsum d (fun s => P i u s * y r s) ^ 2) with (rsum d (fun s => P i u s * y r s) * rsum d (fun t => P i u t * y r t)) by ring. rewrite <- rsum_scal_r, <- rsum_scal. apply rsum_ext; intros s Hs. rewrite <- rsum_scal, <- rsum_scal. apply rsum_ext; intros; ring.
    - (* y = B z *)
      rewrite (rsum_ext d _ (fun s => rsum d (fun t => rsum d (fun u => rsum d (fun v => Z r u * (B u s * gen_A (N:=RNum) d p q P w 0 s t * B t v) * Z r v))))).
      2:{ intros s Hs. apply rsum_ext; intros t Ht. unfold y, bmul. rewrite <- rsum_scal_r, <- rsum_scal_r. apply rsum_ext; intros u Hu. rewrite <- rsum_scal. apply rsum_ext; intros v Hv. rewrite (Bs s u). ring. }
      transitivity (rsum d (fun u => rsum d (fun v => Z r u * (if Nat.eqb u v then 1 else 0) * Z r v))).
      + rewrite (rsum_ext d _ (fun s => rsum d (fun u => rsum d (fun t => rsum d (fun v => Z r u * (B u s * gen_A (N:=RNum) d p q P w 0 s t * B t v) * Z r v))))) by (intros; apply rsum_swap).
        rewrite rsum_swap. apply rsum_ext; intros u Hu.
        rewrite (rsum_ext d _ (fun s => rsum d (fun v => rsum d (fun t => Z r u * (B u s * gen_A (N:=RNum) d p q P w 0 s t * B t v) * Z r v)))) by (intros; apply rsum_swap).
        rewrite rsum_swap. apply rsum_ext; intros v Hv. rewrite <- (BAB u v Hu Hv). rewrite <- rsum_scal, <- rsum_scal_r. apply rsum_ext; intros s Hs. rewrite <- rsum_scal, <- rsum_scal_r. reflexivity.
      + apply rsum_ext; intros u Hu. rewrite (rsum_single d u); [rewrite Nat.eqb_refl; ring|auto|]. intros v Hv Nv. destruct (Nat.eqb_spec u v); [congruence|ring]. }
  assert (L : forall i, (i < p)%nat -> cost k (m i) (sqeu (q i) (proj d y (P i)) (X i)) (T i) = cost k (m i) (fun r s => -2 * rsum d (fun t => Z r t * Zi i s t)) (T i) + rsum k (fun r => rsum (q i) (fun u => proj d y (P i) r u ^ 2) * b r) + rsum (m i) (fun s => rsum (q i) (fun u => X i s u ^ 2) * a i s)).
  { intros i Hi. rewrite <- (cost_marg k (m i) b (a i) (T i) _ _ _ (HT i Hi)). apply cost_ext_M. intros r s _ _. unfold sqeu. rewrite (quad_expand (q i) (proj d y (P i) r) (X i s)), In_. lra. }
  assert (L' : forall i, (i < p)%nat -> cost k (m i) (sqeu d Z (Zi i)) (T i) = cost k (m i) (fun r s => -2 * rsum d (fun t => Z r t * Zi i s t)) (T i) + rsum k (fun r => rsum d (fun t => Z r t ^ 2) * b r) + rsum (m i) (fun s => rsum d (fun t => Zi i s t ^ 2) * a i s)).
  { intros i Hi. rewrite <- (cost_marg k (m i) b (a i) (T i) _ _ _ (HT i Hi)). apply cost_ext_M. intros r s _ _. unfold sqeu. rewrite (quad_expand d (Z r) (Zi i s)). lra. }
  set (cr := fun i => cost k (m i) (fun r s => -2 * rsum d (fun t => Z r t * Zi i s t)) (T i)) in *.
  rewrite (rsum_ext p _ (fun i => w i * cr i + rsum k (fun r => w i * rsum (q i) (fun u => proj d y (P i) r u ^ 2) * b r) + w i * rsum (m i) (fun s => rsum (q i) (fun u => X i s u ^ 2) * a i s))).
  2:{ intros i Hi. rewrite (L i Hi). fold (cr i). rewrite (rsum_ext k (fun r => w i * _ * b r) (fun r => w i * (rsum (q i) (fun u => proj d y (P i) r u ^ 2) * b r))) by (intros; ring). rewrite rsum_scal. ring. }
  rewrite (rsum_ext p (fun i => w i * cost k (m i) (sqeu d Z (Zi i)) (T i)) (fun i => w i * cr i + w i * rsum k (fun r => rsum d (fun t => Z r t ^ 2) * b r) + w i * rsum (m i) (fun s => rsum d (fun t => Zi i s t ^ 2) * a i s))).
  2:{ intros i Hi. rewrite (L' i Hi). fold (cr i). ring. }
  rewrite !rsum_plus, rsum_scal_r, Hw. rewrite (rsum_swap p k).
  rewrite (rsum_ext k (fun j => rsum p (fun i => w i * rsum (q i) (fun u => proj d y (P i) j u ^ 2) * b j)) (fun r => rsum d (fun t => Z r t ^ 2) * b r)) by (intros r Hr; rewrite rsum_scal_r, No; auto).
  rewrite (rsum_ext p (fun i => w i * rsum (m i) (fun s => (rsum (q i) (fun u => X i s u ^ 2) - rsum d (fun t => Zi i s t ^ 2)) * a i s)) (fun i => w i * rsum (m i) (fun s => rsum (q i) (fun u => X i s u ^ 2) * a i s) - w i * rsum (m i) (fun s => rsum d (fun t => Zi i s t ^ 2) * a i s))).
  2:{ intros i Hi. rewrite <- Rmult_minus_distr_l, <- rsum_minus. f_equal. apply rsum_ext; intros; ring. }
  rewrite rsum_minus. ring.
Qed.
Print Assumptions C59_uniform_weights_exact.
(** hence with weights=None and an exact inner solver the returned barycenter is never worse than
    Y_init B^T for the generalized objective sum_i (1/p) W2^2((P_i)# Y, X_i) *)
Theorem C59_uniform_descent : forall emd is k d p m q X a P Y0 b it thr bmin e0, (1 <= p)%nat ->
  let w := fun _ : nat => 1 / INR p in let A := gen_A (N:=RNum) d p q P w 0 in let B := is d A in
  (forall s t, B s t = B t s) -> (forall s t, (s < d)%nat -> (t < d)%nat -> rsum d (fun u => rsum d (fun v => B s u * A u v * B v t)) = if Nat.eqb s t then 1 else 0) ->
  pos_vec k b -> 0 < bmin -> (forall r, (r < k)%nat -> bmin <= b r) ->
  (forall i M, (i < p)%nat -> optimal_coupling k (m i) b (a i) M (emd k (m i) b (a i) M)) ->
  let C := fun Y i => sqeu (q i) (proj d Y (P i)) (X i) in
  bary_value k p b m (C (bmul d Y0 B)) a w e0 ->
  let r := generalized_free_support_barycenter (N:=RNum) emd is k d p m q X a P Y0 (Some b) None it thr 0 in
  exists e, bary_value k p b m (C (fst r)) a w e /\ e + bmin * lsum (fun x => x) (snd r) <= e0.
Proof.
  intros emd is k d p m q X a P Y0 b it thr bmin e0 Hp w A B Bs BAB Hb Hb0 Hbm Hemd C He0 r.
  assert (Hp0 : 0 < INR p) by (apply lt_0_INR; lia).
  assert (Hw : rsum p w = 1) by (unfold w; rewrite rsum_const; field; lra).
  assert (Hw0 : nonneg_vec p w) by (intros i _; unfold w; apply Rlt_le, Rdiv_lt_0_compat; lra).
  destruct (C59_uniform_weights_exact d p k m q X P B b a w Hw Bs BAB) as [c Hc].
  assert (TR : forall Z e, bary_value k p b m (fun i => sqeu d Z (gen_Z (N:=RNum) d q P X B i)) a w e -> bary_value k p b m (C (bmul d Z B)) a w (e + c)).
  { intros Z e (T & HT & ->). exists T. split; [intros i Hi; apply gen_opt_transfer; auto|]. symmetry. apply (Hc Z T). intros i Hi. apply (HT i Hi). }
  assert (EV : forall Z, exists e, bary_value k p b m (fun i => sqeu d Z (gen_Z (N:=RNum) d q P X B i)) a w e).
  { intros Z. eexists. exists (fun i => emd k (m i) b (a i) (sqeu d Z (gen_Z (N:=RNum) d q P X B i))). split; [intros i Hi; apply Hemd; auto|reflexivity]. }
  destruct (EV Y0) as [e1 He1]. pose proof (bary_value_unique _ _ _ _ _ _ _ _ _ (TR _ _ He1) He0) as Q.
  destruct (C87_free_support_descent emd k d p m (gen_Z (N:=RNum) d q P X B) a Y0 b w it thr bmin e1 Hb Hw0 Hw Hb0 Hbm Hemd He1) as ((e2 & He2 & D) & _).
  assert (W : uniform (N:=RNum) p = w) by (apply functional_extensionality; intro i; unfold uniform, w; rewrite Emd1d_perm_proofs.nofnat_INR; reflexivity).
  assert (ER : r = (bmul d (fst (free_support_barycenter (N:=RNum) emd k d p m (gen_Z (N:=RNum) d q P X B) a Y0 (Some b) (Some w) it thr)) B, snd (free_support_barycenter (N:=RNum) emd k d p m (gen_Z (N:=RNum) d q P X B) a Y0 (Some b) (Some w) it thr))).
  { unfold r, generalized_free_support_barycenter, free_support_barycenter. cbn [odflt]. rewrite W. change (is d (gen_A (N:=RNum) d p q P w 0)) with B. f_equal. apply functional_extensionality; intro x. apply functional_extensionality; intro t. rewrite nsum_R. reflexivity. }
  rewrite ER. cbn [fst snd]. exists (e2 + c). split; [apply TR; auto|]. rewrite <- Q. assert (F : forall x y z u : R, x + y <= z -> x + u + y <= z + u) by (intros; lra). exact (F _ _ _ _ D).
Qed.
Print Assumptions C59_uniform_descent.
(** P_1 = 1, P_2 = 2 with weights 1/2: A = 5/2; B = sqrt (2/5) *)
Example C59_case : let B := sqrt (2 / 5) in B * gen_A (N:=RNum) 1 2 (fun _ => 1%nat) (fun i _ _ => INR (S i)) (fun _ => 1 / 2) 0 0%nat 0%nat * B = 1.
Proof. intro B. unfold gen_A. cbn. assert (E : B * B = 2 / 5) by (apply sqrt_sqrt; lra). replace (B * (0 * 1 + (0 + 1 / 2 * (0 + 1 * 1) + 1 / 2 * (0 + (1 + 1) * (1 + 1)))) * B) with (B * B * (5 / 2)) by field. rewrite E. field. Qed.

(** C89.  free_support_barycenter_generic_costs with method="true_fixed_point": with an exact inner
    solver and an exact ground barycenter the reported energies never increase, for any costs;
    every iterate has positive weights and the mass of the first; with nonnegative costs and
    stopThr > 0 it makes at most 1 + V_0 / stopThr iterations. *)
Fixpoint noninc (l : list R) : Prop := match l with x :: (y :: _) as r => y <= x /\ noninc r | _ => True end.
Theorem C89_true_fixed_point_descent : forall emd Pt x0 K m w c gb ms it thr (mu : measure (N:=RNum) Pt),
  (1 <= K)%nat -> good_measure Pt ms mu ->
  (forall k n a M, (k < K)%nat -> nonneg_vec n a -> rsum n a = ms -> optimal_coupling n (m k) a (w k) M (emd n (m k) a (w k) M)) ->
  (forall J x, rsum K (fun k => c k (gb J) (nth k J 0%nat)) <= rsum K (fun k => c k x (nth k J 0%nat))) ->
  exists nu l st, generic_costs (N:=RNum) emd Pt K m w c (fixed_point_step (N:=RNum) emd Pt x0 K m w c gb) it thr mu = Some (nu, l, st) /\
  good_measure Pt ms nu /\ ((1 <= it)%nat -> pos_vec (ms_n _ nu) (ms_a _ nu)) /\ noninc l /\
  ((1 <= it)%nat -> hd 0 l = ot_barycenter_energy (N:=RNum) emd Pt K m w c (ms_n _ mu) (ms_X _ mu) (ms_a _ mu) /\ last l 0 = ot_barycenter_energy (N:=RNum) emd Pt K m w c (ms_n _ nu) (ms_X _ nu) (ms_a _ nu)) /\
  (st = false -> length l = match it with O => 0%nat | _ => S it end) /\
  ((forall k x j, 0 <= c k x j) -> INR (length l - 2) * thr <= hd 0 l).
Proof.
  intros emd Pt x0 K m w c gb ms it thr mu HK Hg Hemd Hgb. set (step := fixed_point_step (N:=RNum) emd Pt x0 K m w c gb). set (en := fun mu : measure (N:=RNum) Pt => ot_barycenter_energy (N:=RNum) emd Pt K m w c (ms_n _ mu) (ms_X _ mu) (ms_a _ mu)).
  assert (EN : (forall k x j, 0 <= c k x j) -> forall mu, good_measure Pt ms mu -> 0 <= en mu).
  { intros Hc nu [A0 As]. unfold en. rewrite energy_R. apply rsum_nonneg; intros k Hk. destruct (Hemd k (ms_n _ nu) (ms_a _ nu) (fun i j => c k (ms_X _ nu i) j) Hk A0 As) as [(P & _) _].
    apply rsum_nonneg; intros i Hi. apply rsum_nonneg; intros j Hj. apply Rmult_le_pos; auto. }
  assert (L : forall it mu, good_measure Pt ms mu -> exists nu l st, generic_loop (N:=RNum) emd Pt K m w c step it thr (en mu) mu = Some (nu, l, st) /\ good_measure Pt ms nu /\ ((1 <= it)%nat -> pos_vec (ms_n _ nu) (ms_a _ nu)) /\
     noninc (en mu :: l) /\ last (en mu :: l) 0 = en nu /\ (st = false -> length l = it) /\ ((forall k x j, 0 <= c k x j) -> INR (length l - 1) * thr <= en mu)).
  { clear mu Hg it. induction it as [|it IH]; intros mu Hg; cbn [generic_loop].
    - exists mu, [], false. repeat split; auto; try lia; try apply Hg. intros Hc. cbn. rewrite Rmult_0_l. apply EN; auto.
    - destruct (fixed_point_decr emd Pt x0 K m w c gb ms HK Hemd Hgb mu Hg) as (nu & E & Gn & Pn & D). fold (en nu) in D. fold (en mu) in D. fold step in E. rewrite E.
      cbv zeta. fold (en nu). cbn [nltb nsub RNum]. destruct (Rltb (en mu - en nu) thr) eqn:B.
      + exists nu, [en nu], true. split; [reflexivity|]. split; [auto|]. split; [auto|]. split; [cbn; auto|]. split; [reflexivity|]. split; [discriminate|]. intros Hc. cbn. rewrite Rmult_0_l. apply EN; auto.
      + apply Rltb_false in B. destruct (IH nu Gn) as (r & l & st & E' & Gr & Pr & Nl & La & Lf & Bd). rewrite E'. exists r, (en nu :: l), st. split; [reflexivity|]. split; [auto|]. split.
        { intros _. destruct it; [|apply Pr; lia]. cbn [generic_loop] in E'. injection E' as <- _ _. auto. }
        split; [cbn [noninc]; split; auto|]. split; [exact La|]. split; [intros Hs; cbn [length]; rewrite (Lf Hs); reflexivity|]. intros Hc. specialize (Bd Hc). cbn [length]. replace (S (length l) - 1)%nat with (length l) by lia.
        destruct l as [|y l]; [cbn; rewrite Rmult_0_l; apply EN; auto|]. cbn [length] in *. replace (S (length l) - 1)%nat with (length l) in Bd by lia. rewrite S_INR. change (carrier RNum) with R in *. lra. }
  unfold generic_costs. cbv zeta. fold (en mu). destruct it as [|it].
  - exists mu, [], false. split; [reflexivity|]. split; [auto|]. split; [lia|]. split; [exact I|]. split; [lia|]. split; [auto|]. intros _. cbn. lra.
  - destruct (L (S it) mu Hg) as (nu & l & st & E & Gn & Pn & Nl & La & Lf & Bd). fold step. rewrite E. exists nu, (en mu :: l), st. split; [reflexivity|]. split; [auto|]. split; [auto|]. split; [exact Nl|]. split; [intros _; split; [reflexivity|exact La]|].
    split; [intros Hs; cbn [length]; rewrite (Lf Hs); auto|]. intros Hc. cbn [hd length]. replace (S (length l) - 2)%nat with (length l - 1)%nat by lia. apply Bd; auto.
Qed.
Print Assumptions C89_true_fixed_point_descent.
(** hypotheses met: one measure carried by a single atom y, cost (x - y)^2, ground barycenter y *)
Example C89_case : let emd := fun (n m : nat) (a b : vec) (M : mat) => (fun i _ => a i) : mat in
  (forall n a M, nonneg_vec n a -> rsum n a = 1 -> optimal_coupling n 1 a (fun _ => 1) M (emd n 1%nat a (fun _ => 1) M)) /\
  (forall (J : list nat) x, (5 - 5) ^ 2 <= (x - 5) ^ 2).
Proof.
  split; [|intros; pose proof (pow2_ge_0 (x - 5)); lra]. intros n a M A0 As.
  assert (U : forall G, coupling n 1 a (fun _ => 1) G -> cost n 1 M G = cost n 1 M (fun i _ => a i)).
  { intros G (_ & R1 & _). apply rsum_ext; intros i Hi. specialize (R1 i Hi). unfold row_sum in R1. cbn in *. rewrite <- R1. ring. }
  split; [|intros G' HG; rewrite (U G' HG); apply Rle_refl]. repeat split.
  - intros i j Hi _. apply A0; auto.
  - intros i Hi. unfold row_sum. cbn. lra.
  - intros j Hj. unfold col_sum. exact As.
Qed.
(** method="L2_barycentric_proj" has no such guarantee: one measure with atoms 0 (mass 2/3) and 1
    (mass 1/3), cost |x - y|, started at the optimum 0, energy 1/3: the next and returned iterate is
    1/3, energy 4/9, with exit status "Stationary Point" *)
Definition qabs (x y : Q) : Q := nabs (N:=QNum) (Qred (x - y)).
Theorem C89_l2_projection_refuted :
  let emd := fun (n m : nat) (a b : nat -> Q) (M : nat -> nat -> Q) => (fun i j => b j) : nat -> nat -> Q in
  let w := fun (k j : nat) => if Nat.eqb j 0 then (2 # 3)%Q else (1 # 3)%Q in
  let Yl := fun (k j : nat) => if Nat.eqb j 0 then 0%Q else 1%Q in
  option_map (fun r => (ms_X Q (fst (fst r)) 0%nat, snd (fst r), snd r))
    (generic_costs (N:=QNum) emd Q 1 (fun _ => 2%nat) w (fun k x j => qabs x (Yl k j)) (l2proj_step (N:=QNum) emd 1 (fun _ => 2%nat) w Yl (fun _ => qabs) (fun y => y 0%nat)) 10 (1 # 100000)%Q (mkM (N:=QNum) Q 1 (fun _ => 0%Q) (fun _ => 1%Q)))
  = Some ((1 # 3)%Q, [(1 # 3)%Q; (4 # 9)%Q], true).
Proof. vm_compute. reflexivity. Qed.
Print Assumptions C89_l2_projection_refuted.
