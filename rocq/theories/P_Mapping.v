(** C139-C140: joint transport and mapping estimation (ot/mapping.py, da.MappingTransport), nearest Brenier
    potentials. *)
From Coq Require Import Reals QArith List Lra Lia Bool String.
From Verif Require Import Num Sums Spec Exist Duals_proofs Emd1d_model Emd1d_perm_proofs Optim_model Optim_proofs Weak_model Weak_proofs Da_reg_proofs Mapping_model Mapping_proofs Mapping_more P_Weak.
Import ListNotations.
Local Open Scope R_scope.

(** *** what is optimised *)
(** image of sample i under the linear map L (d x d) or the affine one (last row of L = translation) *)
Definition affine_image (d : nat) (bias : bool) (X L : mat) : mat :=
  fun i t => rsum d (fun s => X i s * L s t) + (if bias then L d t else 0).
(** image under the kernel expansion with coefficients L *)
Definition gaussian_k (d : nat) (sigma : R) (X Y : mat) : mat := fun i j => exp (- rsum d (fun t => (X i t - Y j t) ^ 2) / (2 * (sigma * sigma))).
Definition kernel_image (ns : nat) (bias : bool) (K L : mat) : mat :=
  fun i t => rsum ns (fun s => K i s * L s t) + (if bias then L ns t else 0).
(** image, plan, penalty: || image - ns G xt ||^2 + mu ns <squared distances, G> + penalty *)
Definition joint_objective (ns nt d : nat) (xs xt : mat) (mu : R) (image : mat) (G : mat) (pen : R) : R :=
  rsum ns (fun i => rsum d (fun t => (image i t - INR ns * rsum nt (fun j => G i j * xt j t)) ^ 2)) +
  mu * (INR ns * cost ns nt (fun i j => rsum d (fun t => (xs i t - xt j t) ^ 2)) G) + pen.
Definition linear_objective (ns nt d : nat) (xs xt : mat) (mu eta : R) (bias : bool) (L G : mat) : R :=
  joint_objective ns nt d xs xt mu (affine_image d bias xs L) G
    (eta * rsum d (fun s => rsum d (fun t => (L s t - (if Nat.eqb s t then 1 else 0)) ^ 2))).
Definition kernel_objective (ns nt d : nat) (xs xt : mat) (mu eta sigma : R) (bias : bool) (L G : mat) : R :=
  let K := gaussian_k d sigma xs xs in
  joint_objective ns nt d xs xt mu (kernel_image ns bias K L) G
    (eta * rsum d (fun t => rsum ns (fun s => rsum ns (fun r => L s t * K s r * L r t)) + (if bias then L ns t ^ 2 else 0))).

(** what a run guarantees: a coupling of the uniform weights; the mapping is the best one for the plan returned;
    the recorded losses start at the best mapping for the plain transport plan, never increase and end at the
    objective of the pair returned; at most numItermax rounds, fewer only if the last relative change is below
    stopThr *)
Definition run_spec (ns nt K : nat) (thr : R) (obj : mat -> mat -> R) (M : mat) (r : @jres RNum) : Prop :=
  coupling ns nt (fun _ => 1 / INR ns) (fun _ => 1 / INR nt) (j_G r) /\
  (forall L', obj (j_L r) (j_G r) <= obj L' (j_G r)) /\
  nonincreasing (j_loss r) /\ last (j_loss r) 0 = obj (j_L r) (j_G r) /\
  (exists G0 L0, optimal_coupling ns nt (fun _ => 1 / INR ns) (fun _ => 1 / INR nt) M G0 /\ (forall L', obj L0 G0 <= obj L' G0) /\ hd 0 (j_loss r) = obj L0 G0) /\
  (1 <= List.length (j_loss r) <= S K)%nat /\
  ((List.length (j_loss r) < S K)%nat -> exists x y l, j_loss r = l ++ [x; y] /\ x <> 0 /\ Rabs (y - x) / Rabs x < thr).

Lemma gk_R : forall d sigma X Y i j, gauss_kernel (N:=RNum) exp d sigma X Y i j = gaussian_k d sigma X Y i j.
Proof. intros. unfold gauss_kernel, gaussian_k. rewrite sqd_R. unfold nopp, two. cbn. unfold sqdist. unfold Rdiv. rewrite Rminus_0_l. reflexivity. Qed.
Section C139.
Variables (ns nt d : nat) (xs xt : mat) (mu eta : R) (lp : mat -> mat) (search : (R -> R) -> R -> R -> R -> option R * R) (solve : nat -> nat -> mat -> mat -> option mat).
Variables (K Ki : nat) (thr thri thr2 : R) (bias : bool).
Lemma affine_fit : forall X L i t, fitmap (l_k d bias) (l_xs1 (N:=RNum) d X bias) L i t = affine_image d bias X L i t.
Proof.
  intros. unfold fitmap, l_k, l_xs1, affine_image, with_ones. destruct bias; [|ring]. cbn [rsum n1 RNum]. rewrite Nat.ltb_irrefl, Rmult_1_l. f_equal.
  apply rsum_ext; intros s Hs. replace (Nat.ltb s d) with true by (symmetry; apply Nat.ltb_lt; lia). reflexivity.
Qed.
Lemma kernel_fit : forall Kx L i t, fitmap (k_k ns bias) (k_K1 (N:=RNum) ns bias Kx) L i t = kernel_image ns bias Kx L i t.
Proof.
  intros. unfold fitmap, k_k, k_K1, kernel_image, with_ones. destruct bias; [|ring]. cbn [rsum n1 RNum]. rewrite Nat.ltb_irrefl, Rmult_1_l. f_equal.
  apply rsum_ext; intros s Hs. replace (Nat.ltb s ns) with true by (symmetry; apply Nat.ltb_lt; lia). reflexivity.
Qed.
Lemma optimal_scale : forall n m a b (M G : mat) c, 0 < c -> optimal_coupling n m a b (fun i j => c * M i j) G -> optimal_coupling n m a b M G.
Proof.
  intros n m a b M G c Hc [C O]. split; auto. intros G' C'. specialize (O G' C').
  assert (S : forall T, cost n m (fun i j => c * M i j) T = c * cost n m M T).
  { intros T. unfold cost. rewrite <- rsum_scal. apply rsum_ext; intros. rewrite <- rsum_scal. apply rsum_ext; intros; ring. }
  rewrite !S in O. apply (Rmult_le_reg_l c); auto.
Qed.

(** C139, linear or affine mappings *)
Theorem C139_linear : forall r, (0 < ns)%nat -> 0 < mu -> 0 <= eta ->
  (forall Mi, optimal_coupling ns nt (fun _ => 1 / INR ns) (fun _ => 1 / INR nt) Mi (lp Mi)) -> search_contract search -> solve_contract solve ->
  joint_OT_mapping_linear (N:=RNum) ns nt d xs xt mu eta lp search solve K Ki thr thri thr2 bias = Some r ->
  run_spec ns nt K thr (linear_objective ns nt d xs xt mu eta bias) (fun i j => rsum d (fun t => (xs i t - xt j t) ^ 2)) r.
Proof.
  intros r Hn Hmu Heta Hlp Hs Hsol E.
  assert (OB : forall L G, full ns nt d xs xt mu (l_k d bias) (l_xs1 (N:=RNum) d xs bias) (lin_pen d eta) L G = linear_objective ns nt d xs xt mu eta bias L G).
  { intros L G. unfold full, linear_objective, joint_objective, lin_pen, target, sqdist. f_equal. f_equal. apply rsum_ext; intros i Hi; apply rsum_ext; intros t Ht. rewrite affine_fit. reflexivity. }
  assert (ML := l_solve_min ns nt d xs xt mu eta bias solve Heta Hsol).
  destruct (j_run_good ns nt d xs xt mu lp search K Ki thr thri thr2 (l_k d bias) (l_xs1 (N:=RNum) d xs bias) (l_solve_L (N:=RNum) ns nt d xs xt eta solve bias)
    (l_loss (N:=RNum) ns nt d xs xt mu eta bias) (lin_pen d eta) Hmu Hlp Hs (l_loss_full ns nt d xs xt mu eta bias) ML r E) as ((L0 & E0 & C & MN & NI & LA & HD & NE) & LEN & ST).
  unfold run_spec. split; [exact C|]. split; [intros L'; rewrite <- !OB; apply MN|]. split; [exact NI|]. split; [rewrite <- OB; exact LA|]. split; [|split; auto].
  exists (lp (jM (N:=RNum) ns d xs xt)), L0. split; [|split].
  - apply (optimal_scale _ _ _ _ _ _ (INR ns)); [apply lt_0_INR; auto|]. destruct (Hlp (jM (N:=RNum) ns d xs xt)) as [C0 O0]. split; auto. intros G' C'.
    assert (EM : forall T, cost ns nt (fun i j => INR ns * rsum d (fun t => (xs i t - xt j t) ^ 2)) T = cost ns nt (jM (N:=RNum) ns d xs xt) T).
    { intros T. unfold cost. apply rsum_ext; intros; apply rsum_ext; intros. rewrite jM_R. reflexivity. }
    rewrite !EM. apply O0; auto.
  - intros L'. rewrite <- !OB. apply ML. exact E0.
  - rewrite <- OB. exact HD.
Qed.

(** C139, kernel mappings; the Gaussian kernel matrix is positive semidefinite, which makes the system solved
    the optimality condition *)
Theorem C139_kernel : forall r sigma, (0 < ns)%nat -> 0 < mu -> 0 <= eta -> sigma <> 0 ->
  (forall Mi, optimal_coupling ns nt (fun _ => 1 / INR ns) (fun _ => 1 / INR nt) Mi (lp Mi)) -> search_contract search -> solve_contract solve ->
  joint_OT_mapping_kernel (N:=RNum) ns nt d xs xt mu eta lp search solve K Ki thr thri thr2 bias (gauss_kernel (N:=RNum) exp d sigma xs xs) = Some r ->
  run_spec ns nt K thr (kernel_objective ns nt d xs xt mu eta sigma bias) (fun i j => rsum d (fun t => (xs i t - xt j t) ^ 2)) r.
Proof.
  intros r sigma Hn Hmu Heta Hsg Hlp Hs Hsol E. set (Kx := gauss_kernel (N:=RNum) exp d sigma xs xs) in *.
  assert (KV : forall i j, Kx i j = gaussian_k d sigma xs xs i j).
  { intros. apply gk_R. }
  assert (KS : forall i j, Kx i j = Kx j i).
  { intros. rewrite !KV. unfold gaussian_k. f_equal. f_equal. f_equal. apply rsum_ext; intros; ring. }
  assert (KP : forall x : vec, 0 <= rsum ns (fun i => rsum ns (fun j => x i * Kx i j * x j))).
  { intros x. eapply Rle_trans; [apply (gauss_psd ns d xs sigma x Hsg)|]. apply Req_le. apply rsum_ext; intros; apply rsum_ext; intros. rewrite KV. reflexivity. }
  assert (OB : forall L G, full ns nt d xs xt mu (k_k ns bias) (k_K1 (N:=RNum) ns bias Kx) (ker_pen ns d Kx eta bias) L G = kernel_objective ns nt d xs xt mu eta sigma bias L G).
  { intros L G. unfold full, kernel_objective, joint_objective, ker_pen, target, sqdist. f_equal; [f_equal|f_equal].
    - apply rsum_ext; intros i Hi; apply rsum_ext; intros t Ht. rewrite kernel_fit. unfold kernel_image. do 3 f_equal. apply rsum_ext; intros. rewrite KV. reflexivity.
    - apply rsum_ext; intros t Ht. f_equal. apply rsum_ext; intros; apply rsum_ext; intros. rewrite KV. reflexivity. }
  assert (ML := k_solve_min ns nt d xs xt Kx mu eta bias solve Heta Hsol KS KP).
  destruct (j_run_good ns nt d xs xt mu lp search K Ki thr thri thr2 (k_k ns bias) (k_K1 (N:=RNum) ns bias Kx) (k_solve_L (N:=RNum) ns nt d xt eta solve bias Kx)
    (k_loss (N:=RNum) ns nt d xs xt mu eta bias Kx) (ker_pen ns d Kx eta bias) Hmu Hlp Hs (k_loss_full ns nt d xs xt Kx mu eta bias) ML r E) as ((L0 & E0 & C & MN & NI & LA & HD & NE) & LEN & ST).
  unfold run_spec. split; [exact C|]. split; [intros L'; rewrite <- !OB; apply MN|]. split; [exact NI|]. split; [rewrite <- OB; exact LA|]. split; [|split; auto].
  exists (lp (jM (N:=RNum) ns d xs xt)), L0. split; [|split].
  - apply (optimal_scale _ _ _ _ _ _ (INR ns)); [apply lt_0_INR; auto|]. destruct (Hlp (jM (N:=RNum) ns d xs xt)) as [C0 O0]. split; auto. intros G' C'.
    assert (EM : forall T, cost ns nt (fun i j => INR ns * rsum d (fun t => (xs i t - xt j t) ^ 2)) T = cost ns nt (jM (N:=RNum) ns d xs xt) T).
    { intros T. unfold cost. apply rsum_ext; intros; apply rsum_ext; intros. rewrite jM_R. reflexivity. }
    rewrite !EM. apply O0; auto.
  - intros L'. rewrite <- !OB. apply ML. exact E0.
  - rewrite <- OB. exact HD.
Qed.

(** MappingTransport.transform: new samples go through the mapping; the samples of the fit are sent to the
    barycentric projection of the plan instead *)
Theorem C139_transform : forall r X sigma, 
  (forall o, map_transform (N:=RNum) ns nt d xs xt "linear" exp sigma bias r false X = Some o -> forall i t, o i t = affine_image d bias X (j_L r) i t) /\
  (forall o, map_transform (N:=RNum) ns nt d xs xt "gaussian" exp sigma bias r false X = Some o -> forall i t, o i t = kernel_image ns bias (gaussian_k d sigma X xs) (j_L r) i t) /\
  (forall kern o, (0 < ns)%nat -> coupling ns nt (fun _ => 1 / INR ns) (fun _ => 1 / INR nt) (j_G r) ->
     map_transform (N:=RNum) ns nt d xs xt kern exp sigma bias r true X = Some o ->
     forall i t, (i < ns)%nat -> o i t = INR ns * rsum nt (fun j => j_G r i j * xt j t)).
Proof.
  intros r X sigma. split; [|split].
  - intros o E i t. unfold map_transform in E. cbn [String.eqb] in E. inversion E; subst o. rewrite mmul_R. rewrite <- affine_fit. reflexivity.
  - intros o E i t. unfold map_transform in E. cbn [String.eqb] in E. inversion E; subst o. rewrite mmul_R.
    transitivity (fitmap (k_k ns bias) (k_K1 (N:=RNum) ns bias (gauss_kernel (N:=RNum) exp d sigma X xs)) (j_L r) i t); [reflexivity|].
    rewrite kernel_fit. unfold kernel_image. f_equal. apply rsum_ext; intros s Hs. f_equal.
    apply gk_R.
  - intros kern o Hn C E i t Hi. unfold map_transform in E. inversion E; subst o. rewrite mmul_R.
    assert (P : 0 < INR ns) by (apply lt_0_INR; auto). destruct C as (_ & RW & _). specialize (RW i Hi). unfold row_sum in RW.
    rewrite <- rsum_scal. apply rsum_ext; intros j Hj. rewrite !nsum_R. cbn [neqb ndiv n0 RNum]. unfold Spec.mat in *. 
    assert (W : rsum nt (fun j0 => j_G r i j0) = 1 / INR ns) by exact RW. change (carrier RNum) with R in *. rewrite W.
    assert (NZ : Reqb (1 / INR ns) 0 = false). { apply Reqb_false. assert (0 < 1 / INR ns) by (apply Rdiv_lt_0_compat; lra). lra. }
    rewrite NZ. field. lra.
Qed.
End C139.
Print Assumptions C139_linear.
Print Assumptions C139_kernel.
Print Assumptions C139_transform.

(** a 1 x 1 solver *)
Definition solve1 {N : NumOps} (k d : nat) (A B : nat -> nat -> N) : option (nat -> nat -> N) :=
  if Nat.eqb k 1 then if neqb (A 0%nat 0%nat) n0 then None else Some (fun s t => ndiv (B s t) (A 0%nat 0%nat)) else None.
Example solve1_contract : solve_contract (solve1 (N:=RNum)).
Proof.
  intros k d A B X E s t Hs Ht. unfold solve1 in E. destruct (Nat.eqb_spec k 1); [|discriminate]. subst k. cbn [neqb n0 RNum] in E.
  destruct (Reqb (A 0%nat 0%nat) 0) eqn:Z; [discriminate|]. inversion E; subst X. apply Reqb_false in Z. assert (s = 0)%nat by lia. subst s. cbn [rsum ndiv RNum]. field. exact Z.
Qed.
(** the fit samples and the mapping disagree: one sample 1, one target 3, eta = 1: transform sends the sample
    of the fit to 3, and the same point, presented in another array, to 2 *)
Theorem C139_two_transforms_refuted : exists r,
  joint_OT_mapping_linear (N:=QNum) 1 1 1 (fun _ _ => 1%Q) (fun _ _ => 3%Q) 1%Q 1%Q (fun _ _ _ => 1%Q) (fun phi p0 _ _ => (None, p0)) solve1 5 5 (1 # 100000) (1 # 1000000) (1 # 1000000) false = Some r /\
  (exists o, map_transform (N:=QNum) 1 1 1 (fun _ _ => 1%Q) (fun _ _ => 3%Q) "linear" (fun x => x) 1%Q false r true (fun _ _ => 1%Q) = Some o /\ (o 0%nat 0%nat == 3)%Q) /\
  (exists o, map_transform (N:=QNum) 1 1 1 (fun _ _ => 1%Q) (fun _ _ => 3%Q) "linear" (fun x => x) 1%Q false r false (fun _ _ => 1%Q) = Some o /\ (o 0%nat 0%nat == 2)%Q).
Proof.
  eexists. split; [vm_compute; reflexivity|]. split; eexists; (split; [reflexivity|]); vm_compute; reflexivity.
Qed.
Print Assumptions C139_two_transforms_refuted.
Example C139_hyps : forall ns nt, (0 < ns)%nat -> (0 < nt)%nat ->
  exists lp, forall Mi, optimal_coupling ns nt (fun _ => 1 / INR ns) (fun _ => 1 / INR nt) Mi (lp Mi).
Proof.
  intros ns nt Hn Hm. assert (P1 : 0 < INR ns) by (apply lt_0_INR; auto). assert (P2 : 0 < INR nt) by (apply lt_0_INR; auto).
  destruct (weak_run_hyps ns nt (fun _ => 1 / INR ns) (fun _ => 1 / INR nt)) as (lp & G0 & _ & H).
  - intros i Hi. apply Rdiv_lt_0_compat; lra.
  - intros i Hi. apply Rdiv_lt_0_compat; lra.
  - rewrite !rsum_const. field. lra.
  - rewrite rsum_const. replace (INR ns * (1 / INR ns)) with 1 by (field; lra). lra.
  - exists lp. exact H.
Qed.

(** ** C140 *)
(** l-strongly convex and L-smooth with gradient g, as the two quadratic bounds *)
Definition regular (d : nat) (l L : R) (phi : vec -> R) (g : vec -> vec) : Prop := lower_quad d l phi g /\ upper_quad d L phi g.
Theorem C140_constants : forall (l L : R),
  (exists c, ssnb_constants (N:=RNum) l L = Some c) <-> 0 < l < L.
Proof.
  intros l L. unfold ssnb_constants. cbn [n0 nltb RNum]. split.
  - intros [c E]. destruct (Rltb 0 l) eqn:A; [|discriminate]. destruct (Rltb l L) eqn:B; [|discriminate]. apply Rltb_true in A, B. auto.
  - intros [A B]. apply Rltb_true in A, B. rewrite A, B. eexists; reflexivity.
Qed.
Print Assumptions C140_constants.
(** values and gradients of regular functions, one per class, satisfy every constraint of the fit *)
Theorem C140_truth_feasible : forall d n cls X (l L : R) (phi : nat -> vec -> R) (g : nat -> vec -> vec) c,
  ssnb_constants (N:=RNum) l L = Some c -> (forall k, regular d l L (phi k) (g k)) ->
  fit_ok (N:=RNum) d n cls c X (fun i => phi (cls i) (X i)) (fun i => g (cls i) (X i)) = true.
Proof.
  intros d n cls X l L phi g [[c1 c2] c3] E HR. assert (P := proj1 (C140_constants l L) (ex_intro _ _ E)). unfold fit_ok. apply forallb_forall. intros i _. apply forallb_forall. intros j _.
  destruct (Nat.eqb_spec (cls i) (cls j)) as [EQ|]; auto. apply Rleb_true. rewrite EQ. destruct (HR (cls j)) as [A B]. apply (interp d l L); auto; apply P.
Qed.
Print Assumptions C140_truth_feasible.
(** hence the predicted interval at y contains the value of every regular function having the fitted values and
    gradients on its class *)
Theorem C140_bounds : forall d n cls k X phi G y (l L : R) c (f : vec -> R) (g : vec -> vec) pl gl pu gu,
  ssnb_constants (N:=RNum) l L = Some c -> regular d l L f g ->
  (forall j, (j < n)%nat -> cls j = k -> f (X j) = phi j /\ g (X j) = G j) ->
  (lower_ok (N:=RNum) d n cls k c X phi G y pl gl = true /\ forall p h, lower_ok (N:=RNum) d n cls k c X phi G y p h = true -> pl <= p) ->
  (upper_ok (N:=RNum) d n cls k c X phi G y pu gu = true /\ forall p h, upper_ok (N:=RNum) d n cls k c X phi G y p h = true -> p <= pu) ->
  pl <= f y <= pu.
Proof.
  intros d n cls k X phi G y l L [[c1 c2] c3] f g pl gl pu gu E [A B] HD [_ ML] [_ MU]. assert (P := proj1 (C140_constants l L) (ex_intro _ _ E)).
  split; [apply (ML (f y) (g y))|apply (MU (f y) (g y))].
  - unfold lower_ok. apply forallb_forall. intros j Hj. apply in_seq in Hj. destruct (Nat.eqb_spec (cls j) k); auto. apply Rleb_true. destruct (HD j) as [E1 E2]; [lia|auto|]. rewrite <- E1, <- E2. apply (interp d l L); auto; apply P.
  - unfold upper_ok. apply forallb_forall. intros j Hj. apply in_seq in Hj. destruct (Nat.eqb_spec (cls j) k); auto. apply Rleb_true. destruct (HD j) as [E1 E2]; [lia|auto|]. rewrite <- E1, <- E2. apply (interp d l L); auto; apply P.
Qed.
Print Assumptions C140_bounds.
(** at a sample of its class the prediction collapses to the fitted value *)
Theorem C140_interpolates : forall d n cls k X phi G (l L : R) c i p g,
  ssnb_constants (N:=RNum) l L = Some c -> (i < n)%nat -> cls i = k ->
  (lower_ok (N:=RNum) d n cls k c X phi G (X i) p g = true -> phi i <= p)
  /\ (upper_ok (N:=RNum) d n cls k c X phi G (X i) p g = true -> p <= phi i).
Proof.
  intros d n cls k X phi G l L [[c1 c2] c3] i p g E Hi Hc. destruct (proj1 (C140_constants l L) (ex_intro _ _ E)) as [Pl PL].
  assert (C1 : 0 <= c1).
  { unfold ssnb_constants in E. cbn in E. destruct (Rltb 0 l && Rltb l L)%bool; [|discriminate]. injection E as <- _ _.
    unfold two. cbn. assert (0 < 1 - l / L). { apply (Rmult_lt_reg_r L); [lra|]. field_simplify; lra. }
    apply Rmult_le_pos; [apply Rmult_le_pos; [lra|]|]; left; apply Rinv_0_lt_compat; lra. }
  assert (Z : forall x q h, ssnb_rhs (N:=RNum) d c1 c2 c3 h x q g x = q + c1 * rsum d (fun t => (h t - g t) ^ 2)
     /\ ssnb_rhs (N:=RNum) d c1 c2 c3 g x q h x = q + c1 * rsum d (fun t => (h t - g t) ^ 2)).
  { intros x q h. unfold ssnb_rhs, ip, vsub. rewrite !nsum_R. cbn [nadd nmul nsub RNum].
    assert (E1 : forall w : vec, rsum d (fun t => w t * (x t - x t)) = 0) by (intros w; apply rsum_0; intros; ring).
    assert (E2 : rsum d (fun t => (x t - x t) * (x t - x t)) = 0) by (apply rsum_0; intros; ring).
    assert (E3 : rsum d (fun t => (h t - g t) * (h t - g t)) = rsum d (fun t => (h t - g t) ^ 2)) by (apply rsum_ext; intros; ring).
    assert (E4 : rsum d (fun t => (g t - h t) * (g t - h t)) = rsum d (fun t => (h t - g t) ^ 2)) by (apply rsum_ext; intros; ring).
    rewrite !(E1 h), !(E1 g), !(E1 (fun t => g t - h t)), !(E1 (fun t => h t - g t)), !E2, ?E3, ?E4. change (carrier RNum) with R in *. split; change (@eq (carrier RNum)) with (@eq R); ring. }
  assert (NN : 0 <= c1 * rsum d (fun t => (G i t - g t) ^ 2)) by (apply Rmult_le_pos; [auto|apply rsum_nonneg; intros; apply pow2_ge_0]).
  split; intros H.
  - unfold lower_ok in H. rewrite forallb_forall in H. specialize (H i). rewrite (proj2 (Nat.eqb_eq (cls i) k) Hc) in H.
    specialize (H ltac:(apply in_seq; lia)). apply Rleb_true in H. rewrite (proj2 (Z (X i) (phi i) (G i))) in H. lra.
  - unfold upper_ok in H. rewrite forallb_forall in H. specialize (H i). rewrite (proj2 (Nat.eqb_eq (cls i) k) Hc) in H.
    specialize (H ltac:(apply in_seq; lia)). apply Rleb_true in H. rewrite (proj1 (Z (X i) p (G i))) in H. lra.
Qed.
Print Assumptions C140_interpolates.
(** the fit: exact transport plans and an exact convex program *)
Definition exact_qcqp (d n : nat) (cls : nat -> nat) (c : R * R * R) (X V : mat) (qcqp : mat -> vec * mat) : Prop := forall plan,
  fit_ok (N:=RNum) d n cls c X (fst (qcqp plan)) (snd (qcqp plan)) = true /\
  forall phi G, fit_ok (N:=RNum) d n cls c X phi G = true -> cost n n (fun i j => rsum d (fun t => (snd (qcqp plan) i t - V j t) ^ 2)) plan <= cost n n (fun i j => rsum d (fun t => (G i t - V j t) ^ 2)) plan.
Lemma fit_cost_R : forall d n V plan G, fit_cost (N:=RNum) d n V plan G = cost n n (fun i j => rsum d (fun t => (G i t - V j t) ^ 2)) plan.
Proof.
  intros. unfold fit_cost, cost, ip, vsub. rewrite nsum_R. apply rsum_ext; intros. rewrite nsum_R. apply rsum_ext; intros. rewrite nsum_R. cbn [nmul nsub RNum]. f_equal. apply rsum_ext; intros; ring.
Qed.
Theorem C140_fit : forall d n a b cls X V lp qcqp target (l L : R) c its phi G log, (0 < its)%nat ->
  ssnb_constants (N:=RNum) l L = Some c -> (forall Mi, optimal_coupling n n a b Mi (lp Mi)) -> exact_qcqp d n cls c X V qcqp ->
  nearest_brenier_potential_fit (N:=RNum) d n a X V lp qcqp target l L its = Some (phi, G, log) ->
  List.length log = its /\ nonincreasing log /\
  (exists p, phi = Some p /\ fit_ok (N:=RNum) d n cls c X p G = true) /\
  exists plan, coupling n n a b plan /\ last log 0 = cost n n (fun i j => rsum d (fun t => (G i t - V j t) ^ 2)) plan /\
    forall phi' G', fit_ok (N:=RNum) d n cls c X phi' G' = true -> last log 0 <= cost n n (fun i j => rsum d (fun t => (G' i t - V j t) ^ 2)) plan.
Proof.
  intros d n a b cls X V lp qcqp target l L c its phi G log Hi EC Hlp HQ E. unfold nearest_brenier_potential_fit in E. destruct its as [|its]; [lia|]. rewrite EC in E.
  injection E as E. clear EC Hi.
  set (W := fun (G : mat) plan => cost n n (fun i j => rsum d (fun t => (G i t - V j t) ^ 2)) plan).
  assert (SQ : forall G' T, cost n n (sqd (N:=RNum) d G' V) T = W G' T). { intros. unfold W, cost. apply rsum_ext; intros; apply rsum_ext; intros. rewrite sqd_R. reflexivity. }
  set (ok := fun (p : option vec) (G : mat) (log : list R) => nonincreasing log /\ log <> [] /\ (exists q, p = Some q /\ fit_ok (N:=RNum) d n cls c X q G = true) /\
    exists plan, coupling n n a b plan /\ last log 0 = W G plan /\ forall phi' G', fit_ok (N:=RNum) d n cls c X phi' G' = true -> last log 0 <= W G' plan).
  assert (LOOP : forall k p G0 lg phi G log, ok p G0 lg -> fit_loop (N:=RNum) d n V lp qcqp k p G0 lg = (phi, G, log) -> List.length log = (List.length lg + k)%nat /\ ok phi G log).
  { induction k as [|k IH]; intros p G0 lg phi' G' log' OK EL; cbn [fit_loop] in EL.
    - inversion EL; subst. change (carrier RNum) with R in *. split; [lia|exact OK].
    - apply IH in EL.
      + rewrite app_length in EL. cbn [List.length] in EL. change (carrier RNum) with R in *. destruct EL as [E1 E2]. split; [lia|exact E2].
      + destruct OK as (NI & NE & (q & _ & FQ) & plan0 & C0 & LA & _). set (plan := lp (sqd (N:=RNum) d G0 V)). destruct (HQ plan) as [F1 F2].
        destruct (Hlp (sqd (N:=RNum) d G0 V)) as [CP OP]. fold plan in CP, OP. specialize (OP plan0 C0). rewrite !SQ in OP.
        unfold ok. rewrite fit_cost_R. split; [|split; [|split]].
        * apply nonincr_app; auto. right. rewrite LA. eapply Rle_trans; [apply (F2 q G0 FQ)|exact OP].
        * intro Z. apply app_eq_nil in Z. destruct Z; discriminate.
        * exists (fst (qcqp plan)). split; auto.
        * exists plan. split; auto. rewrite last_last. split; [reflexivity|]. intros; apply F2 with (phi := phi'0); auto. }
  cbn [fit_loop] in E. apply LOOP in E.
  - cbn [List.length app] in E. change (carrier RNum) with R in *. destruct E as (E1 & NI & NE & Q1 & Q2). split; [lia|]. split; auto.
  - set (plan := lp (sqd (N:=RNum) d (fit_init (N:=RNum) d n a X V lp target) V)). destruct (HQ plan) as [F1 F2]. unfold ok. rewrite fit_cost_R. cbn [app]. split; [exact I|]. split; [discriminate|].
    split; [exists (fst (qcqp plan)); auto|]. exists plan. split; [apply (Hlp (sqd (N:=RNum) d (fit_init (N:=RNum) d n a X V lp target) V))|]. split; [reflexivity|]. intros; apply F2 with (phi := phi'); auto.
Qed.
Print Assumptions C140_fit.
(** a regular function: half the squared norm is 1/2-strongly convex and 2-smooth *)
Example C140_ex : forall d, regular d (1 / 2) 2 (fun x => 1 / 2 * rsum d (fun t => x t ^ 2)) (fun x => x) /\ exists c, ssnb_constants (N:=RNum) (1 / 2) 2 = Some c.
Proof.
  intros d. split; [|apply C140_constants; lra].
  assert (ID : forall x y : vec, 1 / 2 * rsum d (fun t => y t ^ 2) = 1 / 2 * rsum d (fun t => x t ^ 2) + rsum d (fun t => x t * (y t - x t)) + 1 / 2 * rsum d (fun t => (y t - x t) ^ 2)).
  { intros x y. rewrite <- !rsum_scal, <- !rsum_plus. apply rsum_ext; intros; field. }
  assert (NN : forall x y : vec, 0 <= rsum d (fun t => (y t - x t) ^ 2)) by (intros; apply rsum_nonneg; intros; apply pow2_ge_0).
  split; intros x y; rewrite (ID x y); specialize (NN x y); lra.
Qed.
Example ssnb_ex : exists c, ssnb_constants (N:=QNum) 1%Q 2%Q = Some c /\ (fst (fst c) == 1 # 2)%Q.
Proof. eexists. split; [reflexivity|]. vm_compute. reflexivity. Qed.
