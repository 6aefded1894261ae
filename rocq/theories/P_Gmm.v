(** C144, C145: Gaussian mixture transport (ot/gmm.py). *)
From Coq Require Import Reals Lra Lia List Arith Bool String.
From Verif Require Import Num Sums Spec Mat Monge Wp Sliced_proofs Sliced_plans Entropy Emd1d_model Emd1d_perm_proofs Optim_model Utils_model Da_model Duals_proofs Fsb_model Fsb_proofs Da_reg_proofs NS_dense Gaussian_model Gaussian_proofs Gaussian_emp P_Gaussian Gmm_model Gmm_proofs Exist.
Import ListNotations.
Local Open Scope R_scope.

(** * vocabulary *)
(** the density of N(m, C) at x, with the inverse and the log-determinant given by the backend *)
Definition npdf (inv : nat -> mat -> mat) (logdet : nat -> mat -> R) (lg2pi : R) (d : nat) (m : vec) (C : mat) (x : vec) : R :=
  exp (- (INR d * lg2pi + logdet d C + rsum d (fun s => rsum d (fun t => (x s - m s) * inv d C s t * (x t - m t)))) / 2).
Definition mixpdf inv logdet lg2pi (k d : nat) (ms : nat -> vec) (Cs : nat -> mat) (ws : vec) (x : vec) : R :=
  rsum k (fun i => ws i * npdf inv logdet lg2pi d (ms i) (Cs i) x).
(** two mixtures are the same measure on the space of Gaussians: every function of a Gaussian has the same mean *)
Definition same_mixture (d ks kt : nat) (ms mt : nat -> vec) (Cs Ct : nat -> mat) (ws wt : vec) : Prop :=
  forall phi : vec -> mat -> R, (forall m m' C C', (forall t, (t < d)%nat -> m t = m' t) -> meq d C C' -> phi m C = phi m' C') ->
    rsum ks (fun i => ws i * phi (ms i) (Cs i)) = rsum kt (fun j => wt j * phi (mt j) (Ct j)).
Definition pairs_ok (sqrtm inv : nat -> mat -> mat) (d ks kt : nat) (Cs Ct : nat -> mat) : Prop :=
  forall i j, (i < ks)%nat -> (j < kt)%nat -> pair_ok sqrtm inv d (Cs i) (Ct j).
(** the exact solvers *)
Definition emd2_ok (emd2 : nat -> nat -> vec -> vec -> mat -> R) (n m : nat) (a b : vec) : Prop := forall M, ot_value n m a b M (emd2 n m a b M).
Definition emd_opt (emd : nat -> nat -> vec -> vec -> mat -> mat) (n m : nat) (a b : vec) : Prop := forall M, optimal_coupling n m a b M (emd n m a b M).
(** numpy's choice: an index of positive probability; it refuses only what is not a probability vector *)
Definition choice_ok (choice : nat -> nat -> vec -> option nat) : Prop := forall s k p,
  match choice s k p with Some i => (i < k)%nat /\ 0 < p i | None => ~ ((forall i, (i < k)%nat -> 0 <= p i) /\ rsum k p = 1) end.

(** * the densities *)
Lemma nsum2_R : forall n m (f : nat -> nat -> R), nsum (N:=RNum) n (fun i => nsum (N:=RNum) m (f i)) = rsum n (fun i => rsum m (f i)).
Proof. intros. rewrite nsum_R. apply rsum_ext; intros. apply nsum_R. Qed.
Lemma logpdf_R : forall inv logdet lg2pi d x m C, exp (gaussian_logpdf (N:=RNum) inv logdet lg2pi d x m C) = npdf inv logdet lg2pi d m C x.
Proof.
  intros. unfold gaussian_logpdf, npdf. cbv zeta. f_equal. rewrite nsum_R, nofnat_INR.
  rewrite (rsum_ext d (fun s => rsum d (fun t => (x s - m s) * inv d C s t * (x t - m t))) (fun s => rsum d (fun t => (x t - m t) * ((x s - m s) * inv d C s t)))) by (intros; apply rsum_ext; intros; ring).
  rewrite rsum_swap.
  rewrite (rsum_ext d (fun i => rsum d (fun j => (x i - m i) * ((x j - m j) * inv d C j i))) (fun t => nmul (n:=RNum) (x t - m t) (vdot (N:=RNum) d (fun t => x t - m t) (inv d C) t))).
  - unfold nopp, two. cbn. field.
  - intros t Ht. rewrite vdot_R, <- rsum_scal. reflexivity.
Qed.
Lemma pdf_R : forall inv logdet lg2pi d x m C, gaussian_pdf (N:=RNum) inv exp logdet lg2pi d x m C = npdf inv logdet lg2pi d m C x.
Proof. intros. apply logpdf_R. Qed.
Lemma npdf_pos : forall inv logdet lg2pi d m C x, 0 < npdf inv logdet lg2pi d m C x.
Proof. intros. apply exp_pos. Qed.
Theorem C144_pdf : forall inv logdet lg2pi k d x m C w,
  (forall i, gaussian_pdf (N:=RNum) inv exp logdet lg2pi d x (m i) (C i) = npdf inv logdet lg2pi d (m i) (C i) x) /\
  gmm_pdf (N:=RNum) inv exp logdet lg2pi k d x m C w = mixpdf inv logdet lg2pi k d m C w x.
Proof. intros. split; [intros; apply pdf_R|]. unfold gmm_pdf, mixpdf. rewrite nsum_R. apply rsum_ext; intros. rewrite pdf_R. reflexivity. Qed.

(** * the loss *)
Theorem C144_ground_cost : forall sqrtm inv d ms mt Cs Ct i j, pair_ok sqrtm inv d (Cs i) (Ct j) ->
  dist_bures_squared (N:=RNum) sqrtm d ms mt Cs Ct i j = (bwd sqrtm d (ms i) (mt j) (Cs i) (Ct j)) ^ 2.
Proof. intros. eapply dist_R; eauto. Qed.
Section Loss.
Variables (sqrtm inv : nat -> mat -> mat) (emd2 : nat -> nat -> vec -> vec -> mat -> R) (d : nat).
Notation loss := (gmm_ot_loss (N:=RNum) sqrtm emd2).
Lemma loss_value : forall ks kt ms mt Cs Ct ws wt, emd2_ok emd2 ks kt ws wt -> pairs_ok sqrtm inv d ks kt Cs Ct ->
  ot_value ks kt ws wt (fun i j => (bwd sqrtm d (ms i) (mt j) (Cs i) (Ct j)) ^ 2) (loss ks kt d ms mt Cs Ct ws wt).
Proof. intros ks kt ms mt Cs Ct ws wt E P. unfold gmm_ot_loss. eapply ot_value_ext; [|apply E]. intros i j Hi Hj. apply (dist_R sqrtm inv). auto. Qed.
(** the distance between Gaussians used to decide equality *)
Definition gdelta (g h : vec * mat) : R := rsum d (fun t => Rabs (fst g t - fst h t)) + rsum d (fun s => rsum d (fun t => Rabs (snd g s t - snd h s t))).
Lemma gdelta_eq : forall g h, eqv _ gdelta g h <-> (forall t, (t < d)%nat -> fst g t = fst h t) /\ meq d (snd g) (snd h).
Proof.
  intros [m C] [m' C']. unfold eqv, gdelta. cbn [fst snd].
  assert (P1 : 0 <= rsum d (fun t => Rabs (m t - m' t))) by (apply rsum_nonneg; intros; apply Rabs_pos).
  assert (Q : forall s, (s < d)%nat -> 0 <= rsum d (fun t => Rabs (C s t - C' s t))) by (intros; apply rsum_nonneg; intros; apply Rabs_pos).
  assert (P2 : 0 <= rsum d (fun s => rsum d (fun t => Rabs (C s t - C' s t)))) by (apply rsum_nonneg; auto).
  split.
  - intros E. split.
    + intros t Ht. assert (E1 : rsum d (fun t => Rabs (m t - m' t)) = 0) by lra.
      pose proof (rsum_nonneg_zero d _ (fun k _ => Rabs_pos (m k - m' k)) E1 t Ht) as E2. cbv beta in E2. destruct (Req_dec (m t - m' t) 0) as [|Hn]; [lra|]. apply Rabs_no_R0 in Hn. lra.
    + intros s t Hs Ht. assert (E1 : rsum d (fun s => rsum d (fun t => Rabs (C s t - C' s t))) = 0) by lra.
      pose proof (rsum_nonneg_zero d _ Q E1 s Hs) as E2. cbv beta in E2.
      pose proof (rsum_nonneg_zero d _ (fun k _ => Rabs_pos (C s k - C' s k)) E2 t Ht) as E3. cbv beta in E3. destruct (Req_dec (C s t - C' s t) 0) as [|Hn]; [lra|]. apply Rabs_no_R0 in Hn. lra.
  - intros [E1 E2]. rewrite !rsum_0; [ring| |].
    + intros s Hs. apply rsum_0; intros t Ht. rewrite (E2 s t Hs Ht), Rminus_diag_eq by auto. apply Rabs_R0.
    + intros t Ht. rewrite E1, Rminus_diag_eq by auto. apply Rabs_R0.
Qed.
(** zero exactly for the same mixture *)
Theorem C144_zero : forall ks kt ms mt Cs Ct ws wt, emd2_ok emd2 ks kt ws wt -> pairs_ok sqrtm inv d ks kt Cs Ct ->
  (forall i, (i < ks)%nat -> 0 <= ws i) -> (forall j, (j < kt)%nat -> 0 <= wt j) ->
  0 <= loss ks kt d ms mt Cs Ct ws wt /\ (loss ks kt d ms mt Cs Ct ws wt = 0 <-> same_mixture d ks kt ms mt Cs Ct ws wt).
Proof.
  intros ks kt ms mt Cs Ct ws wt HE HP Hs Ht. pose proof (loss_value ks kt ms mt Cs Ct ws wt HE HP) as V. split.
  - eapply ot_value_nonneg; [|exact V]. intros; cbv beta. apply pow2_ge_0.
  - transitivity (same_measure (vec * mat) gdelta ks kt (fun i => (ms i, Cs i)) (fun j => (mt j, Ct j)) ws wt).
    { apply (ot_zero_iff (vec * mat) gdelta) with (M := fun i j => (bwd sqrtm d (ms i) (mt j) (Cs i) (Ct j)) ^ 2); auto.
    + intros x. apply gdelta_eq. split; auto. reflexivity.
    + intros x y E. apply gdelta_eq in E. apply gdelta_eq. destruct E as [E1 E2]. split; [intros; symmetry; auto|symmetry; auto].
    + intros x y z E E'. apply gdelta_eq in E. apply gdelta_eq in E'. apply gdelta_eq. destruct E as [E1 E2]. destruct E' as [F1 F2]. split; [intros; rewrite E1; auto|etransitivity; eauto].
    + intros i j Hi Hj. split; [apply pow2_ge_0|]. rewrite gdelta_eq. cbn [fst snd]. destruct (C113_zero sqrtm inv d (ms i) (mt j) (Cs i) (Ct j) (HP i j Hi Hj)) as [P Z]. rewrite <- Z. cbv beta. split; [intros E; apply Rsqr_0_uniq; unfold Rsqr; lra|intros E; rewrite E; ring]. }
    unfold same_measure, same_mixture. cbn [fst snd]. split.
    + intros H phi Hphi. apply (H (fun g => phi (fst g) (snd g))). intros [m C] [m' C'] E. apply gdelta_eq in E. apply Hphi; apply E.
    + intros H phi Hphi. apply (H (fun m C => phi (m, C))). intros m m' C C' E1 E2. apply Hphi. apply gdelta_eq. auto.
Qed.
Theorem C144_symmetric : forall ks kt ms mt Cs Ct ws wt, emd2_ok emd2 ks kt ws wt -> emd2_ok emd2 kt ks wt ws ->
  pairs_ok sqrtm inv d ks kt Cs Ct -> pairs_ok sqrtm inv d kt ks Ct Cs -> loss ks kt d ms mt Cs Ct ws wt = loss kt ks d mt ms Ct Cs wt ws.
Proof.
  intros ks kt ms mt Cs Ct ws wt H H' P P'. eapply ot_value_unique; [apply loss_value; auto|]. eapply ot_value_ext; [|apply ot_value_T, loss_value; eauto].
  intros i j Hi Hj. cbv beta. f_equal. apply (C113_symmetric sqrtm inv); auto.
Qed.
Theorem C144_triangle : forall k1 k2 k3 m1 m2 m3 C1 C2 C3 w1 w2 w3, (0 < k1)%nat -> (0 < k2)%nat -> (0 < k3)%nat ->
  emd2_ok emd2 k1 k2 w1 w2 -> emd2_ok emd2 k2 k3 w2 w3 -> emd2_ok emd2 k1 k3 w1 w3 ->
  pairs_ok sqrtm inv d k1 k2 C1 C2 -> pairs_ok sqrtm inv d k2 k1 C2 C1 -> pairs_ok sqrtm inv d k2 k3 C2 C3 -> pairs_ok sqrtm inv d k1 k3 C1 C3 -> (forall k, (k < k3)%nat -> invertible d (C3 k)) ->
  sqrt (loss k1 k3 d m1 m3 C1 C3 w1 w3) <= sqrt (loss k1 k2 d m1 m2 C1 C2 w1 w2) + sqrt (loss k2 k3 d m2 m3 C2 C3 w2 w3).
Proof.
  intros k1 k2 k3 m1 m2 m3 C1 C2 C3 w1 w2 w3 H1 H2 H3 E12 E23 E13 P12 P21 P23 P13 I3.
  apply (ot2_triangle k1 k2 k3 w1 w2 w3 (fun i j => bwd sqrtm d (m1 i) (m2 j) (C1 i) (C2 j)) (fun i j => bwd sqrtm d (m2 i) (m3 j) (C2 i) (C3 j)) (fun i j => bwd sqrtm d (m1 i) (m3 j) (C1 i) (C3 j))); auto.
  - intros; eapply C113_zero; eauto.
  - intros; eapply C113_zero; eauto.
  - intros; eapply C113_zero; eauto.
  - intros. apply (C113_triangle sqrtm inv); auto.
  - apply loss_value; auto.
  - apply loss_value; auto.
  - apply loss_value; auto.
Qed.
End Loss.
Print Assumptions C144_zero.
Print Assumptions C144_symmetric.
Print Assumptions C144_triangle.

(** * the maps *)
Section Maps.
Variables (sqrtm inv : nat -> mat -> mat) (logdet : nat -> mat -> R) (lg2pi : R) (emd : nat -> nat -> vec -> vec -> mat -> mat).
Variables (ks kt d : nat) (ms mt : nat -> vec) (Cs Ct : nat -> mat) (ws wt : vec).
Notation pdf i x := (npdf inv logdet lg2pi d (ms i) (Cs i) x).
Notation mix x := (mixpdf inv logdet lg2pi ks d ms Cs ws x).
Notation A i j := (bures_A (N:=RNum) sqrtm inv d (Cs i) (Ct j)).
(** the optimal map between the components i and j (C111) *)
Notation T i j x := (gmap d (A i j) (ms i) (mt j) x).
(** posterior probability of the pair (i, j) of components at x *)
Definition posterior (plan : mat) (x : vec) (i j : nat) : R := plan i j * pdf i x / mix x.
Hypothesis Hw : forall i, (i < ks)%nat -> 0 <= ws i.
Hypothesis Hpos : 0 < rsum ks ws.
Hypothesis HP : pairs_ok sqrtm inv d ks kt Cs Ct.
Lemma mix_pos : forall x, 0 < mix x.
Proof.
  intros x. unfold mixpdf. destruct (Rle_lt_dec (rsum ks (fun i => ws i * pdf i x)) 0) as [L|L]; auto. exfalso.
  assert (N : forall i, (i < ks)%nat -> 0 <= ws i * pdf i x) by (intros; apply Rmult_le_pos; auto; left; apply npdf_pos).
  assert (E : rsum ks (fun i => ws i * pdf i x) = 0) by (apply Rle_antisym; auto; apply rsum_nonneg; auto).
  assert (rsum ks ws = 0); [|lra]. apply rsum_0; intros i Hi. pose proof (rsum_nonneg_zero _ _ N E i Hi) as Z. cbv beta in Z. destruct (Rmult_integral _ _ Z) as [|Z']; auto. pose proof (npdf_pos inv logdet lg2pi d (ms i) (Cs i) x). lra.
Qed.
Lemma denom_R : forall x i, nsum (N:=RNum) ks (fun k => nmul (n:=RNum) (ws k) (exp (nsub (n:=RNum) (gaussian_logpdf (N:=RNum) inv logdet lg2pi d x (ms k) (Cs k)) (gaussian_logpdf (N:=RNum) inv logdet lg2pi d x (ms i) (Cs i)))))
  = mix x / pdf i x.
Proof.
  intros x i. rewrite nsum_R. unfold mixpdf. rewrite <- rsum_div. apply rsum_ext; intros k Hk. cbn [nmul nsub RNum]. unfold Rminus. rewrite exp_plus, exp_Ropp, !logpdf_R. unfold Rdiv. ring.
Qed.
Lemma post_sum : forall plan x, (forall i, (i < ks)%nat -> row_sum kt plan i = ws i) -> rsum ks (fun i => rsum kt (fun j => posterior plan x i j)) = 1.
Proof.
  intros plan x HR. unfold posterior. rewrite (rsum_ext ks _ (fun i => ws i * pdf i x / mix x)).
  - rewrite rsum_div. fold (mix x). field. pose proof (mix_pos x). lra.
  - intros i Hi. rewrite rsum_div. f_equal. rewrite rsum_scal_r. f_equal. apply HR; auto.
Qed.
Lemma post_nonneg : forall plan x i j, 0 <= plan i j -> 0 <= posterior plan x i j.
Proof. intros plan x i j H. unfold posterior. apply Rle_mult_inv_pos; [|apply mix_pos]. apply Rmult_le_pos; auto. left. apply npdf_pos. Qed.
Lemma bary_R : forall plan x t, nonneg_mat ks kt plan -> (t < d)%nat ->
  bary_point (N:=RNum) sqrtm inv exp logdet lg2pi ks kt d ms mt Cs Ct ws plan x t = rsum ks (fun i => rsum kt (fun j => posterior plan x i j * T i j x t)).
Proof.
  intros plan x t HN Ht.
  set (f := fun (ij : nat * nat) (t : nat) => plan (fst ij) (snd ij) * (vdot (N:=RNum) d x (A (fst ij) (snd ij)) t + (mt (snd ij) t - mvec (N:=RNum) d (A (fst ij) (snd ij)) (ms (fst ij)) t)) / (mix x / pdf (fst ij) x)).
  transitivity (fold_left (fun (out : vec) ij => (fun t => out t + f ij t)) (where_pos (N:=RNum) ks kt plan) (fun _ => 0) t).
  - unfold bary_point. cbv zeta. assert (G : forall l (o o' : vec), o t = o' t -> fold_left (fun (out : nat -> carrier RNum) (ij : nat * nat) => let (i, j) := ij in fun t0 => nadd (n:=RNum) (out t0)
        (ndiv (n:=RNum) (nmul (n:=RNum) (plan i j) (nadd (n:=RNum) (vdot (N:=RNum) d x (A i j) t0) (nsub (n:=RNum) (mt j t0) (mvec (N:=RNum) d (A i j) (ms i) t0))))
          (nsum (N:=RNum) ks (fun k => nmul (n:=RNum) (ws k) (exp (nsub (n:=RNum) (gaussian_logpdf (N:=RNum) inv logdet lg2pi d x (ms k) (Cs k)) (gaussian_logpdf (N:=RNum) inv logdet lg2pi d x (ms i) (Cs i)))))))) l o t
        = fold_left (fun (out : vec) ij => (fun t => out t + f ij t)) l o' t).
    { induction l as [|[i j] l IH]; intros o o' E; [exact E|]. cbn [fold_left]. apply IH. rewrite denom_R. unfold f. cbn [fst snd]. rewrite E. reflexivity. }
    apply G. reflexivity.
  - rewrite fold_add, Rplus_0_l.
    rewrite (fr_ext _ (fun ij => f ij t) (fun ij => (fun i j => f (i, j) t) (fst ij) (snd ij))) by (intros [i j] _; reflexivity).
    rewrite (where_sum ks kt plan (fun i j => f (i, j) t)).
    + apply rsum_ext; intros i Hi. apply rsum_ext; intros j Hj. unfold f, posterior. cbn [fst snd]. rewrite (gmap_bary sqrtm inv) by auto. pose proof (mix_pos x). pose proof (npdf_pos inv logdet lg2pi d (ms i) (Cs i) x). field. lra.
    + exact HN.
    + intros i j E. unfold f. cbn [fst snd]. rewrite E. unfold Rdiv. ring.
Qed.
Theorem C144_bary : forall choice n x plan i, coupling ks kt ws wt plan -> (i < n)%nat ->
  exists l, gmm_ot_apply_map (N:=RNum) sqrtm inv exp logdet lg2pi emd choice n ks kt d x ms mt Cs Ct ws wt (Some plan) "bary" = Some l /\ List.length l = n /\
  (forall t, (t < d)%nat -> nth i l (fun _ => 0) t = rsum ks (fun p => rsum kt (fun q => posterior plan (x i) p q * T p q (x i) t))) /\
  (forall p q, (p < ks)%nat -> (q < kt)%nat -> 0 <= posterior plan (x i) p q) /\ rsum ks (fun p => rsum kt (fun q => posterior plan (x i) p q)) = 1.
Proof.
  intros choice n x plan i (HN & HR & _) Hi. eexists. split; [reflexivity|]. split; [rewrite map_length, seq_length; auto|]. split; [|split; [intros; apply post_nonneg; auto|apply post_sum; auto]].
  intros t Ht. rewrite (nth_map_seq _ (fun i => bary_point (N:=RNum) sqrtm inv exp logdet lg2pi ks kt d ms mt Cs Ct ws plan (x i))) by auto. apply bary_R; auto.
Qed.

(** every other method name is the random map *)
Lemma rand_p_R : forall plan x i j, (j < kt)%nat -> rand_p (N:=RNum) inv exp logdet lg2pi ks kt d ms Cs ws plan x (i * kt + j)%nat = posterior plan x i j.
Proof.
  intros plan x i j Hj. unfold rand_p. cbv zeta. rewrite cell_div, cell_mod by auto. rewrite denom_R. unfold posterior. cbn. pose proof (mix_pos x). pose proof (npdf_pos inv logdet lg2pi d (ms i) (Cs i) x). field. lra.
Qed.
Lemma rand_p_sum : forall plan x, (forall i, (i < ks)%nat -> row_sum kt plan i = ws i) -> rsum (ks * kt) (rand_p (N:=RNum) inv exp logdet lg2pi ks kt d ms Cs ws plan x) = 1.
Proof.
  intros plan x HR. rewrite <- (post_sum plan x HR), rsum_grid. apply rsum_ext; intros i Hi. apply rsum_ext; intros j Hj. apply rand_p_R; auto.
Qed.
Lemma cell_bounds : forall c, (c < ks * kt)%nat -> (Nat.div c kt < ks)%nat /\ (Nat.modulo c kt < kt)%nat /\ c = (Nat.div c kt * kt + Nat.modulo c kt)%nat.
Proof.
  intros c Hc. assert (kt <> 0)%nat by lia. split; [apply Nat.div_lt_upper_bound; lia|]. split; [apply Nat.mod_upper_bound; auto|]. rewrite Nat.mul_comm. apply Nat.div_mod. auto.
Qed.
Lemma rand_p_nonneg : forall plan x c, nonneg_mat ks kt plan -> (c < ks * kt)%nat -> 0 <= rand_p (N:=RNum) inv exp logdet lg2pi ks kt d ms Cs ws plan x c.
Proof. intros plan x c HN Hc. destruct (cell_bounds c Hc) as [H1 [H2 H3]]. rewrite H3, rand_p_R by auto. apply post_nonneg. apply HN; auto. Qed.
Lemma rand_point_ok : forall choice s plan x, choice_ok choice -> coupling ks kt ws wt plan ->
  exists i j y, (i < ks)%nat /\ (j < kt)%nat /\ 0 < plan i j /\ rand_point (N:=RNum) sqrtm inv exp logdet lg2pi choice s ks kt d ms mt Cs Ct ws plan x = Some y /\
    choice s (ks * kt)%nat (rand_p (N:=RNum) inv exp logdet lg2pi ks kt d ms Cs ws plan x) = Some (i * kt + j)%nat /\
    forall t, (t < d)%nat -> y t = T i j x t.
Proof.
  intros choice s plan x HC (HN & HR & _). unfold rand_point. specialize (HC s (ks * kt)%nat (rand_p (N:=RNum) inv exp logdet lg2pi ks kt d ms Cs ws plan x)).
  destruct (choice s (ks * kt)%nat (rand_p (N:=RNum) inv exp logdet lg2pi ks kt d ms Cs ws plan x)) as [c|].
  - destruct HC as [Hc Hp]. destruct (cell_bounds c Hc) as [H1 [H2 H3]]. exists (Nat.div c kt), (Nat.modulo c kt). eexists. cbv zeta.
    assert (P : 0 < plan (Nat.div c kt) (Nat.modulo c kt)).
    { rewrite H3, rand_p_R in Hp by auto. unfold posterior in Hp. pose proof (mix_pos x). pose proof (npdf_pos inv logdet lg2pi d (ms (Nat.div c kt)) (Cs (Nat.div c kt)) x).
      destruct (Rle_lt_dec (plan (Nat.div c kt) (Nat.modulo c kt)) 0) as [L|]; auto. exfalso.
      assert (E : plan (Nat.div c kt) (Nat.modulo c kt) = 0) by (apply Rle_antisym; auto; apply HN; auto). rewrite E in Hp. unfold Rdiv in Hp. rewrite !Rmult_0_l in Hp. lra. }
    split; [auto|]. split; [auto|]. split; [exact P|]. split; [reflexivity|]. split; [f_equal; exact H3|].
    intros t Ht. unfold rand_b, rand_A. cbn [nltb RNum n0]. rewrite (proj2 (Rltb_true 0 (plan (Nat.div c kt) (Nat.modulo c kt))) P). apply (gmap_rand sqrtm inv); auto.
  - exfalso. apply HC. split; [intros; apply rand_p_nonneg; auto|apply rand_p_sum; auto].
Qed.
Lemma rand_loop_ok : forall (f : nat -> option (nat -> carrier RNum)) left s, (forall i, exists y, f i = Some y) ->
  exists l, rand_loop (N:=RNum) left s f = Some l /\ List.length l = left /\ forall i, (i < left)%nat -> f (s + i)%nat = Some (nth i l (fun _ => 0)).
Proof.
  intros f. induction left as [|left IH]; intros s H; cbn [rand_loop].
  - exists []. repeat split; auto. intros; lia.
  - destruct (H s) as [y Ey]. rewrite Ey. destruct (IH (S s) H) as [l [E [L F]]]. rewrite E. exists (y :: l). split; auto. split; [cbn [List.length]; rewrite L; reflexivity|].
    intros [|i] Hi; cbn [nth]; [rewrite Nat.add_0_r; auto|]. rewrite <- Nat.add_succ_comm. apply F. lia.
Qed.
Theorem C144_rand : forall choice n x plan method, choice_ok choice -> coupling ks kt ws wt plan -> method <> "bary"%string ->
  exists l, gmm_ot_apply_map (N:=RNum) sqrtm inv exp logdet lg2pi emd choice n ks kt d x ms mt Cs Ct ws wt (Some plan) method = Some l /\ List.length l = n /\
  forall s, (s < n)%nat -> exists p i j,
    (** the pair (i, j) is drawn from the posterior, whose mean image is the barycentric map *)
    choice s (ks * kt)%nat p = Some (i * kt + j)%nat /\ (forall i' j', (i' < ks)%nat -> (j' < kt)%nat -> p (i' * kt + j')%nat = posterior plan (x s) i' j') /\
    (i < ks)%nat /\ (j < kt)%nat /\ 0 < plan i j /\ forall t, (t < d)%nat -> nth s l (fun _ => 0) t = T i j (x s) t.
Proof.
  intros choice n x plan method HC HG Hm. unfold gmm_ot_apply_map. rewrite (proj2 (String.eqb_neq method "bary") Hm).
  destruct (rand_loop_ok (fun i => rand_point (N:=RNum) sqrtm inv exp logdet lg2pi choice i ks kt d ms mt Cs Ct ws plan (x i)) n 0) as [l [E [L F]]].
  { intros i. destruct (rand_point_ok choice i plan (x i) HC HG) as [_ [_ [y [_ [_ [_ [E _]]]]]]]. exists y. exact E. }
  exists l. split; [exact E|]. split; [exact L|]. intros s Hs. specialize (F s Hs). cbn [Nat.add] in F.
  destruct (rand_point_ok choice s plan (x s) HC HG) as [i [j [y [Hi [Hj [HPl [Ey [Ec Ey']]]]]]]].
  exists (rand_p (N:=RNum) inv exp logdet lg2pi ks kt d ms Cs ws plan (x s)), i, j. split; [exact Ec|]. split; [intros; apply rand_p_R; auto|]. repeat split; auto.
  intros t Ht. rewrite <- (Ey' t Ht). cbv beta in F. rewrite Ey in F. injection F as F. rewrite F. reflexivity.
Qed.
(** the map between two components moves the mean to the mean and the covariance to the covariance *)
Theorem C144_component_map : forall i j, (i < ks)%nat -> (j < kt)%nat ->
  (forall t, T i j (ms i) t = mt j t) /\ sym d (A i j) /\ psd d (A i j) /\ meq d (mul d (mul d (A i j) (Cs i)) (A i j)) (Ct j).
Proof.
  intros i j Hi Hj. destruct (A_facts _ _ _ _ _ (HP i j Hi Hj)) as [H1 [H2 H3]]. split; [|auto]. intros t. unfold gmap. rewrite rsum_0; [ring|]. intros; ring.
Qed.
(** the density of the coupling *)
Theorem C144_plan_density : forall x y plan atol,
  let dens := gmm_ot_plan_density (N:=RNum) sqrtm inv sqrt exp logdet lg2pi emd ks kt d x y ms mt Cs Ct ws wt (Some plan) atol in
  let near i j := sqrt (rsum d (fun t => (T i j x t - y t) ^ 2)) < atol in
  coupling ks kt ws wt plan ->
  0 <= dens <= mix x /\ ((forall i j, (i < ks)%nat -> (j < kt)%nat -> 0 < plan i j -> ~ near i j) -> dens = 0) /\
  ((forall i j, (i < ks)%nat -> (j < kt)%nat -> 0 < plan i j -> near i j) -> dens = mix x) /\
  forall i j, (i < ks)%nat -> (j < kt)%nat -> near i j -> plan i j * pdf i x <= dens.
Proof.
  intros x y plan atol dens near (HN & HR & _).
  set (ind := fun i j => if Rltb (sqrt (rsum d (fun t => (T i j x t - y t) ^ 2))) atol then 1 else 0).
  assert (E : dens = rsum ks (fun i => rsum kt (fun j => plan i j * pdf i x * ind i j))).
  { unfold dens, gmm_ot_plan_density. cbv zeta. rewrite nsum2_R. apply rsum_ext; intros i Hi. apply rsum_ext; intros j Hj. rewrite pdf_R. unfold ind, bures_wasserstein_mapping. cbn [fst snd].
    assert (En : vnorm (N:=RNum) sqrt d (fun t => nsub (n:=RNum) (nadd (n:=RNum) (vdot (N:=RNum) d x (A i j) t) (nsub (n:=RNum) (mt j t) (vdot (N:=RNum) d (ms i) (A i j) t))) (y t)) = sqrt (rsum d (fun t => (T i j x t - y t) ^ 2))).
    { unfold vnorm. f_equal. rewrite nsum_R. apply rsum_ext; intros t Ht. cbn. rewrite !vdot_R. unfold gmap.
      rewrite (rsum_ext d (fun s => (x s - ms i s) * A i j s t) (fun s => x s * A i j s t - ms i s * A i j s t)) by (intros; ring). rewrite rsum_minus. ring. }
    rewrite En. cbn. destruct (Rltb _ atol); ring. }
  assert (Hi1 : forall i j, 0 <= ind i j <= 1) by (intros; unfold ind; destruct (Rltb _ atol); lra).
  assert (HA : forall i j, (i < ks)%nat -> (j < kt)%nat -> 0 <= plan i j * pdf i x) by (intros; apply Rmult_le_pos; auto; left; apply npdf_pos).
  assert (HB : forall i j, (i < ks)%nat -> (j < kt)%nat -> 0 <= plan i j * pdf i x * ind i j) by (intros i j Hi Hj; apply Rmult_le_pos; [auto|apply Hi1]).
  assert (EM : mix x = rsum ks (fun i => rsum kt (fun j => plan i j * pdf i x))).
  { unfold mixpdf. apply rsum_ext; intros i Hi. rewrite rsum_scal_r. f_equal. symmetry. apply HR; auto. }
  rewrite E. split; [split|split; [|split]].
  - apply rsum_nonneg; intros. apply rsum_nonneg; auto.
  - rewrite EM. apply rsum_le; intros i Hi. apply rsum_le; intros j Hj. rewrite <- (Rmult_1_r (plan i j * pdf i x)) at 2. apply Rmult_le_compat_l; auto. apply Hi1.
  - intros H. apply rsum_0; intros i Hi. apply rsum_0; intros j Hj. destruct (Rle_lt_or_eq_dec 0 (plan i j) (HN i j Hi Hj)) as [P|P]; [|rewrite <- P; ring].
    unfold ind. rewrite (proj2 (Rltb_false _ atol)); [ring|]. apply Rnot_lt_le. apply H; auto.
  - intros H. rewrite EM. apply rsum_ext; intros i Hi. apply rsum_ext; intros j Hj. destruct (Rle_lt_or_eq_dec 0 (plan i j) (HN i j Hi Hj)) as [P|P]; [|rewrite <- P; ring].
    unfold ind. rewrite (proj2 (Rltb_true _ atol)); [ring|]. apply H; auto.
  - intros i j Hi Hj H. eapply Rle_trans; [|apply (rsum_le_one ks (fun i => rsum kt (fun j => plan i j * pdf i x * ind i j)) i); auto; intros; apply rsum_nonneg; auto].
    eapply Rle_trans; [|apply (rsum_le_one kt (fun j => plan i j * pdf i x * ind i j) j); auto]. unfold ind. rewrite (proj2 (Rltb_true _ atol)); [lra|exact H].
Qed.
End Maps.
Print Assumptions C144_bary.
Print Assumptions C144_rand.
Print Assumptions C144_component_map.
Print Assumptions C144_plan_density.

(** * the barycenter *)
Section Barycenter.
Variables (sqrtm : nat -> mat -> mat) (norm : nat -> mat -> R) (emd : nat -> nat -> vec -> vec -> mat -> mat).
Variables (num_iter : nat) (eps : R) (K n d : nat) (kk : nat -> nat) (ML : nat -> nat -> vec) (CL : nat -> nat -> mat) (WL : nat -> vec) (weights : option vec).
Notation bwb := (bw_barycenter (N:=RNum) sqrtm norm num_iter eps).
Notation fixp := (fun k d C w => bures_barycenter_fixpoint (N:=RNum) sqrtm norm k d C w num_iter eps).
Notation run := (gmm_barycenter_fixed_point (N:=RNum) sqrtm norm emd num_iter eps K n d kk ML CL WL).
Lemma fix_loop_some : forall left it k C w e Cb last, (last <> None \/ (0 < left)%nat) -> exists r, fix_loop (N:=RNum) sqrtm norm left it k d C w e Cb last = Some r.
Proof.
  induction left as [|left IH]; intros it k C w e Cb last H; cbn [fix_loop].
  - destruct H as [H|H]; [|lia]. destruct last as [[[? ?] ?]|]; [eexists; reflexivity|congruence].
  - cbv zeta. destruct (nleb (n:=RNum) _ e); [eexists; reflexivity|]. apply IH. left. discriminate.
Qed.
Lemma bwb_some : forall k m C w, (0 < num_iter)%nat -> exists r, bwb k d m C w = Some r.
Proof.
  intros k m C w H. unfold bw_barycenter, bures_barycenter_fixpoint.
  match goal with |- exists _, match ?X with _ => _ end = _ => destruct X as [[[Cb df] it]|] eqn:E end; [eexists; reflexivity|].
  destruct (fix_loop_some num_iter 0 k C (bar_w (N:=RNum) k w) eps (bar_init (N:=RNum) k C (bar_w (N:=RNum) k w)) None) as [r Er]; auto. unfold bures_barycenter_fixpoint in E. cbv zeta in E. congruence.
Qed.
Lemma bwb_inv : forall k m C w mb Cb, bwb k d m C w = Some (mb, Cb) -> (forall t, mb t = rsum k (fun p => m p t * bar_w (N:=RNum) k w p)) /\ exists df it, fixp k d C w = Some (Cb, df, it).
Proof.
  intros k m C w mb Cb E. unfold bw_barycenter in E.
  match type of E with match ?X with _ => _ end = _ => destruct X as [[[Cb' df] it]|] eqn:E' end; [|discriminate]. injection E as <- <-. split; [|exists df, it; auto].
  intros t. unfold bar_mean. rewrite nsum_R. reflexivity.
Qed.
Lemma upd_same : forall (A : Type) (f : nat -> A) i x, upd f i x i = x.
Proof. intros. unfold upd. rewrite Nat.eqb_refl. reflexivity. Qed.
Lemma upd_other : forall (A : Type) (f : nat -> A) i x p, p <> i -> upd f i x p = f p.
Proof. intros. unfold upd. destruct (Nat.eqb_spec p i); auto. contradiction. Qed.
Lemma last_dflt : forall (A : Type) (l : list A) a x y, List.last (a :: l) x = List.last (a :: l) y.
Proof. induction l as [|b l IH]; intros a x y; auto. change (List.last (b :: l) x = List.last (b :: l) y). apply IH. Qed.
Section Step.
Variable wb : vec.
Notation bsel := (bures_sel (N:=RNum) sqrtm norm num_iter eps d kk ML CL wb).
Notation sel := (selection (N:=RNum) sqrtm norm num_iter eps K n d kk ML CL wb).
Notation cloop := (comp_loop (N:=RNum) sqrtm norm num_iter eps K n d kk ML CL weights wb).
Notation gloop := (gmm_loop (N:=RNum) sqrtm norm emd num_iter eps K n d kk ML CL WL weights wb).
Lemma bsel_inv : forall left k pi i ms cs ms' cs', bsel left k pi i ms cs = Some (ms', cs') ->
  forall p, ((p < k)%nat \/ (k + left <= p)%nat -> ms' p = ms p /\ cs' p = cs p) /\
    ((k <= p < k + left)%nat -> bwb (kk p) d (ML p) (CL p) (Some (fun j => 1 / wb i * pi p i j)) = Some (ms' p, cs' p)).
Proof.
  induction left as [|left IH]; intros k pi i ms cs ms' cs' E p; cbn [bures_sel] in E.
  - injection E as <- <-. split; auto. lia.
  - match type of E with match ?X with _ => _ end = _ => destruct X as [[m C]|] eqn:E' end; [|discriminate]. specialize (IH _ _ _ _ _ _ _ E p). destruct IH as [I1 I2]. split.
    + intros H. destruct I1 as [-> ->]; [lia|]. rewrite !upd_other by lia. auto.
    + intros H. destruct (Nat.eq_dec p k) as [-> |Hk]; [|apply I2; lia]. destruct I1 as [-> ->]; [lia|]. rewrite !upd_same. exact E'.
Qed.
Lemma cloop_inv : forall left i method pi means covs m c, cloop left i method pi means covs = GOk (m, c) ->
  forall p, ((p < i)%nat \/ (i + left <= p)%nat -> m p = means p /\ c p = covs p) /\
    ((i <= p < i + left)%nat -> exists ms cs, sel method pi p = GOk (ms, cs) /\ bwb K d ms cs weights = Some (m p, c p)).
Proof.
  induction left as [|left IH]; intros i method pi means covs m c E p; cbn [comp_loop] in E.
  - injection E as <- <-. split; auto. lia.
  - destruct (sel method pi i) as [[ms cs]|e] eqn:Es; [|discriminate].
    match type of E with match ?X with _ => _ end = _ => destruct X as [[mb Cb]|] eqn:E' end; [|discriminate]. specialize (IH _ _ _ _ _ _ _ E p). destruct IH as [I1 I2]. split.
    + intros H. destruct I1 as [-> ->]; [lia|]. rewrite !upd_other by lia. auto.
    + intros H. destruct (Nat.eq_dec p i) as [-> |Hk]; [|apply I2; lia]. exists ms, cs. split; auto. destruct I1 as [-> ->]; [lia|]. rewrite !upd_same. exact E'.
Qed.
(** the last of at least one iterations *)
Lemma gloop_last : forall it method means covs m c l, gloop (S it) method means covs = GOk (m, c, l) ->
  exists m0 c0, cloop n 0%nat method (fun k => gmm_ot_plan (N:=RNum) sqrtm emd n (kk k) d m0 (ML k) c0 (CL k) wb (WL k)) m0 c0 = GOk (m, c).
Proof.
  induction it as [|it IH]; intros method means covs m c l E; cbn [gmm_loop] in E.
  - match type of E with match ?X with _ => _ end = _ => destruct X as [[m' c']|e] eqn:E' end; [|discriminate]. injection E as <- <- _. exists means, covs. exact E'.
  - match type of E with match ?X with _ => _ end = _ => destruct X as [[m' c']|e] eqn:E' end; [|discriminate].
    change (match gloop (S it) method m' c' with GOk (m, c, l) => GOk (m, c, (m', c') :: l) | GErr e => GErr e end = GOk (m, c, l)) in E.
    destruct (gloop (S it) method m' c') as [[[m2 c2] l2]|e] eqn:E2; [|discriminate]. injection E as <- <- _. eapply IH; eauto.
Qed.
Lemma gloop_its : forall it method means covs m c l, gloop it method means covs = GOk (m, c, l) -> List.length l = it /\ List.last ((means, covs) :: l) (means, covs) = (m, c).
Proof.
  induction it as [|it IH]; intros method means covs m c l E; cbn [gmm_loop] in E.
  - injection E as <- <- <-. split; reflexivity.
  - match type of E with match ?X with _ => _ end = _ => destruct X as [[m' c']|e] eqn:E' end; [|discriminate].
    destruct (gloop it method m' c') as [[[m2 c2] l2]|e] eqn:E2; [|discriminate]. injection E as <- <- <-. destruct (IH _ _ _ _ _ _ E2) as [L1 L2]. split; [cbn [List.length]; rewrite L1; reflexivity|].
    etransitivity; [|exact L2]. change (List.last ((m', c') :: l2) (means, covs) = List.last ((m', c') :: l2) (m', c')). apply last_dflt.
Qed.
Lemma bsel_some : (0 < num_iter)%nat -> forall left k pi i ms cs, exists r, bsel left k pi i ms cs = Some r.
Proof.
  intros Hn. induction left as [|left IH]; intros k pi i ms cs; cbn [bures_sel]; [eexists; reflexivity|].
  destruct (bwb_some (kk k) (ML k) (CL k) (Some (fun j => nmul (n:=RNum) (ndiv (n:=RNum) n1 (wb i)) (pi k i j))) Hn) as [[m C] E].
  match goal with |- exists r, match ?X with _ => _ end = _ => replace X with (Some (m, C)) by (symmetry; exact E) end. apply IH.
Qed.
Lemma sel_known : (0 < num_iter)%nat -> forall method pi i, (method = "euclidean" \/ method = "bures")%string -> exists r, sel method pi i = GOk r.
Proof.
  intros Hn method pi i [-> | ->]; unfold selection; cbn [String.eqb Ascii.eqb Bool.eqb]; [eexists; reflexivity|].
  destruct (bsel_some Hn K 0%nat pi i (fun _ _ => 0) (fun _ _ _ => 0)) as [r E].
  match goal with |- exists r, match ?X with _ => _ end = _ => replace X with (Some r) by (symmetry; exact E) end. eexists; reflexivity.
Qed.
Lemma cloop_known : (0 < num_iter)%nat -> forall method pi, (method = "euclidean" \/ method = "bures")%string -> forall left i means covs, exists r, cloop left i method pi means covs = GOk r.
Proof.
  intros Hn method pi Hm. induction left as [|left IH]; intros i means covs; cbn [comp_loop]; [eexists; reflexivity|].
  destruct (sel_known Hn method pi i Hm) as [[ms cs] ->]. destruct (bwb_some K ms cs weights Hn) as [[m C] E].
  match goal with |- exists r, match ?X with _ => _ end = _ => replace X with (Some (m, C)) by (symmetry; exact E) end. apply IH.
Qed.
Lemma gloop_known : (0 < num_iter)%nat -> forall method, (method = "euclidean" \/ method = "bures")%string -> forall it means covs, exists r, gloop it method means covs = GOk r.
Proof.
  intros Hn method Hm. induction it as [|it IH]; intros means covs; cbn [gmm_loop]; [eexists; reflexivity|]. cbv zeta.
  match goal with |- exists r, match ?X with _ => _ end = _ => destruct X as [[m c]|e] eqn:E end.
  - destruct (IH m c) as [[[m2 c2] l] ->]. eexists; reflexivity.
  - exfalso. destruct (cloop_known Hn method (fun k => gmm_ot_plan (N:=RNum) sqrtm emd n (kk k) d means (ML k) covs (CL k) wb (WL k)) Hm n 0%nat means covs) as [r Er]. congruence.
Qed.
End Step.

Definition bar_weights (w_bar : option vec) : vec := match w_bar with Some w => w | None => fun _ => 1 / INR n end.
Definition lam (k : nat) : R := match weights with Some w => w k | None => 1 / INR K end.
Lemma lam_R : forall k, bar_w (N:=RNum) K weights k = lam k.
Proof. intros k. unfold bar_w, lam. destruct weights; auto. rewrite nofnat_INR. reflexivity. Qed.
(** the two cases in which the projection is the disintegration of the plan: equal weights, or the Bures projection *)
Definition sound_projection (method : string) (w_bar : option vec) : Prop :=
  (method = "euclidean"%string /\ forall i, (i < n)%nat -> bar_weights w_bar i = 1 / INR n) \/ (method = "bures"%string /\ forall i, (i < n)%nat -> 0 < bar_weights w_bar i).

(** what one returns: each component is the Bures-Wasserstein barycenter of the K projected Gaussians *)
Theorem C145_components : forall mi ci w_bar it method m c its, run mi ci weights w_bar (S it) method = GOk (m, c, its) ->
  (forall k, (k < K)%nat -> emd_opt emd n (kk k) (match w_bar with Some w => w | None => fun _ => 1 / nofnat (N:=RNum) n end) (WL k)) -> sound_projection method w_bar ->
  exists pi : nat -> mat, (forall k, (k < K)%nat -> coupling n (kk k) (bar_weights w_bar) (WL k) (pi k)) /\
    forall i, (i < n)%nat -> (forall t, m i t = rsum K (fun k => lam k * rsum (kk k) (fun j => pi k i j / bar_weights w_bar i * ML k j t))) /\
      exists S df it', fixp K d S weights = Some (c i, df, it') /\ forall k, (k < K)%nat ->
        (method = "euclidean"%string -> forall s t, S k s t = rsum (kk k) (fun j => pi k i j / bar_weights w_bar i * CL k j s t)) /\
        (method = "bures"%string -> exists w df it', (forall j, w j = pi k i j / bar_weights w_bar i) /\ fixp (kk k) d (CL k) (Some w) = Some (S k, df, it')).
Proof.
  intros mi ci w_bar it method m c its E HE HS. unfold gmm_barycenter_fixed_point in E. cbv zeta in E.
  set (wb := match w_bar with Some w => w | None => fun _ : nat => ndiv (n:=RNum) n1 (nofnat (N:=RNum) n) end) in *.
  assert (Ewb : forall i, wb i = bar_weights w_bar i) by (intros i; unfold wb, bar_weights; destruct w_bar; auto; rewrite nofnat_INR; reflexivity).
  match type of E with match ?X with _ => _ end = _ => destruct X as [[[m1 c1] l1]|e] eqn:E1 end; [|discriminate]. injection E as -> -> _.
  destruct (gloop_last wb it method mi ci m c l1 E1) as [m0 [c0 EC]].
  set (pi := fun k => gmm_ot_plan (N:=RNum) sqrtm emd n (kk k) d m0 (ML k) c0 (CL k) wb (WL k)) in *. exists pi. split.
  { intros k Hk. destruct (HE k Hk (dist_bures_squared (N:=RNum) sqrtm d m0 (ML k) c0 (CL k))) as [[HN [HR HC]] _]. fold wb in HN, HR, HC. split; [exact HN|]. split; [|exact HC].
    intros i Hi. rewrite <- Ewb. apply (HR i Hi). }
  intros i Hi. destruct (cloop_inv wb n 0%nat method pi m0 c0 m c EC i) as [_ Hc]. destruct (Hc ltac:(lia)) as [ms [cs [Es Eb]]]. apply bwb_inv in Eb. destruct Eb as [Em [df [it' Ef]]].
  assert (SEL : forall k, (k < K)%nat -> (forall t, ms k t = rsum (kk k) (fun j => pi k i j / bar_weights w_bar i * ML k j t)) /\
      (method = "euclidean"%string -> forall s t, cs k s t = rsum (kk k) (fun j => pi k i j / bar_weights w_bar i * CL k j s t)) /\
      (method = "bures"%string -> exists w df it', (forall j, w j = pi k i j / bar_weights w_bar i) /\ fixp (kk k) d (CL k) (Some w) = Some (cs k, df, it'))).
  { intros k Hk. unfold selection in Es. destruct HS as [[-> HU] | [-> HU]]; cbn [String.eqb Ascii.eqb Bool.eqb] in Es.
    - injection Es as <- <-. specialize (HU i Hi). assert (Hn : 0 < INR n) by (apply lt_0_INR; lia). rewrite HU. split; [|split; [|discriminate]].
      + intros t. rewrite nsum_R. apply rsum_ext; intros j Hj. rewrite nofnat_INR. cbn. field. lra.
      + intros _ s t. cbn. rewrite nsum_R, nofnat_INR, <- rsum_scal_r. apply rsum_ext; intros j Hj. cbn. field. lra.
    - match type of Es with match ?X with _ => _ end = _ => destruct X as [[ms' cs']|] eqn:E2 end; [|discriminate]. injection Es as -> ->.
      destruct (bsel_inv wb K 0%nat pi i _ _ _ _ E2 k) as [_ H]. specialize (H ltac:(lia)). apply bwb_inv in H. destruct H as [H1 [df2 [it2 H2]]]. rewrite <- Ewb. split; [|split; [discriminate|]].
      + intros t. rewrite H1. apply rsum_ext; intros j Hj. unfold bar_w. unfold Rdiv. ring.
      + intros _. exists (fun j => 1 / wb i * pi k i j), df2, it2. split; auto. intros j. unfold Rdiv. ring. }
  split.
  - intros t. rewrite Em. apply rsum_ext; intros k Hk. rewrite lam_R, (proj1 (SEL k Hk)). ring.
  - exists cs, df, it'. split; auto. intros k Hk. apply SEL. auto.
Qed.

(** the mean of the mixture is the weighted mean of the means of the mixtures *)
Theorem C145_mean : forall mi ci w_bar it method m c its t, run mi ci weights w_bar (S it) method = GOk (m, c, its) ->
  (forall k, (k < K)%nat -> emd_opt emd n (kk k) (match w_bar with Some w => w | None => fun _ => 1 / nofnat (N:=RNum) n end) (WL k)) -> sound_projection method w_bar ->
  rsum n (fun i => bar_weights w_bar i * m i t) = rsum K (fun k => lam k * rsum (kk k) (fun j => WL k j * ML k j t)).
Proof.
  intros mi ci w_bar it method m c its t E HE HS. destruct (C145_components mi ci w_bar it method m c its E HE HS) as [pi [HC H]].
  assert (Hp : forall i, (i < n)%nat -> 0 < bar_weights w_bar i).
  { intros i Hi. destruct HS as [[_ HU]|[_ HU]]; [|auto]. rewrite HU by auto. apply Rdiv_lt_0_compat; [lra|]. apply lt_0_INR. lia. }
  rewrite (rsum_ext n _ (fun i => rsum K (fun k => lam k * rsum (kk k) (fun j => pi k i j * ML k j t)))).
  - rewrite rsum_swap. apply rsum_ext; intros k Hk. rewrite rsum_scal. f_equal. rewrite rsum_swap. apply rsum_ext; intros j Hj. rewrite rsum_scal_r. f_equal. apply (HC k Hk). auto.
  - intros i Hi. rewrite (proj1 (H i Hi)), <- rsum_scal. apply rsum_ext; intros k Hk.
    rewrite (rsum_ext (kk k) (fun j => pi k i j / bar_weights w_bar i * ML k j t) (fun j => / bar_weights w_bar i * (pi k i j * ML k j t))) by (intros; unfold Rdiv; ring). rewrite rsum_scal.
    specialize (Hp i Hi). field. lra.
Qed.
(** the means are the best ones for the plans: moving component i to z costs at least as much *)
Theorem C145_best_means : forall mi ci w_bar it method m c its, run mi ci weights w_bar (S it) method = GOk (m, c, its) ->
  (forall k, (k < K)%nat -> emd_opt emd n (kk k) (match w_bar with Some w => w | None => fun _ => 1 / nofnat (N:=RNum) n end) (WL k)) -> sound_projection method w_bar -> rsum K lam = 1 ->
  exists pi : nat -> mat, (forall k, (k < K)%nat -> coupling n (kk k) (bar_weights w_bar) (WL k) (pi k)) /\ forall i z, (i < n)%nat ->
    rsum K (fun k => lam k * rsum (kk k) (fun j => pi k i j * rsum d (fun t => (m i t - ML k j t) ^ 2))) + bar_weights w_bar i * rsum d (fun t => (z t - m i t) ^ 2)
    = rsum K (fun k => lam k * rsum (kk k) (fun j => pi k i j * rsum d (fun t => (z t - ML k j t) ^ 2))).
Proof.
  intros mi ci w_bar it method m c its E HE HS HL. destruct (C145_components mi ci w_bar it method m c its E HE HS) as [pi [HC H]]. exists pi. split; auto. intros i z Hi.
  assert (Hp : 0 < bar_weights w_bar i).
  { destruct HS as [[_ HU]|[_ HU]]; [|auto]. rewrite HU by auto. apply Rdiv_lt_0_compat; [lra|]. apply lt_0_INR. lia. }
  assert (EZ : forall z : vec, rsum K (fun k => lam k * rsum (kk k) (fun j => pi k i j * rsum d (fun t => (z t - ML k j t) ^ 2)))
     = rsum d (fun t => rsum K (fun k => lam k * rsum (kk k) (fun j => pi k i j * (z t - ML k j t) ^ 2)))).
  { intros y. rewrite rsum_swap. apply rsum_ext; intros k Hk. rewrite rsum_scal. f_equal. rewrite rsum_swap. apply rsum_ext; intros j Hj. symmetry. apply rsum_scal. }
  rewrite !EZ, <- rsum_scal, <- rsum_plus. apply rsum_ext; intros t Ht.
  assert (EX : forall y, rsum K (fun k => lam k * rsum (kk k) (fun j => pi k i j * (y - ML k j t) ^ 2))
     = bar_weights w_bar i * y ^ 2 - 2 * y * (bar_weights w_bar i * m i t) + rsum K (fun k => lam k * rsum (kk k) (fun j => pi k i j * ML k j t ^ 2))).
  { intros y. rewrite (proj1 (H i Hi)). rewrite (rsum_ext K (fun k => lam k * rsum (kk k) (fun j => pi k i j * (y - ML k j t) ^ 2))
      (fun k => bar_weights w_bar i * y ^ 2 * lam k - 2 * y * bar_weights w_bar i * (lam k * rsum (kk k) (fun j => pi k i j / bar_weights w_bar i * ML k j t)) + lam k * rsum (kk k) (fun j => pi k i j * ML k j t ^ 2))).
    - rewrite rsum_plus, rsum_minus, !rsum_scal, HL. ring.
    - intros k Hk. destruct (HC k Hk) as (_ & HR & _). specialize (HR i Hi). unfold row_sum in HR.
      rewrite (rsum_ext (kk k) (fun j => pi k i j * (y - ML k j t) ^ 2) (fun j => y ^ 2 * pi k i j - 2 * y * bar_weights w_bar i * (pi k i j / bar_weights w_bar i * ML k j t) + pi k i j * ML k j t ^ 2)) by (intros; field; lra).
      rewrite rsum_plus, rsum_minus, !rsum_scal. change (rsum (kk k) (pi k i) = bar_weights w_bar i) in HR. rewrite HR. ring. }
  rewrite !EX. ring.
Qed.
(** the run: it succeeds for the two known methods; an unknown one is only noticed inside an iteration *)
Theorem C145_outcome : forall mi ci w_bar it method, (0 < num_iter)%nat ->
  ((method = "euclidean" \/ method = "bures")%string -> exists m c its, run mi ci weights w_bar it method = GOk (m, c, its) /\ List.length its = S it /\
     hd (mi, ci) its = (mi, ci) /\ List.last its (mi, ci) = (m, c)) /\
  ((method <> "euclidean" /\ method <> "bures")%string -> run mi ci weights w_bar it method = if (Nat.eqb it 0 || Nat.eqb n 0)%bool then run mi ci weights w_bar it "euclidean" else GErr UnknownMethod).
Proof.
  intros mi ci w_bar it method Hn. unfold gmm_barycenter_fixed_point. cbv zeta.
  set (wb := match w_bar with Some w => w | None => fun _ : nat => ndiv (n:=RNum) n1 (nofnat (N:=RNum) n) end). split.
  - intros Hm. destruct (gloop_known wb Hn method Hm it mi ci) as [[[m c] l] E]. rewrite E. exists m, c, ((mi, ci) :: l). split; [reflexivity|]. destruct (gloop_its wb it method mi ci m c l E) as [L1 L2].
    split; [cbn [List.length]; rewrite L1; reflexivity|]. split; [reflexivity|exact L2].
  - intros [H1 H2]. destruct it as [|it]; [reflexivity|]. cbn [Nat.eqb orb]. destruct n as [|n'] eqn:En.
    + cbn [Nat.eqb]. assert (G : forall it m0 c0, gmm_loop (N:=RNum) sqrtm norm emd num_iter eps K 0 d kk ML CL WL weights wb it method m0 c0 = gmm_loop (N:=RNum) sqrtm norm emd num_iter eps K 0 d kk ML CL WL weights wb it "euclidean" m0 c0).
      { induction it0 as [|it0 IH]; intros m0 c0; cbn [gmm_loop comp_loop]; auto. rewrite IH. reflexivity. }
      rewrite G. reflexivity.
    + cbn [Nat.eqb gmm_loop comp_loop]. unfold selection at 1. rewrite (proj2 (String.eqb_neq _ _) H1), (proj2 (String.eqb_neq _ _) H2). reflexivity.
Qed.
End Barycenter.
Print Assumptions C145_components.
Print Assumptions C145_mean.
Print Assumptions C145_best_means.
Print Assumptions C145_outcome.

(** with other weights the Euclidean projection is not a convex combination: the "barycenter" of a single Gaussian
    N(1, 1) with two components of weights 1/4 and 3/4 has the means 1/2 and 3/2, whatever the start *)
Definition wq : vec := fun i => match i with O => 1 / 4 | _ => 3 / 4 end.
Theorem C145_euclidean_refuted : forall sqrtm norm emd num_iter eps mi ci it, (0 < num_iter)%nat -> emd_opt emd 2 1 wq (fun _ => 1) ->
  exists m c its, gmm_barycenter_fixed_point (N:=RNum) sqrtm norm emd num_iter eps 1 2 1 (fun _ => 1%nat) (fun _ _ _ => 1) (fun _ _ _ _ => 1) (fun _ _ => 1) mi ci (Some (fun _ => 1)) (Some wq) (S it) "euclidean" = GOk (m, c, its) /\
    m 0%nat 0%nat = 1 / 2 /\ m 1%nat 0%nat = 3 / 2.
Proof.
  intros sqrtm norm emd num_iter eps mi ci it Hn HE.
  destruct (C145_outcome sqrtm norm emd num_iter eps 1 2 1 (fun _ => 1%nat) (fun _ _ _ => 1) (fun _ _ _ _ => 1) (fun _ _ => 1) (Some (fun _ => 1)) mi ci (Some wq) (S it) "euclidean" Hn) as [H _].
  destruct (H (or_introl eq_refl)) as [m [c [its [E _]]]]. exists m, c, its. split; [exact E|]. unfold gmm_barycenter_fixed_point in E. cbv zeta in E.
  match type of E with match ?X with _ => _ end = _ => destruct X as [[[m1 c1] l1]|e] eqn:E1 end; [|discriminate]. injection E as -> -> _.
  apply gloop_last in E1. destruct E1 as [m0 [c0 EC]].
  set (pi := fun _ : nat => gmm_ot_plan (N:=RNum) sqrtm emd 2 1 1 m0 (fun _ _ => 1) c0 (fun _ _ _ => 1) wq (fun _ => 1)) in *.
  assert (Z : forall i, (i < 2)%nat -> m i 0%nat = 2 * wq i).
  { intros i Hi. pose proof EC as EC'. apply cloop_inv with (p := i) in EC'. destruct EC' as [_ Hc]. destruct (Hc ltac:(lia)) as [ms [cs [Es Eb]]]. apply bwb_inv in Eb. destruct Eb as [Em _].
    unfold selection in Es. cbn [String.eqb Ascii.eqb Bool.eqb] in Es. injection Es as <- <-. rewrite Em. cbn [rsum bar_w].
    destruct (HE (dist_bures_squared (N:=RNum) sqrtm 1 m0 (fun _ _ => 1) c0 (fun _ _ _ => 1))) as [[_ [HR _]] _]. specialize (HR i Hi). unfold row_sum in HR. cbn [rsum] in HR.
    assert (HR2 : pi 0%nat i 0%nat = wq i) by (etransitivity; [|exact HR]; unfold pi, gmm_ot_plan; symmetry; apply Rplus_0_l).
    clearbody pi. cbn. change (0 + (0 + (0 + 1 + 1) * pi 0%nat i 0%nat * 1) * 1 = 2 * wq i). rewrite HR2. ring. }
  split; (etransitivity; [apply Z; lia|]); unfold wq; match goal with |- ?x = ?y => change (@eq R x y) end; field.
Qed.
Print Assumptions C145_euclidean_refuted.

(** * the hypotheses are met *)
(** a generator: the first index of positive probability *)
Fixpoint first_pos (p : vec) (k : nat) : option nat :=
  match k with O => None | S k' => match first_pos p k' with Some i => Some i | None => if Rltb 0 (p k') then Some k' else None end end.
Lemma first_pos_ok : forall p k, match first_pos p k with Some i => (i < k)%nat /\ 0 < p i | None => forall i, (i < k)%nat -> p i <= 0 end.
Proof.
  intros p. induction k as [|k IH]; cbn [first_pos]; [intros; lia|]. destruct (first_pos p k) as [i|]; [destruct IH; split; auto; lia|].
  destruct (Rltb 0 (p k)) eqn:E; [apply Rltb_true in E; auto|]. apply Rltb_false in E. intros i Hi. destruct (Nat.eq_dec i k) as [-> |]; auto. apply IH. lia.
Qed.
Example choice_ex : choice_ok (fun _ k p => first_pos p k).
Proof.
  intros s k p. pose proof (first_pos_ok p k) as H. destruct (first_pos p k); auto. intros [H1 H2].
  assert (rsum k p = 0); [|lra]. apply rsum_0; intros i Hi. apply Rle_antisym; auto.
Qed.
Example solvers_ex : forall n m a b, (exists G, coupling n m a b G) -> exists emd emd2, emd_opt emd n m a b /\ emd2_ok emd2 n m a b.
Proof.
  intros n m a b H. destruct (Exist.exact_oracle_exists n m a b H) as [lp L]. exists (fun _ _ _ _ M => lp M), (fun _ _ _ _ M => cost n m M (lp M)). split; [exact L|].
  intros M. exists (lp M). split; auto.
Qed.
(** two mixtures on the line: N(0, 1), N(3, 4) with weights 1/4, 3/4 and N(1, 9), N(5, 1), N(7, 4) *)
Definition exms : nat -> vec := fun i _ => 3 * INR i.
Definition exCs : nat -> mat := fun i _ _ => 1 + 3 * INR i.
Definition exmt : nat -> vec := fun j _ => match j with O => 1 | 1%nat => 5 | _ => 7 end.
Definition exCt : nat -> mat := fun j _ _ => match j with O => 9 | 1%nat => 1 | _ => 4 end.
Definition exwt : vec := fun j => match j with O => 1 / 2 | 1%nat => 1 / 4 | _ => 1 / 4 end.
Definition explan : mat := fun i j => match i, j with O, O => 1 / 4 | 1%nat, O => 1 / 4 | 1%nat, _ => 1 / 4 | _, _ => 0 end.
Example gmm_ex : pairs_ok sqrt1 inv1 1 2 3 exCs exCt /\ pairs_ok sqrt1 inv1 1 3 2 exCt exCs /\ coupling 2 3 wq exwt explan /\ 0 < rsum 2 wq /\ invertible 1 (exCt 0%nat) /\
  gmap 1 (bures_A (N:=RNum) sqrt1 inv1 1 (exCs 0%nat) (exCt 0%nat)) (exms 0%nat) (exmt 0%nat) (fun _ => 2) 0%nat = 7.
Proof.
  assert (P : forall i, 0 < exCs i 0%nat 0%nat) by (intros; unfold exCs; pose proof (pos_INR i); lra).
  assert (P' : forall i, 0 < exCt i 0%nat 0%nat) by (intros [|[|i]]; unfold exCt; lra).
  split; [|split; [|split; [|split; [|split]]]].
  - intros i j _ _. apply pair1; [apply P|left; apply P'].
  - intros i j _ _. apply pair1; [apply P'|left; apply P].
  - split; [|split].
    + intros i j Hi Hj. destruct i as [|[|i]], j as [|[|[|j]]]; unfold explan; try lra; lia.
    + intros i Hi. destruct i as [|[|i]]; try lia; unfold row_sum, explan, wq; cbn [rsum]; lra.
    + intros j Hj. destruct j as [|[|[|j]]]; try lia; unfold col_sum, explan, exwt; cbn [rsum]; lra.
  - unfold wq. cbn [rsum]. lra.
  - exists (fun _ _ => / 9). split; apply meq1; unfold mul, exCt, mI; cbn [rsum Nat.eqb]; field.
  - unfold gmap. cbn [rsum]. unfold bures_A, dots3. rewrite mdot_R. cbn [rsum]. rewrite mdot_R. cbn [rsum]. unfold inv1, sqrt1. rewrite mdot_R. cbn [rsum]. rewrite mdot_R. cbn [rsum].
    unfold exCs, exCt, exms, exmt. cbn [INR]. rewrite Rmult_0_r, Rplus_0_r, sqrt_1. rewrite !Rplus_0_l. replace (1 * 9 * 1) with (3 * 3) by ring. rewrite sqrt_square by lra. field.
Qed.
(** C145: with the plan of the exact solver and uniform weights *)
Example C145_ex : sound_projection 2 "euclidean" None /\ sound_projection 2 "bures" (Some wq) /\ exists emd, emd_opt emd 2 1 wq (fun _ => 1).
Proof.
  split; [|split].
  - left. split; auto.
  - right. split; auto. intros i _. cbn. unfold wq. destruct i; lra.
  - destruct (solvers_ex 2 1 wq (fun _ => 1)) as [emd [_ [H _]]]; [|exists emd; exact H]. exists (fun i _ => wq i). split; [|split].
    + intros i j _ _. unfold wq. destruct i; lra.
    + intros i _. unfold row_sum. cbn [rsum]. ring.
    + intros j _. unfold col_sum, wq. cbn [rsum]. field.
Qed.
