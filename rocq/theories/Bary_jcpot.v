(** jcpot_barycenter: proofs. *)
From Coq Require Import Reals Lra Lia Arith Bool List ZArith FunctionalExtensionality.
Import ListNotations.
From Verif Require Import Num Sums Spec Duals_proofs Entropy Emd1d_model Emd1d_perm_proofs Sinkhorn_model Bary_model.
Local Open Scope R_scope.

(** * Labels *)
Lemma zmin_shift : forall k y c, (0 < k)%nat -> zmin k (fun i => (y i + c)%Z) = (zmin k y + c)%Z.
Proof.
  induction k as [|k IH]; intros y c Hk; [lia|]. destruct k as [|k]; [reflexivity|]. specialize (IH y c ltac:(lia)).
  change (zmin (S (S k)) (fun i => (y i + c)%Z)) with (Z.min (zmin (S k) (fun i => (y i + c)%Z)) (y (S k) + c)). change (zmin (S (S k)) y) with (Z.min (zmin (S k) y) (y (S k))). rewrite IH. lia.
Qed.
Lemma zmin_le : forall k y i, (i < k)%nat -> (zmin k y <= y i)%Z.
Proof.
  induction k as [|k IH]; intros y i Hi; [lia|]. destruct k as [|k]; [assert (i = 0%nat) by lia; subst; cbn; lia|].
  change (zmin (S (S k)) y) with (Z.min (zmin (S k) y) (y (S k))). destruct (Nat.eq_dec i (S k)) as [->|]; [lia|]. specialize (IH y i ltac:(lia)). lia.
Qed.
Lemma jc_shift_eq : forall k y i, jc_shift k y i = (y i - zmin k y)%Z.
Proof. intros. unfold jc_shift. destruct (Z.eqb_spec (zmin k y) 0) as [E|E]; [rewrite E; lia|reflexivity]. Qed.
Lemma distinct_shift : forall k y c, distinct k (fun i => (y i + c)%Z) = map (fun z => (z + c)%Z) (distinct k y).
Proof.
  induction k as [|k IH]; intros; [reflexivity|]. cbn [distinct]. rewrite IH.
  assert (E : existsb (Z.eqb (y k + c)) (map (fun z => (z + c)%Z) (distinct k y)) = existsb (Z.eqb (y k)) (distinct k y)).
  { induction (distinct k y) as [|z l IHl]; [reflexivity|]. cbn [map existsb]. rewrite IHl. f_equal. destruct (Z.eqb_spec (y k) z); [subst; apply Z.eqb_refl|]. apply Z.eqb_neq. lia. }
  rewrite E. destruct (existsb (Z.eqb (y k)) (distinct k y)); [reflexivity|]. rewrite map_app. reflexivity.
Qed.
Lemma jc_labels_shift : forall ns Y c, (forall d, (0 < ns d)%nat) -> jc_labels ns (fun d i => (Y d i + c d)%Z) = jc_labels ns Y.
Proof. intros ns Y c Hn. apply functional_extensionality; intro d. apply functional_extensionality; intro i. unfold jc_labels. rewrite !jc_shift_eq, zmin_shift by auto. lia. Qed.
Lemma jc_labels_nonneg : forall ns Y d i, (i < ns d)%nat -> (0 <= jc_labels ns Y d i)%Z.
Proof. intros ns Y d i Hi. unfold jc_labels. rewrite jc_shift_eq. pose proof (zmin_le (ns d) (Y d) i Hi). lia. Qed.

(** * One iteration *)
Section Iter.
Variables (p nt : nat) (ns : nat -> nat) (lo : R) (Y : nat -> nat -> Z).
Hypothesis (Hlo : 0 < lo) (Hnt : (0 < nt)%nat).
Notation lab := (jc_labels ns Y).
Notation nc := (jc_nbclasses ns Y).
Notation D1 := (jc_D1 (N:=RNum) ns Y).
Notation D2 := (jc_D2 (N:=RNum) ns Y).
Notation CC := (jc_C (N:=RNum) nt ns lo).
Notation bary := (jc_bary (N:=RNum) exp ln p nt ns lo D1).
Notation RR := (jc_R (N:=RNum) exp ln p nt ns lo nc D1 D2).
Hypothesis Hin : jc_in_range p ns Y = true.
Lemma in_range : forall d i, (d < p)%nat -> (i < ns d)%nat -> exists c, (c < nc)%nat /\ lab d i = Z.of_nat c.
Proof.
  intros d i Hd Hi. unfold jc_in_range in Hin. rewrite forallb_forall in Hin. specialize (Hin d ltac:(apply in_seq; lia)). rewrite forallb_forall in Hin. specialize (Hin i ltac:(apply in_seq; lia)).
  apply Z.ltb_lt in Hin. pose proof (jc_labels_nonneg ns Y d i Hi). exists (Z.to_nat (lab d i)). split; lia.
Qed.
Lemma count_pos : forall d i c, (i < ns d)%nat -> lab d i = Z.of_nat c -> (0 < jc_count ns Y d c)%nat.
Proof.
  intros d i c Hi E. unfold jc_count. assert (I : In i (filter (fun i => Z.eqb (lab d i) (Z.of_nat c)) (seq 0 (ns d)))) by (apply filter_In; split; [apply in_seq; lia|apply Z.eqb_eq; auto]).
  destruct (filter (fun i => Z.eqb (lab d i) (Z.of_nat c)) (seq 0 (ns d))); [destruct I|cbn; lia].
Qed.
Lemma new_R : forall (b : vec) d i c, (c < nc)%nat -> lab d i = Z.of_nat c -> nsum (N:=RNum) nc (fun c => nmul (n:=RNum) (D2 d c i) (b c)) = b c / INR (jc_count ns Y d c).
Proof.
  intros b d i c Hc E. rewrite nsum_R. cbn [nmul RNum]. rewrite (rsum_single nc c); auto.
  - unfold jc_D2. rewrite E, Z.eqb_refl. cbn [ndiv n1 RNum]. rewrite nofnat_INR. unfold Rdiv. match goal with |- ?x = ?y => change (@eq R x y) end. ring.
  - intros l Hl Hn. unfold jc_D2. rewrite E. destruct (Z.eqb_spec (Z.of_nat c) (Z.of_nat l)) as [F|F]; [apply Nat2Z.inj in F; lia|]. cbn [n0 RNum]. match goal with |- ?x = ?y => change (@eq R x y) end. ring.
Qed.
Lemma maxlo_pos : forall x, 0 < nmax (N:=RNum) x lo. Proof. intros. rewrite nmax_R. apply Rlt_le_trans with lo; [auto|apply Rmax_r]. Qed.
Definition posK (K : nat -> mat) : Prop := forall d i j, (d < p)%nat -> (i < ns d)%nat -> (j < nt)%nat -> 0 < K d i j.
Lemma C_pos : forall K, posK K -> posK (CC K).
Proof.
  intros K HK d i j Hd Hi Hj. unfold jc_C, projC. cbn [ndiv nmul n1 RNum]. rewrite nofnat_INR. apply Rdiv_lt_0_compat; [|apply maxlo_pos]. apply Rmult_lt_0_compat; [apply HK; auto|]. apply Rdiv_lt_0_compat; [lra|apply lt_0_INR; auto].
Qed.
Lemma bary_pos : forall K c, 0 < bary K c. Proof. intros. apply exp_pos. Qed.
Lemma R_row : forall K d i c, posK K -> (d < p)%nat -> (i < ns d)%nat -> (c < nc)%nat -> lab d i = Z.of_nat c ->
  row_sum nt (RR K d) i = bary K c / INR (jc_count ns Y d c) * (row_sum nt (CC K d) i / Rmax (row_sum nt (CC K d) i) lo).
Proof.
  intros K d i c HK Hd Hi Hc E. unfold row_sum at 1, jc_R, projR. rewrite (new_R (bary K) d i c Hc E). cbn [ndiv nmul RNum].
  rewrite (rsum_ext nt _ (fun j => CC K d i j * (bary K c / INR (jc_count ns Y d c) / nmax (N:=RNum) (nsum (N:=RNum) nt (fun l => CC K d i l)) lo))) by (intros; unfold Rdiv; ring).
  rewrite rsum_scal_r, nmax_R, nsum_R. unfold row_sum. assert (0 < Rmax (rsum nt (fun j => CC K d i j)) lo) by (apply Rlt_le_trans with lo; [auto|apply Rmax_r]).
  assert (0 < INR (jc_count ns Y d c)) by (apply lt_0_INR; apply (count_pos d i); auto). change (carrier RNum) with R in *.
  assert (F : forall t B c x : R, 0 < c -> 0 < x -> t * (B / c / x) = B / c * (t / x)) by (intros; field; lra). apply F; auto.
Qed.
Lemma R_pos : forall K, posK K -> posK (RR K).
Proof.
  intros K HK d i j Hd Hi Hj. destruct (in_range d i Hd Hi) as (c & Hc & E). unfold jc_R, projR. rewrite (new_R (bary K) d i c Hc E). cbn [ndiv nmul RNum].
  apply Rdiv_lt_0_compat; [|apply maxlo_pos]. apply Rmult_lt_0_compat; [apply C_pos; auto|]. apply Rdiv_lt_0_compat; [apply bary_pos|apply lt_0_INR; apply (count_pos d i); auto].
Qed.
(** the loop: the couplings are the row projection of some positive K, whose class means are returned *)
Lemma loop_post : forall norm thr left ii old K last errs, posK K -> (last = None -> (0 < left)%nat) ->
  (forall b, last = Some b -> exists K0, posK K0 /\ b = bary K0 /\ K = RR K0) ->
  exists o K0, jc_loop (N:=RNum) exp ln p nt ns lo norm nc D1 D2 thr left ii old K last errs = Some o /\ posK K0 /\ jc_h o = bary K0 /\ jc_K o = RR K0.
Proof.
  intros norm thr. induction left as [|left IH]; intros ii old K last errs HK H0 HL; cbn [jc_loop].
  - destruct last as [b|]; [|specialize (H0 eq_refl); lia]. destruct (HL b eq_refl) as (K0 & A & B & C). exists (mkJc (N:=RNum) K b errs MaxIter), K0. auto.
  - cbv zeta. destruct (nltb (n:=RNum) _ thr); [eexists; exists K; split; [reflexivity|]; auto|]. apply IH; [apply R_pos; auto|discriminate|]. intros b E. injection E as <-. exists K. auto.
Qed.
(** mass of a class *)
Definition class_mass (d c : nat) (G : mat) : R := rsum (ns d) (fun i => if Z.eqb (lab d i) (Z.of_nat c) then row_sum nt G i else 0).
Lemma count_sum : forall d c, INR (jc_count ns Y d c) = rsum (ns d) (fun i => if Z.eqb (lab d i) (Z.of_nat c) then 1 else 0).
Proof.
  intros d c. unfold jc_count. assert (G : forall k s, INR (length (filter (fun i => Z.eqb (lab d i) (Z.of_nat c)) (seq s k))) = rsum k (fun i => if Z.eqb (lab d (s + i)%nat) (Z.of_nat c) then 1 else 0)).
  { induction k; intros s; [reflexivity|]. rewrite seq_S, filter_app, app_length, plus_INR, IHk. cbn [rsum]. f_equal. cbn [filter]. destruct (Z.eqb _ _); reflexivity. }
  apply (G (ns d) 0%nat).
Qed.
Lemma class_R : forall K d c, posK K -> (d < p)%nat -> (c < nc)%nat -> (exists i, (i < ns d)%nat /\ lab d i = Z.of_nat c) ->
  (forall i, (i < ns d)%nat -> lo <= row_sum nt (CC K d) i) -> class_mass d c (RR K d) = bary K c.
Proof.
  intros K d c HK Hd Hc (i0 & Hi0 & E0) HM. unfold class_mass.
  rewrite (rsum_ext (ns d) _ (fun i => bary K c / INR (jc_count ns Y d c) * (if Z.eqb (lab d i) (Z.of_nat c) then 1 else 0))).
  - rewrite rsum_scal, <- count_sum. assert (0 < INR (jc_count ns Y d c)) by (apply lt_0_INR; apply (count_pos d i0); auto).
    match goal with |- ?x = ?y => change (@eq R x y) end. field. lra.
  - intros i Hi. destruct (Z.eqb_spec (lab d i) (Z.of_nat c)) as [E|E]; [|change (@eq R 0 (bary K c / INR (jc_count ns Y d c) * 0)); ring].
    rewrite (R_row K d i c) by auto. specialize (HM i Hi). rewrite Rmax_left by auto. assert (F : forall t : R, lo <= t -> t / t = 1) by (intros; field; lra). rewrite F by auto. auto.
Qed.
End Iter.
