(** Block inverses, KKT conditions, and the homotopy invariant of fully_relaxed_path *)
From Coq Require Import List Arith Bool Reals Lra Lia.
From Verif Require Import Num Sums Spec Duals_proofs Emd1d_model Sinkhorn_model Sinkhorn_more Regpath_model.
Import ListNotations.
Local Open Scope R_scope.
Ltac rn := change (carrier RNum) with R in *.

(** ** inverses *)
Definition inverse (k : nat) (M G : mat) : Prop := forall p q, (p < k)%nat -> (q < k)%nat -> rsum k (fun l => M p l * G l q) = if Nat.eqb p q then 1 else 0.
Definition sym (k : nat) (M : mat) : Prop := forall p q, (p < k)%nat -> (q < k)%nat -> M p q = M q p.
Definition border (k : nat) (G : mat) (b : vec) (d : R) : mat := fun i j => if Nat.ltb i k then (if Nat.ltb j k then G i j else b i) else (if Nat.ltb j k then b j else d).
Definition minor (p : nat) (G : mat) : mat := fun i j => G (skip p i) (skip p j).

Lemma ltb_t : forall a b, (a < b)%nat -> (a <? b)%nat = true. Proof. intros; apply Nat.ltb_lt; auto. Qed.
Lemma ltb_f : forall a, (a <? a)%nat = false. Proof. intros; apply Nat.ltb_irrefl. Qed.
Lemma skip_lt : forall k p i, (p <= k)%nat -> (i < k)%nat -> (skip p i < S k)%nat /\ skip p i <> p.
Proof. intros k p i Hp Hi. unfold skip. destruct (Nat.ltb_spec i p); lia. Qed.
Lemma skip_inj : forall p i j, Nat.eqb (skip p i) (skip p j) = Nat.eqb i j.
Proof.
  intros p i j. destruct (Nat.eqb i j) eqn:E; [apply Nat.eqb_eq in E; subst; apply Nat.eqb_refl|]. apply Nat.eqb_neq in E. apply Nat.eqb_neq. unfold skip.
  destruct (Nat.ltb_spec i p), (Nat.ltb_spec j p); lia.
Qed.
Lemma rsum_skip : forall k p f, (p <= k)%nat -> rsum k (fun l => f (skip p l)) = rsum (S k) f - f p.
Proof.
  intros k. induction k as [|k IH]; intros p f Hp.
  - replace p with 0%nat by lia. cbn [rsum]. ring.
  - destruct (Nat.eq_dec p (S k)) as [-> | Hn].
    + cbn [rsum]. rewrite (rsum_ext k _ f). 2: { intros i Hi. unfold skip. rewrite ltb_t by lia. reflexivity. }
      unfold skip. rewrite ltb_t by lia. ring.
    + cbn [rsum]. rewrite IH by lia. cbn [rsum]. unfold skip. replace (k <? p)%nat with false by (symmetry; apply Nat.ltb_ge; lia). ring.
Qed.
Lemma schur_add_R : forall k (Mc : mat) (b : vec) (d : R), (0 < k)%nat -> let X := fun i => rsum k (fun j => Mc i j * b j) in let s := d - rsum k (fun j => b j * X j) in
  forall i j, schur_add (N:=RNum) k Mc b d i j = if Nat.ltb i k then (if Nat.ltb j k then Mc i j + X i * X j / s else - X i / s) else (if Nat.ltb j k then - X j / s else 1 / s).
Proof.
  intros k Mc b d Hk X s i j. set (Y := fun i => nsum (N:=RNum) k (fun j => Mc i j * b j)). set (z := d - nsum (N:=RNum) k (fun j => b j * Y j)).
  assert (EX : forall i, Y i = X i) by (intros; apply nsum_R).
  assert (ES : z = s). { unfold z, s. f_equal. rewrite nsum_R. apply rsum_ext. intros l _. f_equal. apply EX. }
  transitivity (if Nat.ltb i k then (if Nat.ltb j k then Mc i j + Y i * Y j / z else (0 - Y i) / z) else (if Nat.ltb j k then (0 - Y j) / z else 1 / z)).
  - destruct k; [lia|]. reflexivity.
  - rewrite ES, !EX. unfold Rminus. rewrite !Rplus_0_l. reflexivity.
Qed.
Lemma schur_add_inverse : forall k (Mc G : mat) (b : vec) (d : R), (0 < k)%nat -> inverse k Mc G -> sym k Mc ->
  d - rsum k (fun j => b j * rsum k (fun l => Mc j l * b l)) <> 0 ->
  inverse (S k) (schur_add (N:=RNum) k Mc b d) (border k G b d) /\ sym (S k) (schur_add (N:=RNum) k Mc b d).
Proof.
  intros k Mc G b d Hk HI HS Hs. set (X := fun i => rsum k (fun j => Mc i j * b j)). set (s := d - rsum k (fun j => b j * X j)).
  assert (E : forall i j, schur_add (N:=RNum) k Mc b d i j = if Nat.ltb i k then (if Nat.ltb j k then Mc i j + X i * X j / s else - X i / s) else (if Nat.ltb j k then - X j / s else 1 / s)) by (apply schur_add_R; auto).
  assert (XG : forall q, (q < k)%nat -> rsum k (fun l => X l * G l q) = b q).
  { intros q Hq. unfold X. rewrite (rsum_ext k _ (fun l => rsum k (fun j => Mc l j * b j * G l q))) by (intros; rewrite rsum_scal_r; auto). rewrite rsum_swap.
    rewrite (rsum_ext k _ (fun j => b j * (if Nat.eqb j q then 1 else 0))).
    - transitivity (rsum k (fun j => if Nat.eqb j q then b q else 0)); [apply rsum_ext; intros j _; destruct (Nat.eqb j q) eqn:F; [apply Nat.eqb_eq in F; subst; ring|ring]|apply rsum_delta; auto].
    - intros j Hj. rewrite <- (HI j q Hj Hq), <- rsum_scal. apply rsum_ext. intros l Hl. rewrite (HS l j Hl Hj). ring. }
  assert (Hs' : s <> 0) by exact Hs. split.
  - intros p q Hp Hq. cbn [rsum]. unfold border. rewrite (rsum_ext k _ (fun l => schur_add (N:=RNum) k Mc b d p l * (if (q <? k)%nat then G l q else b l))) by (intros l Hl; rewrite (ltb_t l k) by auto; reflexivity). rewrite ltb_f.
    rewrite (rsum_ext k _ (fun l => (if Nat.ltb p k then Mc p l + X p * X l / s else - X l / s) * (if (q <? k)%nat then G l q else b l))) by (intros l Hl; rewrite E, (ltb_t l k) by auto; reflexivity).
    rewrite E, ltb_f. destruct (p <? k)%nat eqn:Ep; [apply Nat.ltb_lt in Ep|apply Nat.ltb_ge in Ep]; (destruct (q <? k)%nat eqn:Eq; [apply Nat.ltb_lt in Eq|apply Nat.ltb_ge in Eq]).
    + rewrite (rsum_ext k _ (fun l => Mc p l * G l q + X p / s * (X l * G l q))) by (intros; field; auto). rewrite rsum_plus, rsum_scal, XG, HI by auto. field. auto.
    + replace q with k by lia. replace (p =? k)%nat with false by (symmetry; apply Nat.eqb_neq; lia).
      rewrite (rsum_ext k _ (fun l => Mc p l * b l + X p / s * (b l * X l))) by (intros; field; auto). rewrite rsum_plus, rsum_scal. fold (X p). replace (rsum k (fun l => b l * X l)) with (d - s) by (unfold s; ring). field. auto.
    + replace p with k by lia. replace (k =? q)%nat with false by (symmetry; apply Nat.eqb_neq; lia).
      rewrite (rsum_ext k _ (fun l => - / s * (X l * G l q))) by (intros; field; auto). rewrite rsum_scal, XG by auto. field. auto.
    + replace p with k by lia. replace q with k by lia. rewrite Nat.eqb_refl.
      rewrite (rsum_ext k _ (fun l => - / s * (b l * X l))) by (intros; field; auto). rewrite rsum_scal. replace (rsum k (fun l => b l * X l)) with (d - s) by (unfold s; ring). field. auto.
  - intros p q Hp Hq. rewrite !E. destruct (p <? k)%nat eqn:Ep; (destruct (q <? k)%nat eqn:Eq); auto. apply Nat.ltb_lt in Ep, Eq. rewrite (HS p q Ep Eq). field. auto.
Qed.
Lemma schur_remove_inverse : forall k (Mc G : mat) p, (p <= k)%nat -> inverse (S k) Mc G -> sym (S k) Mc -> Mc p p <> 0 ->
  inverse k (schur_remove (N:=RNum) Mc p) (minor p G) /\ sym k (schur_remove (N:=RNum) Mc p).
Proof.
  intros k Mc G p Hp HI HS Hm. split.
  - intros i j Hi Hj. destruct (skip_lt k p i Hp Hi) as [Hi1 Hi2]. destruct (skip_lt k p j Hp Hj) as [Hj1 Hj2]. unfold schur_remove, minor. cbn [nsub nmul ndiv RNum].
    rewrite (rsum_skip k p (fun l => (Mc (skip p i) l - Mc (skip p i) p * Mc p l / Mc p p) * G l (skip p j)) Hp).
    rewrite (rsum_ext (S k) _ (fun l => Mc (skip p i) l * G l (skip p j) - Mc (skip p i) p / Mc p p * (Mc p l * G l (skip p j)))) by (intros; field; auto).
    rewrite rsum_minus, rsum_scal, !HI by (auto; lia). rewrite skip_inj. replace (p =? skip p j)%nat with false by (symmetry; apply Nat.eqb_neq; lia). field. auto.
  - intros i j Hi Hj. destruct (skip_lt k p i Hp Hi) as [Hi1 _]. destruct (skip_lt k p j Hp Hj) as [Hj1 _]. unfold schur_remove. cbn [nsub nmul ndiv RNum].
    rewrite (HS (skip p i) (skip p j)), (HS (skip p i) p), (HS p (skip p j)) by (auto; lia). rn. field. auto.
Qed.

Lemma inverse_ext : forall k (M G G' : mat), (forall p q, (p < k)%nat -> (q < k)%nat -> G p q = G' p q) -> inverse k M G -> inverse k M G'.
Proof. intros k M G G' E HI p q Hp Hq. rewrite <- (HI p q Hp Hq). apply rsum_ext. intros l Hl. rewrite E; auto. Qed.

(** ** scatter and sums over the active list *)
Definition scat (A : list nat) (x : vec) : vec := scatter (N:=RNum) A x.
Lemma scat_out : forall A x i, ~ In i A -> scat A x i = 0.
Proof.
  unfold scat. intros A. induction A as [|a A IH]; intros x i H; cbn [scatter]; [reflexivity|].
  destruct (Nat.eqb_spec i a) as [E|E]; [exfalso; apply H; left; auto|]. apply IH. intros F. apply H. right; auto.
Qed.
Lemma scat_at : forall A x l, NoDup A -> (l < length A)%nat -> scat A x (at_ A l) = x l.
Proof.
  unfold scat, at_. intros A. induction A as [|a A IH]; intros x l ND Hl; cbn [length] in Hl; [lia|]. inversion ND; subst. destruct l; cbn [nth scatter].
  - rewrite Nat.eqb_refl. reflexivity.
  - destruct (Nat.eqb_spec (nth l A 0%nat) a) as [E|E].
    + exfalso. apply H1. rewrite <- E. apply nth_In. lia.
    + rewrite (IH (fun l => x (S l))) by (auto; lia). reflexivity.
Qed.
Lemma at_in : forall A l, (l < length A)%nat -> In (at_ A l) A.
Proof. intros. apply nth_In; auto. Qed.
Lemma in_at : forall A i, In i A -> exists l, (l < length A)%nat /\ at_ A l = i.
Proof. intros A i H. apply (In_nth A i 0%nat) in H. exact H. Qed.
Lemma at_inj : forall A p q, NoDup A -> (p < length A)%nat -> (q < length A)%nat -> at_ A p = at_ A q -> p = q.
Proof. intros A p q ND Hp Hq E. apply (NoDup_nth A 0%nat); auto. Qed.
Definition bounded (n : nat) (A : list nat) : Prop := forall i, In i A -> (i < n)%nat.
Lemma rsum_supp : forall n A (f : nat -> R), NoDup A -> bounded n A -> (forall i, (i < n)%nat -> ~ In i A -> f i = 0) -> rsum n f = rsum (length A) (fun l => f (at_ A l)).
Proof.
  intros n A. unfold at_. induction A as [|a A IH]; intros f ND HB HO.
  - cbn [length rsum]. apply rsum_0. intros i Hi. apply HO; auto.
  - inversion ND; subst. cbn [length]. rewrite rsum_first. cbn [nth].
    rewrite (rsum_ext n f (fun i => (if Nat.eqb i a then f a else 0) + (if Nat.eqb i a then 0 else f i))).
    2: { intros i _. destruct (Nat.eqb_spec i a) as [->|]; ring. }
    rewrite rsum_plus, rsum_delta by (apply HB; left; auto). f_equal.
    rewrite (IH (fun i => if Nat.eqb i a then 0 else f i)).
    + apply rsum_ext. intros l Hl. destruct (Nat.eqb_spec (nth l A 0%nat) a) as [E|]; auto. exfalso. apply H1. rewrite <- E. apply nth_In. auto.
    + auto.
    + intros i Hi. apply HB. right; auto.
    + intros i Hi Hn. destruct (Nat.eqb_spec i a) as [->|]; auto. apply HO; auto. intros [E|E]; [congruence|auto].
Qed.
Lemma rsum_scat : forall n A (g x : nat -> R), NoDup A -> bounded n A -> rsum n (fun i => g i * scat A x i) = rsum (length A) (fun l => g (at_ A l) * x l).
Proof.
  intros n A g x ND HB. rewrite (rsum_supp n A); auto.
  - apply rsum_ext. intros l Hl. rewrite scat_at; auto.
  - intros i _ Hn. rewrite scat_out by auto. ring.
Qed.

(** ** the quadratic problem *)
Section Quad.
Variables (Rn NM : nat) (H : mat) (y c : vec).
Definition gram : mat := fun i l => rsum Rn (fun r => H r i * H r l).
Definition lin : vec := fun i => rsum Rn (fun r => H r i * y r).
Definition Gv (t : vec) : vec := fun i => rsum NM (fun j => gram i j * t j).
Definition slack (g : R) (t : vec) : vec := fun i => Gv t i - lin i + g * c i.
Definition img (t : vec) : vec := fun r => rsum NM (fun i => H r i * t i).
Definition objJ (g : R) (t : vec) : R := g * rsum NM (fun i => c i * t i) + / 2 * rsum Rn (fun r => (img t r - y r) * (img t r - y r)).
Definition kkt (g : R) (t : vec) : Prop := forall i, (i < NM)%nat -> 0 <= t i /\ 0 <= slack g t i /\ (t i = 0 \/ slack g t i = 0).

Lemma gram_sym : forall i j, gram i j = gram j i.
Proof. intros. apply rsum_ext. intros; ring. Qed.
Lemma Gv_img : forall t i, Gv t i = rsum Rn (fun r => H r i * img t r).
Proof.
  intros t i. unfold Gv, gram, img. rewrite (rsum_ext NM _ (fun j => rsum Rn (fun r => H r i * H r j * t j))) by (intros; rewrite rsum_scal_r; auto).
  rewrite rsum_swap. apply rsum_ext. intros r _. rewrite <- rsum_scal. apply rsum_ext. intros; ring.
Qed.
Lemma Gv_plus : forall t w k i, Gv (fun j => t j + k * w j) i = Gv t i + k * Gv w i.
Proof. intros. unfold Gv. rewrite <- rsum_scal, <- rsum_plus. apply rsum_ext. intros; ring. Qed.
Lemma Gv_ext : forall t t' i, (forall j, (j < NM)%nat -> t j = t' j) -> Gv t i = Gv t' i.
Proof. intros. unfold Gv. apply rsum_ext. intros j Hj. rewrite H0; auto. Qed.
Lemma slack_ext : forall g t t' i, (forall j, (j < NM)%nat -> t j = t' j) -> slack g t i = slack g t' i.
Proof. intros. unfold slack. rewrite (Gv_ext t t'); auto. Qed.
Lemma slack_plus : forall g t w k i, slack g (fun j => t j + k * w j) i = slack g t i + k * Gv w i.
Proof. intros. unfold slack. rewrite Gv_plus. ring. Qed.
Lemma kkt_ext : forall g t t', (forall j, (j < NM)%nat -> t j = t' j) -> kkt g t -> kkt g t'.
Proof. intros g t t' E K i Hi. rewrite <- (E i Hi), <- (slack_ext g t t' i E). apply K; auto. Qed.
Lemma quad_img : forall w, rsum NM (fun j => w j * Gv w j) = rsum Rn (fun r => img w r * img w r).
Proof.
  intros w. rewrite (rsum_ext NM _ (fun j => rsum Rn (fun r => w j * (H r j * img w r)))) by (intros; rewrite rsum_scal, Gv_img; auto).
  rewrite rsum_swap. apply rsum_ext. intros r _. transitivity (rsum NM (fun j => H r j * w j * img w r)); [apply rsum_ext; intros; ring|]. rewrite rsum_scal_r. reflexivity.
Qed.
Lemma quad_nonneg : forall w, 0 <= rsum NM (fun j => w j * Gv w j).
Proof. intros. rewrite quad_img. apply rsum_nonneg. intros. apply Rle_0_sqr. Qed.
Lemma quad_zero : forall w, rsum NM (fun j => w j * Gv w j) = 0 -> forall r, (r < Rn)%nat -> img w r = 0.
Proof. intros w E r Hr. rewrite quad_img in E. apply (rsum_nonneg_zero Rn _ (fun r _ => Rle_0_sqr (img w r))) with (i := r) in E; auto. apply Rsqr_0_uniq. exact E. Qed.

Lemma objJ_diff : forall g t u, objJ g u - objJ g t = rsum NM (fun i => slack g t i * (u i - t i)) + / 2 * rsum Rn (fun r => (img u r - img t r) * (img u r - img t r)).
Proof.
  intros g t u. unfold objJ.
  assert (E : rsum NM (fun i => slack g t i * (u i - t i)) = rsum Rn (fun r => (img t r - y r) * (img u r - img t r)) + g * (rsum NM (fun i => c i * u i) - rsum NM (fun i => c i * t i))).
  { rewrite (rsum_ext NM _ (fun i => rsum Rn (fun r => H r i * (img t r - y r) * (u i - t i)) + g * (c i * u i - c i * t i))).
    - rewrite rsum_plus, rsum_scal, rsum_minus. f_equal. rewrite rsum_swap. apply rsum_ext. intros r _.
      rewrite (rsum_ext NM _ (fun i => (img t r - y r) * (H r i * u i - H r i * t i))) by (intros; ring). rewrite rsum_scal, rsum_minus. reflexivity.
    - intros i _. unfold slack. rewrite Gv_img. unfold lin. rewrite rsum_scal_r, <- (rsum_minus Rn) || idtac. rewrite (rsum_ext Rn (fun r => H r i * (img t r - y r)) (fun r => H r i * img t r - H r i * y r)) by (intros; ring). rewrite rsum_minus. ring. }
  rewrite E.
  assert (F : rsum Rn (fun r => (img u r - y r) * (img u r - y r)) = rsum Rn (fun r => (img t r - y r) * (img t r - y r)) + 2 * rsum Rn (fun r => (img t r - y r) * (img u r - img t r)) + rsum Rn (fun r => (img u r - img t r) * (img u r - img t r))).
  { rewrite <- rsum_scal, <- !rsum_plus. apply rsum_ext. intros; ring. }
  rewrite F. field.
Qed.
Lemma kkt_min : forall g t u, kkt g t -> (forall i, (i < NM)%nat -> 0 <= u i) -> objJ g t <= objJ g u.
Proof.
  intros g t u K Hu. assert (E := objJ_diff g t u).
  assert (P1 : 0 <= rsum NM (fun i => slack g t i * (u i - t i))).
  { apply rsum_nonneg. intros i Hi. destruct (K i Hi) as (Kt & Ks & [Kc|Kc]); specialize (Hu i Hi).
    - rewrite Kc, Rminus_0_r. apply Rmult_le_pos; auto.
    - rewrite Kc. lra. }
  assert (P2 : 0 <= rsum Rn (fun r => (img u r - img t r) * (img u r - img t r))) by (apply rsum_nonneg; intros; apply Rle_0_sqr).
  lra.
Qed.
(** conversely a minimiser satisfies the conditions: the stored certificates lose nothing *)
End Quad.

(** ** the solution on a fixed active list *)
Section Active.
Variables (Rn NM : nat) (H : mat) (y c : vec).
Notation gram := (gram Rn H). Notation lin := (lin Rn H y). Notation Gv := (Gv Rn NM H). Notation slack := (slack Rn NM H y c). Notation kkt := (kkt Rn NM H y c).
Definition GA (A : list nat) : mat := fun p q => gram (at_ A p) (at_ A q).
Definition act (A : list nat) (Hi : mat) : Prop := NoDup A /\ bounded NM A /\ inverse (length A) Hi (GA A) /\ sym (length A) Hi.
Definition phiR (A : list nat) (Hi : mat) : vec := phi_of (N:=RNum) Rn H y A Hi.
Definition deltaR (A : list nat) (Hi : mat) : vec := delta_of (N:=RNum) c A Hi.
Definition tg (A : list nat) (Hi : mat) (g : R) : vec := scat A (fun l => phiR A Hi l - g * deltaR A Hi l).
Definition issol (A : list nat) (g : R) (t : vec) : Prop := (forall j, (j < NM)%nat -> ~ In j A -> t j = 0) /\ (forall i, In i A -> slack g t i = 0).

Lemma HtH_R : forall i l, HtH (N:=RNum) Rn H i l = gram i l.
Proof. intros. unfold HtH. rewrite nsum_R. reflexivity. Qed.
Lemma Hty_R : forall i, Hty (N:=RNum) Rn H y i = lin i.
Proof. intros. unfold Hty. rewrite nsum_R. reflexivity. Qed.
Lemma phiR_eq : forall A Hi l, phiR A Hi l = rsum (length A) (fun q => Hi l q * lin (at_ A q)).
Proof. intros. unfold phiR, phi_of. rewrite nsum_R. apply rsum_ext. intros. rewrite Hty_R. reflexivity. Qed.
Lemma deltaR_eq : forall A Hi l, deltaR A Hi l = rsum (length A) (fun q => Hi l q * c (at_ A q)).
Proof. intros. unfold deltaR, delta_of. rewrite nsum_R. reflexivity. Qed.
Lemma T_eq : forall A Hi g l, phiR A Hi l - g * deltaR A Hi l = rsum (length A) (fun q => Hi l q * (lin (at_ A q) - g * c (at_ A q))).
Proof. intros. rewrite phiR_eq, deltaR_eq, <- rsum_scal, <- rsum_minus. apply rsum_ext. intros; ring. Qed.
Lemma GA_sym : forall A p q, GA A p q = GA A q p.
Proof. intros. apply gram_sym. Qed.
Lemma right_inverse : forall A Hi, act A Hi -> forall p q, (p < length A)%nat -> (q < length A)%nat -> rsum (length A) (fun l => GA A p l * Hi l q) = if Nat.eqb p q then 1 else 0.
Proof.
  intros A Hi (_ & _ & HI & HS) p q Hp Hq. rewrite Nat.eqb_sym, <- (HI q p Hq Hp). apply rsum_ext. intros l Hl. rewrite (GA_sym A p l), (HS l q Hl Hq). ring.
Qed.
Lemma solve_GA : forall A Hi (x : vec), act A Hi -> forall p, (p < length A)%nat -> rsum (length A) (fun l => GA A p l * rsum (length A) (fun q => Hi l q * x q)) = x p.
Proof.
  intros A Hi x HA p Hp. rewrite (rsum_ext _ _ (fun l => rsum (length A) (fun q => GA A p l * Hi l q * x q))) by (intros; rewrite <- rsum_scal; apply rsum_ext; intros; ring).
  rewrite rsum_swap. rewrite (rsum_ext _ _ (fun q => if Nat.eqb q p then x q else 0)); [apply rsum_delta_mul; auto|].
  intros q Hq. rewrite rsum_scal_r, (right_inverse A Hi HA p q Hp Hq), Nat.eqb_sym. destruct (Nat.eqb q p); ring.
Qed.
Lemma Gv_scat : forall A x i, NoDup A -> bounded NM A -> Gv (scat A x) i = rsum (length A) (fun l => gram i (at_ A l) * x l).
Proof. intros. unfold Regpath_proofs.Gv. apply (rsum_scat NM A (gram i) x); auto. Qed.
Lemma tg_sol : forall A Hi g, act A Hi -> issol A g (tg A Hi g).
Proof.
  intros A Hi g HA. destruct HA as (ND & HB & HI & HS). split.
  - intros j _ Hn. apply scat_out; auto.
  - intros i Hin. destruct (in_at A i Hin) as (p & Hp & <-). unfold Regpath_proofs.slack, tg. rewrite Gv_scat by auto.
    rewrite (rsum_ext _ _ (fun l => GA A p l * rsum (length A) (fun q => Hi l q * (lin (at_ A q) - g * c (at_ A q))))) by (intros; rewrite T_eq; reflexivity).
    rewrite (solve_GA A Hi (fun q => lin (at_ A q) - g * c (at_ A q))) by (auto; repeat split; auto). ring.
Qed.
Lemma sol_unique : forall A Hi g t, act A Hi -> issol A g t -> forall j, (j < NM)%nat -> t j = tg A Hi g j.
Proof.
  intros A Hi g t HA (S1 & S2) j Hj. destruct HA as (ND & HB & HI & HS). destruct (in_dec Nat.eq_dec j A) as [Hin|Hn].
  2: { rewrite S1 by auto. symmetry. apply scat_out; auto. }
  destruct (in_at A j Hin) as (l & Hl & <-). unfold tg. rewrite scat_at, T_eq by auto.
  rewrite (rsum_ext _ _ (fun q => rsum (length A) (fun p => Hi l q * GA A q p * t (at_ A p)))).
  - rewrite rsum_swap. rewrite (rsum_ext _ _ (fun p => if Nat.eqb p l then t (at_ A p) else 0)).
    + rewrite (rsum_delta_mul (length A) l (fun p => t (at_ A p))); auto.
    + intros p Hp. rewrite rsum_scal_r, (HI l p Hl Hp), Nat.eqb_sym. destruct (Nat.eqb p l); ring.
  - intros q Hq. rewrite (rsum_ext _ _ (fun p => Hi l q * (GA A q p * t (at_ A p)))) by (intros; ring). rewrite rsum_scal. f_equal.
    specialize (S2 (at_ A q) (at_in A q Hq)). unfold Regpath_proofs.slack in S2.
    assert (E : Gv t (at_ A q) = rsum (length A) (fun p => GA A q p * t (at_ A p))).
    { unfold Regpath_proofs.Gv. rewrite (rsum_supp NM A); auto. intros i Hi' Hn. rewrite S1 by auto. ring. }
    rewrite <- E. lra.
Qed.

(** *** affine dependence on gamma *)
Definition affine (f : R -> R) : Prop := exists al be, forall g, f g = al - g * be.
Lemma tg_affine : forall A Hi j, affine (fun g => tg A Hi g j).
Proof.
  intros A Hi j. unfold tg, scat. generalize (phiR A Hi) (deltaR A Hi). intros x z. revert x z. induction A as [|a A IH]; intros x z.
  - exists 0, 0. intros. cbn [scatter n0 RNum]. ring.
  - cbn [scatter]. destruct (Nat.eqb j a).
    + exists (x 0%nat), (z 0%nat). intros. ring.
    + apply (IH (fun l => x (S l)) (fun l => z (S l))).
Qed.
Lemma slack_cand : forall A Hi g i, NoDup A -> bounded NM A -> slack g (tg A Hi g) i =
  (rsum (length A) (fun l => gram i (at_ A l) * phiR A Hi l) - lin i) - g * (rsum (length A) (fun l => gram i (at_ A l) * deltaR A Hi l) - c i).
Proof.
  intros A Hi g i ND HB. unfold Regpath_proofs.slack, tg. rewrite Gv_scat by auto.
  rewrite (rsum_ext _ _ (fun l => gram i (at_ A l) * phiR A Hi l - g * (gram i (at_ A l) * deltaR A Hi l))) by (intros; ring).
  rewrite rsum_minus, rsum_scal. ring.
Qed.
Lemma slack_affine : forall A Hi i, NoDup A -> bounded NM A -> affine (fun g => slack g (tg A Hi g) i).
Proof. intros. eexists _, _. intros. apply slack_cand; auto. Qed.

(** *** adding an index *)
Definition bcol (A : list nat) (i : nat) : vec := fun l => gram (at_ A l) i.
Definition xcol (A : list nat) (Hi : mat) (i : nat) : vec := fun l => rsum (length A) (fun q => Hi l q * bcol A i q).
Definition wadd (A : list nat) (Hi : mat) (i : nat) : vec := fun j => (if Nat.eqb j i then 1 else 0) - scat A (xcol A Hi i) j.
Definition schur (A : list nat) (Hi : mat) (i : nat) : R := gram i i - rsum (length A) (fun l => bcol A i l * xcol A Hi i l).
Lemma Gv_wadd : forall A Hi i k, NoDup A -> bounded NM A -> (i < NM)%nat -> Gv (wadd A Hi i) k = gram k i - rsum (length A) (fun l => gram k (at_ A l) * xcol A Hi i l).
Proof.
  intros A Hi i k ND HB Hi'. rewrite <- Gv_scat by auto. unfold Regpath_proofs.Gv, wadd.
  rewrite (rsum_ext NM _ (fun j => (if Nat.eqb j i then gram k j else 0) - gram k j * scat A (xcol A Hi i) j)) by (intros j _; destruct (Nat.eqb j i); ring).
  rewrite rsum_minus, (rsum_delta_mul NM i (gram k)) by auto. reflexivity.
Qed.
Lemma Gv_wadd_A : forall A Hi i p, act A Hi -> (i < NM)%nat -> (p < length A)%nat -> Gv (wadd A Hi i) (at_ A p) = 0.
Proof.
  intros A Hi i p HA Hi' Hp. pose proof HA as (ND & HB & _). rewrite Gv_wadd by auto.
  assert (E : rsum (length A) (fun l => gram (at_ A p) (at_ A l) * xcol A Hi i l) = bcol A i p) by (apply (solve_GA A Hi (bcol A i)); auto).
  rewrite E. unfold bcol. ring.
Qed.
Lemma Gv_wadd_i : forall A Hi i, act A Hi -> (i < NM)%nat -> Gv (wadd A Hi i) i = schur A Hi i.
Proof.
  intros A Hi i HA Hi'. pose proof HA as (ND & HB & _). rewrite Gv_wadd by auto. unfold schur. f_equal. apply rsum_ext. intros l _. unfold bcol. rewrite (gram_sym _ _ i). reflexivity.
Qed.
Lemma schur_quad : forall A Hi i, act A Hi -> (i < NM)%nat -> ~ In i A -> rsum NM (fun j => wadd A Hi i j * Gv (wadd A Hi i) j) = schur A Hi i.
Proof.
  intros A Hi i HA Hi' Hn. pose proof HA as (ND & HB & _). rewrite (rsum_single NM i); auto.
  - rewrite Gv_wadd_i by auto. unfold wadd. rewrite Nat.eqb_refl, scat_out by auto. ring.
  - intros j Hj Hne. destruct (in_dec Nat.eq_dec j A) as [Hin|Hn'].
    + destruct (in_at A j Hin) as (p & Hp & <-). rewrite Gv_wadd_A by auto. ring.
    + unfold wadd. rewrite (proj2 (Nat.eqb_neq j i)), scat_out by auto. ring.
Qed.
Lemma schur_nonneg : forall A Hi i, act A Hi -> (i < NM)%nat -> ~ In i A -> 0 <= schur A Hi i.
Proof. intros. rewrite <- schur_quad by auto. apply quad_nonneg. Qed.
(** a vanishing Schur complement makes the slack of i vanish at gamma = 0 *)
Lemma schur_zero_slack : forall A Hi i, act A Hi -> (i < NM)%nat -> ~ In i A -> schur A Hi i = 0 -> slack 0 (tg A Hi 0) i = 0.
Proof.
  intros A Hi i HA Hi' Hn Hs. pose proof HA as (ND & HB & _).
  assert (Hz : forall r, (r < Rn)%nat -> img NM H (wadd A Hi i) r = 0) by (apply quad_zero; rewrite schur_quad; auto).
  (* sum_j w_j slack_j = <Hw, Ht - y> = 0, and it equals slack_i *)
  assert (E : rsum NM (fun j => wadd A Hi i j * slack 0 (tg A Hi 0) j) = slack 0 (tg A Hi 0) i).
  { rewrite (rsum_single NM i); auto.
    - unfold wadd. rewrite Nat.eqb_refl, scat_out by auto. ring.
    - intros j Hj Hne. destruct (in_dec Nat.eq_dec j A) as [Hin|Hn'].
      + rewrite (proj2 (tg_sol A Hi 0 HA) j Hin). ring.
      + unfold wadd. rewrite (proj2 (Nat.eqb_neq j i)), scat_out by auto. ring. }
  rewrite <- E. set (t := tg A Hi 0). set (w := wadd A Hi i) in *.
  rewrite (rsum_ext NM _ (fun j => rsum Rn (fun r => (H r j * w j) * (img NM H t r - y r)))).
  - rewrite rsum_swap. apply rsum_0. intros r Hr. rewrite rsum_scal_r. fold (img NM H w r). rewrite Hz by auto. ring.
  - intros j _. unfold Regpath_proofs.slack. rewrite Gv_img. unfold Regpath_proofs.lin. rewrite (rsum_ext Rn (fun r => H r j * w j * (img NM H t r - y r)) (fun r => w j * (H r j * img NM H t r - H r j * y r))) by (intros; ring).
    rewrite rsum_scal, rsum_minus. ring.
Qed.
Lemma sol_add : forall A Hi i g, act A Hi -> (i < NM)%nat -> ~ In i A -> schur A Hi i <> 0 ->
  issol (A ++ [i]) g (fun j => tg A Hi g j + - (slack g (tg A Hi g) i / schur A Hi i) * wadd A Hi i j).
Proof.
  intros A Hi i g HA Hi' Hn Hs. pose proof (tg_sol A Hi g HA) as (S1 & S2). split.
  - intros j Hj Hnj. rewrite in_app_iff in Hnj. rewrite S1 by tauto. unfold wadd. rewrite (proj2 (Nat.eqb_neq j i)), scat_out by (cbn [In] in Hnj; intuition congruence). ring.
  - intros k Hk. rewrite slack_plus. rewrite in_app_iff in Hk. destruct Hk as [Hk|[<-|[]]].
    + rewrite S2 by auto. destruct (in_at A k Hk) as (p & Hp & <-). rewrite Gv_wadd_A by auto. ring.
    + rewrite Gv_wadd_i by auto. field. auto.
Qed.
(** *** removing an index *)
Definition wrem (A : list nat) (Hi : mat) (p : nat) : vec := scat A (fun l => Hi l p).
Lemma Gv_wrem : forall A Hi p q, act A Hi -> (p < length A)%nat -> (q < length A)%nat -> Gv (wrem A Hi p) (at_ A q) = if Nat.eqb q p then 1 else 0.
Proof. intros A Hi p q HA Hp Hq. pose proof HA as (ND & HB & _). unfold wrem. rewrite Gv_scat by auto. apply (right_inverse A Hi HA q p Hq Hp). Qed.
Lemma wrem_pos : forall A Hi p, act A Hi -> (p < length A)%nat -> 0 < Hi p p.
Proof.
  intros A Hi p HA Hp. pose proof HA as (ND & HB & _).
  assert (E : rsum NM (fun j => wrem A Hi p j * Gv (wrem A Hi p) j) = Hi p p).
  { rewrite (rsum_single NM (at_ A p)).
    - rewrite Gv_wrem, Nat.eqb_refl by auto. unfold wrem. rewrite scat_at by auto. ring.
    - apply HB, at_in; auto.
    - intros j Hj Hne. destruct (in_dec Nat.eq_dec j A) as [Hin|Hn'].
      + destruct (in_at A j Hin) as (q & Hq & <-). rewrite Gv_wrem by auto. destruct (Nat.eqb_spec q p); [congruence|ring].
      + unfold wrem. rewrite scat_out by auto. ring. }
  assert (N0 := quad_nonneg Rn NM H (wrem A Hi p)). rewrite E in N0. destruct (Req_dec (Hi p p) 0) as [Z|Z]; [|lra]. exfalso.
  rewrite Z in E. assert (Hz := quad_zero Rn NM H (wrem A Hi p) E).
  assert (F := Gv_wrem A Hi p p HA Hp Hp). rewrite Nat.eqb_refl, Gv_img in F. rewrite rsum_0 in F by (intros r Hr; rewrite Hz by auto; ring). lra.
Qed.
Lemma remove_at_length : forall p A, (p < length A)%nat -> length (remove_at p A) = (length A - 1)%nat.
Proof. intros p A Hp. unfold remove_at. rewrite app_length, firstn_length, skipn_length. lia. Qed.
Lemma remove_at_nth : forall A p l, (p < length A)%nat -> (l < length A - 1)%nat -> at_ (remove_at p A) l = at_ A (skip p l).
Proof.
  unfold at_, remove_at, skip. intros A. induction A as [|a A IH]; intros p l Hp Hl; cbn [length] in *; [lia|]. destruct p.
  - cbn [firstn skipn app]. replace (l <? 0)%nat with false by (symmetry; apply Nat.ltb_ge; lia). reflexivity.
  - destruct l; [reflexivity|]. transitivity (nth l (firstn p A ++ skipn (S p) A) 0%nat); [reflexivity|]. rewrite IH by lia.
    change (S l <? S p)%nat with (l <? p)%nat. destruct (l <? p)%nat; reflexivity.
Qed.
Lemma remove_at_in : forall A p j, NoDup A -> (p < length A)%nat -> (In j (remove_at p A) <-> In j A /\ j <> at_ A p).
Proof.
  unfold at_, remove_at. intros A. induction A as [|a A IH]; intros p j ND Hp; cbn [length] in *; [lia|]. inversion ND; subst. destruct p.
  - cbn [firstn skipn app nth In]. split; [intros Hj; split; [auto|intros ->; auto]|intros [[->|Hj] Hne]; [congruence|auto]].
  - change (firstn (S p) (a :: A) ++ skipn (S (S p)) (a :: A)) with (a :: (firstn p A ++ skipn (S p) A)). cbn [In nth]. rewrite IH by (auto; lia). split.
    + intros [->|[Hj Hne]]; [split; auto; intros ->; apply H2, nth_In; lia|auto].
    + intros [[->|Hj] Hne]; auto.
Qed.
Lemma remove_at_nodup : forall A p, NoDup A -> NoDup (remove_at p A).
Proof.
  unfold remove_at. intros A. induction A as [|a A IH]; intros p ND; [destruct p; constructor|]. inversion ND; subst. destruct p; [cbn [firstn skipn app]; auto|].
  change (firstn (S p) (a :: A) ++ skipn (S (S p)) (a :: A)) with (a :: (firstn p A ++ skipn (S p) A)). constructor; [|apply (IH p); auto]. rewrite in_app_iff. intros [Hf|Hf]; apply H2.
  - rewrite <- (firstn_skipn p A). apply in_or_app; auto.
  - rewrite <- (firstn_skipn (S p) A). apply in_or_app; right. exact Hf.
Qed.
Lemma sol_rem : forall A Hi p g, act A Hi -> (p < length A)%nat ->
  issol (remove_at p A) g (fun j => tg A Hi g j + - (tg A Hi g (at_ A p) / Hi p p) * wrem A Hi p j).
Proof.
  intros A Hi p g HA Hp. pose proof (wrem_pos A Hi p HA Hp) as Hpp. pose proof HA as (ND & HB & _). pose proof (tg_sol A Hi g HA) as (S1 & S2). split.
  - intros j Hj Hn. rewrite remove_at_in in Hn by auto. destruct (in_dec Nat.eq_dec j A) as [Hin|Hn'].
    + destruct (Nat.eq_dec j (at_ A p)) as [->|Hne]; [|exfalso; auto]. unfold wrem. rewrite (scat_at A (fun l => Hi l p) p) by auto. field. lra.
    + rewrite S1 by auto. unfold wrem. rewrite scat_out by auto. ring.
  - intros k Hk. rewrite remove_at_in in Hk by auto. destruct Hk as [Hk Hne]. rewrite slack_plus, S2 by auto. destruct (in_at A k Hk) as (q & Hq & <-).
    rewrite Gv_wrem by auto. destruct (Nat.eqb_spec q p); [congruence|ring].
Qed.
Lemma slack_rem : forall A Hi p g, act A Hi -> (p < length A)%nat ->
  slack g (fun j => tg A Hi g j + - (tg A Hi g (at_ A p) / Hi p p) * wrem A Hi p j) (at_ A p) = - (tg A Hi g (at_ A p) / Hi p p).
Proof. intros A Hi p g HA Hp. rewrite slack_plus, (proj2 (tg_sol A Hi g HA)) by (apply at_in; auto). rewrite Gv_wrem, Nat.eqb_refl by auto. ring. Qed.
End Active.

(** ** one iteration of the homotopy *)
Section Step.
Variables (Rn NM : nat) (H : mat) (y c : vec) (ta tr tau : R).
Notation gram := (gram Rn H). Notation lin := (lin Rn H y). Notation Gv := (Gv Rn NM H). Notation slack := (slack Rn NM H y c). Notation kkt := (kkt Rn NM H y c).
Notation act := (act Rn NM H). Notation tg := (tg Rn H y c). Notation phiR := (phiR Rn H y). Notation deltaR := (deltaR c).
Hypothesis HNM : (0 < NM)%nat.
Hypothesis Hdiag : forall i, (i < NM)%nat -> gram i i = 2.
Hypothesis Hta : 0 < ta < tau.
Hypothesis Htr : 0 < tr < tau.
Hypothesis Htau : tau < 1.

Lemma bounded_add : forall A i, bounded NM A -> (i < NM)%nat -> bounded NM (A ++ [i]).
Proof. intros A i HB Hi j Hj. apply in_app_iff in Hj. destruct Hj as [Hj|[<-|[]]]; auto. Qed.
Lemma NoDup_snoc : forall (A : list nat) i, NoDup A -> ~ In i A -> NoDup (A ++ [i]).
Proof.
  intros A i ND Hn. induction A as [|a A IH]; cbn [app]; [repeat constructor; auto|]. inversion ND; subst. constructor.
  - rewrite in_app_iff. intros [F|[F|[]]]; [auto|subst; apply Hn; left; auto].
  - apply IH; auto. intros F. apply Hn. right; auto.
Qed.
Lemma at_app1 : forall A i l, (l < length A)%nat -> at_ (A ++ [i]) l = at_ A l.
Proof. intros. unfold at_. apply app_nth1; auto. Qed.
Lemma at_app2 : forall A i, at_ (A ++ [i]) (length A) = i.
Proof. intros. unfold at_. rewrite app_nth2, Nat.sub_diag by lia. reflexivity. Qed.
Lemma act_add : forall A Hi i pop, act A Hi -> (i < NM)%nat -> ~ In i A -> schur Rn H A Hi i <> 0 ->
  act (A ++ [i]) (complement_schur (N:=RNum) (length A) Hi (Some (fun l => HtH (N:=RNum) Rn H (at_ A l) i)) (1 + 1) pop).
Proof.
  intros A Hi i pop (ND & HB & HI & HS) Hi' Hn Hs. cbn [complement_schur].
  split; [apply NoDup_snoc; auto|]. split; [apply bounded_add; auto|]. rewrite app_length. cbn [length]. rewrite Nat.add_1_r.
  destruct (Nat.eq_dec (length A) 0) as [E|E].
  - destruct A; [|discriminate]. cbn [length schur_add app]. split.
    + intros p q Hp Hq. replace p with 0%nat by lia. replace q with 0%nat by lia. cbn [rsum Nat.eqb]. unfold GA, at_. cbn [nth]. rewrite Hdiag by auto. unfold half_const. cbn. lra.
    + intros p q _ _. reflexivity.
  - destruct (schur_add_inverse (length A) Hi (GA Rn H A) (fun l => HtH (N:=RNum) Rn H (at_ A l) i) (1 + 1)) as [I1 I2]; auto; try lia.
    + replace (1 + 1) with (gram i i) by (rewrite Hdiag by auto; lra). intros F. apply Hs. rewrite <- F. unfold schur. f_equal. apply rsum_ext. intros l _. unfold bcol. rewrite HtH_R. f_equal. unfold xcol. apply rsum_ext. intros q _. unfold bcol. rewrite HtH_R. reflexivity.
    + split; auto. eapply inverse_ext; [|exact I1]. intros p q Hp Hq. unfold border, GA. rewrite !HtH_R.
      destruct (Nat.ltb_spec p (length A)), (Nat.ltb_spec q (length A)).
      * rewrite !at_app1 by auto. reflexivity.
      * replace q with (length A) by lia. rewrite at_app1, at_app2 by auto. reflexivity.
      * replace p with (length A) by lia. rewrite (at_app1 A i q), at_app2 by auto. apply gram_sym.
      * replace p with (length A) by lia. replace q with (length A) by lia. rewrite at_app2, Hdiag by auto. ring.
Qed.
Lemma act_rem : forall A Hi p d k, act A Hi -> (p < length A)%nat -> act (remove_at p A) (complement_schur (N:=RNum) k Hi None d p).
Proof.
  intros A Hi p d k HA Hp. pose proof (wrem_pos _ _ _ A Hi p HA Hp) as Hpp. destruct HA as (ND & HB & HI & HS). cbn [complement_schur].
  split; [apply remove_at_nodup; auto|]. split; [intros j Hj; apply remove_at_in in Hj; auto; apply HB; tauto|].
  rewrite remove_at_length by auto. destruct (length A) as [|k'] eqn:E; [lia|]. replace (S k' - 1)%nat with k' by lia.
  destruct (schur_remove_inverse k' Hi (GA Rn H A) p) as [I1 I2]; auto; try lia; try lra.
  split; auto. eapply inverse_ext; [|exact I1]. intros r q Hr Hq. unfold minor, GA. rewrite !remove_at_nth by lia. reflexivity.
Qed.

Definition safe (gc : R) (f : R -> R) : Prop := 0 < f gc \/ (forall g, g <= gc -> 0 <= f g).
Definition Inv (A : list nat) (Hi : mat) (gc : R) : Prop := act A Hi /\ (0 < length A)%nat /\
  (forall j, In j A -> safe gc (fun g => tg A Hi g j)) /\ (forall j, (j < NM)%nat -> ~ In j A -> safe gc (fun g => slack g (tg A Hi g) j)).
Lemma safe_nonneg : forall gc f, safe gc f -> 0 <= f gc.
Proof. intros gc f [P|P]; [lra|apply P; lra]. Qed.
Lemma Inv_kkt : forall A Hi gc, Inv A Hi gc -> kkt gc (tg A Hi gc).
Proof.
  intros A Hi gc (HA & _ & I1 & I2) j Hj. pose proof (tg_sol _ _ _ y c A Hi gc HA) as (S1 & S2). destruct (in_dec Nat.eq_dec j A) as [Hin|Hn].
  - rewrite S2 by auto. split; [apply (safe_nonneg gc (fun g => tg A Hi g j)); auto|]. split; [lra|auto].
  - rewrite (S1 j Hj Hn). split; [lra|]. split; [apply (safe_nonneg gc (fun g => slack g (tg A Hi g) j)); auto|auto].
Qed.

(** the candidates of the code, without the 1e-16 offset *)
Definition cA (A : list nat) (Hi : mat) (gc : R) : nat -> R := cand_add (N:=RNum) Rn H y c 0 ta (phiR A Hi) (deltaR A Hi) A gc.
Definition cR (A : list nat) (Hi : mat) (gc : R) : nat -> R := cand_rem (N:=RNum) 0 tr (phiR A Hi) (deltaR A Hi) gc.
Definition alA (A : list nat) (Hi : mat) (i : nat) : R := rsum (length A) (fun l => gram i (at_ A l) * phiR A Hi l) - lin i.
Definition beA (A : list nat) (Hi : mat) (i : nat) : R := rsum (length A) (fun l => gram i (at_ A l) * deltaR A Hi l) - c i.
Lemma inl_true : forall A i, inl A i = true <-> In i A.
Proof.
  intros. unfold inl. rewrite existsb_exists. split; [intros (x & Hx & E); apply Nat.eqb_eq in E; subst; auto|intros; exists i; split; auto; apply Nat.eqb_refl].
Qed.
Lemma cA_eq : forall A Hi gc i, cA A Hi gc i = let v := if inl A i then 0 else alA A Hi i / beA A Hi i in if Rltb (gc - ta * gc) v then 0 else v.
Proof.
  intros. unfold cA, cand_add. cbv zeta. rewrite !nsum_R, Hty_R.
  rewrite (rsum_ext (length A) (fun l => nmul (n:=RNum) (HtH (N:=RNum) Rn H i (at_ A l)) (phiR A Hi l)) (fun l => gram i (at_ A l) * phiR A Hi l)) by (intros; rewrite HtH_R; reflexivity).
  rewrite (rsum_ext (length A) (fun l => nmul (n:=RNum) (HtH (N:=RNum) Rn H i (at_ A l)) (deltaR A Hi l)) (fun l => gram i (at_ A l) * deltaR A Hi l)) by (intros; rewrite HtH_R; reflexivity).
  cbn [nsub nadd ndiv nmul nltb n0 RNum]. unfold alA, beA. rewrite Rplus_0_r. reflexivity.
Qed.
Lemma cR_eq : forall A Hi gc l, cR A Hi gc l = let v := phiR A Hi l / deltaR A Hi l in if Rleb ((1 - tr) * gc) v then 0 else v.
Proof. intros. unfold cR, cand_rem. cbv zeta. cbn [nsub nadd ndiv nmul nleb n0 n1 RNum]. rewrite Rminus_0_r. reflexivity. Qed.
Lemma cA_lt : forall A Hi gc i, 0 < gc -> cA A Hi gc i < gc.
Proof. intros. rewrite cA_eq. cbv zeta. destruct (Rltb _ _) eqn:E; [lra|]. apply Rltb_false in E. assert (0 < ta * gc) by (apply Rmult_lt_0_compat; lra). lra. Qed.
Lemma cR_lt : forall A Hi gc i, 0 < gc -> cR A Hi gc i < gc.
Proof. intros. rewrite cR_eq. cbv zeta. destruct (Rleb _ _) eqn:E; [lra|]. apply Rleb_false in E. assert (0 < tr * gc) by (apply Rmult_lt_0_compat; lra). lra. Qed.
Lemma cA_in : forall A Hi gc i, 0 < gc -> In i A -> cA A Hi gc i = 0.
Proof. intros A Hi gc i Hg Hin. rewrite cA_eq. cbv zeta. rewrite (proj2 (inl_true A i)) by auto. destruct (Rltb _ _); reflexivity. Qed.
Lemma cA_root : forall A Hi gc i, 0 < gc -> ~ In i A -> alA A Hi i / beA A Hi i <= (1 - tau) * gc -> cA A Hi gc i = alA A Hi i / beA A Hi i.
Proof.
  intros A Hi gc i Hg Hn Hr. rewrite cA_eq. cbv zeta. destruct (inl A i) eqn:E; [exfalso; apply Hn, inl_true; auto|].
  destruct (Rltb _ _) eqn:F; auto. apply Rltb_true in F. exfalso. assert (ta * gc < tau * gc) by (apply Rmult_lt_compat_r; lra). lra.
Qed.
Lemma cR_root : forall A Hi gc l, 0 < gc -> phiR A Hi l / deltaR A Hi l <= (1 - tau) * gc -> cR A Hi gc l = phiR A Hi l / deltaR A Hi l.
Proof.
  intros A Hi gc l Hg Hr. rewrite cR_eq. cbv zeta. destruct (Rleb _ _) eqn:F; auto. apply Rleb_true in F. exfalso. assert (tr * gc < tau * gc) by (apply Rmult_lt_compat_r; lra). lra.
Qed.
Lemma cA_pos_root : forall A Hi gc i, 0 < gc -> 0 < cA A Hi gc i -> ~ In i A /\ beA A Hi i <> 0 /\ alA A Hi i = cA A Hi gc i * beA A Hi i.
Proof.
  intros A Hi gc i Hg Hp. assert (Hn : ~ In i A) by (intros F; rewrite cA_in in Hp by auto; lra). split; auto.
  rewrite cA_eq in *. cbv zeta in *. destruct (inl A i) eqn:E; [exfalso; apply Hn, inl_true; auto|]. destruct (Rltb _ _); [lra|].
  assert (Hb : beA A Hi i <> 0) by (intros Z; rewrite Z in Hp; unfold Rdiv in Hp; rewrite Rinv_0, Rmult_0_r in Hp; lra). split; auto. field; auto.
Qed.
Lemma cR_pos_root : forall A Hi gc l, 0 < gc -> 0 < cR A Hi gc l -> phiR A Hi l = cR A Hi gc l * deltaR A Hi l.
Proof.
  intros A Hi gc l Hg Hp. rewrite cR_eq in *. cbv zeta in *. destruct (Rleb _ _); [lra|].
  assert (Hb : deltaR A Hi l <> 0) by (intros Z; rewrite Z in Hp; unfold Rdiv in Hp; rewrite Rinv_0, Rmult_0_r in Hp; lra). field; auto.
Qed.
Lemma path_step_cases : forall A Hi gc, 0 < gc -> bounded NM A -> (0 < length A)%nat -> exists g' A' add' pop',
  path_step (N:=RNum) Rn NM H y c 0 ta tr A Hi gc = (g', tg A Hi g', A', add', pop') /\
  (forall i, (i < NM)%nat -> cA A Hi gc i <= g') /\ (forall l, (l < length A)%nat -> cR A Hi gc l <= g') /\ 0 <= g' < gc /\
  ((exists i, (i < NM)%nat /\ g' = cA A Hi gc i /\ A' = A ++ [i] /\ add' = Some (fun l => HtH (N:=RNum) Rn H (at_ A l) i)) \/
   (0 < g' /\ (pop' < length A)%nat /\ g' = cR A Hi gc pop' /\ A' = remove_at pop' A /\ add' = None)).
Proof.
  intros A Hi gc Hg HB Hk. set (ik := argmaxk (N:=RNum) (NM - 1) (cA A Hi gc)). set (pop := argmaxk (N:=RNum) (length A - 1) (cR A Hi gc)).
  assert (Bik : (ik < NM)%nat). { assert (ik <= NM - 1)%nat by (apply (argmaxk_le 1 1); lia). lia. }
  assert (Bpop : (pop < length A)%nat). { assert (pop <= length A - 1)%nat by (apply (argmaxk_le 1 1); lia). lia. }
  assert (Mik : forall i, (i < NM)%nat -> cA A Hi gc i <= cA A Hi gc ik) by (intros; apply (argmaxk_max 1 1); lia).
  assert (Mpop : forall l, (l < length A)%nat -> cR A Hi gc l <= cR A Hi gc pop) by (intros; apply (argmaxk_max 1 1); lia).
  assert (Nik : 0 <= cA A Hi gc ik).
  { rewrite <- (cA_in A Hi gc (at_ A 0)) by (auto; apply at_in; auto). apply Mik. apply HB, at_in; auto. }
  set (g' := if Rltb (cA A Hi gc ik) (cR A Hi gc pop) then cR A Hi gc pop else cA A Hi gc ik).
  assert (E : path_step (N:=RNum) Rn NM H y c 0 ta tr A Hi gc = if Rltb (cA A Hi gc ik) (cR A Hi gc pop) then (g', tg A Hi g', remove_at pop A, None, pop) else (g', tg A Hi g', A ++ [ik], Some (fun l => HtH (N:=RNum) Rn H (at_ A l) ik), pop)) by reflexivity.
  destruct (Rltb (cA A Hi gc ik) (cR A Hi gc pop)) eqn:F.
  - apply Rltb_true in F. exists g', (remove_at pop A), None, pop. split; [exact E|]. unfold g'. split; [intros i Hi'; specialize (Mik i Hi'); lra|]. split; [auto|]. split; [pose proof (cR_lt A Hi gc pop Hg); lra|].
    right. split; [lra|]. auto.
  - apply Rltb_false in F. exists g', (A ++ [ik]), (Some (fun l => HtH (N:=RNum) Rn H (at_ A l) ik)), pop. split; [exact E|]. unfold g'. split; [auto|]. split; [intros l Hl; specialize (Mpop l Hl); lra|]. split; [pose proof (cA_lt A Hi gc ik Hg); lra|].
    left. exists ik. auto.
Qed.
(** an affine function positive at gc, non-negative at g1 and negative below has its root in between *)
Lemma cross : forall al be gc g1 g, 0 < al - gc * be -> 0 <= al - g1 * be -> g < g1 <= gc -> al - g * be < 0 -> be < 0 /\ g < al / be <= g1.
Proof.
  intros al be gc g1 g P1 P2 P3 P4. assert (Hb : be < 0) by nra. split; auto. set (r := al / be). assert (Er : al = r * be) by (unfold r; field; lra). split; nra.
Qed.
Lemma tg_at : forall A Hi g l, NoDup A -> (l < length A)%nat -> tg A Hi g (at_ A l) = phiR A Hi l - g * deltaR A Hi l.
Proof. intros. apply (scat_at A (fun l => phiR A Hi l - g * deltaR A Hi l)); auto. Qed.
Lemma segment_kkt : forall A Hi gc lo, Inv A Hi gc -> 0 < gc ->
  (forall i, (i < NM)%nat -> cA A Hi gc i <= lo) -> (forall l, (l < length A)%nat -> cR A Hi gc l <= lo) ->
  (forall j g, (j < NM)%nat -> lo <= g <= gc -> (1 - tau) * gc <= g -> (0 < tg A Hi gc j -> 0 <= tg A Hi g j) /\ (0 < slack gc (tg A Hi gc) j -> 0 <= slack g (tg A Hi g) j)) ->
  forall g, lo <= g <= gc -> kkt g (tg A Hi g).
Proof.
  intros A Hi gc lo (HA & Hk & I1 & I2) Hg Hc1 Hc2 Sep g Hgr j Hj. pose proof HA as (ND & HB & _). pose proof (tg_sol _ _ _ y c A Hi g HA) as (S1 & S2).
  destruct (in_dec Nat.eq_dec j A) as [Hin|Hn].
  - rewrite S2 by auto. split; [|split; [lra|auto]]. destruct (I1 j Hin) as [P|P]; [|apply P; lra].
    apply Rnot_lt_le. intros F. destruct (in_at A j Hin) as (l & Hl & El). subst j.
    destruct (Rle_dec ((1 - tau) * gc) g) as [B|B]; [destruct (Sep (at_ A l) g) as [Q _]; auto; specialize (Q P); lra|].
    assert (Hg1 : (1 - tau) * gc <= gc) by nra.
    destruct (Sep (at_ A l) ((1 - tau) * gc) ltac:(auto) ltac:(lra) ltac:(lra)) as [Q _]. specialize (Q P).
    rewrite (tg_at A Hi _ l ND Hl) in P. rewrite (tg_at A Hi _ l ND Hl) in Q. rewrite (tg_at A Hi _ l ND Hl) in F.
    destruct (cross _ _ gc ((1 - tau) * gc) g P Q ltac:(lra) F) as (_ & R1 & R2).
    specialize (Hc2 l Hl). rewrite cR_root in Hc2 by auto. lra.
  - rewrite (S1 j Hj Hn). split; [lra|]. split; [|auto]. destruct (I2 j Hj Hn) as [P|P]; [|apply P; lra].
    apply Rnot_lt_le. intros F.
    destruct (Rle_dec ((1 - tau) * gc) g) as [B|B]; [destruct (Sep j g) as [_ Q]; auto; specialize (Q P); lra|].
    assert (Hg1 : (1 - tau) * gc <= gc) by nra.
    destruct (Sep j ((1 - tau) * gc) ltac:(auto) ltac:(lra) ltac:(lra)) as [_ Q]. specialize (Q P).
    rewrite slack_cand in P by auto. rewrite slack_cand in Q by auto. rewrite slack_cand in F by auto. fold (alA A Hi j) (beA A Hi j) in P, Q, F.
    destruct (cross _ _ gc ((1 - tau) * gc) g P Q ltac:(lra) F) as (_ & R1 & R2).
    specialize (Hc1 j Hj). rewrite cA_root in Hc1 by auto. lra.
Qed.
Definition nondeg_at (g : R) (t : vec) : Prop := forall i j, (i < NM)%nat -> (j < NM)%nat -> t i = 0 -> slack g t i = 0 -> t j = 0 -> slack g t j = 0 -> i = j.
Lemma aff_sign : forall f gc g' g, affine f -> f g' = 0 -> 0 <= f gc -> g' < gc -> g <= g' -> f g <= 0.
Proof. intros f gc g' g (al & be & E) E0 E1 Hlt Hle. rewrite E in *. nra. Qed.
Lemma update_add : forall A Hi gc i pop, Inv A Hi gc -> 0 < gc -> (i < NM)%nat -> let g' := cA A Hi gc i in 0 < g' -> kkt g' (tg A Hi g') -> nondeg_at g' (tg A Hi g') ->
  let Hi' := complement_schur (N:=RNum) (length A) Hi (Some (fun l => HtH (N:=RNum) Rn H (at_ A l) i)) (1 + 1) pop in
  Inv (A ++ [i]) Hi' g' /\ (forall j, (j < NM)%nat -> tg (A ++ [i]) Hi' g' j = tg A Hi g' j).
Proof.
  intros A Hi gc i pop HInv Hg Hi0 g' Hg' K ND' Hi'. pose proof (Inv_kkt _ _ _ HInv) as Kc. destruct HInv as (HA & Hk & I1 & I2). pose proof HA as (ND & HB & _).
  destruct (cA_pos_root A Hi gc i Hg Hg') as (Hn & Hb & Ea). fold g' in Ea.
  assert (Slk0 : slack g' (tg A Hi g') i = 0) by (rewrite slack_cand by auto; fold (alA A Hi i) (beA A Hi i); rewrite Ea; ring).
  assert (Hs : schur Rn H A Hi i <> 0).
  { intros Z. pose proof (schur_zero_slack _ _ _ y c A Hi i HA Hi0 Hn Z) as E. rewrite slack_cand in E by auto. fold (alA A Hi i) (beA A Hi i) in E. rewrite Ea in E.
    assert (g' * beA A Hi i = 0) by lra. apply Rmult_integral in H0. destruct H0; [lra|auto]. }
  assert (Hsp : 0 < schur Rn H A Hi i) by (pose proof (schur_nonneg Rn NM H A Hi i HA Hi0 Hn); lra).
  assert (HA' : act (A ++ [i]) Hi') by (apply act_add; auto).
  assert (U : forall g j, (j < NM)%nat -> tg (A ++ [i]) Hi' g j = tg A Hi g j + - (slack g (tg A Hi g) i / schur Rn H A Hi i) * wadd Rn H A Hi i j).
  { intros g j Hj. symmetry. apply (sol_unique Rn NM H y c (A ++ [i]) Hi' g (fun j => tg A Hi g j + - (slack g (tg A Hi g) i / schur Rn H A Hi i) * wadd Rn H A Hi i j) HA'); auto. apply sol_add; auto. }
  assert (Ct : forall j, (j < NM)%nat -> tg (A ++ [i]) Hi' g' j = tg A Hi g' j) by (intros j Hj; rewrite U by auto; rewrite Slk0; field; auto).
  split; [|exact Ct]. pose proof (tg_sol _ _ _ y c A Hi g' HA) as (S1 & S2).
  assert (Ti0 : tg A Hi g' i = 0) by (apply S1; auto).
  split; [exact HA'|]. split; [rewrite app_length; cbn; lia|]. split.
  - intros j Hj. apply in_app_iff in Hj. destruct Hj as [Hj|[<-|[]]].
    + left. rewrite Ct by (apply HB; auto). destruct (K j (HB j Hj)) as [P _]. destruct (Req_dec (tg A Hi g' j) 0) as [Z|Z]; [|lra]. exfalso.
      apply Hn. rewrite (ND' i j Hi0 (HB j Hj) Ti0 Slk0 Z (S2 j Hj)). exact Hj.
    + right. intros g Hle. rewrite U by auto. assert (Ew : wadd Rn H A Hi i i = 1) by (unfold wadd; rewrite Nat.eqb_refl, scat_out by auto; ring). assert (Et : tg A Hi g i = 0) by (apply (scat_out A _ i Hn)). rewrite Ew, Et.
      assert (Q : slack g (tg A Hi g) i <= 0) by (apply (aff_sign (fun g => slack g (tg A Hi g) i) gc g' g); auto; [apply slack_affine; auto|apply Kc; auto|apply cA_lt; auto]).
      assert (0 <= - slack g (tg A Hi g) i / schur Rn H A Hi i) by (apply Rmult_le_pos; [lra|left; apply Rinv_0_lt_compat; auto]). unfold Rdiv in *. lra.
  - intros j Hj Hnj. left. rewrite (slack_ext Rn NM H y c g' _ (tg A Hi g') j Ct). rewrite in_app_iff in Hnj. destruct (K j Hj) as (_ & P & _).
    destruct (Req_dec (slack g' (tg A Hi g') j) 0) as [Z|Z]; [|lra]. exfalso. apply Hnj. right. left. apply (ND' i j); auto.
Qed.
Lemma update_rem : forall A Hi gc p, Inv A Hi gc -> 0 < gc -> (p < length A)%nat -> let g' := cR A Hi gc p in 0 < g' -> kkt g' (tg A Hi g') -> nondeg_at g' (tg A Hi g') ->
  let Hi' := complement_schur (N:=RNum) (length A) Hi None (1 + 1) p in
  (0 < length (remove_at p A))%nat -> Inv (remove_at p A) Hi' g' /\ (forall j, (j < NM)%nat -> tg (remove_at p A) Hi' g' j = tg A Hi g' j).
Proof.
  intros A Hi gc p HInv Hg Hp g' Hg' K ND' Hi' Hne. pose proof (Inv_kkt _ _ _ HInv) as Kc. destruct HInv as (HA & Hk & I1 & I2). pose proof HA as (ND & HB & _).
  pose proof (cR_pos_root A Hi gc p Hg Hg') as Ea. fold g' in Ea.
  assert (T0 : tg A Hi g' (at_ A p) = 0) by (unfold Regpath_proofs.tg; rewrite scat_at by auto; rewrite Ea; ring).
  assert (Hpp : 0 < Hi p p) by (apply (wrem_pos Rn NM H A Hi p); auto).
  assert (HA' : act (remove_at p A) Hi') by (apply act_rem; auto).
  assert (Ip : In (at_ A p) A) by (apply at_in; auto). assert (Bp := HB _ Ip).
  assert (U : forall g j, (j < NM)%nat -> tg (remove_at p A) Hi' g j = tg A Hi g j + - (tg A Hi g (at_ A p) / Hi p p) * wrem A Hi p j).
  { intros g j Hj. symmetry. apply (sol_unique Rn NM H y c (remove_at p A) Hi' g (fun j => tg A Hi g j + - (tg A Hi g (at_ A p) / Hi p p) * wrem A Hi p j) HA'); auto. apply sol_rem; auto. }
  assert (Ct : forall j, (j < NM)%nat -> tg (remove_at p A) Hi' g' j = tg A Hi g' j) by (intros j Hj; rewrite U by auto; rewrite T0; field; lra).
  split; [|exact Ct]. pose proof (tg_sol _ _ _ y c A Hi g' HA) as (S1 & S2).
  split; [exact HA'|]. split; [auto|]. split.
  - intros j Hj. apply remove_at_in in Hj; auto. destruct Hj as [Hj Hd]. left. rewrite Ct by (apply HB; auto). destruct (K j (HB j Hj)) as [P _]. destruct (Req_dec (tg A Hi g' j) 0) as [Z|Z]; [|lra]. exfalso.
    apply Hd. apply (ND' j (at_ A p)); auto.
  - intros j Hj Hnj. rewrite remove_at_in in Hnj by auto. destruct (in_dec Nat.eq_dec j A) as [Hin|Hn].
    + destruct (Nat.eq_dec j (at_ A p)) as [->|Hd]; [|exfalso; auto]. right. intros g Hle. rewrite (slack_ext Rn NM H y c g _ _ (at_ A p) (U g)), slack_rem by auto.
      assert (Q : tg A Hi g (at_ A p) <= 0) by (apply (aff_sign (fun g => tg A Hi g (at_ A p)) gc g' g); auto; [apply tg_affine|apply Kc; auto|apply cR_lt; auto]).
      assert (0 <= - tg A Hi g (at_ A p) / Hi p p) by (apply Rmult_le_pos; [lra|left; apply Rinv_0_lt_compat; auto]). unfold Rdiv in *. lra.
    + left. rewrite (slack_ext Rn NM H y c g' _ (tg A Hi g') j Ct). destruct (K j Hj) as (_ & P & _).
      destruct (Req_dec (slack g' (tg A Hi g') j) 0) as [Z|Z]; [|lra]. exfalso. apply Hn. rewrite (ND' j (at_ A p) Hj Bp (S1 j Hj Hn) Z T0 (S2 _ Ip)). exact Ip.
Qed.
End Step.

(** ** lists of breakpoints *)
Definition pairs {X} (p : list X) : list (X * X) := combine p (tl p).
Lemma pairs_cons : forall X (x y : X) l, pairs (x :: y :: l) = (x, y) :: pairs (y :: l).
Proof. reflexivity. Qed.
Lemma pairs_nth : forall X (p : list X) k a b, nth_error p k = Some a -> nth_error p (S k) = Some b -> In (a, b) (pairs p).
Proof.
  intros X p. induction p as [|x p IH]; intros k a b H1 H2; [destruct k; discriminate|]. destruct p as [|z p]; [cbn in H2; destruct k; discriminate|].
  rewrite pairs_cons. destruct k; cbn in H1, H2; [left; congruence|]. right. apply (IH k); auto.
Qed.
Lemma pairs_last : forall X (p : list X) x d, p <> [] -> exists a, In (a, last p d) (pairs (x :: p)).
Proof.
  intros X p. induction p as [|z p IH]; intros x d Hp; [congruence|]. rewrite pairs_cons. destruct p as [|w p].
  - exists x. left. reflexivity.
  - destruct (IH z d ltac:(discriminate)) as (a & Ha). exists a. right. exact Ha.
Qed.
Definition lerpR (g0 : R) (t0 : vec) (g1 : R) (t1 : vec) (g : R) : vec := lerp (N:=RNum) g0 t0 g1 t1 g.
Lemma lerpR_eq : forall g0 t0 g1 t1 g i, lerpR g0 t0 g1 t1 g i = t0 i + (t1 i - t0 i) * (g - g0) / (g1 - g0).
Proof. reflexivity. Qed.
Lemma lerp_aff : forall f a b g, affine f -> a <> b -> f a + (f b - f a) * (g - a) / (b - a) = f g.
Proof. intros f a b g (al & be & E) Hn. rewrite !E. field. lra. Qed.
Lemma lerp_end : forall g0 t0 g1 t1 i, g0 <> g1 -> lerpR g0 t0 g1 t1 g1 i = t1 i.
Proof. intros. rewrite lerpR_eq. field. lra. Qed.
Lemma lerp_start : forall g0 t0 g1 t1 i, lerpR g0 t0 g1 t1 g0 i = t0 i.
Proof. intros. rewrite lerpR_eq. unfold Rdiv. ring. Qed.

Fixpoint decreasing (gs : list R) : Prop := match gs with x :: ((z :: _) as q) => z < x /\ decreasing q | _ => True end.
Lemma decreasing_lt : forall gs x z, decreasing (x :: gs) -> In z gs -> z < x.
Proof.
  induction gs as [|w gs IH]; intros x z D Hin; [destruct Hin|]. destruct D as [D1 D2]. destruct Hin as [->|Hin]; [auto|]. pose proof (IH w z D2 Hin). lra.
Qed.
Lemma last_le_none : forall gs g i best, (forall z, In z gs -> z < g) -> last_le (N:=RNum) g gs i best = best.
Proof.
  induction gs as [|x gs IH]; intros g i best Hl; cbn [last_le]; auto. cbn [nleb RNum]. replace (Rleb g x) with false.
  - apply IH. intros; apply Hl; right; auto.
  - symmetry. apply Rleb_false. apply Hl. left; auto.
Qed.
Lemma last_cons' : forall X (l : list X) z d, last (z :: l) d = last l z.
Proof. intros X l. induction l as [|a l IH]; intros z d; [reflexivity|]. change (last (z :: a :: l) d) with (last (a :: l) d). rewrite (IH a d), (IH a z). reflexivity. Qed.
Lemma last_le_spec : forall (p : list (R * vec)) g g1 t1 i best, decreasing (map fst ((g1, t1) :: p)) -> g <= g1 -> fst (last p (g1, t1)) < g ->
  exists k ga ta gb tb, last_le (N:=RNum) g (map fst ((g1, t1) :: p)) i best = Some (i + k)%nat /\ nth_error ((g1, t1) :: p) k = Some (ga, ta) /\ nth_error ((g1, t1) :: p) (S k) = Some (gb, tb) /\ gb < g <= ga.
Proof.
  induction p as [|[g2 t2] p IH]; intros g g1 t1 i best D Hle Hlast; [cbn in Hlast; lra|].
  assert (El : last ((g2, t2) :: p) (g1, t1) = last p (g2, t2)) by apply last_cons'.
  rewrite El in Hlast. destruct D as [D1 D2]. destruct (Rle_dec g g2) as [L|L].
  - destruct (IH g g2 t2 (S i) (Some i) D2 L Hlast) as (k & ga & ta & gb & tb & E1 & E2 & E3 & E4). exists (S k), ga, ta, gb, tb. split; [|auto].
    replace (i + S k)%nat with (S i + k)%nat by lia. rewrite <- E1. change (map fst ((g1, t1) :: (g2, t2) :: p)) with (g1 :: map fst ((g2, t2) :: p)). cbn [last_le]. cbn [nleb RNum]. rewrite (proj2 (Rleb_true g g1)) by auto. reflexivity.
  - exists 0%nat, g1, t1, g2, t2. split; [|split; [reflexivity|split; [reflexivity|lra]]].
    change (map fst ((g1, t1) :: (g2, t2) :: p)) with (g1 :: map fst ((g2, t2) :: p)). cbn [last_le]. cbn [nleb RNum]. rewrite (proj2 (Rleb_true g g1)) by auto. rewrite Nat.add_0_r.
    apply last_le_none. intros z Hz. cbn [map fst] in Hz. destruct Hz as [<-|Hz]; [lra|]. pose proof (decreasing_lt _ _ _ D2 Hz). cbn [fst] in H. lra.
Qed.

(** ** the whole path *)
Section Whole.
Variables (Rn NM : nat) (H : mat) (y c : vec) (ta tr tau reg : R).
Notation gram := (gram Rn H). Notation lin := (lin Rn H y). Notation slack := (slack Rn NM H y c). Notation kkt := (kkt Rn NM H y c).
Notation act := (act Rn NM H). Notation tg := (tg Rn H y c). Notation Inv := (Inv Rn NM H y c).
Hypothesis HNM : (0 < NM)%nat.
Hypothesis Hdiag : forall i, (i < NM)%nat -> gram i i = 2.
Hypothesis Hc : forall i, (i < NM)%nat -> 0 < c i.
Hypothesis Hta : 0 < ta < tau.
Hypothesis Htr : 0 < tr < tau.
Hypothesis Htau : tau < 1.
Hypothesis Hreg : 0 <= reg.

Definition nondeg (p : list (R * vec)) : Prop := forall g t, In (g, t) (removelast p) -> nondeg_at Rn NM H y c g t.
Definition separated (p : list (R * vec)) : Prop := forall g1 t1 g2 t2, In ((g1, t1), (g2, t2)) (pairs p) -> forall j g, (j < NM)%nat -> g2 <= g <= g1 -> (1 - tau) * g1 <= g ->
  (0 < t1 j -> 0 <= lerpR g1 t1 g2 t2 g j) /\ (0 < slack g1 t1 j -> 0 <= slack g (lerpR g1 t1 g2 t2 g) j).
Definition segs_ok (p : list (R * vec)) : Prop := forall g1 t1 g2 t2, In ((g1, t1), (g2, t2)) (pairs p) -> g2 < g1 /\ forall g, g2 <= g <= g1 -> kkt g (lerpR g1 t1 g2 t2 g).
Definition corr (p : list (R * vec)) : list (R * vec) := correct_last (N:=RNum) reg p.

Lemma corr2 : forall g0 t0 g1 t1, corr [(g0, t0); (g1, t1)] = [(g0, t0); (reg, lerpR g0 t0 g1 t1 reg)].
Proof. reflexivity. Qed.
Lemma corr3 : forall x z w l, corr (x :: z :: w :: l) = x :: corr (z :: w :: l).
Proof. intros [g0 t0] [g1 t1] [g2 t2] l. reflexivity. Qed.
Lemma corr_head : forall z w l, exists v l', corr (z :: w :: l) = z :: v :: l'.
Proof.
  intros z w l. destruct z as [g0 t0], w as [g1 t1]. destruct l as [|x l]; [eexists _, _; apply corr2|]. rewrite corr3.
  destruct (corr ((g1, t1) :: x :: l)) as [|v l'] eqn:E; [|eauto]. exfalso. destruct l; [destruct x; discriminate E|rewrite corr3 in E; discriminate E].
Qed.
Lemma corr_length : forall p, length (corr p) = length p.
Proof.
  induction p as [|x p IH]; [reflexivity|]. destruct p as [|z p]; [destruct x; reflexivity|]. destruct p as [|w p]; [destruct x, z; reflexivity|]. rewrite corr3. cbn [length]. f_equal. exact IH.
Qed.
Lemma corr_last : forall p, p <> [] -> forall d, fst (last (corr p) d) = reg.
Proof.
  induction p as [|x p IH]; intros Hp d; [congruence|]. destruct p as [|z p]; [destruct x; reflexivity|]. destruct p as [|w p]; [destruct x, z; reflexivity|]. rewrite corr3.
  destruct (corr_head z w p) as (v & l' & E). rewrite E, last_cons', <- E. apply IH. discriminate.
Qed.
Lemma loop_stop : forall left A k Hi add pop g, g <= reg -> path_loop (N:=RNum) Rn NM H y c 0 ta tr left reg A k Hi add pop g = [].
Proof. intros left A k Hi add pop g Hg. destruct left; cbn [path_loop]; auto. cbn [nltb RNum]. replace (Rltb reg g) with false; auto. symmetry. apply Rltb_false. lra. Qed.
Lemma remove_nonempty : forall A Hi gc p, Inv A Hi gc -> 0 < gc -> (p < length A)%nat -> 0 < cR Rn H y c tr A Hi gc p -> (0 < length (remove_at p A))%nat.
Proof.
  intros A Hi gc p HInv Hg Hp Hpos. rewrite remove_at_length by auto. destruct (Nat.eq_dec (length A) 1) as [E|E]; [|lia]. exfalso.
  destruct HInv as (HA & _ & I1 & _). pose proof HA as (ND & HB & _). assert (p = 0%nat) by lia. subst p.
  pose proof (cR_pos_root Rn H y c tr A Hi gc 0 Hg Hpos) as Er. pose proof (cR_lt Rn H y c tr tau Htr A Hi gc 0 Hg) as Hlt.
  pose proof (safe_nonneg _ _ (I1 (at_ A 0) (at_in A 0 ltac:(lia)))) as Hn. cbv beta in Hn.
  unfold Regpath_proofs.tg in Hn. rewrite scat_at in Hn by (auto; lia). rewrite Er in Hn.
  assert (Ed : 0 < deltaR c A Hi 0%nat).
  { rewrite deltaR_eq, E. cbn [rsum]. rewrite Rplus_0_l. apply Rmult_lt_0_compat; [apply (wrem_pos Rn NM H A Hi 0); auto|]. apply Hc, HB, at_in. lia. }
  nra.
Qed.
Lemma nondeg_at_ext : forall g t t', (forall j, (j < NM)%nat -> t j = t' j) -> nondeg_at Rn NM H y c g t -> nondeg_at Rn NM H y c g t'.
Proof. intros g t t' E D i j Hi Hj. rewrite <- (E i Hi), <- (E j Hj), <- !(slack_ext Rn NM H y c g t t' _ E). apply D; auto. Qed.
Lemma lerp_tg : forall A Hi g1 t1 g2 t2, g2 <> g1 -> (forall j, (j < NM)%nat -> t1 j = tg A Hi g1 j) -> (forall j, (j < NM)%nat -> t2 j = tg A Hi g2 j) ->
  forall g j, (j < NM)%nat -> lerpR g1 t1 g2 t2 g j = tg A Hi g j.
Proof. intros A Hi g1 t1 g2 t2 Hne E1 E2 g j Hj. rewrite lerpR_eq, E1, E2 by auto. apply (lerp_aff (fun g => tg A Hi g j)); auto. apply tg_affine. Qed.
Lemma segs_cons : forall g1 t1 g2 t2 l, g2 < g1 -> (forall g, g2 <= g <= g1 -> kkt g (lerpR g1 t1 g2 t2 g)) -> segs_ok ((g2, t2) :: l) -> segs_ok ((g1, t1) :: (g2, t2) :: l).
Proof. intros g1 t1 g2 t2 l Hlt HK HS a ta' b tb Hin. rewrite pairs_cons in Hin. destruct Hin as [E|Hin]; [injection E as <- <- <- <-; auto|]. apply HS; auto. Qed.
Lemma sep_tg : forall A Hi g1 t1 g2 t2 l, separated ((g1, t1) :: (g2, t2) :: l) -> g2 <> g1 -> (forall j, (j < NM)%nat -> t1 j = tg A Hi g1 j) -> (forall j, (j < NM)%nat -> t2 j = tg A Hi g2 j) ->
  forall j g, (j < NM)%nat -> g2 <= g <= g1 -> (1 - tau) * g1 <= g -> (0 < tg A Hi g1 j -> 0 <= tg A Hi g j) /\ (0 < slack g1 (tg A Hi g1) j -> 0 <= slack g (tg A Hi g) j).
Proof.
  intros A Hi g1 t1 g2 t2 l Sep Hne E1 E2 j g Hj Hg Hb. destruct (Sep g1 t1 g2 t2 (or_introl eq_refl) j g Hj Hg Hb) as [P Q].
  rewrite E1 in P by auto. rewrite (lerp_tg A Hi g1 t1 g2 t2 Hne E1 E2 g j Hj) in P. rewrite (slack_ext Rn NM H y c g1 t1 (tg A Hi g1) j E1) in Q.
  rewrite (slack_ext Rn NM H y c g _ (tg A Hi g) j (lerp_tg A Hi g1 t1 g2 t2 Hne E1 E2 g)) in Q. auto.
Qed.
Lemma sep_tl : forall x z l, separated (x :: z :: l) -> separated (z :: l).
Proof. intros x z l S g1 t1 g2 t2 Hin. apply S. rewrite pairs_cons. right. exact Hin. Qed.
Lemma nondeg_tl : forall x z l, nondeg (x :: z :: l) -> nondeg (z :: l).
Proof. intros x z l S g t Hin. apply S. change (removelast (x :: z :: l)) with (x :: removelast (z :: l)). right. exact Hin. Qed.

Lemma loop_ok : forall left A k Hi add pop gc t, let Hi' := complement_schur (N:=RNum) k Hi add (1 + 1) pop in
  let L := path_loop (N:=RNum) Rn NM H y c 0 ta tr left reg A k Hi add pop gc in
  Inv A Hi' gc -> reg < gc -> (forall j, (j < NM)%nat -> t j = tg A Hi' gc j) -> (length L < left)%nat ->
  nondeg (corr ((gc, t) :: L)) -> separated (corr ((gc, t) :: L)) -> segs_ok (corr ((gc, t) :: L)) /\ L <> [].
Proof.
  induction left as [|left IH]; intros A k Hi add pop gc t Hi' L HInv Hgt Et Hlen ND Sep; [lia|].
  assert (Hgc : 0 < gc) by lra. pose proof HInv as (HA & Hk & _). pose proof HA as (NDA & HB & _).
  destruct (path_step_cases Rn NM H y c ta tr tau HNM Hta Htr A Hi' gc Hgc HB Hk) as (g' & A' & add' & pop' & Estep & C1 & C2 & Hg' & Cases).
  assert (EL : L = (g', tg A Hi' g') :: path_loop (N:=RNum) Rn NM H y c 0 ta tr left reg A' (length A) Hi' add' pop' g').
  { unfold L. cbn [path_loop]. cbn [nltb RNum]. rewrite (proj2 (Rltb_true reg gc) Hgt). change (nadd (n:=RNum) n1 n1) with (1 + 1). fold Hi'. unfold n0 at 1 2 || idtac. rewrite Estep. reflexivity. }
  set (rest := path_loop (N:=RNum) Rn NM H y c 0 ta tr left reg A' (length A) Hi' add' pop' g') in *. rewrite EL in *. cbn [length] in Hlen. clearbody L. clear EL L.
  split; [|discriminate]. destruct rest as [|r0 rest'] eqn:Er.
  - (* last segment *)
    assert (Hle : g' <= reg).
    { destruct (Rle_dec g' reg) as [?|Hn]; auto. exfalso. destruct left; [lia|]. unfold rest in Er. cbn [path_loop] in Er. cbn [nltb RNum] in Er. rewrite (proj2 (Rltb_true reg g')) in Er by lra.
      destruct (path_step _ _ _ _ _ _ _ _ _ _ _) as [[[[? ?] ?] ?] ?]. discriminate Er. }
    rewrite corr2 in *.
    assert (Er2 : forall j, (j < NM)%nat -> lerpR gc t g' (tg A Hi' g') reg j = tg A Hi' reg j) by (intros j Hj; apply lerp_tg; auto; lra).
    apply segs_cons; [lra| |intros ? ? ? ? []].
    intros g Hg. apply (kkt_ext Rn NM H y c g (tg A Hi' g)); [intros j Hj; symmetry; apply lerp_tg; auto; lra|].
    apply (segment_kkt Rn NM H y c ta tr tau Hta Htr Htau A Hi' gc reg HInv Hgc); auto.
    + intros i Hi0. specialize (C1 i Hi0). lra.
    + intros l Hl. specialize (C2 l Hl). lra.
    + apply (sep_tg A Hi' gc t reg _ [] Sep); auto. lra.
  - (* interior segment *)
    assert (Hgt' : reg < g').
    { destruct (Rlt_dec reg g') as [?|Hn]; auto. exfalso. unfold rest in Er. rewrite loop_stop in Er by lra. discriminate Er. }
    rewrite corr3 in *. destruct (corr_head (g', tg A Hi' g') r0 rest') as (v & l' & Ec). rewrite Ec in *.
    assert (Seg : forall g, g' <= g <= gc -> kkt g (tg A Hi' g)).
    { apply (segment_kkt Rn NM H y c ta tr tau Hta Htr Htau A Hi' gc g' HInv Hgc); auto. apply (sep_tg A Hi' gc t g' _ _ Sep); auto. lra. }
    assert (Kg : kkt g' (tg A Hi' g')) by (apply Seg; lra).
    assert (Dg : nondeg_at Rn NM H y c g' (tg A Hi' g')).
    { apply ND. change (removelast ((gc, t) :: (g', tg A Hi' g') :: v :: l')) with ((gc, t) :: (g', tg A Hi' g') :: removelast (v :: l')). right. left. reflexivity. }
    apply segs_cons; [lra| |].
    + intros g Hg. apply (kkt_ext Rn NM H y c g (tg A Hi' g)); [intros j Hj; symmetry; apply lerp_tg; auto; lra|]. apply Seg; auto.
    + assert (Upd : Inv A' (complement_schur (N:=RNum) (length A) Hi' add' (1 + 1) pop') g' /\ (forall j, (j < NM)%nat -> tg A' (complement_schur (N:=RNum) (length A) Hi' add' (1 + 1) pop') g' j = tg A Hi' g' j)).
      { destruct Cases as [(i & Hi0 & Eg & -> & ->)|(Hpos & Hp & Eg & -> & ->)].
        - rewrite Eg in Kg, Dg |- *. apply (update_add Rn NM H y c ta tau HNM Hdiag Hta A Hi' gc i pop' HInv Hgc Hi0); auto. rewrite <- Eg. lra.
        - rewrite Eg in Kg, Dg, Hpos |- *. apply (update_rem Rn NM H y c ta tr tau HNM Hta Htr A Hi' gc pop' HInv Hgc Hp); auto. apply (remove_nonempty A Hi' gc pop' HInv); auto. }
      destruct Upd as [U1 U2]. pose proof (IH A' (length A) Hi' add' pop' g' (tg A Hi' g') U1 Hgt') as Res. cbv zeta in Res. fold rest in Res. rewrite Er in Res.
      assert (ND2 : nondeg (corr ((g', tg A Hi' g') :: r0 :: rest'))) by (refine (eq_ind_r nondeg (nondeg_tl (gc, t) _ _ ND) Ec)).
      assert (Sep2 : separated (corr ((g', tg A Hi' g') :: r0 :: rest'))) by (refine (eq_ind_r separated (sep_tl (gc, t) _ _ Sep) Ec)).
      assert (Et2 : forall j, (j < NM)%nat -> tg A Hi' g' j = tg A' (complement_schur (N:=RNum) (length A) Hi' add' (1 + 1) pop') g' j) by (intros j Hj; symmetry; apply U2; auto).
      assert (Hl2 : (length (r0 :: rest') < left)%nat) by (cbn [length] in *; lia).
      destruct (Res Et2 Hl2 ND2 Sep2) as [Res' _]. refine (eq_ind _ segs_ok Res' _ Ec).
Qed.
Lemma segs_decreasing : forall p, segs_ok p -> decreasing (map fst p).
Proof.
  induction p as [|[g1 t1] p IH]; intros S; [exact I|]. destruct p as [|[g2 t2] p]; [exact I|]. cbn [map fst decreasing]. split.
  - apply (S g1 t1 g2 t2). left. reflexivity.
  - apply IH. intros a b d e Hin. apply S. rewrite pairs_cons. right. exact Hin.
Qed.
Lemma plan_ok : forall p g0 t0, segs_ok ((g0, t0) :: p) -> fst (last p (g0, t0)) = reg -> (forall g, g0 <= g -> kkt g t0) ->
  forall g, reg <= g -> exists t, compute_transport_plan (N:=RNum) g ((g0, t0) :: p) = Some t /\ kkt g t.
Proof.
  intros p g0 t0 S El K0 g Hg. unfold compute_transport_plan. cbn [nleb RNum]. destruct (Rleb g0 g) eqn:E0.
  { apply Rleb_true in E0. exists t0. auto. }
  apply Rleb_false in E0. rewrite last_cons'. destruct (last p (g0, t0)) as [gl tl'] eqn:Elast. cbn [fst] in El. subst gl.
  assert (Hp : p <> []) by (intros ->; cbn in Elast; injection Elast as <- <-; lra).
  destruct (Rleb g reg) eqn:E1.
  - apply Rleb_true in E1. replace g with reg in * by lra. exists tl'. split; auto.
    destruct (pairs_last _ p (g0, t0) (g0, t0) Hp) as ([ga ta'] & Hin). rewrite Elast in Hin. destruct (S _ _ _ _ Hin) as [Hlt HK].
    apply (kkt_ext Rn NM H y c reg (lerpR ga ta' reg tl' reg)); [intros; apply lerp_end; lra|]. apply HK. lra.
  - apply Rleb_false in E1. destruct (last_le_spec p g g0 t0 0 None (segs_decreasing _ S) ltac:(lra)) as (k & ga & ta' & gb & tb & F1 & F2 & F3 & F4); [rewrite Elast; cbn [fst]; lra|].
    change (map fst ((g0, t0) :: p)) with (map (@fst R vec) ((g0, t0) :: p)) in F1. rewrite Nat.add_0_l in F1.
    match goal with |- context [last_le ?x ?l ?i ?b] => assert (F1' : last_le (N:=RNum) x l i b = Some k) by exact F1; rewrite F1' end.
    match goal with |- context [@nth_error ?T ?l k] => assert (F2' : @nth_error T l k = Some (ga, ta')) by exact F2; rewrite F2' end.
    match goal with |- context [@nth_error ?T ?l (Datatypes.S k)] => assert (F3' : @nth_error T l (Datatypes.S k) = Some (gb, tb)) by exact F3; rewrite F3' end.
    eexists. split; [reflexivity|]. apply (S ga ta' gb tb); [apply (pairs_nth _ _ k); auto|lra].
Qed.
Definition path : nat -> list (R * vec) := relaxed_path (N:=RNum) Rn NM H y c 0 ta tr reg.
Lemma slack_zero : forall g i, slack g (fun _ => 0) i = g * c i - lin i.
Proof. intros. unfold Regpath_proofs.slack, Gv. rewrite rsum_0 by (intros; ring). ring. Qed.
Theorem path_exact : forall itmax, let p := path itmax in (length p < itmax)%nat -> nondeg p -> separated p ->
  segs_ok p /\ (exists g0, hd_error p = Some (g0, fun _ => 0)) /\ (forall d, fst (last p d) = reg) /\ forall g, reg <= g -> exists t, compute_transport_plan (N:=RNum) g p = Some t /\ kkt g t.
Proof.
  intros itmax p Hlen ND Sep.
  set (M0 := fun i => ndiv (n:=RNum) (Hty (N:=RNum) Rn H y i) (c i)). set (i0 := argmaxk (N:=RNum) (NM - 1) M0). set (g0 := M0 i0).
  set (L := path_loop (N:=RNum) Rn NM H y c 0 ta tr (itmax - 1) reg [i0] 0 (fun _ _ => 0) (Some (fun _ => 0)) 0 g0).
  assert (Ep : p = corr ((g0, fun _ => 0) :: L)) by reflexivity.
  assert (Hi0 : (i0 < NM)%nat). { assert (i0 <= NM - 1)%nat by (apply (argmaxk_le 1 1); lia). lia. }
  assert (EM : forall i, M0 i = lin i / c i) by (intros; unfold M0; rewrite Hty_R; reflexivity).
  assert (Mx : forall i, (i < NM)%nat -> lin i / c i <= g0) by (intros; rewrite <- EM; apply (argmaxk_max 1 1); lia).
  assert (Sl : forall g i, (i < NM)%nat -> g0 <= g -> 0 <= slack g (fun _ => 0) i).
  { intros g i Hi Hg. rewrite slack_zero. specialize (Mx i Hi). specialize (Hc i Hi). assert (Q : lin i = lin i / c i * c i) by (field; lra). rewrite Q. assert (lin i / c i * c i <= g * c i) by (apply Rmult_le_compat_r; lra). lra. }
  assert (K0 : forall g, g0 <= g -> kkt g (fun _ => 0)) by (intros g Hg i Hi; split; [lra|]; split; [auto|auto]).
  assert (Lp : length p = S (length L)) by (rewrite Ep, corr_length; reflexivity).
  assert (Last : forall d, fst (last p d) = reg) by (intros; rewrite Ep; apply corr_last; discriminate).
  destruct (Rlt_dec reg g0) as [Hgt|Hle].
  - assert (HInv : Inv [i0] (complement_schur (N:=RNum) 0 (fun _ _ => 0) (Some (fun _ => 0)) (1 + 1) 0) g0 /\ forall j, 0 = tg [i0] (complement_schur (N:=RNum) 0 (fun _ _ => 0) (Some (fun _ => 0)) (1 + 1) 0) g0 j).
    { set (Hi := complement_schur (N:=RNum) 0 (fun _ _ => 0) (Some (fun _ => 0)) (1 + 1) 0).
      assert (EHi : forall p q, Hi p q = / 2) by (intros; unfold Hi; cbn; unfold half_const; cbn; lra).
      assert (HA : act [i0] Hi).
      { split; [repeat constructor; auto|]. split; [intros j [<-|[]]; auto|]. split.
        - intros q r Hq Hr. cbn [length] in Hq, Hr. replace q with 0%nat by lia. replace r with 0%nat by lia. cbn [length rsum Nat.eqb]. rewrite EHi. unfold GA, at_. cbn [nth]. rewrite Hdiag by auto. lra.
        - intros q r _ _. rewrite !EHi. reflexivity. }
      assert (Et : forall g, tg [i0] Hi g i0 = / 2 * (lin i0 - g * c i0)).
      { intros g. change i0 with (at_ [i0] 0) at 2. unfold Regpath_proofs.tg. rewrite scat_at by (cbn; auto; repeat constructor; auto). rewrite T_eq. cbn [length rsum]. rewrite EHi. unfold at_. cbn [nth]. ring. }
      assert (Eg : lin i0 = g0 * c i0) by (unfold g0; rewrite EM; specialize (Hc i0 Hi0); field; lra).
      assert (Z : forall j, 0 = tg [i0] Hi g0 j).
      { intros j. destruct (Nat.eq_dec j i0) as [->|Hn]; [rewrite Et, Eg; ring|]. symmetry. apply scat_out. intros [F|[]]; congruence. }
      split; [|exact Z]. split; [exact HA|]. split; [cbn; lia|]. split.
      - intros j [<-|[]]. right. intros g Hg. rewrite Et, Eg. specialize (Hc i0 Hi0). nra.
      - intros j Hj Hn. left. rewrite (slack_ext Rn NM H y c g0 _ (fun _ => 0) j) by (intros; symmetry; apply Z).
        assert (P := Sl g0 j Hj ltac:(lra)). destruct (Req_dec (slack g0 (fun _ => 0) j) 0) as [F|F]; [|lra]. exfalso. apply Hn. left.
        assert (HL : L <> []).
        { unfold L. destruct (itmax - 1)%nat eqn:Em; [rewrite Lp in Hlen; cbn in Hlen; lia|]. cbn [path_loop]. cbn [nltb RNum]. rewrite (proj2 (Rltb_true reg g0) Hgt). destruct (path_step _ _ _ _ _ _ _ _ _ _ _) as [[[[? ?] ?] ?] ?]. discriminate. }
        destruct L as [|x0 L']; [congruence|]. destruct (corr_head (g0, fun _ => 0) x0 L') as (v & l' & Ec).
        apply (ND g0 (fun _ => 0)); auto.
        + assert (Ep3 : p = (g0, fun _ => 0) :: v :: l') by (rewrite Ep; exact Ec). rewrite Ep3. left. reflexivity.
        + rewrite slack_zero, Eg. ring. }
    destruct HInv as [HInv Z].
    destruct (loop_ok (itmax - 1) [i0] 0 (fun _ _ => 0) (Some (fun _ => 0)) 0 g0 (fun _ => 0) HInv Hgt) as [S HL].
    + intros j _. apply Z.
    + fold L. lia.
    + fold L. rewrite <- Ep. exact ND.
    + fold L. rewrite <- Ep. exact Sep.
    + fold L in S, HL. rewrite <- Ep in S. split; [exact S|].
      assert (Hd : exists l, p = (g0, fun _ => 0) :: l).
      { rewrite Ep. destruct L as [|x0 L']; [congruence|]. destruct (corr_head (g0, fun _ => 0) x0 L') as (v & l' & Ec). exists (v :: l'). exact Ec. }
      destruct Hd as (l & Ep2). split; [exists g0; rewrite Ep2; reflexivity|]. split; [exact Last|].
      rewrite Ep2 in S, Last |- *. apply plan_ok; auto. rewrite <- (Last (g0, fun _ => 0)). rewrite last_cons'. reflexivity.
  - assert (EL : L = []) by (apply loop_stop; lra). assert (Ep2 : p = [(reg, fun _ => 0)]) by (rewrite Ep, EL; reflexivity). rewrite Ep2 in *.
    assert (S : segs_ok [(reg, fun _ => 0)]) by (intros ? ? ? ? []). split; [exact S|]. split; [exists reg; reflexivity|]. split; [exact Last|]. apply plan_ok; auto. intros g Hg. apply K0. lra.
Qed.
End Whole.
