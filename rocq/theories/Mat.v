(** Small linear algebra over R: matrices are functions of two indices, compared on the first d of each. *)
From Coq Require Import Reals Lra Lia List Arith Setoid Morphisms.
From Verif Require Import Sums.
Local Open Scope R_scope.
Notation rmat := (nat -> nat -> R).
Notation rvec := (nat -> R).

Definition meq (d : nat) (A B : rmat) : Prop := forall i j, (i < d)%nat -> (j < d)%nat -> A i j = B i j.
Definition mul (d : nat) (A B : rmat) : rmat := fun i j => rsum d (fun l => A i l * B l j).
Definition mI : rmat := fun i j => if Nat.eqb i j then 1 else 0.
Definition tp (A : rmat) : rmat := fun i j => A j i.
Definition tr (d : nat) (A : rmat) : R := rsum d (fun i => A i i).
Definition ma (A B : rmat) : rmat := fun i j => A i j + B i j.
Definition ms (c : R) (A : rmat) : rmat := fun i j => c * A i j.
Definition msum (k : nat) (w : rvec) (A : nat -> rmat) : rmat := fun i j => rsum k (fun p => w p * A p i j).
Definition dot (d : nat) (x y : rvec) : R := rsum d (fun i => x i * y i).
Definition mv (d : nat) (A : rmat) (x : rvec) : rvec := fun i => rsum d (fun j => A i j * x j).
Definition qf (d : nat) (A : rmat) (x : rvec) : R := dot d x (mv d A x).
Definition sym (d : nat) (A : rmat) : Prop := meq d (tp A) A.
Definition psd (d : nat) (A : rmat) : Prop := forall x, 0 <= qf d A x.
Definition is_inv (d : nat) (A Ai : rmat) : Prop := meq d (mul d A Ai) mI /\ meq d (mul d Ai A) mI.
(** S is a symmetric positive semidefinite square root of C *)
Definition is_sqrt (d : nat) (S C : rmat) : Prop := sym d S /\ psd d S /\ meq d (mul d S S) C.

Global Instance meq_equiv d : Equivalence (meq d).
Proof.
  split; [intros A i j _ _; reflexivity | intros A B H i j Hi Hj; symmetry; apply H; auto | intros A B C H H' i j Hi Hj; rewrite H, H'; auto].
Qed.
Global Instance mul_proper d : Proper (meq d ==> meq d ==> meq d) (mul d).
Proof. intros A A' HA B B' HB i j Hi Hj. unfold mul. apply rsum_ext; intros l Hl. rewrite HA, HB; auto. Qed.
Global Instance tp_proper d : Proper (meq d ==> meq d) tp.
Proof. intros A A' HA i j Hi Hj. unfold tp. apply HA; auto. Qed.
Global Instance ma_proper d : Proper (meq d ==> meq d ==> meq d) ma.
Proof. intros A A' HA B B' HB i j Hi Hj. unfold ma. rewrite HA, HB; auto. Qed.
Global Instance ms_proper d : Proper (eq ==> meq d ==> meq d) ms.
Proof. intros c c' <- A A' HA i j Hi Hj. unfold ms. rewrite HA; auto. Qed.
Global Instance tr_proper d : Proper (meq d ==> eq) (tr d).
Proof. intros A A' HA. unfold tr. apply rsum_ext; intros; apply HA; auto. Qed.
Global Instance qf_proper d : Proper (meq d ==> eq ==> eq) (qf d).
Proof. intros A A' HA x x' <-. unfold qf, dot, mv. apply rsum_ext; intros. f_equal. apply rsum_ext; intros. rewrite HA; auto. Qed.
Global Instance sym_proper d : Proper (meq d ==> iff) (sym d).
Proof. intros A A' HA. unfold sym. rewrite HA. reflexivity. Qed.
Global Instance psd_proper d : Proper (meq d ==> iff) (psd d).
Proof. intros A A' HA. unfold psd. split; intros H x; [rewrite <- HA | rewrite HA]; auto. Qed.
Global Instance is_inv_proper d : Proper (meq d ==> meq d ==> iff) (is_inv d).
Proof. intros A A' HA B B' HB. unfold is_inv. rewrite HA, HB. reflexivity. Qed.
Global Instance is_sqrt_proper d : Proper (meq d ==> meq d ==> iff) (is_sqrt d).
Proof. intros A A' HA B B' HB. unfold is_sqrt. rewrite HA, HB. reflexivity. Qed.

Lemma mulA : forall d A B C, meq d (mul d (mul d A B) C) (mul d A (mul d B C)).
Proof.
  intros d A B C i j _ _. unfold mul.
  rewrite (rsum_ext d _ (fun x => rsum d (fun y => A i y * B y x * C x j))) by (intros; rewrite <- rsum_scal_r; reflexivity).
  rewrite rsum_swap. apply rsum_ext; intros y Hy. rewrite <- rsum_scal. apply rsum_ext; intros; ring.
Qed.
Lemma mul1l : forall d A, meq d (mul d mI A) A.
Proof.
  intros d A i j Hi Hj. unfold mul, mI. rewrite (rsum_single d i); auto; [rewrite Nat.eqb_refl; ring|].
  intros k Hk Hn. destruct (Nat.eqb_spec i k); [subst; contradiction | ring].
Qed.
Lemma mul1r : forall d A, meq d (mul d A mI) A.
Proof.
  intros d A i j Hi Hj. unfold mul, mI. rewrite (rsum_single d j); auto; [rewrite Nat.eqb_refl; ring|].
  intros k Hk Hn. destruct (Nat.eqb_spec k j); [subst; contradiction | ring].
Qed.
Lemma tp_mul : forall d A B, meq d (tp (mul d A B)) (mul d (tp B) (tp A)).
Proof. intros d A B i j _ _. unfold tp, mul. apply rsum_ext; intros; ring. Qed.
Lemma tp_I : forall d, meq d (tp mI) mI.
Proof. intros d i j _ _. unfold tp, mI. rewrite Nat.eqb_sym. reflexivity. Qed.
Lemma tp_tp : forall A i j, tp (tp A) i j = A i j.
Proof. reflexivity. Qed.
Lemma tr_mulC : forall d A B, tr d (mul d A B) = tr d (mul d B A).
Proof. intros. unfold tr, mul. rewrite rsum_swap. apply rsum_ext; intros; apply rsum_ext; intros; ring. Qed.
Lemma tr_ma : forall d A B, tr d (ma A B) = tr d A + tr d B.
Proof. intros. unfold tr, ma. apply rsum_plus. Qed.
Lemma tr_ms : forall d c A, tr d (ms c A) = c * tr d A.
Proof. intros. unfold tr, ms. apply rsum_scal. Qed.
Lemma tr_tp : forall d A, tr d (tp A) = tr d A.
Proof. reflexivity. Qed.
Lemma tr_I : forall d, tr d mI = INR d.
Proof. intros. unfold tr, mI. rewrite (rsum_ext d _ (fun _ => 1)) by (intros; rewrite Nat.eqb_refl; reflexivity). rewrite rsum_const; ring. Qed.
Lemma tr_msum : forall d k w A, tr d (msum k w A) = rsum k (fun p => w p * tr d (A p)).
Proof. intros. unfold tr, msum. rewrite rsum_swap. apply rsum_ext; intros; apply rsum_scal. Qed.
Lemma mul_maL : forall d A B C, meq d (mul d (ma A B) C) (ma (mul d A C) (mul d B C)).
Proof. intros d A B C i j _ _. unfold mul, ma. rewrite <- rsum_plus. apply rsum_ext; intros; ring. Qed.
Lemma mul_maR : forall d A B C, meq d (mul d A (ma B C)) (ma (mul d A B) (mul d A C)).
Proof. intros d A B C i j _ _. unfold mul, ma. rewrite <- rsum_plus. apply rsum_ext; intros; ring. Qed.
Lemma mul_msL : forall d c A B, meq d (mul d (ms c A) B) (ms c (mul d A B)).
Proof. intros d c A B i j _ _. unfold mul, ms. rewrite <- rsum_scal. apply rsum_ext; intros; ring. Qed.
Lemma mul_msR : forall d c A B, meq d (mul d A (ms c B)) (ms c (mul d A B)).
Proof. intros d c A B i j _ _. unfold mul, ms. rewrite <- rsum_scal. apply rsum_ext; intros; ring. Qed.
Lemma mul_msumL : forall d k w A B, meq d (mul d (msum k w A) B) (msum k w (fun p => mul d (A p) B)).
Proof.
  intros d k w A B i j _ _. unfold mul, msum.
  rewrite (rsum_ext d _ (fun l => rsum k (fun p => w p * A p i l * B l j))) by (intros; rewrite <- rsum_scal_r; reflexivity).
  rewrite rsum_swap. apply rsum_ext; intros p Hp. rewrite <- rsum_scal. apply rsum_ext; intros; ring.
Qed.
Lemma mul_msumR : forall d k w A B, meq d (mul d B (msum k w A)) (msum k w (fun p => mul d B (A p))).
Proof.
  intros d k w A B i j _ _. unfold mul, msum.
  rewrite (rsum_ext d _ (fun l => rsum k (fun p => B i l * (w p * A p l j)))) by (intros; rewrite <- rsum_scal; reflexivity).
  rewrite rsum_swap. apply rsum_ext; intros p Hp. rewrite <- rsum_scal. apply rsum_ext; intros; ring.
Qed.
Lemma msum_ext : forall d k w A B, (forall p, (p < k)%nat -> meq d (A p) (B p)) -> meq d (msum k w A) (msum k w B).
Proof. intros d k w A B H i j Hi Hj. unfold msum. apply rsum_ext; intros p Hp. rewrite (H p Hp i j Hi Hj). reflexivity. Qed.

Lemma dotC : forall d x y, dot d x y = dot d y x.
Proof. intros. unfold dot. apply rsum_ext; intros; ring. Qed.
Lemma dot_ext : forall d x x' y y', (forall i, (i < d)%nat -> x i = x' i) -> (forall i, (i < d)%nat -> y i = y' i) -> dot d x y = dot d x' y'.
Proof. intros. unfold dot. apply rsum_ext; intros. rewrite H, H0; auto. Qed.
Lemma mv_mul : forall d A B x i, mv d (mul d A B) x i = mv d A (mv d B x) i.
Proof.
  intros. unfold mv, mul.
  rewrite (rsum_ext d _ (fun j => rsum d (fun l => A i l * B l j * x j))) by (intros; rewrite <- rsum_scal_r; reflexivity).
  rewrite rsum_swap. apply rsum_ext; intros l Hl. rewrite <- rsum_scal. apply rsum_ext; intros; ring.
Qed.
Lemma mv_ext : forall d A B x y i, meq d A B -> (forall j, (j < d)%nat -> x j = y j) -> (i < d)%nat -> mv d A x i = mv d B y i.
Proof. intros. unfold mv. apply rsum_ext; intros j Hj. rewrite H, H0; auto. Qed.
Lemma mv_I : forall d x i, (i < d)%nat -> mv d mI x i = x i.
Proof.
  intros. unfold mv, mI. rewrite (rsum_single d i); auto; [rewrite Nat.eqb_refl; ring|].
  intros k Hk Hn. destruct (Nat.eqb_spec i k); [subst; contradiction | ring].
Qed.
Lemma dot_mv : forall d A x y, dot d x (mv d A y) = dot d (mv d (tp A) x) y.
Proof.
  intros. unfold dot, mv, tp.
  rewrite (rsum_ext d _ (fun i => rsum d (fun j => x i * (A i j * y j)))) by (intros; rewrite <- rsum_scal; reflexivity).
  rewrite rsum_swap. apply rsum_ext; intros j Hj. rewrite <- rsum_scal_r. apply rsum_ext; intros; ring.
Qed.
Lemma dot_plus_r : forall d x y z, dot d x (fun i => y i + z i) = dot d x y + dot d x z.
Proof. intros. unfold dot. rewrite <- rsum_plus. apply rsum_ext; intros; ring. Qed.
Lemma dot_minus_r : forall d x y z, dot d x (fun i => y i - z i) = dot d x y - dot d x z.
Proof. intros. unfold dot. rewrite <- rsum_minus. apply rsum_ext; intros; ring. Qed.
Lemma dot_minus_l : forall d x y z, dot d (fun i => y i - z i) x = dot d y x - dot d z x.
Proof. intros. unfold dot. rewrite <- rsum_minus. apply rsum_ext; intros; ring. Qed.
Lemma mv_minus : forall d A x y i, mv d A (fun j => x j - y j) i = mv d A x i - mv d A y i.
Proof. intros. unfold mv. rewrite <- rsum_minus. apply rsum_ext; intros; ring. Qed.
Lemma dot_nonneg : forall d x, 0 <= dot d x x.
Proof. intros. unfold dot. apply rsum_nonneg; intros. apply Rle_0_sqr. Qed.
Lemma dot_sym_mv : forall d A x y, sym d A -> dot d x (mv d A y) = dot d (mv d A x) y.
Proof. intros d A x y H. rewrite dot_mv. apply dot_ext; intros; auto. apply mv_ext; auto. Qed.
(** the quadratic form along B x *)
Lemma qf_conj : forall d A B x, sym d B -> qf d (mul d (mul d B A) B) x = qf d A (mv d B x).
Proof.
  intros d A B x H. unfold qf. transitivity (dot d x (mv d B (mv d A (mv d B x)))).
  - apply dot_ext; intros; auto. rewrite mv_mul, mv_mul. reflexivity.
  - apply dot_sym_mv; auto.
Qed.
Lemma sym_conj : forall d A B, sym d A -> sym d B -> sym d (mul d (mul d B A) B).
Proof. intros d A B HA HB. unfold sym in *. rewrite tp_mul, tp_mul, HA, HB, mulA. reflexivity. Qed.
Lemma psd_conj : forall d A B, psd d A -> sym d B -> psd d (mul d (mul d B A) B).
Proof. intros d A B HA HB x. rewrite qf_conj; auto. Qed.
Lemma sym_I : forall d, sym d mI.
Proof. intros; apply tp_I. Qed.
Lemma psd_I : forall d, psd d mI.
Proof. intros d x. unfold qf. rewrite (dot_ext d x x _ x); auto; [apply dot_nonneg | intros; apply mv_I; auto]. Qed.
Lemma psd_ext : forall d A x y, (forall i, (i < d)%nat -> x i = y i) -> qf d A x = qf d A y.
Proof. intros. unfold qf. apply dot_ext; auto. intros; apply mv_ext; auto. reflexivity. Qed.

Lemma inv_sym : forall d A Ai, is_inv d A Ai -> is_inv d Ai A.
Proof. intros d A Ai [H K]; split; auto. Qed.
Lemma inv_I : forall d, is_inv d mI mI.
Proof. intros; split; apply mul1l. Qed.
Lemma inv_unique : forall d A B C, is_inv d A B -> is_inv d A C -> meq d B C.
Proof. intros d A B C [H1 H2] [H3 H4]. rewrite <- (mul1l d C), <- H2, mulA, H3, mul1r. reflexivity. Qed.
Lemma inv_tp : forall d A Ai, is_inv d A Ai -> is_inv d (tp A) (tp Ai).
Proof. intros d A Ai [H K]; split; rewrite <- tp_mul, ?H, ?K; apply tp_I. Qed.
Lemma inv_is_sym : forall d A Ai, sym d A -> is_inv d A Ai -> sym d Ai.
Proof. intros d A Ai Hs Hi. unfold sym. apply (inv_unique d A); auto. pose proof (inv_tp d A Ai Hi) as H. unfold sym in Hs. rewrite Hs in H. exact H. Qed.
Lemma inv_mul : forall d A Ai B Bi, is_inv d A Ai -> is_inv d B Bi -> is_inv d (mul d A B) (mul d Bi Ai).
Proof.
  intros d A Ai B Bi [H1 H2] [H3 H4]. split.
  - rewrite mulA, <- (mulA d B Bi Ai), H3, mul1l. exact H1.
  - rewrite mulA, <- (mulA d Ai A B), H2, mul1l. exact H4.
Qed.
Lemma inv_cancel_l : forall d A Ai B, is_inv d A Ai -> meq d (mul d A (mul d Ai B)) B.
Proof. intros d A Ai B [H _]. rewrite <- mulA, H, mul1l. reflexivity. Qed.
Lemma inv_cancel_l' : forall d A Ai B, is_inv d A Ai -> meq d (mul d Ai (mul d A B)) B.
Proof. intros d A Ai B [_ H]. rewrite <- mulA, H, mul1l. reflexivity. Qed.
(** if M*M is invertible then so is M *)
Lemma inv_of_square : forall d M C Ci, meq d (mul d M M) C -> is_inv d C Ci -> is_inv d M (mul d M Ci).
Proof.
  intros d M C Ci H [H1 H2]. assert (L : meq d (mul d M (mul d M Ci)) mI) by (rewrite <- mulA, H; exact H1).
  assert (L' : meq d (mul d (mul d Ci M) M) mI) by (rewrite mulA, H; exact H2).
  split; auto. assert (E : meq d (mul d M Ci) (mul d Ci M)).
  { rewrite <- (mul1l d (mul d M Ci)), <- L', mulA, L, mul1r. reflexivity. }
  rewrite E. exact L'.
Qed.
Lemma inv_psd : forall d A Ai, sym d A -> psd d A -> is_inv d A Ai -> psd d Ai.
Proof.
  intros d A Ai Hs Hp Hi x. assert (Hs' := inv_is_sym d A Ai Hs Hi).
  assert (E : meq d Ai (mul d (mul d Ai A) Ai)) by (destruct Hi as [_ H]; rewrite H, mul1l; reflexivity).
  rewrite E, qf_conj; auto.
Qed.

(** Young's inequality for a positive definite matrix and its inverse *)
Lemma young : forall d A Ai x y, sym d A -> psd d A -> is_inv d A Ai -> 2 * dot d x y <= qf d A x + qf d Ai y.
Proof.
  intros d A Ai x y Hs Hp Hi. pose proof (Hp (fun i => x i - mv d Ai y i)) as H. unfold qf in *.
  rewrite dot_minus_l in H.
  rewrite (dot_ext d x x _ (fun i => mv d A x i - y i)) in H; auto.
  2:{ intros i Hi'. rewrite mv_minus. f_equal. rewrite <- mv_mul. rewrite (mv_ext d _ mI y y i); auto; [apply mv_I; auto | apply Hi]. }
  rewrite (dot_ext d (mv d Ai y) (mv d Ai y) (mv d A (fun i => x i - mv d Ai y i)) (fun i => mv d A x i - y i)) in H; auto.
  2:{ intros i Hi'. rewrite mv_minus. f_equal. rewrite <- mv_mul. rewrite (mv_ext d _ mI y y i); auto; [apply mv_I; auto | apply Hi]. }
  rewrite !dot_minus_r in H. rewrite (dot_sym_mv d A (mv d Ai y) x Hs) in H.
  rewrite (dot_ext d (mv d A (mv d Ai y)) y x x) in H; auto.
  2:{ intros i Hi'. rewrite <- mv_mul. rewrite (mv_ext d _ mI y y i); auto; [apply mv_I; auto | apply Hi]. }
  rewrite (dotC d y x), (dotC d (mv d Ai y) y) in H. lra.
Qed.

(** matrices as families of columns: the Frobenius product *)
Definition fro (d : nat) (X Y : rmat) : R := tr d (mul d (tp X) Y).
Global Instance fro_proper d : Proper (meq d ==> meq d ==> eq) (fro d).
Proof. intros A A' HA B B' HB. unfold fro. rewrite HA, HB. reflexivity. Qed.
Lemma fro_cols : forall d X Y, fro d X Y = rsum d (fun k => dot d (fun i => X i k) (fun i => Y i k)).
Proof. reflexivity. Qed.
Lemma froC : forall d X Y, fro d X Y = fro d Y X.
Proof. intros. rewrite !fro_cols. apply rsum_ext; intros; apply dotC. Qed.
Lemma qf_cols : forall d A X, rsum d (fun k => qf d A (fun i => X i k)) = tr d (mul d A (mul d X (tp X))).
Proof.
  intros. rewrite <- mulA, tr_mulC. unfold tr. apply rsum_ext; intros k Hk. unfold qf, dot. unfold mul at 1. apply rsum_ext; intros i Hi.
  unfold tp, mul, mv. ring.
Qed.
(** Young for matrices: 2 <X, Y> <= tr (A X X') + tr (Ai Y Y') *)
Lemma young_fro : forall d A Ai X Y, sym d A -> psd d A -> is_inv d A Ai ->
  2 * fro d X Y <= tr d (mul d A (mul d X (tp X))) + tr d (mul d Ai (mul d Y (tp Y))).
Proof.
  intros. rewrite <- !qf_cols, fro_cols, <- rsum_scal, <- rsum_plus. apply rsum_le; intros. apply young; auto.
Qed.
Lemma fro_nonneg : forall d X, 0 <= fro d X X.
Proof. intros. rewrite fro_cols. apply rsum_nonneg; intros; apply dot_nonneg. Qed.
Lemma fro_zero : forall d X, fro d X X = 0 -> forall i j, (i < d)%nat -> (j < d)%nat -> X i j = 0.
Proof.
  intros d X H i j Hi Hj. rewrite fro_cols in H.
  assert (H' := rsum_nonneg_zero d _ (fun k _ => dot_nonneg d (fun i => X i k)) H j Hj). cbv beta in H'.
  unfold dot in H'. assert (H2 := rsum_nonneg_zero d _ (fun k _ => Rle_0_sqr (X k j)) H' i Hi). cbv beta in H2.
  destruct (Rmult_integral _ _ H2); auto.
Qed.
Lemma fro_maL : forall d X Y Z, fro d (ma X Y) Z = fro d X Z + fro d Y Z.
Proof. intros. rewrite !fro_cols, <- rsum_plus. apply rsum_ext; intros. unfold dot, ma. rewrite <- rsum_plus. apply rsum_ext; intros; ring. Qed.
Lemma fro_msL : forall d c X Y, fro d (ms c X) Y = c * fro d X Y.
Proof. intros. rewrite !fro_cols, <- rsum_scal. apply rsum_ext; intros. unfold dot, ms. rewrite <- rsum_scal. apply rsum_ext; intros; ring. Qed.
Lemma fro_maR : forall d X Y Z, fro d Z (ma X Y) = fro d Z X + fro d Z Y.
Proof. intros. rewrite froC, fro_maL, froC, (froC d Y). reflexivity. Qed.
Lemma fro_msR : forall d c X Y, fro d Y (ms c X) = c * fro d Y X.
Proof. intros. rewrite froC, fro_msL, froC. reflexivity. Qed.
Lemma fro_msumL : forall d k w X Y, fro d (msum k w X) Y = rsum k (fun p => w p * fro d (X p) Y).
Proof.
  intros. unfold fro. rewrite <- tr_msum. apply tr_proper.
  transitivity (mul d (msum k w (fun p => tp (X p))) Y); [reflexivity | apply mul_msumL].
Qed.
Lemma fro_msumR : forall d k w X Y, fro d Y (msum k w X) = rsum k (fun p => w p * fro d Y (X p)).
Proof. intros. rewrite froC, fro_msumL. apply rsum_ext; intros; rewrite froC; reflexivity. Qed.
(** Cauchy-Schwarz and Minkowski for an abstract quadratic form given by rsum *)
Lemma fro_CS : forall d X Y, fro d X Y * fro d X Y <= fro d X X * fro d Y Y.
Proof.
  intros d X Y. set (a := fro d X X). set (b := fro d X Y). set (c := fro d Y Y).
  assert (P : forall t, 0 <= a + 2 * t * b + t * t * c).
  { intros t. pose proof (fro_nonneg d (ma X (ms t Y))) as H. rewrite fro_maL, !fro_maR, !fro_msL, !fro_msR in H. rewrite (froC d Y X) in H. fold a b c in H. nra. }
  assert (Hc : 0 <= c) by apply fro_nonneg. destruct (Req_dec c 0) as [E|E].
  - destruct (Req_dec b 0) as [B|B]; [rewrite B, E; lra|]. exfalso.
    pose proof (P (- (a + 1) / (2 * b))) as H. rewrite E in H.
    replace (a + 2 * (- (a + 1) / (2 * b)) * b + - (a + 1) / (2 * b) * (- (a + 1) / (2 * b)) * 0) with (-1) in H by (field; auto). lra.
  - pose proof (P (- b / c)) as H. replace (a + 2 * (- b / c) * b + - b / c * (- b / c) * c) with ((a * c - b * b) / c) in H by (field; auto).
    assert (0 <= a * c - b * b); [|lra]. replace (a * c - b * b) with ((a * c - b * b) / c * c) by (field; auto). apply Rmult_le_pos; auto.
Qed.
Lemma fro_minkowski : forall d X Y, sqrt (fro d (ma X Y) (ma X Y)) <= sqrt (fro d X X) + sqrt (fro d Y Y).
Proof.
  intros d X Y. pose proof (fro_CS d X Y) as H. pose proof (fro_nonneg d X) as HX. pose proof (fro_nonneg d Y) as HY.
  rewrite fro_maL, !fro_maR, (froC d Y X).
  apply Rsqr_incr_0_var; [|apply Rplus_le_le_0_compat; apply sqrt_pos].
  rewrite Rsqr_sqrt.
  2:{ pose proof (fro_nonneg d (ma X Y)) as P. rewrite fro_maL, !fro_maR, (froC d Y X) in P. exact P. }
  rewrite Rsqr_plus, !Rsqr_sqrt; auto.
  assert (fro d X Y <= sqrt (fro d X X) * sqrt (fro d Y Y)); [|lra].
  rewrite <- sqrt_mult; auto. eapply Rle_trans; [apply Rle_abs|]. rewrite <- sqrt_Rsqr_abs. apply sqrt_le_1_alt. exact H.
Qed.
(** the sum of the traces of a positive definite matrix and of its inverse *)
Lemma tr_inv_ge : forall d A Ai, sym d A -> psd d A -> is_inv d A Ai -> 2 * INR d <= tr d A + tr d Ai.
Proof.
  intros d A Ai Hs Hp Hi. pose proof (young_fro d A Ai mI mI Hs Hp Hi) as H.
  unfold fro in H. rewrite tp_I in H. rewrite !mul1r, tr_I in H. exact H.
Qed.
