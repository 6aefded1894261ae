(** Lemmas about the semi-relaxed path. *)
From Coq Require Import Reals Lra Lia List Arith Bool.
From Verif Require Import Num Sums Spec Duals_proofs Emd1d_model Sinkhorn_model Sinkhorn_more Regpath_model Regpath_proofs Semipath_model NS_dense P_Regpath.
Import ListNotations.
Local Open Scope R_scope.

(** ** saddle point matrices [[0, V], [V^T, U^T U]] *)
Section Saddle.
Variables (m k n : nat) (V U : mat).
Definition Ksad (p q : nat) : R :=
  if Nat.ltb p m then (if Nat.ltb q m then 0 else V p (q - m)%nat)
  else (if Nat.ltb q m then V q (p - m)%nat else rsum n (fun r => U r (p - m)%nat * U r (q - m)%nat)).
Definition app (G : mat) (x : vec) (p : nat) : R := rsum (m + k) (fun q => G p q * x q).
Definition Vx (x : vec) (j : nat) : R := rsum k (fun l => V j l * x (m + l)%nat).
Definition Ux (x : vec) (r : nat) : R := rsum k (fun l => U r l * x (m + l)%nat).
Lemma ltb_add : forall x, (m + x <? m)%nat = false. Proof. intros. apply Nat.ltb_ge. lia. Qed.
Lemma app_top : forall x p, (p < m)%nat -> app Ksad x p = Vx x p.
Proof.
  intros x p Hp. unfold app, Vx. rewrite rsum_split. rewrite (rsum_0 m).
  2:{ intros q Hq. unfold Ksad. rewrite (ltb_t p m Hp), (ltb_t q m Hq). ring. }
  rewrite Rplus_0_l. apply rsum_ext. intros l Hl. unfold Ksad. rewrite (ltb_t p m Hp), ltb_add. replace (m + l - m)%nat with l by lia. reflexivity.
Qed.
Lemma app_bot : forall x l, app Ksad x (m + l)%nat = rsum m (fun j => V j l * x j) + rsum n (fun r => U r l * Ux x r).
Proof.
  intros x l. unfold app. rewrite rsum_split. f_equal.
  - apply rsum_ext. intros j Hj. unfold Ksad. rewrite ltb_add, (ltb_t j m Hj). replace (m + l - m)%nat with l by lia. reflexivity.
  - rewrite (rsum_ext n _ (fun r => rsum k (fun q => U r l * U r q * x (m + q)%nat))) by (intros; unfold Ux; rewrite <- rsum_scal; apply rsum_ext; intros; ring).
    rewrite rsum_swap. apply rsum_ext. intros q Hq. unfold Ksad. rewrite !ltb_add. replace (m + l - m)%nat with l by lia. replace (m + q - m)%nat with q by lia. rewrite rsum_scal_r. reflexivity.
Qed.
(** <z, K x> over the lower block *)
Lemma app_dot : forall x z, rsum k (fun l => z (m + l)%nat * app Ksad x (m + l)%nat) = rsum m (fun j => x j * Vx z j) + rsum n (fun r => Ux z r * Ux x r).
Proof.
  intros x z. rewrite (rsum_ext k _ (fun l => rsum m (fun j => x j * (V j l * z (m + l)%nat)) + rsum n (fun r => Ux x r * (U r l * z (m + l)%nat)))).
  - rewrite rsum_plus. f_equal; rewrite rsum_swap; apply rsum_ext; intros; rewrite rsum_scal; unfold Vx, Ux; ring.
  - intros l Hl. rewrite app_bot, Rmult_plus_distr_l, <- !rsum_scal. f_equal; apply rsum_ext; intros; ring.
Qed.
Variable Hi : mat.
Hypothesis (HI : inverse (m + k) Hi Ksad) (HS : sym (m + k) Hi).
Lemma Ksad_sym : forall p q, Ksad p q = Ksad q p.
Proof. intros. unfold Ksad. destruct (p <? m)%nat, (q <? m)%nat; auto. apply rsum_ext. intros; ring. Qed.
Lemma inv_left : forall x p, (p < m + k)%nat -> app Hi (app Ksad x) p = x p.
Proof.
  intros x p Hp. unfold app. rewrite (rsum_ext _ _ (fun q => rsum (m + k) (fun l => Hi p q * Ksad q l * x l))) by (intros; rewrite <- rsum_scal; apply rsum_ext; intros; ring).
  rewrite rsum_swap. rewrite (rsum_ext _ _ (fun l => if Nat.eqb l p then x l else 0)); [apply rsum_delta_mul; auto|].
  intros l Hl. rewrite rsum_scal_r, (HI p l Hp Hl), Nat.eqb_sym. destruct (Nat.eqb l p); ring.
Qed.
Lemma inv_right : forall x p, (p < m + k)%nat -> app Ksad (app Hi x) p = x p.
Proof.
  intros x p Hp. unfold app. rewrite (rsum_ext _ _ (fun q => rsum (m + k) (fun l => Ksad p q * Hi q l * x l))) by (intros; rewrite <- rsum_scal; apply rsum_ext; intros; ring).
  rewrite rsum_swap. rewrite (rsum_ext _ _ (fun l => if Nat.eqb l p then x l else 0)); [apply rsum_delta_mul; auto|].
  intros l Hl. rewrite rsum_scal_r. rewrite (rsum_ext _ _ (fun q => Hi l q * Ksad q p)) by (intros q Hq; rewrite Ksad_sym, (HS q l) by auto; ring).
  rewrite (HI l p Hl Hp). destruct (Nat.eqb l p); ring.
Qed.
Lemma app_ext : forall G x y p, (forall q, (q < m + k)%nat -> x q = y q) -> app G x p = app G y p.
Proof. intros. unfold app. apply rsum_ext. intros. rewrite H by auto. reflexivity. Qed.
(** uniqueness of solutions *)
Lemma sad_unique : forall x y, (forall p, (p < m + k)%nat -> app Ksad x p = app Ksad y p) -> forall p, (p < m + k)%nat -> x p = y p.
Proof. intros x y H p Hp. rewrite <- (inv_left x p Hp), <- (inv_left y p Hp). apply app_ext. exact H. Qed.
(** a vanishing diagonal entry of the inverse means a vanishing column of its lower block *)
Lemma piv_rem : forall p, (p < k)%nat -> Hi (m + p)%nat (m + p)%nat = 0 -> forall l, (l < k)%nat -> Hi (m + l)%nat (m + p)%nat = 0.
Proof.
  intros p Hp Z. set (e := fun q => if Nat.eqb q (m + p) then 1 else 0 : R). set (w := app Hi e).
  assert (W : forall q, (q < m + k)%nat -> w q = Hi q (m + p)%nat).
  { intros q Hq. unfold w, app. rewrite (rsum_ext _ _ (fun l => if Nat.eqb l (m + p) then Hi q l else 0)); [apply rsum_delta_mul; lia|]. intros l _. unfold e. destruct (Nat.eqb l (m + p)); ring. }
  assert (KW : forall q, (q < m + k)%nat -> app Ksad w q = e q) by (intros; apply inv_right; auto).
  assert (V0 : forall j, (j < m)%nat -> Vx w j = 0).
  { intros j Hj. rewrite <- app_top by auto. rewrite KW by lia. unfold e. replace (j =? m + p)%nat with false by (symmetry; apply Nat.eqb_neq; lia). reflexivity. }
  assert (E := app_dot w w). rewrite (rsum_0 m) in E by (intros j Hj; rewrite V0 by auto; ring). rewrite Rplus_0_l in E.
  rewrite (rsum_ext k _ (fun l => if Nat.eqb l p then w (m + l)%nat else 0)) in E.
  2:{ intros l Hl. rewrite KW by lia. unfold e. destruct (Nat.eqb_spec l p), (Nat.eqb_spec (m + l) (m + p)); try lia; ring. }
  rewrite (rsum_delta_mul k p (fun l => w (m + l)%nat)) in E by auto. rewrite W, Z in E by lia.
  assert (U0 : forall r, (r < n)%nat -> Ux w r = 0).
  { intros r Hr. symmetry in E. apply (rsum_nonneg_zero n (fun r => Ux w r * Ux w r)) with (i := r) in E; auto; [|intros; apply Rle_0_sqr]. apply Rsqr_0_uniq. exact E. }
  set (w0 := fun q => if Nat.ltb q m then 0 else w q).
  assert (E0 : forall l, w0 (m + l)%nat = w (m + l)%nat) by (intros; unfold w0; rewrite ltb_add; reflexivity).
  assert (VV : forall j, Vx w0 j = Vx w j) by (intros; unfold Vx; apply rsum_ext; intros; rewrite E0; reflexivity).
  assert (UU : forall j, Ux w0 j = Ux w j) by (intros; unfold Ux; apply rsum_ext; intros; rewrite E0; reflexivity).
  assert (Z0 : forall q, (q < m + k)%nat -> w0 q = 0).
  { apply (sad_unique w0 (fun _ => 0)). intros q Hq. assert (RZ : app Ksad (fun _ => 0) q = 0) by (unfold app; apply rsum_0; intros; ring). rewrite RZ.
    destruct (Nat.lt_ge_cases q m) as [Lt|Ge].
    - rewrite app_top by auto. rewrite VV. auto.
    - replace q with (m + (q - m))%nat by lia. rewrite app_bot. rewrite (rsum_0 m), (rsum_0 n); [ring| |].
      + intros r Hr. rewrite UU, U0 by auto. ring.
      + intros j Hj. unfold w0. rewrite (ltb_t j m Hj). ring. }
  intros l Hl. rewrite <- W by lia. rewrite <- E0. apply Z0. lia.
Qed.
Lemma diag_nonneg : forall p, (p < k)%nat -> 0 <= Hi (m + p)%nat (m + p)%nat.
Proof.
  intros p Hp. set (e := fun q => if Nat.eqb q (m + p) then 1 else 0 : R). set (w := app Hi e).
  assert (W : forall q, (q < m + k)%nat -> w q = Hi q (m + p)%nat).
  { intros q Hq. unfold w, app. rewrite (rsum_ext _ _ (fun l => if Nat.eqb l (m + p) then Hi q l else 0)); [apply rsum_delta_mul; lia|]. intros l _. unfold e. destruct (Nat.eqb l (m + p)); ring. }
  assert (KW : forall q, (q < m + k)%nat -> app Ksad w q = e q) by (intros; apply inv_right; auto).
  assert (V0 : forall j, (j < m)%nat -> Vx w j = 0).
  { intros j Hj. rewrite <- app_top by auto. rewrite KW by lia. unfold e. replace (j =? m + p)%nat with false by (symmetry; apply Nat.eqb_neq; lia). reflexivity. }
  assert (E := app_dot w w). rewrite (rsum_0 m) in E by (intros j Hj; rewrite V0 by auto; ring). rewrite Rplus_0_l in E.
  rewrite (rsum_ext k _ (fun l => if Nat.eqb l p then w (m + l)%nat else 0)) in E.
  2:{ intros l Hl. rewrite KW by lia. unfold e. destruct (Nat.eqb_spec l p), (Nat.eqb_spec (m + l) (m + p)); try lia; ring. }
  rewrite (rsum_delta_mul k p (fun l => w (m + l)%nat)) in E by auto. rewrite W in E by lia. rewrite E. apply rsum_nonneg. intros; apply Rle_0_sqr.
Qed.
(** a new column (hc, hr) with |hr|^2 = 1: the Schur complement is |hr - U X|^2 *)
Variables (hc hr : vec).
Hypothesis (H1 : rsum n (fun r => hr r * hr r) = 1).
Definition ncol (q : nat) : R := if Nat.ltb q m then hc q else rsum n (fun r => U r (q - m)%nat * hr r).
Lemma piv_add : 1 - rsum (m + k) (fun q => ncol q * app Hi ncol q) = 0 ->
  (forall r, (r < n)%nat -> Ux (app Hi ncol) r = hr r) /\ (forall j, (j < m)%nat -> Vx (app Hi ncol) j = hc j).
Proof.
  intros Z. set (X := app Hi ncol) in *.
  assert (KX : forall q, (q < m + k)%nat -> app Ksad X q = ncol q) by (intros; apply inv_right; auto).
  assert (VX : forall j, (j < m)%nat -> Vx X j = hc j) by (intros j Hj; rewrite <- app_top by auto; rewrite KX by lia; unfold ncol; rewrite (ltb_t j m Hj); reflexivity).
  split; [|exact VX].
  assert (CR : rsum k (fun l => X (m + l)%nat * ncol (m + l)%nat) = rsum n (fun r => hr r * Ux X r)).
  { rewrite (rsum_ext n _ (fun r => rsum k (fun l => hr r * (U r l * X (m + l)%nat)))) by (intros; unfold Ux; rewrite rsum_scal; reflexivity).
    rewrite rsum_swap. apply rsum_ext. intros l Hl. unfold ncol. rewrite ltb_add. replace (m + l - m)%nat with l by lia. rewrite <- rsum_scal. apply rsum_ext. intros; ring. }
  assert (E := app_dot X X). rewrite (rsum_ext k _ (fun l => X (m + l)%nat * ncol (m + l)%nat)) in E by (intros l Hl; rewrite KX by lia; reflexivity). rewrite CR in E.
  rewrite (rsum_ext m _ (fun j => hc j * X j)) in E by (intros j Hj; rewrite VX by auto; ring).
  rewrite rsum_split in Z. rewrite (rsum_ext m _ (fun j => hc j * X j)) in Z by (intros j Hj; unfold ncol; rewrite (ltb_t j m Hj); reflexivity).
  rewrite (rsum_ext k _ (fun l => X (m + l)%nat * ncol (m + l)%nat)) in Z by (intros; ring). rewrite CR in Z.
  assert (Q : rsum n (fun r => (Ux X r - hr r) * (Ux X r - hr r)) = 0).
  { rewrite (rsum_ext n _ (fun r => Ux X r * Ux X r - (2 * (hr r * Ux X r) - hr r * hr r))) by (intros; ring). rewrite rsum_minus, rsum_minus, rsum_scal, H1. lra. }
  intros r Hr. apply (rsum_nonneg_zero n (fun r => (Ux X r - hr r) * (Ux X r - hr r))) with (i := r) in Q; auto; [|intros; apply Rle_0_sqr]. apply Rsqr_0_uniq in Q. lra.
Qed.
(** then the reduced cost of the new column at gamma = 0 vanishes *)
Lemma piv_add_zero : forall (x av : vec), 1 - rsum (m + k) (fun q => ncol q * app Hi ncol q) = 0 ->
  (forall l, (l < k)%nat -> app Ksad x (m + l)%nat = rsum n (fun r => U r l * av r)) ->
  rsum n (fun r => hr r * Ux x r) - rsum n (fun r => hr r * av r) + rsum m (fun j => hc j * x j) = 0.
Proof.
  intros x av Z HX. destruct (piv_add Z) as (UX & VX). set (X := app Hi ncol) in *.
  assert (E := app_dot x X). rewrite (rsum_ext m _ (fun j => hc j * x j)) in E by (intros j Hj; rewrite VX by auto; ring).
  rewrite (rsum_ext n _ (fun r => hr r * Ux x r)) in E by (intros r Hr; rewrite UX by auto; ring).
  assert (CR : rsum k (fun l => X (m + l)%nat * app Ksad x (m + l)%nat) = rsum n (fun r => hr r * av r)).
  { rewrite (rsum_ext k _ (fun l => rsum n (fun r => av r * (U r l * X (m + l)%nat)))) by (intros l Hl; rewrite HX by auto; rewrite <- rsum_scal; apply rsum_ext; intros; ring).
    rewrite rsum_swap. apply rsum_ext. intros r Hr. rewrite rsum_scal. change (rsum k (fun l => U r l * X (m + l)%nat)) with (Ux X r). rewrite UX by auto. ring. }
  lra.
Qed.
End Saddle.

(** ** the linear system of an active set *)
Section Act.
Variables (n m : nat) (a b : vec) (C : mat).
Hypothesis (Hn : (0 < n)%nat) (Hm : (0 < m)%nat).
Notation NM := (n * m)%nat.
Notation hr := (Hr (N:=RNum) m). Notation hc := (Hc (N:=RNum) m). Notation scR := (sc (N:=RNum) m C).
Notation augR := (aug (N:=RNum) n m).
Definition VA (A : list nat) : mat := fun j l => hc j (at_ A l).
Definition UA (A : list nat) : mat := fun r l => hr r (at_ A l).
Definition rowf (t : vec) (r : nat) : R := rsum NM (fun k => hr r k * t k).
Definition colf (t : vec) (j : nat) : R := rsum NM (fun k => hc j k * t k).
Lemma hrR : forall r k, hr r k = if Nat.eqb (k / m) r then 1 else 0. Proof. reflexivity. Qed.
Lemma hcR : forall r k, hc r k = if Nat.eqb (k mod m) r then 1 else 0. Proof. reflexivity. Qed.
Lemma div_b : forall k, (k < NM)%nat -> (k / m < n)%nat. Proof. intros. apply Nat.div_lt_upper_bound; lia. Qed.
Lemma mod_b : forall k, (k mod m < m)%nat. Proof. intros. apply Nat.mod_upper_bound; lia. Qed.
Lemma hr_pick : forall k (f : vec), (k < NM)%nat -> rsum n (fun r => hr r k * f r) = f (k / m)%nat.
Proof.
  intros k f Hk. rewrite (rsum_ext n _ (fun r => if Nat.eqb r (k / m) then f r else 0)); [apply rsum_delta_mul, div_b; auto|].
  intros r Hr. rewrite hrR, Nat.eqb_sym. destruct (Nat.eqb r (k / m)); ring.
Qed.
Lemma hc_pick : forall k (f : vec), rsum m (fun j => hc j k * f j) = f (k mod m)%nat.
Proof.
  intros k f. rewrite (rsum_ext m _ (fun r => if Nat.eqb r (k mod m) then f r else 0)); [apply rsum_delta_mul, mod_b; auto|].
  intros r Hr. rewrite hcR, Nat.eqb_sym. destruct (Nat.eqb r (k mod m)); ring.
Qed.
Lemma rowf_row : forall t r, (r < n)%nat -> rowf t r = row_sum m (unflat m t) r.
Proof.
  intros t r Hr. unfold rowf. rewrite rsum_grid. rewrite (rsum_single n r); auto.
  - apply rsum_ext. intros j Hj. rewrite hrR, (proj1 (cell_div m r j Hj)), Nat.eqb_refl. unfold unflat. ring.
  - intros i Hi Hne. apply rsum_0. intros j Hj. rewrite hrR, (proj1 (cell_div m i j Hj)), (proj2 (Nat.eqb_neq i r) Hne). ring.
Qed.
Lemma colf_col : forall t j, (j < m)%nat -> colf t j = col_sum n (unflat m t) j.
Proof.
  intros t j Hj. unfold colf. rewrite rsum_grid. apply rsum_ext. intros i Hi. rewrite (rsum_single m j); auto.
  - rewrite hcR, (proj2 (cell_div m i j Hj)), Nat.eqb_refl. unfold unflat. ring.
  - intros l Hl Hne. rewrite hcR, (proj2 (cell_div m i l Hl)), (proj2 (Nat.eqb_neq l j) Hne). ring.
Qed.
Lemma rowf_ext : forall t t' r, (forall k, (k < NM)%nat -> t k = t' k) -> rowf t r = rowf t' r.
Proof. intros. unfold rowf. apply rsum_ext. intros. rewrite H; auto. Qed.
Lemma colf_ext : forall t t' r, (forall k, (k < NM)%nat -> t k = t' k) -> colf t r = colf t' r.
Proof. intros. unfold colf. apply rsum_ext. intros. rewrite H; auto. Qed.
Lemma HrHr_R : forall i l, HrHr (N:=RNum) n m i l = rsum n (fun r => hr r i * hr r l).
Proof. intros. unfold HrHr. rewrite HtH_R. reflexivity. Qed.
Lemma Hra_R : forall i, (i < NM)%nat -> Hra (N:=RNum) n m a i = a (i / m)%nat.
Proof. intros. unfold Hra. rewrite Hty_R. unfold lin. apply hr_pick; auto. Qed.
Lemma aug_K : forall A p q, augR A p q = Ksad m n (VA A) (UA A) p q.
Proof.
  intros. unfold aug, Ksad, VA, UA. destruct (p <? m)%nat, (q <? m)%nat; try reflexivity. apply HrHr_R.
Qed.
Definition sact (A : list nat) (Hi : mat) : Prop := NoDup A /\ bounded NM A /\ inverse (m + length A) Hi (augR A) /\ sym (m + length A) Hi.
Lemma sact_K : forall A Hi, sact A Hi -> inverse (m + length A) Hi (Ksad m n (VA A) (UA A)).
Proof. intros A Hi (_ & _ & I & _). eapply inverse_ext; [|exact I]. intros; apply aug_K. Qed.
Definition phiS (A : list nat) (Hi : mat) : vec := sphi (N:=RNum) n m a b A Hi.
Definition deltaS (A : list nat) (Hi : mat) : vec := sdelta (N:=RNum) m C A Hi.
Definition rg (A : list nat) (g : R) (q : nat) : R := if Nat.ltb q m then b q else a (at_ A (q - m) / m)%nat - g * scR (at_ A (q - m)).
Definition xg (A : list nat) (Hi : mat) (g : R) : vec := fun p => phiS A Hi p - g * deltaS A Hi p.
Definition tgs (A : list nat) (Hi : mat) (g : R) : vec := scat A (fun l => xg A Hi g (m + l)%nat).
Lemma xg_app : forall A Hi g p, bounded NM A -> xg A Hi g p = app m (length A) Hi (rg A g) p.
Proof.
  intros A Hi g p HB. unfold xg, phiS, deltaS, sphi, sdelta. rewrite !nsum_R. unfold app. rewrite !rsum_split. cbn [nmul RNum].
  unfold Rminus. rewrite Rplus_assoc. f_equal.
  - apply rsum_ext. intros q Hq. unfold rhs, rg. rewrite (ltb_t q m Hq). reflexivity.
  - match goal with |- ?u + - (g * ?v) = _ => replace (u + - (g * v)) with (u - g * v) by ring end. rewrite <- rsum_scal, <- rsum_minus. apply rsum_ext. intros q Hq. unfold rhs, rg. rewrite ltb_add.
    replace (m + q - m)%nat with q by lia. rewrite Hra_R by (apply HB, at_in; auto). ring.
Qed.
Lemma Vx_scat : forall A (x : vec) j, NoDup A -> bounded NM A -> Vx m (length A) (VA A) x j = colf (scat A (fun l => x (m + l)%nat)) j.
Proof. intros. unfold colf. rewrite rsum_scat by auto. reflexivity. Qed.
Lemma Ux_scat : forall A (x : vec) j, NoDup A -> bounded NM A -> Ux m (length A) (UA A) x j = rowf (scat A (fun l => x (m + l)%nat)) j.
Proof. intros. unfold rowf. rewrite rsum_scat by auto. reflexivity. Qed.
(** multipliers u and plan t solve the equations of A at g *)
Definition reds (g : R) (u t : vec) (k : nat) : R := g * scR k + (rowf t (k / m)%nat - a (k / m)%nat) + u (k mod m)%nat.
Definition ssol (A : list nat) (g : R) (u t : vec) : Prop :=
  (forall k, (k < NM)%nat -> ~ In k A -> t k = 0) /\ (forall j, (j < m)%nat -> colf t j = b j) /\ (forall k, In k A -> reds g u t k = 0).
Lemma app_bot_A : forall A (x : vec) l, NoDup A -> bounded NM A -> (l < length A)%nat ->
  app m (length A) (Ksad m n (VA A) (UA A)) x (m + l)%nat = x (at_ A l mod m)%nat + rowf (scat A (fun l => x (m + l)%nat)) (at_ A l / m)%nat.
Proof.
  intros A x l ND HB Hl. rewrite app_bot. f_equal.
  - unfold VA. apply hc_pick.
  - rewrite (rsum_ext n _ (fun r => UA A r l * rowf (scat A (fun l => x (m + l)%nat)) r)) by (intros; rewrite Ux_scat; auto). unfold UA. apply hr_pick. apply HB, at_in; auto.
Qed.
Lemma tgs_sol : forall A Hi g, sact A Hi -> ssol A g (xg A Hi g) (tgs A Hi g).
Proof.
  intros A Hi g HA. pose proof (sact_K A Hi HA) as HK. destruct HA as (ND & HB & HI & HS).
  assert (E : forall p, (p < m + length A)%nat -> app m (length A) (Ksad m n (VA A) (UA A)) (xg A Hi g) p = rg A g p).
  { intros p Hp. rewrite (app_ext m (length A) _ (xg A Hi g) (app m (length A) Hi (rg A g))) by (intros; apply xg_app; auto). apply inv_right; auto. }
  split; [|split].
  - intros k Hk Hnk. apply scat_out; auto.
  - intros j Hj. unfold tgs. rewrite <- (Vx_scat A (xg A Hi g)) by auto. rewrite <- (app_top m (length A) n (VA A) (UA A)) by auto. rewrite E by lia. unfold rg. rewrite (ltb_t j m Hj). reflexivity.
  - intros k Hk. destruct (in_at A k Hk) as (l & Hl & <-). assert (E' := E (m + l)%nat ltac:(lia)). rewrite app_bot_A in E' by auto. unfold rg in E'. rewrite ltb_add in E'. replace (m + l - m)%nat with l in E' by lia.
    unfold reds, tgs. lra.
Qed.
Lemma ssol_unique : forall A Hi g u t, sact A Hi -> ssol A g u t -> (forall k, (k < NM)%nat -> t k = tgs A Hi g k) /\ (forall j, (j < m)%nat -> u j = xg A Hi g j).
Proof.
  intros A Hi g u t HA (S1 & S2 & S3). pose proof (sact_K A Hi HA) as HK. pose proof HA as (ND & HB & HI & HS).
  set (x := fun p => if Nat.ltb p m then u p else t (at_ A (p - m))).
  assert (Ex : forall k, (k < NM)%nat -> scat A (fun l => x (m + l)%nat) k = t k).
  { intros k Hk. destruct (in_dec Nat.eq_dec k A) as [Hin|Hnk]; [|rewrite scat_out, S1 by auto; reflexivity]. destruct (in_at A k Hin) as (l & Hl & <-). rewrite scat_at by auto. unfold x. rewrite ltb_add. replace (m + l - m)%nat with l by lia. reflexivity. }
  assert (U : forall p, (p < m + length A)%nat -> x p = xg A Hi g p).
  { intros p Hp. rewrite xg_app by auto. rewrite <- (inv_left m (length A) n (VA A) (UA A) Hi HK x p Hp). apply app_ext. intros q Hq. unfold rg. destruct (Nat.ltb_spec q m) as [L|L].
    - rewrite app_top by auto. rewrite Vx_scat by auto. rewrite (colf_ext _ t) by auto. auto.
    - replace q with (m + (q - m))%nat at 1 by lia. rewrite app_bot_A by (auto; lia). rewrite (rowf_ext _ t) by auto. assert (Hin : In (at_ A (q - m)) A) by (apply at_in; lia). specialize (S3 _ Hin). unfold reds in S3.
      unfold x at 1. rewrite (ltb_t _ m (mod_b _)). lra. }
  split.
  - intros k Hk. rewrite <- Ex by auto. destruct (in_dec Nat.eq_dec k A) as [Hin|Hnk]; [|unfold tgs; rewrite !scat_out by auto; reflexivity]. destruct (in_at A k Hin) as (l & Hl & <-). unfold tgs. rewrite !scat_at by auto. apply U. lia.
  - intros j Hj. rewrite <- U by lia. unfold x. rewrite (ltb_t j m Hj). reflexivity.
Qed.
Lemma scat_aff : forall A (f h : vec) g j, scat A (fun l => f l - g * h l) j = scat A f j - g * scat A h j.
Proof. induction A as [|x A IH]; intros f h g j; cbn; [ring|]. destruct (Nat.eqb j x); [reflexivity|]. apply (IH (fun l => f (S l)) (fun l => h (S l))). Qed.
Lemma tgs_affine : forall A Hi j, affine (fun g => tgs A Hi g j).
Proof. intros A Hi j. eexists _, _. intros g. apply (scat_aff A (fun l => phiS A Hi (m + l)%nat) (fun l => deltaS A Hi (m + l)%nat) g j). Qed.
(** numerator and denominator of the candidate of cell k *)
Definition alS (A : list nat) (Hi : mat) (k : nat) : R := rowf (scat A (fun l => phiS A Hi (m + l)%nat)) (k / m)%nat - a (k / m)%nat + phiS A Hi (k mod m)%nat.
Definition beS (A : list nat) (Hi : mat) (k : nat) : R := rowf (scat A (fun l => deltaS A Hi (m + l)%nat)) (k / m)%nat - scR k + deltaS A Hi (k mod m)%nat.
Lemma reds_aff : forall A Hi g k, reds g (xg A Hi g) (tgs A Hi g) k = alS A Hi k - g * beS A Hi k.
Proof.
  intros. unfold reds, alS, beS, tgs, xg. unfold rowf.
  rewrite (rsum_ext NM (fun k0 => hr (k / m)%nat k0 * scat A (fun l => phiS A Hi (m + l)%nat - g * deltaS A Hi (m + l)%nat) k0)
     (fun k0 => hr (k / m)%nat k0 * scat A (fun l => phiS A Hi (m + l)%nat) k0 - g * (hr (k / m)%nat k0 * scat A (fun l => deltaS A Hi (m + l)%nat) k0))).
  - rewrite rsum_minus, rsum_scal. ring.
  - intros k0 _. rewrite (scat_aff A (fun l => phiS A Hi (m + l)%nat) (fun l => deltaS A Hi (m + l)%nat)). ring.
Qed.
Lemma row_dot : forall A (x : vec) i, NoDup A -> bounded NM A -> (i < NM)%nat -> rsum (length A) (fun l => HrHr (N:=RNum) n m i (at_ A l) * x l) = rowf (scat A x) (i / m)%nat.
Proof.
  intros A x i ND HB Hi. unfold rowf. rewrite rsum_scat by auto. apply rsum_ext. intros l Hl. rewrite HrHr_R, hr_pick by auto. reflexivity.
Qed.
Variables (ta tr : R).
Hypothesis (Hta : 0 < ta) (Htr : 0 < tr).
Definition sA (A : list nat) (Hi : mat) (gc : option R) : nat -> R := scand_add (N:=RNum) n m a C 0 ta (phiS A Hi) (deltaS A Hi) A gc.
Definition sR (A : list nat) (Hi : mat) (gc : option R) : nat -> R := scand_rem (N:=RNum) m 0 tr (phiS A Hi) (deltaS A Hi) gc.
Lemma sA_eq : forall A Hi gc i, NoDup A -> bounded NM A -> (i < NM)%nat ->
  sA A Hi gc i = let v := if inl A i then 0 else alS A Hi i / beS A Hi i in match gc with None => v | Some g => if Rltb (g - ta * g) v then 0 else v end.
Proof.
  intros A Hi gc i ND HB Hi'. unfold sA, scand_add. cbv zeta. rewrite !nsum_R, Hra_R by auto. cbn [nsub nadd ndiv nmul nltb n0 RNum].
  change (rsum (length A) (fun l => nmul (n:=RNum) (HrHr n m i (at_ A l)) (phiS A Hi (m + l)%nat))) with (rsum (length A) (fun l => HrHr (N:=RNum) n m i (at_ A l) * (fun l => phiS A Hi (m + l)%nat) l)).
  change (rsum (length A) (fun l => nmul (n:=RNum) (HrHr n m i (at_ A l)) (deltaS A Hi (m + l)%nat))) with (rsum (length A) (fun l => HrHr (N:=RNum) n m i (at_ A l) * (fun l => deltaS A Hi (m + l)%nat) l)).
  rewrite !row_dot by auto. rewrite !hc_pick. unfold alS, beS. rewrite Rplus_0_r. reflexivity.
Qed.
Lemma sR_eq : forall A Hi gc l, sR A Hi gc l = let v := phiS A Hi (m + l)%nat / deltaS A Hi (m + l)%nat in match gc with None => v | Some g => if Rleb ((1 - tr) * g) v then 0 else v end.
Proof. intros. unfold sR, scand_rem. cbv zeta. cbn [nsub nadd ndiv nmul nleb n0 n1 RNum]. rewrite Rminus_0_r. reflexivity. Qed.
Definition below (g : R) (gc : option R) : Prop := match gc with None => True | Some c => g < c end.
Definition posg (gc : option R) : Prop := match gc with None => True | Some c => 0 < c end.
Lemma sA_lt : forall A Hi gc i, NoDup A -> bounded NM A -> (i < NM)%nat -> posg gc -> below (sA A Hi gc i) gc.
Proof. intros A Hi gc i ND HB Hi' Hg. rewrite sA_eq by auto. destruct gc as [g|]; [|exact I]. cbv zeta. cbn in *. destruct (Rltb _ _) eqn:E; [lra|]. apply Rltb_false in E. assert (0 < ta * g) by (apply Rmult_lt_0_compat; lra). lra. Qed.
Lemma sR_lt : forall A Hi gc i, posg gc -> below (sR A Hi gc i) gc.
Proof. intros A Hi gc i Hg. rewrite sR_eq. destruct gc as [g|]; [|exact I]. cbv zeta. cbn in *. destruct (Rleb _ _) eqn:E; [lra|]. apply Rleb_false in E. assert (0 < tr * g) by (apply Rmult_lt_0_compat; lra). lra. Qed.
Lemma sA_in : forall A Hi gc i, NoDup A -> bounded NM A -> In i A -> sA A Hi gc i = 0.
Proof. intros A Hi gc i ND HB Hin. rewrite sA_eq by auto. cbv zeta. rewrite (proj2 (inl_true A i)) by auto. destruct gc; [|reflexivity]. destruct (Rltb _ _); reflexivity. Qed.
Lemma sA_root : forall A Hi gc i, NoDup A -> bounded NM A -> (i < NM)%nat -> 0 < sA A Hi gc i -> ~ In i A /\ beS A Hi i <> 0 /\ alS A Hi i = sA A Hi gc i * beS A Hi i.
Proof.
  intros A Hi gc i ND HB Hi' Hp. assert (Hni : ~ In i A) by (intros F; rewrite sA_in in Hp by auto; lra). split; auto.
  rewrite sA_eq in * by auto. cbv zeta in *. destruct (inl A i) eqn:E; [exfalso; apply Hni, inl_true; auto|].
  assert (Hb : beS A Hi i <> 0). { intros Z. rewrite Z in Hp. unfold Rdiv in Hp. rewrite Rinv_0, Rmult_0_r in Hp. destruct gc; [destruct (Rltb _ _); lra|lra]. }
  split; auto. destruct gc; [destruct (Rltb _ _); [lra|]|]; field; auto.
Qed.
Lemma sR_root : forall A Hi gc l, 0 < sR A Hi gc l -> deltaS A Hi (m + l)%nat <> 0 /\ phiS A Hi (m + l)%nat = sR A Hi gc l * deltaS A Hi (m + l)%nat.
Proof.
  intros A Hi gc l Hp. rewrite sR_eq in *. cbv zeta in *.
  assert (Hb : deltaS A Hi (m + l)%nat <> 0). { intros Z. rewrite Z in Hp. unfold Rdiv in Hp. rewrite Rinv_0, Rmult_0_r in Hp. destruct gc; [destruct (Rleb _ _); lra|lra]. }
  split; auto. destruct gc; [destruct (Rleb _ _); [lra|]|]; field; auto.
Qed.
(** ** the two updates *)
Definition addc (A : list nat) (i : nat) : vec := fun q => if Nat.ltb q m then hc q i else HrHr (N:=RNum) n m (at_ A (q - m)) i.
Lemma unit_col : forall i, (i < NM)%nat -> rsum n (fun r => hr r i * hr r i) = 1.
Proof. intros. rewrite hr_pick by auto. rewrite hrR, Nat.eqb_refl. reflexivity. Qed.
Lemma addc_ncol : forall A i q, addc A i q = ncol m n (UA A) (fun j => hc j i) (fun r => hr r i) q.
Proof. intros. unfold addc, ncol, UA. destruct (q <? m)%nat; [reflexivity|]. apply HrHr_R. Qed.
Lemma addc_piv : forall A Hi gc i, sact A Hi -> (i < NM)%nat -> 0 < sA A Hi gc i ->
  1 - rsum (m + length A) (fun j => addc A i j * rsum (m + length A) (fun l => Hi j l * addc A i l)) <> 0.
Proof.
  intros A Hi gc i HA Hi' Hp Z. pose proof HA as (ND & HB & HI & HS). destruct (sA_root A Hi gc i ND HB Hi' Hp) as (Hni & Hb & Ea).
  set (nc := ncol m n (UA A) (fun j => hc j i) (fun r => hr r i)).
  assert (Z' : 1 - rsum (m + length A) (fun q => nc q * app m (length A) Hi nc q) = 0).
  { rewrite <- Z. f_equal. apply rsum_ext. intros q _. rewrite addc_ncol. fold nc. f_equal. unfold app. apply rsum_ext. intros l _. rewrite addc_ncol. reflexivity. }
  destruct (tgs_sol A Hi 0 HA) as (S1 & S2 & S3).
  assert (Q := piv_add_zero m (length A) n (VA A) (UA A) Hi (sact_K A Hi HA) HS (fun j => hc j i) (fun r => hr r i) (unit_col i Hi') (xg A Hi 0) a Z').
  cbv beta in Q. rewrite (hr_pick i a), (hr_pick i (Ux m (length A) (UA A) (xg A Hi 0))) in Q by auto. rewrite (hc_pick i (xg A Hi 0)) in Q. rewrite Ux_scat in Q by auto.
  assert (AL : alS A Hi i = 0).
  { assert (R0 := reds_aff A Hi 0 i). rewrite Rmult_0_l, Rminus_0_r in R0. rewrite <- R0. unfold reds, tgs. rewrite Rmult_0_l, Rplus_0_l. apply Q.
    intros l Hl. rewrite app_bot_A by auto. unfold UA. rewrite hr_pick by (apply HB, at_in; auto). assert (S3' := S3 (at_ A l) (at_in A l Hl)). unfold reds, tgs in S3'. lra. }
  rewrite AL in Ea. symmetry in Ea. apply Rmult_integral in Ea. destruct Ea; [lra|auto].
Qed.
Lemma sact_add : forall A Hi gc i pop, sact A Hi -> (i < NM)%nat -> 0 < sA A Hi gc i ->
  sact (A ++ [i]) (complement_schur (N:=RNum) (m + length A) Hi (Some (addc A i)) 1 pop).
Proof.
  intros A Hi gc i pop HA Hi' Hp. pose proof (addc_piv A Hi gc i HA Hi' Hp) as Hs. pose proof HA as (ND & HB & HI & HS). destruct (sA_root A Hi gc i ND HB Hi' Hp) as (Hni & _ & _).
  split; [apply NoDup_snoc; auto|]. split; [intros k Hk; apply in_app_iff in Hk; destruct Hk as [Hk|[<-|[]]]; auto|].
  rewrite app_length. cbn [length]. rewrite Nat.add_1_r, Nat.add_succ_r. cbn [complement_schur].
  destruct (schur_add_inverse (m + length A) Hi (augR A) (addc A i) 1) as [I1 I2]; auto; try lia.
  split; auto. eapply inverse_ext; [|exact I1]. intros p q Hp' Hq'. unfold border, aug, addc.
  destruct (Nat.ltb_spec p (m + length A)), (Nat.ltb_spec q (m + length A)).
  - destruct (Nat.ltb_spec p m), (Nat.ltb_spec q m); rewrite ?at_app1 by lia; reflexivity.
  - replace q with (m + length A)%nat by lia. rewrite ltb_add. replace (m + length A - m)%nat with (length A) by lia. rewrite (at_app2 1 Nat.lt_0_1). destruct (Nat.ltb_spec p m); [reflexivity|]. rewrite at_app1 by lia. reflexivity.
  - replace p with (m + length A)%nat by lia. rewrite ltb_add. replace (m + length A - m)%nat with (length A) by lia. rewrite (at_app2 1 Nat.lt_0_1). destruct (Nat.ltb_spec q m); [reflexivity|]. rewrite at_app1 by lia. rewrite !HrHr_R. apply rsum_ext. intros; ring.
  - replace p with (m + length A)%nat by lia. replace q with (m + length A)%nat by lia. rewrite ltb_add. replace (m + length A - m)%nat with (length A) by lia. rewrite (at_app2 1 Nat.lt_0_1), HrHr_R, unit_col by auto. reflexivity.
Qed.
Lemma rem_piv : forall A Hi gc p, sact A Hi -> (p < length A)%nat -> 0 < sR A Hi gc p -> Hi (m + p)%nat (m + p)%nat <> 0.
Proof.
  intros A Hi gc p HA Hp Hpos Z. destruct (sR_root A Hi gc p Hpos) as (Hd & _). apply Hd. pose proof HA as (ND & HB & HI & HS).
  unfold deltaS, sdelta. rewrite nsum_R. apply rsum_0. intros l Hl. cbn [nmul RNum]. rewrite HS by lia.
  rewrite (piv_rem m (length A) n (VA A) (UA A) Hi (sact_K A Hi HA) HS p Hp Z l Hl). ring.
Qed.
Lemma sact_rem : forall A Hi gc p d k, sact A Hi -> (p < length A)%nat -> 0 < sR A Hi gc p -> sact (remove_at p A) (complement_schur (N:=RNum) k Hi None d (p + m)).
Proof.
  intros A Hi gc p d k HA Hp Hpos. pose proof (rem_piv A Hi gc p HA Hp Hpos) as Hpp. destruct HA as (ND & HB & HI & HS). cbn [complement_schur].
  split; [apply remove_at_nodup; auto|]. split; [intros j Hj; apply remove_at_in in Hj; auto; apply HB; tauto|].
  rewrite remove_at_length by auto. destruct (length A) as [|k'] eqn:E; [lia|]. replace (S k' - 1)%nat with k' by lia. rewrite Nat.add_succ_r in *. rewrite (Nat.add_comm p m).
  destruct (schur_remove_inverse (m + k') Hi (augR A) (m + p)) as [I1 I2]; auto; try lia.
  split; auto. eapply inverse_ext; [|exact I1]. intros r q Hr Hq. unfold minor, aug.
  assert (SK : forall x, (x < m + k')%nat -> (skip (m + p) x <? m)%nat = (x <? m)%nat /\ ((x <? m)%nat = true -> skip (m + p) x = x) /\ ((x <? m)%nat = false -> (skip (m + p) x - m)%nat = skip p (x - m) /\ at_ (remove_at p A) (x - m) = at_ A (skip p (x - m)))).
  { intros x Hx. unfold skip. destruct (Nat.ltb_spec x m) as [L|L].
    - rewrite (ltb_t x (m + p)) by lia. split; [apply ltb_t; auto|]. split; [auto|discriminate].
    - split; [|split; [discriminate|]].
      + destruct (Nat.ltb_spec x (m + p)); apply Nat.ltb_ge; lia.
      + intros _. split; [destruct (Nat.ltb_spec x (m + p)), (Nat.ltb_spec (x - m) p); lia|]. change (if (x - m <? p)%nat then (x - m)%nat else S (x - m)) with (skip p (x - m)). apply remove_at_nth; lia. }
  destruct (SK r Hr) as (R1 & R2 & R3), (SK q Hq) as (Q1 & Q2 & Q3). rewrite R1, Q1.
  destruct (r <? m)%nat, (q <? m)%nat; try reflexivity.
  - rewrite R2 by auto. destruct (Q3 eq_refl) as (-> & ->). reflexivity.
  - rewrite Q2 by auto. destruct (R3 eq_refl) as (-> & ->). reflexivity.
  - destruct (R3 eq_refl) as (-> & ->). destruct (Q3 eq_refl) as (-> & ->). reflexivity.
Qed.

(** ** exchanging one cell *)
Lemma exchange : forall A Hi g u t p, sact A Hi -> (p < length A)%nat -> (forall k, (k < NM)%nat -> ~ In k A -> t k = 0) -> (forall j, (j < m)%nat -> colf t j = b j) ->
  t (at_ A p) = 0 -> (forall k, In k A -> k <> at_ A p -> reds g u t k = 0) -> tgs A Hi g (at_ A p) = - (reds g u t (at_ A p) * Hi (m + p)%nat (m + p)%nat).
Proof.
  intros A Hi g u t p HA Hp S1 S2 T0 S3. pose proof (sact_K A Hi HA) as HK. pose proof HA as (ND & HB & HI & HS).
  set (x := fun q => if Nat.ltb q m then u q else t (at_ A (q - m))).
  assert (Ex : forall k, (k < NM)%nat -> scat A (fun l => x (m + l)%nat) k = t k).
  { intros k Hk. destruct (in_dec Nat.eq_dec k A) as [Hin|Hnk]; [|rewrite scat_out, S1 by auto; reflexivity]. destruct (in_at A k Hin) as (l & Hl & <-). rewrite scat_at by auto. unfold x. rewrite ltb_add. replace (m + l - m)%nat with l by lia. reflexivity. }
  set (r := reds g u t (at_ A p)).
  assert (KX : forall q, (q < m + length A)%nat -> app m (length A) (Ksad m n (VA A) (UA A)) x q = rg A g q + (if Nat.eqb q (m + p) then r else 0)).
  { intros q Hq. unfold rg. destruct (Nat.ltb_spec q m) as [L|L].
    - rewrite app_top by auto. rewrite Vx_scat by auto. rewrite (colf_ext _ t) by auto. replace (q =? m + p)%nat with false by (symmetry; apply Nat.eqb_neq; lia). rewrite S2 by auto. ring.
    - replace q with (m + (q - m))%nat at 1 by lia. rewrite app_bot_A by (auto; lia). rewrite (rowf_ext _ t) by auto. unfold x at 1. rewrite (ltb_t _ m (mod_b _)).
      destruct (Nat.eqb_spec q (m + p)) as [->|Hne].
      + replace (m + p - m)%nat with p by lia. unfold r, reds. ring.
      + assert (Hin : In (at_ A (q - m)) A) by (apply at_in; lia). assert (Hd : at_ A (q - m) <> at_ A p) by (intros F; apply at_inj in F; auto; lia). specialize (S3 _ Hin Hd). unfold reds in S3. lra. }
  assert (E := inv_left m (length A) n (VA A) (UA A) Hi HK x (m + p)%nat ltac:(lia)).
  unfold app in E at 1. rewrite (rsum_ext _ _ (fun q => Hi (m + p)%nat q * rg A g q + (if Nat.eqb q (m + p) then Hi (m + p)%nat q * r else 0))) in E.
  2:{ intros q Hq. rewrite KX by auto. destruct (Nat.eqb q (m + p)); ring. }
  rewrite rsum_plus, (rsum_delta_mul _ (m + p)%nat (fun q => Hi (m + p)%nat q * r)) in E by lia.
  change (rsum (m + length A) (fun q => Hi (m + p)%nat q * rg A g q)) with (app m (length A) Hi (rg A g) (m + p)%nat) in E. rewrite <- xg_app in E by auto.
  assert (Exp : x (m + p)%nat = 0) by (unfold x; rewrite ltb_add; replace (m + p - m)%nat with p by lia; exact T0).
  unfold tgs. rewrite scat_at by auto. fold r. lra.
Qed.
(** the plan does not move when the active set changes *)
Definition same (t t' : vec) : Prop := forall k, (k < NM)%nat -> t k = t' k.
Lemma reds_ext : forall g u t u' t' k, (k < NM)%nat -> same t t' -> (forall j, (j < m)%nat -> u j = u' j) -> reds g u t k = reds g u' t' k.
Proof. intros g u t u' t' k Hk Et Eu. unfold reds. rewrite (rowf_ext t t') by auto. rewrite Eu by apply mod_b. reflexivity. Qed.
Lemma cont_add : forall A Hi gc i pop, sact A Hi -> (i < NM)%nat -> 0 < sA A Hi gc i -> let Hi' := complement_schur (N:=RNum) (m + length A) Hi (Some (addc A i)) 1 pop in let g' := sA A Hi gc i in
  same (tgs A Hi g') (tgs (A ++ [i]) Hi' g') /\ (forall j, (j < m)%nat -> xg A Hi g' j = xg (A ++ [i]) Hi' g' j).
Proof.
  intros A Hi gc i pop HA Hi' Hp Hj g'. pose proof HA as (ND & HB & _). destruct (sA_root A Hi gc i ND HB Hi' Hp) as (Hni & Hb & Ea). fold g' in Ea.
  destruct (tgs_sol A Hi g' HA) as (S1 & S2 & S3). apply (ssol_unique (A ++ [i]) Hj g' (xg A Hi g') (tgs A Hi g') (sact_add A Hi gc i pop HA Hi' Hp)).
  split; [intros k Hk Hnk; apply S1; auto; intros F; apply Hnk, in_app_iff; auto|]. split; [exact S2|].
  intros k Hk. apply in_app_iff in Hk. destruct Hk as [Hk|[<-|[]]]; [auto|]. rewrite reds_aff, Ea. ring.
Qed.
Lemma tgs_at : forall A Hi g l, NoDup A -> (l < length A)%nat -> tgs A Hi g (at_ A l) = phiS A Hi (m + l)%nat - g * deltaS A Hi (m + l)%nat.
Proof. intros. apply (scat_at A (fun l => xg A Hi g (m + l)%nat)); auto. Qed.
Lemma cont_rem : forall A Hi gc p k0, sact A Hi -> (p < length A)%nat -> 0 < sR A Hi gc p -> let Hi' := complement_schur (N:=RNum) k0 Hi None 1 (p + m) in let g' := sR A Hi gc p in
  same (tgs A Hi g') (tgs (remove_at p A) Hi' g') /\ (forall j, (j < m)%nat -> xg A Hi g' j = xg (remove_at p A) Hi' g' j) /\ tgs A Hi g' (at_ A p) = 0.
Proof.
  intros A Hi gc p k0 HA Hp Hpos Hj g'. pose proof HA as (ND & HB & _). destruct (sR_root A Hi gc p Hpos) as (Hd & Ea). fold g' in Ea.
  assert (T0 : tgs A Hi g' (at_ A p) = 0) by (rewrite tgs_at, Ea by auto; ring).
  destruct (tgs_sol A Hi g' HA) as (S1 & S2 & S3). rewrite <- and_assoc. split; [|exact T0]. apply (ssol_unique (remove_at p A) Hj g' (xg A Hi g') (tgs A Hi g') (sact_rem A Hi gc p 1 k0 HA Hp Hpos)).
  split; [|split; [exact S2|intros k Hk; apply S3; apply remove_at_in in Hk; tauto]].
  intros k Hk Hnk. destruct (in_dec Nat.eq_dec k A) as [Hin|Hnin]; [|auto]. destruct (Nat.eq_dec k (at_ A p)) as [->|Hne]; [exact T0|]. exfalso. apply Hnk. apply remove_at_in; auto.
Qed.
Lemma sact_nonempty : forall A Hi, sact A Hi -> (0 < length A)%nat.
Proof.
  intros A Hi (_ & _ & HI & _). destruct A; [|cbn; lia]. exfalso. specialize (HI 0%nat 0%nat). cbn [length] in HI. rewrite Nat.add_0_r in HI. specialize (HI Hm Hm). rewrite Nat.eqb_refl in HI.
  rewrite rsum_0 in HI; [lra|]. intros l Hl. unfold aug. rewrite (ltb_t l m Hl), (ltb_t 0 m Hm). cbn. ring.
Qed.
Lemma sstep_cases : forall A Hi gc, posg gc -> NoDup A -> bounded NM A -> (0 < length A)%nat -> exists g' A' add' pop',
  sstep (N:=RNum) n m a b C 0 ta tr A Hi gc = (g', tgs A Hi g', A', add', pop') /\ (forall i, (i < NM)%nat -> sA A Hi gc i <= g') /\ (forall l, (l < length A)%nat -> sR A Hi gc l <= g') /\ 0 <= g' /\ below g' gc /\ ((exists i, (i < NM)%nat /\ g' = sA A Hi gc i /\ A' = A ++ [i] /\ add' = Some (addc A i)) \/
   (0 < g' /\ (pop' < length A)%nat /\ g' = sR A Hi gc pop' /\ A' = remove_at pop' A /\ add' = None)).
Proof.
  intros A Hi gc Hg ND HB Hk. assert (HNM : (0 < NM)%nat) by nia. set (ik := argmaxk (N:=RNum) (NM - 1) (sA A Hi gc)). set (pop := argmaxk (N:=RNum) (length A - 1) (sR A Hi gc)).
  assert (Bik : (ik < NM)%nat). { assert (ik <= NM - 1)%nat by (apply (argmaxk_le 1 1); lia). lia. }
  assert (Bpop : (pop < length A)%nat). { assert (pop <= length A - 1)%nat by (apply (argmaxk_le 1 1); lia). lia. }
  assert (Mik : forall i, (i < NM)%nat -> sA A Hi gc i <= sA A Hi gc ik) by (intros; apply (argmaxk_max 1 1); lia).
  assert (Mpop : forall l, (l < length A)%nat -> sR A Hi gc l <= sR A Hi gc pop) by (intros; apply (argmaxk_max 1 1); lia).
  assert (Nik : 0 <= sA A Hi gc ik).
  { rewrite <- (sA_in A Hi gc (at_ A 0)) by (auto; apply at_in; auto). apply Mik. apply HB, at_in; auto. }
  set (g' := if Rltb (sA A Hi gc ik) (sR A Hi gc pop) then sR A Hi gc pop else sA A Hi gc ik).
  assert (E : sstep (N:=RNum) n m a b C 0 ta tr A Hi gc = if Rltb (sA A Hi gc ik) (sR A Hi gc pop) then (g', tgs A Hi g', remove_at pop A, None, pop) else (g', tgs A Hi g', A ++ [ik], Some (addc A ik), pop)) by reflexivity.
  destruct (Rltb (sA A Hi gc ik) (sR A Hi gc pop)) eqn:F.
  - apply Rltb_true in F. exists g', (remove_at pop A), None, pop. split; [exact E|]. unfold g'. split; [intros i Hi'; specialize (Mik i Hi'); lra|]. split; [auto|]. split; [lra|]. split; [apply sR_lt; auto|].
    right. split; [lra|]. auto.
  - apply Rltb_false in F. exists g', (A ++ [ik]), (Some (addc A ik)), pop. split; [exact E|]. unfold g'. split; [auto|]. split; [intros l Hl; specialize (Mpop l Hl); lra|]. split; [lra|]. split; [apply sA_lt; auto|].
    left. exists ik. auto.
Qed.
Lemma supdate : forall A Hi gc g' A' add' pop', sact A Hi -> 0 < g' ->
  ((exists i, (i < NM)%nat /\ g' = sA A Hi gc i /\ A' = A ++ [i] /\ add' = Some (addc A i)) \/
   (0 < g' /\ (pop' < length A)%nat /\ g' = sR A Hi gc pop' /\ A' = remove_at pop' A /\ add' = None)) ->
  let Hi' := complement_schur (N:=RNum) (m + length A) Hi add' 1 (pop' + m) in
  sact A' Hi' /\ same (tgs A Hi g') (tgs A' Hi' g') /\ (forall j, (j < m)%nat -> xg A Hi g' j = xg A' Hi' g' j).
Proof.
  intros A Hi gc g' A' add' pop' HA Hg [(i & Hi' & Eg & -> & ->)|(_ & Hp & Eg & -> & ->)] Hj; subst g'.
  - split; [apply (sact_add A Hi gc); auto|]. apply (cont_add A Hi gc); auto.
  - split; [apply (sact_rem A Hi gc); auto|]. destruct (cont_rem A Hi gc pop' (m + length A) HA Hp Hg) as (S1 & S2 & _). split; auto.
Qed.

(** ** every breakpoint is stationary *)
Variable reg : R.
Hypothesis Hreg : 0 <= reg.
Notation corr := (corr reg).
Definition segS (x y : R * vec) : Prop := reg < fst x /\ fst y < fst x /\ exists A Hi, sact A Hi /\ same (snd x) (tgs A Hi (fst x)) /\ same (snd y) (tgs A Hi (fst y)).
Definition segsS (p : list (R * vec)) : Prop := forall x y, In (x, y) (pairs p) -> segS x y.
Lemma segsS_cons : forall x y l, segS x y -> segsS (y :: l) -> segsS (x :: y :: l).
Proof. intros x y l H1 H2 u v Hin. rewrite pairs_cons in Hin. destruct Hin as [E|Hin]; [injection E as <- <-; exact H1|]. apply H2; auto. Qed.
Notation loopR := (sloop (N:=RNum) n m a b C 0 ta tr).
Lemma sloop_stop : forall left A k Hi add pop g, g <= reg -> loopR left reg A k Hi add pop g = [].
Proof. intros left A k Hi add pop g Hg. destruct left; cbn [sloop]; auto. cbn [nltb RNum]. replace (Rltb reg g) with false; auto. symmetry. apply Rltb_false. lra. Qed.
Lemma sloop_stat : forall left A k Hi add pop g t, let Hi' := complement_schur (N:=RNum) k Hi add 1 (pop + m) in
  (reg < g -> sact A Hi' /\ same t (tgs A Hi' g)) -> segsS ((g, t) :: loopR left reg A k Hi add pop g).
Proof.
  induction left as [|left IH]; intros A k Hi add pop g t Hi' Hyp; [intros ? ? []|]. destruct (Rle_dec g reg) as [L|L]; [rewrite sloop_stop by auto; intros ? ? []|].
  assert (Hgt : reg < g) by lra. destruct (Hyp Hgt) as (HA & Et). pose proof HA as (ND & HB & _). assert (Hgc : posg (Some g)) by (cbn; lra).
  destruct (sstep_cases A Hi' (Some g) Hgc ND HB (sact_nonempty A Hi' HA)) as (g' & A' & add' & pop' & Estep & _ & _ & Hg0 & Hlt & Cases).
  assert (EL : loopR (S left) reg A k Hi add pop g = (g', tgs A Hi' g') :: loopR left reg A' (m + length A) Hi' add' pop' g').
  { transitivity (if Rltb reg g then (let '(g', sol, A', add', pop') := sstep (N:=RNum) n m a b C 0 ta tr A Hi' (Some g) in (g', sol) :: loopR left reg A' (m + length A) Hi' add' pop' g') else []); [reflexivity|].
    rewrite (proj2 (Rltb_true reg g) Hgt), Estep. reflexivity. }
  rewrite EL. apply segsS_cons.
  - split; [exact Hgt|]. split; [exact Hlt|]. exists A, Hi'. split; [exact HA|]. split; [exact Et|]. intros j _. reflexivity.
  - apply IH. intros Hr. destruct (supdate A Hi' (Some g) g' A' add' pop' HA ltac:(lra) Cases) as (U1 & U2 & _). split; auto.
Qed.

(** ** the starting set: the cheapest cell of every column *)
Notation A0 := (active0 (N:=RNum) n m C).
Definition imin (j : nat) : nat := argmaxk (N:=RNum) (n - 1) (fun i => nopp (N:=RNum) (C i j)).
Lemma imin_lt : forall j, (imin j < n)%nat.
Proof. intros. assert (imin j <= n - 1)%nat by (apply (argmaxk_le 1 1); lia). lia. Qed.
Lemma imin_le : forall i j, (i < n)%nat -> C (imin j) j <= C i j.
Proof. intros i j Hi. assert (Q : 0 - C i j <= 0 - C (imin j) j) by exact (argmaxk_max 1 1 ltac:(lia) ltac:(lia) (n - 1) (fun i => nopp (N:=RNum) (C i j)) i ltac:(lia)). lra. Qed.
Lemma A0_len : length A0 = m. Proof. unfold active0. rewrite map_length, seq_length. reflexivity. Qed.
Lemma A0_at : forall l, (l < m)%nat -> at_ A0 l = (imin l * m + l)%nat.
Proof.
  intros l Hl. unfold at_, active0. rewrite (nth_indep _ 0%nat ((fun j => argmaxk (N:=RNum) (n - 1) (fun i => nopp (N:=RNum) (C i j)) * m + j)%nat 0%nat)) by (rewrite map_length, seq_length; auto).
  rewrite (map_nth (fun j => (argmaxk (N:=RNum) (n - 1) (fun i => nopp (N:=RNum) (C i j)) * m + j)%nat)). rewrite seq_nth by auto. reflexivity.
Qed.
Lemma A0_mod : forall l, (l < m)%nat -> (at_ A0 l mod m = l)%nat.
Proof. intros l Hl. rewrite A0_at by auto. apply (cell_div m (imin l) l Hl). Qed.
Lemma A0_bounded : bounded NM A0.
Proof. intros k Hk. destruct (in_at _ k Hk) as (l & Hl & <-). rewrite A0_len in Hl. rewrite A0_at by auto. apply cell_lt; auto. apply imin_lt. Qed.
Lemma A0_nodup : NoDup A0.
Proof.
  apply (NoDup_nth A0 0%nat). intros i j Hi Hj E. rewrite A0_len in Hi, Hj. change (at_ A0 i = at_ A0 j) in E. rewrite <- (A0_mod i Hi), <- (A0_mod j Hj), E. reflexivity.
Qed.
Definition dl (p q : nat) : R := if Nat.eqb p q then 1 else 0.
Definition W0 : mat := fun p q => if Nat.ltb p m then (if Nat.ltb q m then - HrHr (N:=RNum) n m (at_ A0 p) (at_ A0 q) else dl p (q - m)) else (if Nat.ltb q m then dl (p - m) q else 0).
Lemma hc_A0 : forall j l, (l < m)%nat -> hc j (at_ A0 l) = dl l j.
Proof. intros j l Hl. rewrite hcR, A0_mod by auto. reflexivity. Qed.
Lemma dl_sum : forall p (f : vec), (p < m)%nat -> rsum m (fun s => dl p s * f s) = f p.
Proof. intros p f Hp. rewrite (rsum_ext m _ (fun s => if Nat.eqb s p then f s else 0)); [apply rsum_delta_mul; auto|]. intros s _. unfold dl. rewrite Nat.eqb_sym. destruct (Nat.eqb s p); ring. Qed.
Lemma dl_sum' : forall p (f : vec), (p < m)%nat -> rsum m (fun s => f s * dl p s) = f p.
Proof. intros. rewrite <- (dl_sum p f) by auto. apply rsum_ext. intros; ring. Qed.
Lemma dl_sym : forall p q, dl p q = dl q p. Proof. intros. unfold dl. rewrite Nat.eqb_sym. reflexivity. Qed.
Lemma W0_inverse : inverse (m + length A0) W0 (augR A0).
Proof.
  rewrite A0_len. intros p q Hp Hq. rewrite rsum_split. unfold W0, aug. destruct (Nat.ltb_spec p m) as [P|P], (Nat.ltb_spec q m) as [Q|Q].
  - rewrite (rsum_0 m); [|intros s Hs; rewrite (ltb_t s m Hs); cbn; ring]. rewrite (rsum_ext m _ (fun s => dl p s * dl s q)).
    + rewrite dl_sum by auto. unfold dl. ring.
    + intros s Hs. rewrite ltb_add. replace (m + s - m)%nat with s by lia. rewrite hc_A0 by auto. reflexivity.
  - rewrite (rsum_ext m _ (fun s => - HrHr (N:=RNum) n m (at_ A0 p) (at_ A0 s) * dl (q - m) s)) by (intros s Hs; rewrite (ltb_t s m Hs), hc_A0 by lia; reflexivity).
    rewrite (dl_sum' (q - m) (fun s => - HrHr (N:=RNum) n m (at_ A0 p) (at_ A0 s))) by lia.
    rewrite (rsum_ext m _ (fun s => dl p s * HrHr (N:=RNum) n m (at_ A0 s) (at_ A0 (q - m)))) by (intros s Hs; rewrite ltb_add; replace (m + s - m)%nat with s by lia; reflexivity).
    rewrite (dl_sum p (fun s => HrHr (N:=RNum) n m (at_ A0 s) (at_ A0 (q - m)))) by lia. replace (p =? q)%nat with false by (symmetry; apply Nat.eqb_neq; lia). ring.
  - rewrite !(rsum_0 m); [replace (p =? q)%nat with false by (symmetry; apply Nat.eqb_neq; lia); ring| |].
    + intros s Hs. rewrite ltb_add. ring.
    + intros s Hs. rewrite (ltb_t s m Hs). cbn. ring.
  - rewrite (rsum_0 m (fun i => (if (m + i <? m)%nat then _ else _) * _)) by (intros s Hs; rewrite ltb_add; ring).
    rewrite (rsum_ext m _ (fun s => dl (p - m) s * dl (q - m) s)) by (intros s Hs; rewrite (ltb_t s m Hs), hc_A0 by lia; reflexivity).
    rewrite dl_sum by lia. unfold dl. destruct (Nat.eqb_spec (q - m) (p - m)), (Nat.eqb_spec p q); try lia; ring.
Qed.
Lemma W0_sym : sym (m + length A0) W0.
Proof.
  intros p q _ _. unfold W0. destruct (p <? m)%nat, (q <? m)%nat; try apply dl_sym; auto. rewrite !HrHr_R. f_equal. apply rsum_ext. intros; ring.
Qed.
Lemma inverse_unique : forall k (H W K : mat), inverse k H K -> inverse k W K -> sym k W -> (forall p q, K p q = K q p) -> forall p q, (p < k)%nat -> (q < k)%nat -> H p q = W p q.
Proof.
  intros k H W K IH IW SW SK p q Hp Hq.
  assert (E1 : rsum k (fun s => H p s * rsum k (fun r => K s r * W r q)) = H p q).
  { rewrite (rsum_ext k _ (fun s => if Nat.eqb s q then H p s else 0)); [apply rsum_delta_mul; auto|]. intros s Hs.
    rewrite (rsum_ext k _ (fun r => W q r * K r s)) by (intros r Hr; rewrite SK, (SW r q) by auto; ring). rewrite (IW q s) by auto. rewrite Nat.eqb_sym. destruct (Nat.eqb s q); ring. }
  rewrite <- E1. rewrite (rsum_ext k _ (fun s => rsum k (fun r => H p s * K s r * W r q))) by (intros; rewrite <- rsum_scal; apply rsum_ext; intros; ring).
  rewrite rsum_swap. rewrite (rsum_ext k _ (fun r => if Nat.eqb r p then W r q else 0)); [apply (rsum_delta_mul k p (fun r => W r q)); auto|].
  intros r Hr. rewrite rsum_scal_r, (IH p r) by auto. rewrite Nat.eqb_sym. destruct (Nat.eqb r p); ring.
Qed.
Lemma aug_sym : forall A p q, augR A p q = augR A q p.
Proof. intros. rewrite !aug_K. apply Ksad_sym. Qed.
Section Start.
Variable Hi0 : mat.
Hypothesis HI0 : inverse (m + length A0) Hi0 (augR A0).
Lemma Hi0_W : forall p q, (p < m + length A0)%nat -> (q < m + length A0)%nat -> Hi0 p q = W0 p q.
Proof. intros. apply (inverse_unique (m + length A0) Hi0 W0 (augR A0)); auto. apply W0_inverse. apply W0_sym. apply aug_sym. Qed.
Lemma sact0 : sact A0 Hi0.
Proof.
  split; [apply A0_nodup|]. split; [apply A0_bounded|]. split; [exact HI0|]. intros p q Hp Hq. rewrite !Hi0_W by auto. apply W0_sym; auto.
Qed.
Lemma delta0_bot : forall l, (l < m)%nat -> deltaS A0 Hi0 (m + l)%nat = 0.
Proof.
  intros l Hl. unfold deltaS, sdelta. rewrite nsum_R. apply rsum_0. intros q Hq. rewrite Hi0_W by (rewrite A0_len in *; lia). unfold W0. rewrite !ltb_add. cbn. ring.
Qed.
Lemma delta0_top : forall j, (j < m)%nat -> deltaS A0 Hi0 j = scR (at_ A0 j).
Proof.
  intros j Hj. unfold deltaS, sdelta. rewrite nsum_R. rewrite A0_len. rewrite (rsum_ext m _ (fun q => dl j q * scR (at_ A0 q))); [apply (dl_sum j (fun q => scR (at_ A0 q))); auto|].
  intros q Hq. rewrite Hi0_W by (rewrite A0_len; lia). unfold W0. rewrite ltb_add, (ltb_t j m Hj). replace (m + q - m)%nat with q by lia. reflexivity.
Qed.
Lemma tgs0_const : forall g g' k, tgs A0 Hi0 g k = tgs A0 Hi0 g' k.
Proof.
  intros g g' k. destruct (in_dec Nat.eq_dec k A0) as [Hin|Hnk]; [|unfold tgs; rewrite !scat_out by auto; reflexivity].
  destruct (in_at _ k Hin) as (l & Hl & <-). rewrite !tgs_at by (auto; apply A0_nodup). rewrite A0_len in Hl. rewrite delta0_bot by auto. ring.
Qed.
Lemma tgs0_val : forall g l, (l < m)%nat -> tgs A0 Hi0 g (at_ A0 l) = b l.
Proof.
  intros g l Hl. destruct (tgs_sol A0 Hi0 g sact0) as (_ & S2 & _). rewrite <- (S2 l Hl). unfold tgs at 2. unfold colf. rewrite rsum_scat by (apply A0_nodup || apply A0_bounded). rewrite A0_len.
  rewrite (rsum_ext m _ (fun q => dl l q * xg A0 Hi0 g (m + q)%nat)) by (intros q Hq; rewrite hc_A0, dl_sym by auto; reflexivity).
  rewrite (dl_sum l (fun q => xg A0 Hi0 g (m + q)%nat)) by auto. unfold tgs. rewrite scat_at by (try apply A0_nodup; rewrite A0_len; auto). reflexivity.
Qed.
Lemma beS0 : forall k, beS A0 Hi0 k = scR (at_ A0 (k mod m)) - scR k.
Proof.
  intros k. unfold beS. rewrite delta0_top by apply mod_b. unfold rowf. rewrite rsum_0; [ring|]. intros q Hq.
  replace (scat A0 (fun l => deltaS A0 Hi0 (m + l)%nat) q) with 0; [ring|]. symmetry. destruct (in_dec Nat.eq_dec q A0) as [Hin|Hnk]; [|apply scat_out; auto].
  destruct (in_at _ q Hin) as (l & Hl & <-). rewrite scat_at by (auto; apply A0_nodup). apply delta0_bot. rewrite A0_len in Hl. auto.
Qed.
End Start.

(** ** the whole path, stationarity *)
Variable inv : nat -> mat -> mat.
Hypothesis Hinv : inverse (m + length A0) (inv (m + length A0)%nat (augR A0)) (augR A0).
Definition Hi0 : mat := inv (m + length A0) (augR A0).
Lemma Hi0_inv : inverse (m + length A0) Hi0 (augR A0).
Proof. exact Hinv. Qed.
Notation rawR := (sraw (N:=RNum) n m a b C 0 ta tr inv reg).
(** a plan satisfying the constraint and stationary on its support *)
Definition stat (g : R) (t : vec) : Prop := (forall j, (j < m)%nat -> colf t j = b j) /\ exists u : vec, forall k, (k < NM)%nat -> t k <> 0 -> reds g u t k = 0.
Lemma stat_ext : forall g t t', same t t' -> stat g t -> stat g t'.
Proof.
  intros g t t' E (S1 & u & S2). split; [intros j Hj; rewrite <- (colf_ext t t') by auto; auto|]. exists u. intros k Hk Hn0. rewrite <- (reds_ext g u t u t' k Hk E) by auto. apply S2; auto. rewrite E; auto.
Qed.
Lemma tgs_stat : forall A Hi g, sact A Hi -> stat g (tgs A Hi g).
Proof.
  intros A Hi g HA. destruct (tgs_sol A Hi g HA) as (S1 & S2 & S3). split; [exact S2|]. exists (xg A Hi g). intros k Hk Hn0. apply S3. destruct (in_dec Nat.eq_dec k A); auto. exfalso. apply Hn0. auto.
Qed.
Lemma lerp_tgs : forall A Hi g1 t1 g2 t2, g2 <> g1 -> same t1 (tgs A Hi g1) -> same t2 (tgs A Hi g2) -> forall g, same (lerpR g1 t1 g2 t2 g) (tgs A Hi g).
Proof. intros A Hi g1 t1 g2 t2 Hne E1 E2 g j Hj. rewrite lerpR_eq, E1, E2 by auto. apply (lerp_aff (fun g => tgs A Hi g j)); auto. apply tgs_affine. Qed.
Lemma segS_stat : forall g1 t1 g2 t2 g, segS (g1, t1) (g2, t2) -> stat g (lerpR g1 t1 g2 t2 g).
Proof.
  intros g1 t1 g2 t2 g (_ & Hlt & A & Hi & HA & E1 & E2). cbn [fst snd] in *. apply (stat_ext g (tgs A Hi g)); [|apply tgs_stat; auto]. intros k Hk. symmetry. apply (lerp_tgs A Hi); auto. lra.
Qed.
Lemma segS_end : forall x g t, segS x (g, t) -> stat g t.
Proof. intros [g1 t1] g t HS. apply (stat_ext g (lerpR g1 t1 g t g)); [intros k _; apply lerp_end; destruct HS as (_ & Hlt & _); cbn in Hlt; lra|]. apply segS_stat; auto. Qed.
Lemma segsS_corr : forall p, segsS p -> segsS (corr p).
Proof.
  induction p as [|[g1 t1] p IH]; intros HS; [exact HS|]. destruct p as [|[g2 t2] p]; [intros ? ? []|].
  assert (H1 : segS (g1, t1) (g2, t2)) by (apply HS; left; reflexivity). assert (H2 : segsS ((g2, t2) :: p)) by (intros x y Hin; apply HS; rewrite pairs_cons; right; exact Hin).
  destruct p as [|w p].
  - rewrite corr2. intros x y [E|[]]. injection E as <- <-. destruct H1 as (Hr & Hlt & A & Hi & HA & E1 & E2). cbn [fst snd] in *. split; [exact Hr|]. split; [cbn; lra|]. exists A, Hi. cbn [fst snd]. split; [exact HA|]. split; [exact E1|]. apply lerp_tgs; auto. lra.
  - rewrite corr3. destruct (corr_head reg (g2, t2) w p) as (v & l' & Ec). specialize (IH H2). rewrite Ec in *. apply segsS_cons; auto.
Qed.
Lemma sraw_first : forall itmax, (1 < itmax)%nat -> exists g0 A' add' pop', rawR itmax = (g0, tgs A0 Hi0 g0) :: loopR (itmax - 2) reg A' (m + length A0) Hi0 add' pop' g0 /\
  (forall i, (i < NM)%nat -> sA A0 Hi0 None i <= g0) /\ 0 <= g0 /\
  ((exists i, (i < NM)%nat /\ g0 = sA A0 Hi0 None i /\ A' = A0 ++ [i] /\ add' = Some (addc A0 i)) \/
   (0 < g0 /\ (pop' < length A0)%nat /\ g0 = sR A0 Hi0 None pop' /\ A' = remove_at pop' A0 /\ add' = None)).
Proof.
  intros itmax Hit. destruct (sstep_cases A0 Hi0 None I A0_nodup A0_bounded ltac:(rewrite A0_len; auto)) as (g' & A' & add' & pop' & Estep & C1 & _ & Hg0 & _ & Cases).
  exists g', A', add', pop'. split; [|auto]. destruct itmax as [|[|it]]; try lia.
  transitivity (let '(g', sol, A', add', pop') := sstep (N:=RNum) n m a b C 0 ta tr A0 Hi0 (@None R) in (g', sol) :: loopR it reg A' (m + length A0) Hi0 add' pop' g'); [reflexivity|].
  rewrite Estep. replace (S (S it) - 2)%nat with it by lia. reflexivity.
Qed.
Lemma sraw_stat : forall itmax, (1 < itmax)%nat -> segsS (rawR itmax).
Proof.
  intros itmax Hit. destruct (sraw_first itmax Hit) as (g0 & A' & add' & pop' & -> & C1 & Hg0 & Cases). apply sloop_stat. intros Hr.
  destruct (supdate A0 Hi0 None g0 A' add' pop' (sact0 _ Hi0_inv) ltac:(lra) Cases) as (U1 & U2 & _). split; auto.
Qed.
Lemma segsS_decreasing : forall p, segsS p -> decreasing (map fst p).
Proof.
  induction p as [|[g1 t1] p IH]; intros S; [exact I|]. destruct p as [|[g2 t2] p]; [exact I|]. cbn [map fst decreasing]. split.
  - apply (S (g1, t1) (g2, t2)). left. reflexivity.
  - apply IH. intros a1 b1 Hin. apply S. rewrite pairs_cons. right. exact Hin.
Qed.
(** interpolation along a list of segments, for any property of (g, plan) *)
Lemma plan_gen : forall (P : R -> vec -> Prop) p g0 t0, decreasing (map fst ((g0, t0) :: p)) -> (forall g1 t1 g2 t2, In ((g1, t1), (g2, t2)) (pairs ((g0, t0) :: p)) -> (forall g, g2 <= g <= g1 -> P g (lerpR g1 t1 g2 t2 g)) /\ P g2 t2) ->
  fst (last p (g0, t0)) = reg -> (forall g, g0 <= g -> P g t0) -> forall g, reg <= g -> exists t, compute_transport_plan (N:=RNum) g ((g0, t0) :: p) = Some t /\ P g t.
Proof.
  intros P p g0 t0 D S El K0 g Hg. unfold compute_transport_plan. cbn [nleb RNum]. destruct (Rleb g0 g) eqn:E0.
  { apply Rleb_true in E0. exists t0. auto. }
  apply Rleb_false in E0. rewrite last_cons'. destruct (last p (g0, t0)) as [gl tl'] eqn:Elast. cbn [fst] in El. subst gl.
  assert (Hp : p <> []) by (intros ->; cbn in Elast; injection Elast as <- <-; lra).
  destruct (Rleb g reg) eqn:E1.
  - apply Rleb_true in E1. replace g with reg in * by lra. exists tl'. split; auto.
    destruct (pairs_last _ p (g0, t0) (g0, t0) Hp) as ([ga ta'] & Hin). rewrite Elast in Hin. apply (S _ _ _ _ Hin).
  - apply Rleb_false in E1. destruct (last_le_spec p g g0 t0 0 None D ltac:(lra)) as (k & ga & ta' & gb & tb & F1 & F2 & F3 & F4); [rewrite Elast; cbn [fst]; lra|].
    change (map fst ((g0, t0) :: p)) with (map (@fst R vec) ((g0, t0) :: p)) in F1. rewrite Nat.add_0_l in F1.
    match goal with |- context [last_le ?x ?l ?i ?b] => assert (F1' : last_le (N:=RNum) x l i b = Some k) by exact F1; rewrite F1' end.
    match goal with |- context [@nth_error ?T ?l k] => assert (F2' : @nth_error T l k = Some (ga, ta')) by exact F2; rewrite F2' end.
    match goal with |- context [@nth_error ?T ?l (Datatypes.S k)] => assert (F3' : @nth_error T l (Datatypes.S k) = Some (gb, tb)) by exact F3; rewrite F3' end.
    eexists. split; [reflexivity|]. apply (S ga ta' gb tb); [apply (pairs_nth _ _ k); auto|lra].
Qed.
Lemma stat0 : forall g g', stat g (tgs A0 Hi0 g').
Proof. intros g g'. apply (stat_ext g (tgs A0 Hi0 g)); [intros k _; apply tgs0_const; apply Hi0_inv|]. apply tgs_stat, sact0, Hi0_inv. Qed.
Lemma in_pairs : forall X (p : list X) z y, In y p -> exists x, In (x, y) (pairs (z :: p)).
Proof.
  intros X p. induction p as [|w p IH]; intros z y Hin; [destruct Hin|]. rewrite pairs_cons. destruct Hin as [->|Hin]; [eexists; left; reflexivity|]. destruct (IH w y Hin) as (x & Hx). exists x. right. exact Hx.
Qed.
Notation pathR := (semi_relaxed_path (N:=RNum) n m a b C 0 ta tr inv reg).
Theorem spath_stat : forall itmax p, pathR itmax = Some p -> decreasing (map fst p) /\ (forall d, fst (last p d) = reg) /\ (forall g t, In (g, t) p -> stat g t) /\
  (forall g, reg <= g -> exists t, compute_transport_plan (N:=RNum) g p = Some t /\ stat g t).
Proof.
  intros itmax p E. assert (Hit : (1 < itmax)%nat) by (destruct itmax as [|[|it]]; [discriminate E|discriminate E|lia]).
  pose proof (sraw_stat itmax Hit) as S0. destruct (sraw_first itmax Hit) as (g0 & A' & add' & pop' & Er & _ & _ & _).
  set (L := loopR (itmax - 2) reg A' (m + length A0) Hi0 add' pop' g0) in *.
  assert (Ep : p = corr ((g0, tgs A0 Hi0 g0) :: L)). { unfold semi_relaxed_path in E. rewrite Er in E. injection E as <-. reflexivity. }
  assert (S : segsS p) by (rewrite Ep; apply segsS_corr; rewrite <- Er; exact S0).
  assert (Last : forall d, fst (last p d) = reg) by (intros; rewrite Ep; apply corr_last; discriminate).
  assert (Hd : exists gh l, p = (gh, tgs A0 Hi0 g0) :: l).
  { rewrite Ep. destruct L as [|x0 L']; [exists reg, []; reflexivity|]. destruct (corr_head reg (g0, tgs A0 Hi0 g0) x0 L') as (v & l' & Ec). exists g0, (v :: l'). exact Ec. }
  destruct Hd as (gh & l & Ep2). clear Ep E. subst p. split; [apply segsS_decreasing; auto|]. split; [exact Last|]. split.
  - intros g t [Ein|Hin]; [injection Ein as <- <-; apply stat0|]. destruct (in_pairs _ l (gh, tgs A0 Hi0 g0) (g, t) Hin) as (x & Hx). apply (segS_end x). apply S; auto.
  - apply (plan_gen stat); [apply segsS_decreasing; auto| | |].
    + intros g1 t1 g2 t2 Hin. split; [intros g _; apply segS_stat; apply S; auto|]. apply (segS_end (g1, t1)). apply S; auto.
    + rewrite <- (Last (gh, tgs A0 Hi0 g0)). rewrite last_cons'. reflexivity.
    + intros g _. apply stat0.
Qed.
Lemma spath_none : forall itmax, pathR itmax = None <-> (itmax <= 1)%nat.
Proof.
  intros itmax. split.
  - intros E. destruct (Nat.le_gt_cases itmax 1) as [L|L]; auto. exfalso. destruct (sraw_first itmax L) as (g0 & A' & add' & pop' & Er & _). unfold semi_relaxed_path in E. rewrite Er in E. discriminate E.
  - intros L. destruct itmax as [|[|it]]; [reflexivity|reflexivity|lia].
Qed.

(** ** optimality *)
Definition kktS (g : R) (u t : vec) : Prop := (forall j, (j < m)%nat -> colf t j = b j) /\ forall k, (k < NM)%nat -> 0 <= t k /\ 0 <= reds g u t k /\ (t k = 0 \/ reds g u t k = 0).
Definition objS (g : R) (t : vec) : R := objJ n NM hr a scR g t.
Definition marg (g : R) (t : vec) (k : nat) : R := g * scR k + (rowf t (k / m)%nat - a (k / m)%nat).
Lemma slack_marg : forall g t k, (k < NM)%nat -> slack n NM hr a scR g t k = marg g t k.
Proof. intros g t k Hk. unfold slack. rewrite Gv_img. unfold lin. rewrite hr_pick by auto. rewrite hr_pick by auto. unfold marg. change (img NM hr t (k / m)%nat) with (rowf t (k / m)%nat). ring. Qed.
Lemma mult_col : forall (v w : vec), rsum NM (fun k => v (k mod m)%nat * w k) = rsum m (fun j => v j * colf w j).
Proof.
  intros v w. rewrite (rsum_ext m _ (fun j => rsum NM (fun k => hc j k * v j * w k))) by (intros; unfold colf; rewrite <- rsum_scal; apply rsum_ext; intros; ring).
  rewrite rsum_swap. apply rsum_ext. intros k Hk. rewrite rsum_scal_r. rewrite hc_pick. reflexivity.
Qed.
Lemma kktS_min : forall g u t t', kktS g u t -> (forall k, (k < NM)%nat -> 0 <= t' k) -> (forall j, (j < m)%nat -> colf t' j = b j) -> objS g t <= objS g t'.
Proof.
  intros g u t t' (K1 & K2) Hpos Hcol. assert (D := objJ_diff n NM hr a scR g t t').
  assert (E : rsum NM (fun i => slack n NM hr a scR g t i * (t' i - t i)) = rsum NM (fun i => reds g u t i * (t' i - t i))).
  { rewrite (rsum_ext NM _ (fun k => reds g u t k * (t' k - t k) - u (k mod m)%nat * (t' k - t k))) by (intros k Hk; rewrite slack_marg by auto; unfold marg, reds; ring).
    rewrite rsum_minus, (mult_col u (fun k => t' k - t k)). rewrite (rsum_0 m); [ring|]. intros j Hj.
    replace (colf (fun k => t' k - t k) j) with (colf t' j - colf t j); [rewrite Hcol, K1 by auto; ring|]. unfold colf. rewrite <- rsum_minus. apply rsum_ext. intros; ring. }
  rewrite E in D. assert (P : 0 <= rsum NM (fun i => reds g u t i * (t' i - t i))).
  { apply rsum_nonneg. intros k Hk. destruct (K2 k Hk) as (T & Rr & [Z|Z]); [rewrite Z; specialize (Hpos k Hk); apply Rmult_le_pos; lra|rewrite Z; lra]. }
  assert (Q : 0 <= rsum n (fun r => (img NM hr t' r - img NM hr t r) * (img NM hr t' r - img NM hr t r))) by (apply rsum_nonneg; intros; apply Rle_0_sqr). unfold objS. lra.
Qed.
Lemma kktS_ext : forall g u t t', same t t' -> kktS g u t -> kktS g u t'.
Proof.
  intros g u t t' E (K1 & K2). split; [intros j Hj; rewrite <- (colf_ext t t') by auto; auto|]. intros k Hk. rewrite <- (reds_ext g u t u t' k Hk E) by auto. rewrite <- E by auto. auto.
Qed.
Variable tau : R.
Hypothesis (Hta' : ta < tau) (Htr' : tr < tau) (Htau : tau < 1).
Definition rr (A : list nat) (Hi : mat) (g : R) (k : nat) : R := reds g (xg A Hi g) (tgs A Hi g) k.
Lemma rr_affine : forall A Hi k, affine (fun g => rr A Hi g k).
Proof. intros. exists (alS A Hi k), (beS A Hi k). intros g. apply reds_aff. Qed.
Definition InvS (A : list nat) (Hi : mat) (gc : R) : Prop := sact A Hi /\ (forall k, In k A -> safe gc (fun g => tgs A Hi g k)) /\ (forall k, (k < NM)%nat -> ~ In k A -> safe gc (fun g => rr A Hi g k)).
Lemma tgs_kkt : forall A Hi g, sact A Hi -> (forall k, In k A -> 0 <= tgs A Hi g k) -> (forall k, (k < NM)%nat -> ~ In k A -> 0 <= rr A Hi g k) -> kktS g (xg A Hi g) (tgs A Hi g).
Proof.
  intros A Hi g HA P Q. destruct (tgs_sol A Hi g HA) as (S1 & S2 & S3). split; [exact S2|]. intros k Hk. destruct (in_dec Nat.eq_dec k A) as [Hin|Hnk].
  - rewrite S3 by auto. split; [auto|]. split; [lra|auto].
  - rewrite (S1 k Hk Hnk). split; [lra|]. split; [apply Q; auto|auto].
Qed.
Lemma InvS_kkt : forall A Hi gc, InvS A Hi gc -> kktS gc (xg A Hi gc) (tgs A Hi gc).
Proof. intros A Hi gc (HA & I1 & I2). apply tgs_kkt; auto; intros; [apply (safe_nonneg gc (fun g => tgs A Hi g k)); auto|apply (safe_nonneg gc (fun g => rr A Hi g k)); auto]. Qed.
Lemma sA_val : forall A Hi gc i, NoDup A -> bounded NM A -> (i < NM)%nat -> 0 < gc -> ~ In i A -> alS A Hi i / beS A Hi i <= (1 - tau) * gc -> sA A Hi (Some gc) i = alS A Hi i / beS A Hi i.
Proof.
  intros A Hi gc i ND HB Hi' Hg Hni Hr. rewrite sA_eq by auto. cbv zeta. destruct (inl A i) eqn:E; [exfalso; apply Hni, inl_true; auto|].
  destruct (Rltb _ _) eqn:F; auto. apply Rltb_true in F. exfalso. assert (ta * gc < tau * gc) by (apply Rmult_lt_compat_r; lra). lra.
Qed.
Lemma sR_val : forall A Hi gc l, 0 < gc -> phiS A Hi (m + l)%nat / deltaS A Hi (m + l)%nat <= (1 - tau) * gc -> sR A Hi (Some gc) l = phiS A Hi (m + l)%nat / deltaS A Hi (m + l)%nat.
Proof.
  intros A Hi gc l Hg Hr. rewrite sR_eq. cbv zeta. destruct (Rleb _ _) eqn:F; auto. apply Rleb_true in F. exfalso. assert (tr * gc < tau * gc) by (apply Rmult_lt_compat_r; lra). lra.
Qed.
Lemma segment_kktS : forall A Hi gc lo, InvS A Hi gc -> 0 < gc ->
  (forall i, (i < NM)%nat -> sA A Hi (Some gc) i <= lo) -> (forall l, (l < length A)%nat -> sR A Hi (Some gc) l <= lo) ->
  (forall j g, (j < NM)%nat -> lo <= g <= gc -> (1 - tau) * gc <= g -> (0 < tgs A Hi gc j -> 0 <= tgs A Hi g j) /\ (0 < rr A Hi gc j -> 0 <= rr A Hi g j)) ->
  forall g, lo <= g <= gc -> kktS g (xg A Hi g) (tgs A Hi g).
Proof.
  intros A Hi gc lo (HA & I1 & I2) Hg Hc1 Hc2 Sep g Hgr. pose proof HA as (ND & HB & _). apply tgs_kkt; auto.
  - intros j Hin. destruct (I1 j Hin) as [P|P]; [|apply P; lra]. assert (Hj := HB j Hin).
    apply Rnot_lt_le. intros F. destruct (in_at A j Hin) as (l & Hl & El). subst j.
    destruct (Rle_dec ((1 - tau) * gc) g) as [B|B]; [destruct (Sep (at_ A l) g) as [Q _]; auto; specialize (Q P); lra|].
    assert (Hg1 : (1 - tau) * gc <= gc) by nra.
    destruct (Sep (at_ A l) ((1 - tau) * gc) ltac:(auto) ltac:(lra) ltac:(lra)) as [Q _]. specialize (Q P).
    rewrite (tgs_at A Hi _ l ND Hl) in P. rewrite (tgs_at A Hi _ l ND Hl) in Q. rewrite (tgs_at A Hi _ l ND Hl) in F.
    destruct (cross tr tau (conj Htr Htr') Htau _ _ gc ((1 - tau) * gc) g P Q ltac:(lra) F) as (_ & R1 & R2).
    specialize (Hc2 l Hl). rewrite sR_val in Hc2 by auto. lra.
  - intros j Hj Hnj. destruct (I2 j Hj Hnj) as [P|P]; [|apply P; lra].
    apply Rnot_lt_le. intros F.
    destruct (Rle_dec ((1 - tau) * gc) g) as [B|B]; [destruct (Sep j g) as [_ Q]; auto; specialize (Q P); lra|].
    assert (Hg1 : (1 - tau) * gc <= gc) by nra.
    destruct (Sep j ((1 - tau) * gc) ltac:(auto) ltac:(lra) ltac:(lra)) as [_ Q]. specialize (Q P).
    unfold rr in P, Q, F. rewrite reds_aff in P. rewrite reds_aff in Q. rewrite reds_aff in F.
    destruct (cross tr tau (conj Htr Htr') Htau _ _ gc ((1 - tau) * gc) g P Q ltac:(lra) F) as (_ & R1 & R2).
    specialize (Hc1 j Hj). rewrite sA_val in Hc1 by auto. lra.
Qed.
(** no two cells of zero mass and zero reduced cost *)
Definition ndS (A : list nat) (Hi : mat) (g : R) : Prop := forall k l, (k < NM)%nat -> (l < NM)%nat -> tgs A Hi g k = 0 -> rr A Hi g k = 0 -> tgs A Hi g l = 0 -> rr A Hi g l = 0 -> k = l.
Lemma update_addS : forall A Hi gc i pop gh, sact A Hi -> (i < NM)%nat -> let g' := sA A Hi gc i in 0 < g' -> kktS g' (xg A Hi g') (tgs A Hi g') -> ndS A Hi g' -> g' < gh -> 0 <= rr A Hi gh i ->
  InvS (A ++ [i]) (complement_schur (N:=RNum) (m + length A) Hi (Some (addc A i)) 1 pop) g'.
Proof.
  intros A Hi gc i pop gh HA Hi' g' Hg' K Nd Hgh Hrr. set (Hj := complement_schur (N:=RNum) (m + length A) Hi (Some (addc A i)) 1 pop). pose proof HA as (ND & HB & _).
  destruct (sA_root A Hi gc i ND HB Hi' Hg') as (Hni & Hb & Ea). fold g' in Ea.
  assert (HA' : sact (A ++ [i]) Hj) by (apply (sact_add A Hi gc); auto). destruct (cont_add A Hi gc i pop HA Hi' Hg') as (Ct & Cx). fold g' Hj in Ct, Cx.
  assert (R0 : rr A Hi g' i = 0) by (unfold rr; rewrite reds_aff, Ea; ring). destruct (tgs_sol A Hi g' HA) as (S1 & S2 & S3). assert (T0 : tgs A Hi g' i = 0) by (apply S1; auto). destruct K as (_ & K).
  split; [exact HA'|]. split.
  - intros k Hk. apply in_app_iff in Hk. destruct Hk as [Hk|[<-|[]]].
    + left. rewrite <- Ct by (apply HB; auto). destruct (K k (HB k Hk)) as [P _]. destruct (Req_dec (tgs A Hi g' k) 0) as [Z|Z]; [|lra]. exfalso. apply Hni. rewrite (Nd i k Hi' (HB k Hk) T0 R0 Z (S3 k Hk)). exact Hk.
    + right. intros g Hle. destruct (tgs_sol A Hi g HA) as (Q1 & Q2 & Q3).
      assert (Ex := exchange (A ++ [i]) Hj g (xg A Hi g) (tgs A Hi g) (length A) HA'). rewrite (at_app2 1 Nat.lt_0_1) in Ex.
      rewrite Ex; [|rewrite app_length; cbn; lia|intros k Hk Hnk; apply Q1; auto; intros F; apply Hnk, in_app_iff; auto|exact Q2|apply Q1; auto|].
      * assert (Rn : rr A Hi g i <= 0) by (apply (aff_sign (fun g => rr A Hi g i) gh g' g); auto; apply rr_affine). unfold rr in Rn.
        assert (Dn : 0 <= Hj (m + length A)%nat (m + length A)%nat).
        { destruct HA' as (ND' & HB' & HI' & HS'). apply (diag_nonneg m (length (A ++ [i])) n (VA (A ++ [i])) (UA (A ++ [i])) Hj); auto; [apply sact_K; split; auto|rewrite app_length; cbn; lia]. }
        assert (0 <= - reds g (xg A Hi g) (tgs A Hi g) i * Hj (m + length A)%nat (m + length A)%nat) by (apply Rmult_le_pos; lra). lra.
      * intros k Hk Hne. apply in_app_iff in Hk. destruct Hk as [Hk|[<-|[]]]; [auto|congruence].
  - intros k Hk Hnk. left. rewrite in_app_iff in Hnk. unfold rr. rewrite <- (reds_ext g' (xg A Hi g') (tgs A Hi g') _ _ k Hk Ct Cx). destruct (K k Hk) as (_ & P & _).
    destruct (Req_dec (reds g' (xg A Hi g') (tgs A Hi g') k) 0) as [Z|Z]; [|lra]. exfalso. apply Hnk. right. left. apply (Nd i k); auto.
Qed.
Lemma update_remS : forall A Hi gc p gh k0, sact A Hi -> (p < length A)%nat -> let g' := sR A Hi gc p in 0 < g' -> kktS g' (xg A Hi g') (tgs A Hi g') -> ndS A Hi g' -> g' < gh -> 0 <= tgs A Hi gh (at_ A p) ->
  InvS (remove_at p A) (complement_schur (N:=RNum) k0 Hi None 1 (p + m)) g'.
Proof.
  intros A Hi gc p gh k0 HA Hp g' Hg' K Nd Hgh Hpos. set (Hj := complement_schur (N:=RNum) k0 Hi None 1 (p + m)). pose proof HA as (ND & HB & HI & HS).
  assert (HA' : sact (remove_at p A) Hj) by (apply (sact_rem A Hi gc); auto). destruct (cont_rem A Hi gc p k0 HA Hp Hg') as (Ct & Cx & T0). fold g' Hj in Ct, Cx, T0.
  destruct (tgs_sol A Hi g' HA) as (S1 & S2 & S3). assert (Ip : In (at_ A p) A) by (apply at_in; auto). assert (Bp := HB _ Ip). destruct K as (_ & K).
  split; [exact HA'|]. split.
  - intros k Hk. apply remove_at_in in Hk; auto. destruct Hk as [Hk Hd]. left. rewrite <- Ct by (apply HB; auto). destruct (K k (HB k Hk)) as [P _]. destruct (Req_dec (tgs A Hi g' k) 0) as [Z|Z]; [|lra]. exfalso.
    apply Hd. apply (Nd k (at_ A p)); auto; apply S3; auto.
  - intros k Hk Hnk. rewrite remove_at_in in Hnk by auto. destruct (in_dec Nat.eq_dec k A) as [Hin|Hni].
    + destruct (Nat.eq_dec k (at_ A p)) as [->|Hd]; [|exfalso; auto]. right. intros g Hle. destruct (tgs_sol (remove_at p A) Hj g HA') as (Q1 & Q2 & Q3).
      assert (Np : ~ In (at_ A p) (remove_at p A)) by (intros F; apply remove_at_in in F; tauto).
      assert (Ex := exchange A Hi g (xg (remove_at p A) Hj g) (tgs (remove_at p A) Hj g) p HA Hp). fold (rr (remove_at p A) Hj g (at_ A p)) in Ex.
      assert (Tn : tgs A Hi g (at_ A p) <= 0) by (apply (aff_sign (fun g => tgs A Hi g (at_ A p)) gh g' g); auto; apply tgs_affine).
      assert (Dn : 0 <= Hi (m + p)%nat (m + p)%nat) by (apply (diag_nonneg m (length A) n (VA A) (UA A) Hi); auto; apply sact_K; auto).
      assert (Dp := rem_piv A Hi gc p HA Hp Hg').
      rewrite Ex in Tn; [|intros k Hk' Hnk'; apply Q1; auto; intros F; apply remove_at_in in F; tauto|exact Q2|apply Q1; auto|intros k Hk' Hne; apply Q3; apply remove_at_in; auto].
      apply Rnot_lt_le. intros F. assert (rr (remove_at p A) Hj g (at_ A p) * Hi (m + p)%nat (m + p)%nat < 0) by nra. lra.
    + left. unfold rr. rewrite <- (reds_ext g' (xg A Hi g') (tgs A Hi g') _ _ k Hk Ct Cx). destruct (K k Hk) as (_ & P & _).
      destruct (Req_dec (reds g' (xg A Hi g') (tgs A Hi g') k) 0) as [Z|Z]; [|lra]. exfalso. apply Hni. rewrite (Nd k (at_ A p) Hk Bp (S1 k Hk Hni) Z T0 (S3 _ Ip)). exact Ip.
Qed.

(** ** the whole path, optimality *)
Hypothesis Hbpos : forall j, (j < m)%nat -> 0 < b j.
Hypothesis Hmin : forall i j, (i < n)%nat -> (j < m)%nat -> i <> imin j -> C (imin j) j < C i j.
Lemma rsum_ex : forall K (f : vec), rsum K f <> 0 -> exists i, (i < K)%nat /\ f i <> 0.
Proof.
  induction K as [|K IH]; intros f H0; cbn [rsum] in H0; [congruence|]. destruct (Req_dec (f K) 0) as [Z|Z]; [|exists K; auto].
  destruct (IH f) as (i & Hi & Hf); [rewrite Z in H0; lra|]. exists i. split; [lia|auto].
Qed.
Lemma supp_col : forall (t : vec) j, (forall j, (j < m)%nat -> colf t j = b j) -> (j < m)%nat -> exists k, (k < NM)%nat /\ (k mod m = j)%nat /\ t k <> 0.
Proof.
  intros t j Hc Hj. destruct (rsum_ex NM (fun k => hc j k * t k)) as (k & Hk & Hf).
  - change (colf t j <> 0). rewrite Hc by auto. specialize (Hbpos j Hj). lra.
  - exists k. split; auto. rewrite hcR in Hf. destruct (Nat.eqb_spec (k mod m) j); [split; auto; intros Z; apply Hf; rewrite Z; ring|exfalso; apply Hf; ring].
Qed.
Lemma rr_ref : forall A Hi g1 g k k', sact A Hi -> (k < NM)%nat -> (k' < NM)%nat -> (k' mod m = k mod m)%nat -> tgs A Hi g1 k' <> 0 -> rr A Hi g k = marg g (tgs A Hi g) k - marg g (tgs A Hi g) k'.
Proof.
  intros A Hi g1 g k k' HA Hk Hk' Em Hne. destruct (tgs_sol A Hi g1 HA) as (S1 & _ & _). destruct (tgs_sol A Hi g HA) as (_ & _ & S3).
  assert (Hin : In k' A) by (destruct (in_dec Nat.eq_dec k' A); auto; exfalso; apply Hne; auto). specialize (S3 k' Hin). unfold rr, reds, marg in *. rewrite Em in S3. lra.
Qed.
Definition tied (g : R) (t : vec) (k : nat) : Prop := exists k', (k' < NM)%nat /\ (k' mod m = k mod m)%nat /\ t k' <> 0 /\ marg g t k = marg g t k'.
Definition nondegS (g : R) (t : vec) : Prop := forall k l, (k < NM)%nat -> (l < NM)%nat -> t k = 0 -> tied g t k -> t l = 0 -> tied g t l -> k = l.
Definition nondegP (p : list (R * vec)) : Prop := forall g t, In (g, t) (removelast p) -> nondegS g t.
Definition sepP (p : list (R * vec)) : Prop := forall g1 t1 g2 t2, In ((g1, t1), (g2, t2)) (pairs p) -> forall k g, (k < NM)%nat -> g2 <= g <= g1 -> (1 - tau) * g1 <= g ->
  (0 < t1 k -> 0 <= lerpR g1 t1 g2 t2 g k) /\ (forall k', (k' < NM)%nat -> (k' mod m = k mod m)%nat -> t1 k' <> 0 -> marg g1 t1 k' < marg g1 t1 k -> marg g (lerpR g1 t1 g2 t2 g) k' <= marg g (lerpR g1 t1 g2 t2 g) k).
Lemma marg_ext : forall g t t' k, same t t' -> marg g t k = marg g t' k.
Proof. intros g t t' k E. unfold marg. rewrite (rowf_ext t t') by auto. reflexivity. Qed.
Lemma nd_of : forall A Hi g t, sact A Hi -> same t (tgs A Hi g) -> nondegS g t -> ndS A Hi g.
Proof.
  intros A Hi g t HA E Nd k l Hk Hl T1 R1 T2 R2. destruct (tgs_sol A Hi g HA) as (_ & S2 & _).
  assert (Q : forall k, (k < NM)%nat -> rr A Hi g k = 0 -> tied g t k).
  { intros k1 Hk1 R0. destruct (supp_col (tgs A Hi g) (k1 mod m) S2 (mod_b k1)) as (k' & Hk' & Em & Hne). exists k'. split; auto. split; auto. split; [rewrite E; auto|].
    rewrite !(marg_ext g t (tgs A Hi g)) by auto. rewrite (rr_ref A Hi g g k1 k') in R0 by auto. lra. }
  apply Nd; auto; rewrite E; auto.
Qed.
Lemma sep_of : forall A Hi g1 t1 g2 t2 l, sact A Hi -> sepP ((g1, t1) :: (g2, t2) :: l) -> g2 <> g1 -> same t1 (tgs A Hi g1) -> same t2 (tgs A Hi g2) ->
  forall j g, (j < NM)%nat -> g2 <= g <= g1 -> (1 - tau) * g1 <= g -> (0 < tgs A Hi g1 j -> 0 <= tgs A Hi g j) /\ (0 < rr A Hi g1 j -> 0 <= rr A Hi g j).
Proof.
  intros A Hi g1 t1 g2 t2 l HA Sep Hne E1 E2 j g Hj Hg Hb. destruct (Sep g1 t1 g2 t2 (or_introl eq_refl) j g Hj Hg Hb) as [P Q]. pose proof (lerp_tgs A Hi g1 t1 g2 t2 Hne E1 E2 g) as El. split.
  - rewrite E1 in P by auto. rewrite El in P by auto. exact P.
  - intros Hp. destruct (tgs_sol A Hi g1 HA) as (_ & S2 & _). destruct (supp_col (tgs A Hi g1) (j mod m) S2 (mod_b j)) as (k' & Hk' & Em & Hn'). specialize (Q k' Hk' Em).
    rewrite E1 in Q by auto. rewrite !(marg_ext g1 t1 (tgs A Hi g1)) in Q by auto. rewrite !(marg_ext g (lerpR g1 t1 g2 t2 g) (tgs A Hi g)) in Q by auto.
    rewrite (rr_ref A Hi g1 g1 j k') in Hp by auto. rewrite (rr_ref A Hi g1 g j k') by auto. specialize (Q Hn'). lra.
Qed.
Definition segs_okS (p : list (R * vec)) : Prop := forall g1 t1 g2 t2, In ((g1, t1), (g2, t2)) (pairs p) -> g2 < g1 /\ forall g, g2 <= g <= g1 -> exists u, kktS g u (lerpR g1 t1 g2 t2 g).
Lemma okS_cons : forall g1 t1 g2 t2 l, g2 < g1 -> (forall g, g2 <= g <= g1 -> exists u, kktS g u (lerpR g1 t1 g2 t2 g)) -> segs_okS ((g2, t2) :: l) -> segs_okS ((g1, t1) :: (g2, t2) :: l).
Proof. intros g1 t1 g2 t2 l Hlt HK HS a' ta' b' tb Hin. rewrite pairs_cons in Hin. destruct Hin as [E|Hin]; [injection E as <- <- <- <-; auto|]. apply HS; auto. Qed.
Lemma sepP_tl : forall x z l, sepP (x :: z :: l) -> sepP (z :: l).
Proof. intros x z l S g1 t1 g2 t2 Hin. apply S. rewrite pairs_cons. right. exact Hin. Qed.
Lemma nondegP_tl : forall x z l, nondegP (x :: z :: l) -> nondegP (z :: l).
Proof. intros x z l S g t Hin. apply S. change (removelast (x :: z :: l)) with (x :: removelast (z :: l)). right. exact Hin. Qed.
Lemma sloop_nonempty : forall left A k Hi add pop g, reg < g -> loopR (S left) reg A k Hi add pop g <> [].
Proof.
  intros left A k Hi add pop g Hg. set (Hi' := complement_schur (N:=RNum) k Hi add 1 (pop + m)).
  assert (E : loopR (S left) reg A k Hi add pop g = if Rltb reg g then (let '(g', sol, A', add', pop') := sstep (N:=RNum) n m a b C 0 ta tr A Hi' (Some g) in (g', sol) :: loopR left reg A' (m + length A) Hi' add' pop' g') else []) by reflexivity.
  rewrite E, (proj2 (Rltb_true reg g) Hg). destruct (sstep _ _ _ _ _ _ _ _ _ _ _) as [[[[? ?] ?] ?] ?]. discriminate.
Qed.
Lemma sloop_ok : forall left A k Hi add pop gc t, let Hi' := complement_schur (N:=RNum) k Hi add 1 (pop + m) in
  let L := loopR left reg A k Hi add pop gc in
  InvS A Hi' gc -> reg < gc -> same t (tgs A Hi' gc) -> (length L < left)%nat ->
  nondegP (corr ((gc, t) :: L)) -> sepP (corr ((gc, t) :: L)) -> segs_okS (corr ((gc, t) :: L)) /\ L <> [].
Proof.
  induction left as [|left IH]; intros A k Hi add pop gc t Hi' L HInv Hgt Et Hlen ND Sep; [lia|].
  assert (Hgc : 0 < gc) by lra. pose proof HInv as (HA & I1 & I2). pose proof HA as (NDA & HB & _).
  destruct (sstep_cases A Hi' (Some gc) Hgc NDA HB (sact_nonempty A Hi' HA)) as (g' & A' & add' & pop' & Estep & C1 & C2 & Hg0 & Hlt & Cases). cbn [below] in Hlt.
  assert (EL : L = (g', tgs A Hi' g') :: loopR left reg A' (m + length A) Hi' add' pop' g').
  { unfold L. transitivity (if Rltb reg gc then (let '(g', sol, A', add', pop') := sstep (N:=RNum) n m a b C 0 ta tr A Hi' (Some gc) in (g', sol) :: loopR left reg A' (m + length A) Hi' add' pop' g') else []); [reflexivity|].
    rewrite (proj2 (Rltb_true reg gc) Hgt), Estep. reflexivity. }
  set (rest := loopR left reg A' (m + length A) Hi' add' pop' g') in *. rewrite EL in *. cbn [length] in Hlen. clearbody L. clear EL L.
  split; [|discriminate]. destruct rest as [|r0 rest'] eqn:Er.
  - (* last segment *)
    assert (Hle : g' <= reg).
    { destruct (Rle_dec g' reg) as [?|Hng]; auto. exfalso. destruct left; [lia|]. unfold rest in Er. apply (sloop_nonempty left A' (m + length A) Hi' add' pop' g' ltac:(lra)). exact Er. }
    rewrite corr2 in *.
    assert (E2 : same (tgs A Hi' g') (tgs A Hi' g')) by (intros j _; reflexivity).
    assert (Er2 : same (lerpR gc t g' (tgs A Hi' g') reg) (tgs A Hi' reg)) by (apply lerp_tgs; auto; lra).
    apply okS_cons; [lra| |intros ? ? ? ? []].
    intros g Hg. exists (xg A Hi' g). apply (kktS_ext g _ (tgs A Hi' g)); [intros j Hj; symmetry; apply (lerp_tgs A Hi'); auto; lra|].
    apply (segment_kktS A Hi' gc reg HInv Hgc); auto.
    + intros i Hi0. apply (Rle_trans _ g'); [exact (C1 i Hi0)|exact Hle].
    + intros l Hl. apply (Rle_trans _ g'); [exact (C2 l Hl)|exact Hle].
    + apply (sep_of A Hi' gc t reg _ [] HA Sep); auto. lra.
  - (* interior segment *)
    assert (Hgt' : reg < g').
    { destruct (Rlt_dec reg g') as [?|Hng]; auto. exfalso. unfold rest in Er. rewrite sloop_stop in Er by lra. discriminate Er. }
    rewrite corr3 in *. destruct (corr_head reg (g', tgs A Hi' g') r0 rest') as (v & l' & Ec). rewrite Ec in *.
    assert (E2 : same (tgs A Hi' g') (tgs A Hi' g')) by (intros j _; reflexivity).
    assert (Seg : forall g, g' <= g <= gc -> kktS g (xg A Hi' g) (tgs A Hi' g)).
    { apply (segment_kktS A Hi' gc g' HInv Hgc); auto. apply (sep_of A Hi' gc t g' _ _ HA Sep); auto. lra. }
    assert (Kg : kktS g' (xg A Hi' g') (tgs A Hi' g')) by (apply Seg; lra).
    assert (Dg : ndS A Hi' g').
    { apply (nd_of A Hi' g' (tgs A Hi' g')); auto. apply ND. change (removelast ((gc, t) :: (g', tgs A Hi' g') :: v :: l')) with ((gc, t) :: (g', tgs A Hi' g') :: removelast (v :: l')). right. left. reflexivity. }
    apply okS_cons; [lra| |].
    + intros g Hg. exists (xg A Hi' g). apply (kktS_ext g _ (tgs A Hi' g)); [intros j Hj; symmetry; apply (lerp_tgs A Hi'); auto; lra|]. apply Seg; auto.
    + destruct (InvS_kkt A Hi' gc HInv) as (_ & Kc).
      assert (U1 : InvS A' (complement_schur (N:=RNum) (m + length A) Hi' add' 1 (pop' + m)) g').
      { destruct Cases as [(i & Hi0 & Eg & -> & ->)|(Hpos & Hp & Eg & -> & ->)].
        - rewrite Eg in Kg, Dg, Hlt, Hgt' |- *. apply (update_addS A Hi' (Some gc) i (pop' + m) gc HA Hi0); auto; [lra|]. apply (Kc i Hi0).
        - rewrite Eg in Kg, Dg, Hpos, Hlt |- *. apply (update_remS A Hi' (Some gc) pop' gc (m + length A) HA Hp); auto. apply (Kc (at_ A pop')). apply HB, at_in; auto. }
      destruct (supdate A Hi' (Some gc) g' A' add' pop' HA ltac:(lra) Cases) as (_ & U2 & _).
      pose proof (IH A' (m + length A)%nat Hi' add' pop' g' (tgs A Hi' g') U1 Hgt') as Res. cbv zeta in Res. fold rest in Res. rewrite Er in Res.
      assert (ND2 : nondegP (corr ((g', tgs A Hi' g') :: r0 :: rest'))) by (refine (eq_ind_r nondegP (nondegP_tl (gc, t) _ _ ND) Ec)).
      assert (Sep2 : sepP (corr ((g', tgs A Hi' g') :: r0 :: rest'))) by (refine (eq_ind_r sepP (sepP_tl (gc, t) _ _ Sep) Ec)).
      assert (Hl2 : (length (r0 :: rest') < left)%nat) by (cbn [length] in *; lia).
      destruct (Res U2 Hl2 ND2 Sep2) as [Res' _]. refine (eq_ind _ segs_okS Res' _ Ec).
Qed.
Lemma kkt0 : forall g0 g, (forall i, (i < NM)%nat -> sA A0 Hi0 None i <= g0) -> g0 <= g -> kktS g (xg A0 Hi0 g) (tgs A0 Hi0 g).
Proof.
  intros g0 g C1 Hg. apply tgs_kkt; [apply sact0, Hi0_inv| |].
  - intros k Hin. destruct (in_at _ k Hin) as (l & Hl & <-). rewrite A0_len in Hl. rewrite tgs0_val by (auto; apply Hi0_inv). left. auto.
  - intros k Hk Hnk. unfold rr. rewrite reds_aff. specialize (C1 k Hk). rewrite sA_eq in C1 by (auto; apply A0_nodup || apply A0_bounded). cbv zeta in C1.
    destruct (inl A0 k) eqn:E; [exfalso; apply Hnk, inl_true; auto|].
    assert (Hbe : beS A0 Hi0 k < 0).
    { rewrite beS0 by apply Hi0_inv. destruct (cell_of n m k Hk) as (i & j & Hi & Hj & Ek). destruct (cell_div m i j Hj) as [D1 D2].
      rewrite Ek, D2. rewrite A0_at by auto. destruct (cell_div m (imin j) j Hj) as [D3 D4]. unfold sc, cvec. rewrite D1, D2, D3, D4.
      assert (C (imin j) j < C i j); [|lra]. apply Hmin; auto. intros ->. apply Hnk. rewrite Ek, <- A0_at by auto. apply at_in. rewrite A0_len. auto. }
    set (r := alS A0 Hi0 k / beS A0 Hi0 k) in *. assert (Er : alS A0 Hi0 k = r * beS A0 Hi0 k) by (unfold r; field; lra). rewrite Er. nra.
Qed.
Theorem spath_exact : forall itmax p, pathR itmax = Some p -> (S (length p) < itmax)%nat -> nondegP p -> sepP p ->
  forall g, reg <= g -> exists t u, compute_transport_plan (N:=RNum) g p = Some t /\ kktS g u t.
Proof.
  intros itmax p E Hlen ND Sep. assert (Hit : (1 < itmax)%nat) by lia.
  destruct (spath_stat itmax p E) as (Dec & Last & _ & _).
  destruct (sraw_first itmax Hit) as (g0 & A' & add' & pop' & Er & C1 & Hg0 & Cases).
  set (L := loopR (itmax - 2) reg A' (m + length A0) Hi0 add' pop' g0) in *. set (t0 := tgs A0 Hi0 g0) in *.
  assert (Ep : p = corr ((g0, t0) :: L)). { unfold semi_relaxed_path in E. rewrite Er in E. injection E as <-. reflexivity. }
  assert (Lp : length p = S (length L)) by (rewrite Ep, corr_length; reflexivity).
  assert (K0 : forall g, g0 <= g -> exists u, kktS g u t0).
  { intros g Hg. exists (xg A0 Hi0 g). apply (kktS_ext g _ (tgs A0 Hi0 g)); [intros k _; apply tgs0_const; apply Hi0_inv|]. apply (kkt0 g0 g C1 Hg). }
  assert (Fin : forall gh l, p = (gh, t0) :: l -> segs_okS p -> (forall g, gh <= g -> exists u, kktS g u t0) -> forall g, reg <= g -> exists t u, compute_transport_plan (N:=RNum) g p = Some t /\ kktS g u t).
  { intros gh l Ep2 S Kh g Hg. rewrite Ep2 in Dec, S, Last |- *. destruct (plan_gen (fun g t => exists u, kktS g u t) l gh t0 Dec) with (g := g) as (t & Ec & u & K); auto.
    - intros g1 t1 g2 t2 Hin. destruct (S g1 t1 g2 t2 Hin) as (Hlt & HK). split; [exact HK|]. destruct (HK g2 ltac:(lra)) as (u & K). exists u. apply (kktS_ext g2 u (lerpR g1 t1 g2 t2 g2)); auto. intros k _. apply lerp_end. lra.
    - rewrite <- (Last (gh, t0)). rewrite last_cons'. reflexivity.
    - exists t, u. auto. }
  destruct (Rlt_dec reg g0) as [Hgt|Hle].
  - assert (HL : L <> []) by (unfold L; destruct (itmax - 2)%nat eqn:Ei; [rewrite Lp in Hlen; lia|apply sloop_nonempty; auto]).
    assert (Hd : exists v l, p = (g0, t0) :: v :: l). { rewrite Ep. destruct L as [|x0 L']; [congruence|]. destruct (corr_head reg (g0, t0) x0 L') as (v & l' & Ec). exists v, l'. exact Ec. }
    destruct Hd as (v & l & Ep2).
    assert (Dg : ndS A0 Hi0 g0). { apply (nd_of A0 Hi0 g0 t0); [apply sact0, Hi0_inv|intros k _; reflexivity|]. apply ND. rewrite Ep2. left. reflexivity. }
    assert (Kg := kkt0 g0 g0 C1 ltac:(lra)).
    assert (U1 : InvS A' (complement_schur (N:=RNum) (m + length A0) Hi0 add' 1 (pop' + m)) g0).
    { destruct Cases as [(i & Hi & Eg & -> & ->)|(Hpos & Hp & Eg & -> & ->)].
      - rewrite Eg in Kg, Dg |- *. apply (update_addS A0 Hi0 None i (pop' + m) (g0 + 1) (sact0 _ Hi0_inv) Hi); auto; [rewrite <- Eg; lra|rewrite <- Eg; lra|].
        destruct (kkt0 g0 (g0 + 1) C1 ltac:(lra)) as (_ & K). apply (K i Hi).
      - exfalso. rewrite Eg in Hpos. destruct (sR_root A0 Hi0 None pop' Hpos) as (Hd & _). apply Hd. apply delta0_bot; [apply Hi0_inv|]. rewrite A0_len in Hp. auto. }
    destruct (supdate A0 Hi0 None g0 A' add' pop' (sact0 _ Hi0_inv) ltac:(lra) Cases) as (_ & U2 & _).
    destruct (sloop_ok (itmax - 2) A' (m + length A0) Hi0 add' pop' g0 t0 U1 Hgt U2) as (S & _).
    + fold L. lia.
    + fold L. exact (eq_ind p nondegP ND _ Ep).
    + fold L. exact (eq_ind p sepP Sep _ Ep).
    + fold L in S. apply (eq_ind_r segs_okS) with (1 := S) in Ep. rename Ep into S'. clear S. rename S' into S. apply (Fin g0 (v :: l) Ep2 S K0).
  - assert (EL : L = []) by (apply sloop_stop; lra). assert (Ep2 : p = [(reg, t0)]) by (rewrite Ep, EL; reflexivity).
    apply (Fin reg [] Ep2); [rewrite Ep2; intros ? ? ? ? []|]. intros g Hg. apply K0. lra.
Qed.
End Act.
