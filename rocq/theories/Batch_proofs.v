(** Batched Gromov-Wasserstein: the factorised tensor product, and the form of a projected step. *)
From Coq Require Import Reals Lra Lia Arith Bool List String FunctionalExtensionality.
From Verif Require Import Num Sums Spec Entropy Optim_model Duals_proofs Emd1d_model Emd1d_perm_proofs Circle_proofs Gw_model Gw_proofs Sinkhorn_model Sinkhorn_proofs Sinkhorn_stab Sinkhorn_final Batch_model.
Import ListNotations.
Local Open Scope R_scope.

(** *** specification: the losses between feature vectors, the quadruple sum and its gradient *)
Definition feat := nat -> nat -> nat -> R.
Definition vloss (d : nat) (tiny : R) (l : bloss) (x y : nat -> R) : R :=
  match l with
  | BSq => rsum d (fun e => (x e - y e) ^ 2)
  | BKl true => rsum d (fun e => y e * (ln (y e + tiny) - x e))
  | BKl false => rsum d (fun e => y e * (ln (y e + tiny) - ln (x e + tiny)))
  end.
Definition vgw (n m : nat) (L : (nat -> R) -> (nat -> R) -> R) (C1 C2 : feat) (T : mat) : R :=
  rsum n (fun i => rsum m (fun j => rsum n (fun k => rsum m (fun c => L (C1 i k) (C2 j c) * T i j * T k c)))).
Definition vgrad (n m : nat) (L : (nat -> R) -> (nat -> R) -> R) (C1 C2 : feat) (T : mat) : mat := fun i j =>
  dsum n m (fun k c => (L (C1 i k) (C2 j c) + L (C1 k i) (C2 c j)) * T k c).
Definition fsym (n d : nat) (C : feat) : Prop := forall i k e, (i < n)%nat -> (k < n)%nat -> (e < d)%nat -> C i k e = C k i e.

Section T.
Variables (n m d : nat) (tiny : R) (l : bloss).
Notation L := (vloss d tiny l).
Notation F1 := (b_f1 (N:=RNum) d l).
Notation F2 := (b_f2 (N:=RNum) ln d tiny l).
Notation H1 := (b_h1 (N:=RNum) ln tiny l).
Notation H2 := (b_h2 (N:=RNum)).
Definition ftp (C : feat) : feat := fun i k e => C k i e.

Lemma vloss_ext : forall x x' y y', (forall e, (e < d)%nat -> x e = x' e) -> (forall e, (e < d)%nat -> y e = y' e) -> L x y = L x' y'.
Proof. intros x x' y y' Hx Hy. destruct l as [|[]]; cbn; apply rsum_ext; intros e He; rewrite Hx, Hy by auto; reflexivity. Qed.
Lemma vsplit : forall C1 C2 i k j c, L (C1 i k) (C2 j c) = F1 C1 i k + F2 C2 j c - rsum d (fun e => H1 C1 i k e * H2 C2 j c e).
Proof.
  intros. unfold b_f1, b_f2, b_h1, b_h2, vloss, two. destruct l as [|[]]; cbn [n0 n1 nadd nmul RNum]; rewrite ?nsum_R; cbn [n0 n1 nadd nmul RNum]; change (carrier RNum) with R in *.
  - rewrite <- rsum_plus, <- rsum_minus. apply rsum_ext; intros; ring.
  - rewrite Rplus_0_l, <- rsum_minus. apply rsum_ext; intros; ring.
  - rewrite Rplus_0_l, <- rsum_minus. apply rsum_ext; intros; ring.
Qed.
Lemma dot_R : forall (A B : feat) (T : mat) i j, b_dot (N:=RNum) n m d A B T i j = dsum n m (fun k c => rsum d (fun e => A i k e * B j c e) * T k c).
Proof.
  intros. unfold b_dot. rewrite nsum_R. transitivity (rsum d (fun e => dsum n m (fun k c => A i k e * B j c e * T k c))).
  - apply rsum_ext; intros e _. rewrite nsum_R. unfold dsum. rewrite rsum_swap. apply rsum_ext; intros c _. rewrite nsum_R. cbn [nmul RNum]. rewrite <- rsum_scal_r. apply rsum_ext; intros; ring.
  - unfold dsum. rewrite rsum_swap. apply rsum_ext; intros k _. rewrite rsum_swap. apply rsum_ext; intros c _. apply rsum_scal_r.
Qed.
(** the tensor product with a constant computed from (p, r) *)
Definition vtens (C1 C2 : feat) (T : mat) : mat := fun i j => dsum n m (fun k c => L (C1 i k) (C2 j c) * T k c).
Definition TP (C1 C2 : feat) (p r : nat -> R) (T : mat) : mat := fun i j =>
  rsum n (fun k => F1 C1 i k * p k) + rsum m (fun c => F2 C2 j c * r c) - dsum n m (fun k c => rsum d (fun e => H1 C1 i k e * H2 C2 j c e) * T k c).
Lemma TP_vtens : forall C1 C2 p r T i j, (forall c, (c < m)%nat -> r c = col_sum n T c) ->
  TP C1 C2 p r T i j = vtens C1 C2 T i j + rsum n (fun k => F1 C1 i k * (p k - row_sum m T k)).
Proof.
  intros C1 C2 p r T i j Hr. unfold TP, vtens.
  rewrite (dsum_ext n m (fun k c => L (C1 i k) (C2 j c) * T k c) (fun k c => (F1 C1 i k * T k c + F2 C2 j c * T k c) - rsum d (fun e => H1 C1 i k e * H2 C2 j c e) * T k c)).
  2:{ intros. rewrite vsplit. ring. }
  rewrite dsum_minus, dsum_plus, dsum_row, dsum_col.
  rewrite (rsum_ext m (fun c => F2 C2 j c * r c) (fun c => F2 C2 j c * col_sum n T c)) by (intros; rewrite Hr; auto).
  rewrite (rsum_ext n (fun k => F1 C1 i k * (p k - row_sum m T k)) (fun k => F1 C1 i k * p k - F1 C1 i k * row_sum m T k)) by (intros; ring).
  rewrite rsum_minus. match goal with |- @eq _ ?x ?y => change (@eq R x y) end. ring.
Qed.
Definition sgn (sym : bool) (x y : R) : R := if sym then x else (x + y) / 2.
Lemma ftp_h1 : forall C, ftr (N:=RNum) (H1 C) = H1 (ftp C). Proof. intros. unfold ftr, b_h1, ftp. reflexivity. Qed.
Lemma const_R : forall sym C1 C2 p r i j, b_const (N:=RNum) n m (symf (N:=RNum) sym (F1 C1)) (symf (N:=RNum) sym (F2 C2)) p r i j
  = sgn sym (rsum n (fun k => F1 C1 i k * p k) + rsum m (fun c => F2 C2 j c * r c)) (rsum n (fun k => F1 (ftp C1) i k * p k) + rsum m (fun c => F2 (ftp C2) j c * r c)).
Proof.
  intros. unfold b_const, symf, sgn, half_, two. rewrite !nsum_R. destruct sym; [reflexivity|]. cbn [nadd nmul ndiv n1 RNum].
  change (F1 (ftp C1) i) with (fun k => F1 C1 k i). change (F2 (ftp C2) j) with (fun c => F2 C2 c j). cbv beta.
  rewrite (rsum_ext n (fun i0 => 1 / (1 + 1) * (F1 C1 i i0 + F1 C1 i0 i) * p i0) (fun k => / 2 * (F1 C1 i k * p k + F1 C1 k i * p k))).
  2:{ intros. match goal with |- @eq _ ?x ?y => change (@eq R x y) end. field. }
  rewrite (rsum_ext m (fun i0 => 1 / (1 + 1) * (F2 C2 j i0 + F2 C2 i0 j) * r i0) (fun k => / 2 * (F2 C2 j k * r k + F2 C2 k j * r k))).
  2:{ intros. match goal with |- @eq _ ?x ?y => change (@eq R x y) end. field. }
  rewrite !rsum_scal, !rsum_plus. match goal with |- @eq _ ?x ?y => change (@eq R x y) end. field.
Qed.
Lemma product_R : forall (sym recompute : bool) a b C1 C2 T i j,
  let p := if recompute then row_sum m T else a in let r := if recompute then col_sum n T else b in
  tensor_product_batch (N:=RNum) n m d (tensor_batch (N:=RNum) ln n m d tiny l sym a b C1 C2) T recompute sym i j
  = sgn sym (TP C1 C2 p r T i j) (TP (ftp C1) (ftp C2) p r T i j).
Proof.
  intros. unfold tensor_product_batch, tensor_batch. cbn [t_const t_f1 t_f2 t_h1 t_h2].
  rewrite !const_R, !dot_R.
  assert (E : (if recompute then sgn sym (rsum n (fun k => F1 C1 i k * nsum (N:=RNum) m (fun j => T k j)) + rsum m (fun c => F2 C2 j c * nsum (N:=RNum) n (fun i => T i c)))
             (rsum n (fun k => F1 (ftp C1) i k * nsum (N:=RNum) m (fun j => T k j)) + rsum m (fun c => F2 (ftp C2) j c * nsum (N:=RNum) n (fun i => T i c)))
             else sgn sym (rsum n (fun k => F1 C1 i k * a k) + rsum m (fun c => F2 C2 j c * b c)) (rsum n (fun k => F1 (ftp C1) i k * a k) + rsum m (fun c => F2 (ftp C2) j c * b c)))
     = sgn sym (rsum n (fun k => F1 C1 i k * p k) + rsum m (fun c => F2 C2 j c * r c)) (rsum n (fun k => F1 (ftp C1) i k * p k) + rsum m (fun c => F2 (ftp C2) j c * r c))).
  { subst p r. destruct recompute; [|reflexivity].
    assert (Q1 : forall F : nat -> R, rsum n (fun k => F k * nsum (N:=RNum) m (fun j => T k j)) = rsum n (fun k => F k * row_sum m T k)) by (intros; apply rsum_ext; intros; rewrite nsum_R; reflexivity).
    assert (Q2 : forall F : nat -> R, rsum m (fun c => F c * nsum (N:=RNum) n (fun i => T i c)) = rsum m (fun c => F c * col_sum n T c)) by (intros; apply rsum_ext; intros; rewrite nsum_R; reflexivity).
    rewrite !Q1, !Q2. reflexivity. }
  refine (eq_trans (f_equal (fun x => x - _) E) _). unfold TP, sgn, two. destruct sym; [reflexivity|].
  change (ftr (N:=RNum) (H1 C1)) with (H1 (ftp C1)). change (ftr (N:=RNum) (H2 C2)) with (H2 (ftp C2)). cbn [nadd ndiv n1 RNum].
  match goal with |- @eq _ ?x ?y => change (@eq R x y) end. field.
Qed.
Lemma vgw_tens : forall C1 C2 T, vgw n m L C1 C2 T = dsum n m (fun i j => vtens C1 C2 T i j * T i j).
Proof.
  intros. unfold vgw, vtens, dsum. apply rsum_ext; intros i _. apply rsum_ext; intros j _. rewrite <- rsum_scal_r. apply rsum_ext; intros k _. rewrite <- rsum_scal_r. apply rsum_ext; intros c _. ring.
Qed.
Lemma vgw_tp : forall C1 C2 T, vgw n m L (ftp C1) (ftp C2) T = vgw n m L C1 C2 T.
Proof.
  intros. assert (E : forall A B, vgw n m L A B T = rsum n (fun i => rsum n (fun k => rsum m (fun j => rsum m (fun c => L (A i k) (B j c) * T i j * T k c))))).
  { intros. unfold vgw. apply rsum_ext; intros i _. apply rsum_swap. }
  rewrite !E, rsum_swap. apply rsum_ext; intros i _. apply rsum_ext; intros k _. rewrite rsum_swap. apply rsum_ext; intros j _. apply rsum_ext; intros c _. unfold ftp. match goal with |- L ?x ?y * _ * _ = _ => change (L x y) with (L (C1 i k) (C2 j c)) end. ring.
Qed.
Lemma loss_R : forall (sym recompute : bool) a b C1 C2 T,
  (recompute = false -> (forall i, (i < n)%nat -> row_sum m T i = a i) /\ (forall j, (j < m)%nat -> col_sum n T j = b j)) ->
  loss_quadratic (N:=RNum) n m d (tensor_batch (N:=RNum) ln n m d tiny l sym a b C1 C2) T recompute sym = vgw n m L C1 C2 T.
Proof.
  intros sym recompute a b C1 C2 T H. unfold loss_quadratic. rewrite inner_R.
  assert (E : forall A B i j, TP A B (if recompute then row_sum m T else a) (if recompute then col_sum n T else b) T i j = vtens A B T i j).
  { intros A B i j. rewrite TP_vtens.
    - rewrite (rsum_0 n (fun k => F1 A i k * _)); [ring|]. intros k Hk. destruct recompute; [ring|]. rewrite (proj1 (H eq_refl)) by auto. ring.
    - intros c Hc. destruct recompute; [reflexivity|]. symmetry. apply (proj2 (H eq_refl)); auto. }
  rewrite (dsum_ext n m _ (fun i j => sgn sym (vtens C1 C2 T i j * T i j) (vtens (ftp C1) (ftp C2) T i j * T i j))).
  2:{ intros i j _ _. rewrite product_R, !E. unfold sgn. destruct sym; [reflexivity|]. match goal with |- @eq _ ?x ?y => change (@eq R x y) end. cbn [nmul RNum]. field. }
  unfold sgn. destruct sym; [symmetry; apply vgw_tens|].
  rewrite (dsum_ext n m _ (fun i j => / 2 * (vtens C1 C2 T i j * T i j + vtens (ftp C1) (ftp C2) T i j * T i j))) by (intros; field).
  rewrite dsum_scal, dsum_plus, <- !vgw_tens, vgw_tp. match goal with |- @eq _ ?x ?y => change (@eq R x y) end. field.
Qed.
(** twice the tensor product is the gradient, up to a term that only depends on the row *)
Lemma product_grad : forall (sym : bool) a b C1 C2 T, (sym = true -> fsym n d C1 /\ fsym m d C2) -> (forall j, (j < m)%nat -> col_sum n T j = b j) ->
  exists rho : nat -> R, forall i j, (i < n)%nat -> (j < m)%nat ->
    2 * tensor_product_batch (N:=RNum) n m d (tensor_batch (N:=RNum) ln n m d tiny l sym a b C1 C2) T false sym i j = vgrad n m L C1 C2 T i j + rho i.
Proof.
  intros sym a b C1 C2 T Hs Hc.
  exists (fun i => 2 * sgn sym (rsum n (fun k => F1 C1 i k * (a k - row_sum m T k))) (rsum n (fun k => F1 (ftp C1) i k * (a k - row_sum m T k)))). intros i j Hi Hj.
  rewrite product_R. cbv iota. rewrite !TP_vtens by (intros; symmetry; auto).
  assert (G : vgrad n m L C1 C2 T i j = vtens C1 C2 T i j + vtens (ftp C1) (ftp C2) T i j).
  { unfold vgrad, vtens. rewrite <- dsum_plus. apply dsum_ext; intros k c _ _. change (L (ftp C1 i k) (ftp C2 j c)) with (L (C1 k i) (C2 c j)). ring. }
  rewrite G. unfold sgn. destruct sym; [|field].
  destruct (Hs eq_refl) as (S1 & S2).
  assert (E : vtens (ftp C1) (ftp C2) T i j = vtens C1 C2 T i j).
  { unfold vtens. apply dsum_ext; intros k c Hk Hcc. f_equal. apply vloss_ext; intros e He; unfold ftp; [apply S1|apply S2]; auto. }
  rewrite E. ring.
Qed.
End T.
