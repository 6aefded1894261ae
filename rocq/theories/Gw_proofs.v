(** Gromov-Wasserstein: exactness of the factorised loss, of the gradient and of the line
    search coefficients; conditional gradient restricted to an invariant set of plans. *)
From Coq Require Import Reals Lra Lia Arith Bool List FunctionalExtensionality.
Import ListNotations.
From Verif Require Import Num Sums Spec Entropy Optim_model Duals_proofs Optim_proofs Gw_model.
Local Open Scope R_scope.

(** *** specification: the quadruple sum *)
Definition gw_bil (n m : nat) (L : R -> R -> R) (C1 C2 T S : mat) : R :=
  rsum n (fun i => rsum m (fun j => rsum n (fun k => rsum m (fun l => L (C1 i k) (C2 j l) * T i j * S k l)))).
Definition gw_obj (n m : nat) (L : R -> R -> R) (C1 C2 T : mat) : R := gw_bil n m L C1 C2 T T.
Definition sq_loss (x y : R) : R := (x - y) ^ 2.
Definition kl_loss (lg : R -> R) (eps x y : R) : R := x * lg (x + eps) - x * lg (y + eps) - x + y.
Definition loss_of (lg : R -> R) (eps : R) (l : gwl) : R -> R -> R := match l with SquareLoss => sq_loss | KlLoss => kl_loss lg eps end.
Definition symmetric (n : nat) (C : mat) : Prop := forall i k, (i < n)%nat -> (k < n)%nat -> C i k = C k i.
Definition transp (C : mat) : mat := fun i j => C j i.

Lemma loss_split : forall lg eps l x y, loss_of lg eps l x y = f1 (N:=RNum) lg eps l x + f2 (N:=RNum) l y - h1 (N:=RNum) l x * h2 (N:=RNum) lg eps l y.
Proof. intros. destruct l; unfold loss_of, sq_loss, kl_loss, f1, f2, h1, h2, two; cbn; ring. Qed.

Section Bil.
Variables (n m : nat) (L : R -> R -> R) (C1 C2 : mat).
Notation B := (gw_bil n m L C1 C2).
Definition tens (S : mat) : mat := fun i j => dsum n m (fun k l => L (C1 i k) (C2 j l) * S k l).
Lemma bil_tens : forall T S, B T S = dsum n m (fun i j => T i j * tens S i j).
Proof.
  intros. unfold gw_bil, tens, dsum. apply rsum_ext; intros i _. apply rsum_ext; intros j _. rewrite <- rsum_scal. apply rsum_ext; intros k _.
  rewrite <- rsum_scal. apply rsum_ext; intros l _. ring.
Qed.
Lemma tens_add : forall G D t i j, tens (fun i j => G i j + t * D i j) i j = tens G i j + t * tens D i j.
Proof.
  intros. unfold tens. rewrite <- dsum_scal, <- dsum_plus. apply dsum_ext; intros; ring.
Qed.
Lemma bil_expand : forall G D t, B (fun i j => G i j + t * D i j) (fun i j => G i j + t * D i j)
  = B G G + t * (B G D + B D G) + t ^ 2 * B D D.
Proof.
  intros. rewrite !bil_tens. rewrite (dsum_ext n m _ (fun i j => (G i j * tens G i j + t * (G i j * tens D i j + D i j * tens G i j)) + t ^ 2 * (D i j * tens D i j))).
  2:{ intros. rewrite tens_add. ring. }
  rewrite !dsum_plus, !dsum_scal, !dsum_plus. ring.
Qed.
Lemma bil_ext : forall T T' S S', (forall i j, (i < n)%nat -> (j < m)%nat -> T i j = T' i j) -> (forall i j, (i < n)%nat -> (j < m)%nat -> S i j = S' i j) -> B T S = B T' S'.
Proof.
  intros T T' S S' H1 H2. unfold gw_bil. apply rsum_ext; intros i Hi. apply rsum_ext; intros j Hj. apply rsum_ext; intros k Hk. apply rsum_ext; intros l Hl.
  rewrite H1, H2 by auto. reflexivity.
Qed.
End Bil.
Lemma bil_transp : forall n m L C1 C2 T S, gw_bil n m L (transp C1) (transp C2) T S = gw_bil n m L C1 C2 S T.
Proof.
  intros. unfold gw_bil, transp.
  transitivity (rsum n (fun i => rsum n (fun k => rsum m (fun j => rsum m (fun l => L (C1 k i) (C2 l j) * T i j * S k l))))).
  { apply rsum_ext; intros i _. apply rsum_swap. }
  rewrite rsum_swap. apply rsum_ext; intros i _. rewrite rsum_swap.
  transitivity (rsum m (fun l => rsum n (fun k => rsum m (fun j => L (C1 i k) (C2 l j) * T k j * S i l)))).
  { rewrite (rsum_ext m _ (fun j => rsum m (fun l => rsum n (fun i0 => L (C1 i i0) (C2 l j) * T i0 j * S i l)))).
    2:{ intros. apply rsum_swap. } rewrite rsum_swap. apply rsum_ext; intros l _. apply rsum_swap. }
  apply rsum_ext; intros l _. apply rsum_ext; intros k _. apply rsum_ext; intros j _. ring.
Qed.
Lemma bil_sym : forall n m L C1 C2 T S, symmetric n C1 -> symmetric m C2 -> gw_bil n m L C1 C2 T S = gw_bil n m L C1 C2 S T.
Proof.
  intros. rewrite <- bil_transp. unfold gw_bil, transp. apply rsum_ext; intros i Hi. apply rsum_ext; intros j Hj. apply rsum_ext; intros k Hk. apply rsum_ext; intros l Hl.
  rewrite (H i k), (H0 j l) by auto. reflexivity.
Qed.

(** *** the model's tensors *)
Section Tens.
Variables (n m : nat) (lg : R -> R) (eps : R) (l : gwl) (C1 C2 : mat).
Notation L := (loss_of lg eps l).
Notation pconst := (pt_const (N:=RNum) n m lg eps l).
Notation A := (hC1 (N:=RNum) l C1).
Notation Bm := (hC2 (N:=RNum) lg eps l C2).

Lemma inner_R : forall (X Y : mat), inner (N:=RNum) n m X Y = dsum n m (fun i j => X i j * Y i j).
Proof. intros. unfold inner. rewrite nsum_R. apply rsum_ext; intros. apply nsum_R. Qed.
Lemma bil_R : forall (X Y T : mat) i j, bil (N:=RNum) n m X Y T i j = dsum n m (fun k c => X i k * Y j c * T k c).
Proof.
  intros. unfold bil, dsum. rewrite nsum_R, rsum_swap. apply rsum_ext; intros c _. rewrite nsum_R. cbn. rewrite <- rsum_scal_r. apply rsum_ext; intros; ring.
Qed.
Lemma const1_R : forall C p i j, constC1 (N:=RNum) n lg eps l C p i j = rsum n (fun k => f1 (N:=RNum) lg eps l (C i k) * p k).
Proof. intros. unfold constC1. apply nsum_R. Qed.
Lemma const2_R : forall C q i j, constC2 (N:=RNum) m l C q i j = rsum m (fun k => q k * f2 (N:=RNum) l (C j k)).
Proof. intros. unfold constC2. apply nsum_R. Qed.
Lemma rowsum_R : forall T i, rowsum (N:=RNum) m T i = row_sum m T i. Proof. intros. apply nsum_R. Qed.
Lemma csum_R : forall T i, csum (N:=RNum) n T i = col_sum n T i. Proof. intros. apply nsum_R. Qed.

Lemma tens_model : forall T i j, tensor_product (N:=RNum) n m (pconst C1 C2 T) A Bm T i j = tens n m L C1 C2 T i j.
Proof.
  intros. unfold tensor_product, pt_const, nopp. rewrite bil_R, const1_R, const2_R. cbn. unfold tens.
  rewrite (dsum_ext n m (fun k c => L (C1 i k) (C2 j c) * T k c) (fun k c => (f1 (N:=RNum) lg eps l (C1 i k) * T k c + f2 (N:=RNum) l (C2 j c) * T k c) - A i k * Bm j c * T k c)).
  2:{ intros. rewrite loss_split. unfold hC1, hC2. ring. }
  rewrite dsum_minus, dsum_plus, dsum_row, dsum_col.
  rewrite (rsum_ext n (fun k => f1 (N:=RNum) lg eps l (C1 i k) * rowsum (N:=RNum) m T k) (fun k => f1 (N:=RNum) lg eps l (C1 i k) * row_sum m T k)) by (intros; rewrite rowsum_R; reflexivity).
  rewrite (rsum_ext m (fun k => csum (N:=RNum) n T k * f2 (N:=RNum) l (C2 j k)) (fun k => f2 (N:=RNum) l (C2 j k) * col_sum n T k)) by (intros; rewrite csum_R; apply Rmult_comm).
  match goal with |- @eq _ ?x ?y => change (@eq R x y) end. ring.
Qed.
(** the constant computed once from (p, q) is that of the plan's own marginals *)
Lemma const_coupling : forall p q T i j, (forall i, (i < n)%nat -> row_sum m T i = p i) -> (forall j, (j < m)%nat -> col_sum n T j = q j) ->
  constC (N:=RNum) n m lg eps l C1 C2 p q i j = pconst C1 C2 T i j.
Proof.
  intros p q T i j Hp Hq. unfold constC, pt_const. rewrite !const1_R, !const2_R. cbn. f_equal; apply rsum_ext; intros.
  - rewrite rowsum_R, Hp; auto.
  - rewrite csum_R, Hq; auto.
Qed.
Lemma tens_coupling : forall p q T i j, (forall i, (i < n)%nat -> row_sum m T i = p i) -> (forall j, (j < m)%nat -> col_sum n T j = q j) ->
  tensor_product (N:=RNum) n m (constC (N:=RNum) n m lg eps l C1 C2 p q) A Bm T i j = tens n m L C1 C2 T i j.
Proof. intros. rewrite <- tens_model. unfold tensor_product. rewrite (const_coupling p q T); auto. Qed.
Lemma pt_f_R : forall T, pt_f (N:=RNum) n m lg eps l C1 C2 T = gw_obj n m L C1 C2 T.
Proof.
  intros. unfold pt_f, gwloss, gw_obj. rewrite inner_R, bil_tens. apply dsum_ext; intros. rewrite tens_model. ring.
Qed.
Lemma gw_f_R : forall p q T, (forall i, (i < n)%nat -> row_sum m T i = p i) -> (forall j, (j < m)%nat -> col_sum n T j = q j) ->
  gw_f (N:=RNum) n m lg eps l C1 C2 p q T = gw_obj n m L C1 C2 T.
Proof.
  intros. unfold gw_f, gwloss, gw_obj. rewrite inner_R, bil_tens. apply dsum_ext; intros. rewrite tens_coupling by auto. ring.
Qed.
Lemma sr_const_R : forall p T i j, (forall i, (i < n)%nat -> row_sum m T i = p i) ->
  sr_const (N:=RNum) n m lg eps l C1 C2 p T i j = pconst C1 C2 T i j.
Proof.
  intros p T i j Hp. unfold sr_const, pt_const. rewrite !const1_R. cbn. f_equal; apply rsum_ext; intros. rewrite rowsum_R, Hp; auto.
Qed.
Lemma sr_f_R : forall p T, (forall i, (i < n)%nat -> row_sum m T i = p i) -> sr_f (N:=RNum) n m lg eps l C1 C2 p T = gw_obj n m L C1 C2 T.
Proof.
  intros. rewrite <- pt_f_R. unfold sr_f, pt_f, gwloss. rewrite !inner_R. apply dsum_ext; intros. unfold tensor_product. rewrite sr_const_R; auto.
Qed.
End Tens.

(** *** gradients *)
Section Grad.
Variables (n m : nat) (lg : R -> R) (eps : R) (l : gwl) (sym : bool) (C1 C2 : mat).
Hypothesis Hsym : sym = true -> symmetric n C1 /\ symmetric m C2.
Notation L := (loss_of lg eps l).
Notation B := (gw_bil n m L C1 C2).

(** the gradient of the quadratic form, as the model writes it *)
Definition gradT (G : mat) : mat := fun i j =>
  if sym then 2 * tens n m L C1 C2 G i j else / 2 * (2 * tens n m L C1 C2 G i j + 2 * tens n m L (transp C1) (transp C2) G i j).
Lemma gradT_ok : forall G D, dsum n m (fun i j => gradT G i j * D i j) = B G D + B D G.
Proof.
  intros G D. unfold gradT. destruct sym eqn:E.
  - destruct Hsym as [H1 H2]; auto. rewrite (bil_sym n m L C1 C2 G D H1 H2), bil_tens.
    rewrite (dsum_ext n m _ (fun i j => 2 * (D i j * tens n m L C1 C2 G i j))) by (intros; ring). rewrite dsum_scal. ring.
  - rewrite <- (bil_transp n m L C1 C2 D G), !bil_tens. rewrite <- dsum_plus. apply dsum_ext; intros; field.
Qed.
Lemma gradT_add : forall G D t i j, gradT (fun i j => G i j + t * D i j) i j = gradT G i j + t * gradT D i j.
Proof. intros. unfold gradT. destruct sym; rewrite !tens_add; field. Qed.
Lemma gradT_ext : forall G G' i j, (forall i j, (i < n)%nat -> (j < m)%nat -> G i j = G' i j) -> gradT G i j = gradT G' i j.
Proof.
  intros G G' i j H. assert (X : forall A B, tens n m L A B G i j = tens n m L A B G' i j). { intros. unfold tens. apply dsum_ext; intros. rewrite H; auto. }
  unfold gradT. rewrite !X. reflexivity.
Qed.
Lemma pt_df_R : forall G i j, pt_df (N:=RNum) n m lg eps l sym C1 C2 G i j = gradT G i j.
Proof.
  intros. unfold pt_df, gradT, gwggrad, half_, two. destruct sym.
  - rewrite tens_model. cbn. ring.
  - pose proof (tens_model n m lg eps l (transp C1) (transp C2) G i j) as T2. rewrite tens_model.
    match goal with |- context [tensor_product n m ?c (tr ?x) (tr ?y) G i j] => change (tensor_product (N:=RNum) n m c (tr x) (tr y) G i j = tens n m L (transp C1) (transp C2) G i j) in T2; rewrite T2 end.
    cbn. match goal with |- @eq _ ?x ?y => change (@eq R x y) end. field.
Qed.
Lemma gw_df_R : forall p q G i j, (forall i, (i < n)%nat -> row_sum m G i = p i) -> (forall j, (j < m)%nat -> col_sum n G j = q j) ->
  gw_df (N:=RNum) n m lg eps l sym C1 C2 p q G i j = gradT G i j.
Proof.
  intros p q G i j Hp Hq. unfold gw_df, gradT, gwggrad, half_, two. destruct sym.
  - rewrite tens_coupling by auto. cbn. ring.
  - rewrite !tens_coupling by auto. cbn. match goal with |- @eq _ ?x ?y => change (@eq R x y) end. change (tr (N:=RNum)) with transp. field.
Qed.
Lemma sr_df_R : forall p G i j, (forall i, (i < n)%nat -> row_sum m G i = p i) ->
  sr_df (N:=RNum) n m lg eps l sym C1 C2 p G i j = gradT G i j.
Proof.
  intros p G i j Hp. unfold sr_df, gradT, gwggrad, half_, two.
  assert (X : forall A B, tensor_product (N:=RNum) n m (sr_const (N:=RNum) n m lg eps l A B p G) (hC1 (N:=RNum) l A) (hC2 (N:=RNum) lg eps l B) G i j = tens n m L A B G i j).
  { intros. rewrite <- tens_model. unfold tensor_product. rewrite sr_const_R; auto. }
  destruct sym; rewrite !X; cbn; match goal with |- @eq _ ?x ?y => change (@eq R x y) end; change (tr (N:=RNum)) with transp; field.
Qed.

(** *** line search coefficients *)
Definition zero_rows (D : mat) := forall i, (i < n)%nat -> row_sum m D i = 0.
Definition zero_cols (D : mat) := forall j, (j < m)%nat -> col_sum n D j = 0.
Notation bl := (bil (N:=RNum) n m (hC1 (N:=RNum) l C1) (hC2 (N:=RNum) lg eps l C2)).
Lemma tens_bl : forall T i j, tens n m L C1 C2 T i j = rsum n (fun k => f1 (N:=RNum) lg eps l (C1 i k) * row_sum m T k) + rsum m (fun k => f2 (N:=RNum) l (C2 j k) * col_sum n T k) - bl T i j.
Proof.
  intros. rewrite <- tens_model. unfold tensor_product, nopp, pt_const. rewrite const1_R, const2_R. cbn.
  rewrite (rsum_ext n (fun k => f1 (N:=RNum) lg eps l (C1 i k) * rowsum (N:=RNum) m T k) (fun k => f1 (N:=RNum) lg eps l (C1 i k) * row_sum m T k)) by (intros; rewrite rowsum_R; reflexivity).
  rewrite (rsum_ext m (fun k => csum (N:=RNum) n T k * f2 (N:=RNum) l (C2 j k)) (fun k => f2 (N:=RNum) l (C2 j k) * col_sum n T k)) by (intros; rewrite csum_R; apply Rmult_comm).
  match goal with |- @eq _ ?x ?y => change (@eq R x y) end. ring.
Qed.
Lemma tens_zero : forall D i j, zero_rows D -> zero_cols D -> tens n m L C1 C2 D i j = - bl D i j.
Proof.
  intros D i j Hr Hc. rewrite tens_bl. rewrite (rsum_0 n), (rsum_0 m); [match goal with |- @eq _ ?x ?y => change (@eq R x y) end; ring| |]; intros; rewrite ?Hr, ?Hc by auto; ring.
Qed.
Lemma zero_pair : forall D (x y : nat -> R), zero_rows D -> zero_cols D -> dsum n m (fun i j => (x i + y j) * D i j) = 0.
Proof.
  intros D x y Hr Hc. rewrite (dsum_ext n m _ (fun i j => x i * D i j + y j * D i j)) by (intros; ring). rewrite dsum_plus, dsum_row, dsum_col.
  rewrite (rsum_0 n), (rsum_0 m); [lra| |]; intros; rewrite ?Hr, ?Hc by auto; ring.
Qed.
Lemma bil_D_G : forall G D, zero_rows D -> zero_cols D -> B D G = - dsum n m (fun i j => bl G i j * D i j).
Proof.
  intros G D Hr Hc. rewrite bil_tens.
  rewrite (dsum_ext n m _ (fun i j => (rsum n (fun k => f1 (N:=RNum) lg eps l (C1 i k) * row_sum m G k) + rsum m (fun k => f2 (N:=RNum) l (C2 j k) * col_sum n G k)) * D i j - bl G i j * D i j)).
  2:{ intros. rewrite tens_bl. match goal with |- @eq _ ?x ?y => change (@eq R x y) end. ring. }
  rewrite dsum_minus, (zero_pair D) by auto. match goal with |- @eq _ ?x ?y => change (@eq R x y) end. ring.
Qed.
Lemma bil_G_D : forall G D, zero_rows D -> zero_cols D -> B G D = - dsum n m (fun i j => bl D i j * G i j).
Proof.
  intros G D Hr Hc. rewrite bil_tens. replace (- dsum n m (fun i j => bl D i j * G i j)) with (dsum n m (fun i j => - 1 * (bl D i j * G i j))) by (rewrite dsum_scal; cbn; ring).
  apply dsum_ext; intros. rewrite tens_zero by auto. cbn. ring.
Qed.
Lemma gl_a_R : forall reg G D, zero_rows D -> zero_cols D -> gl_a (N:=RNum) n m (hC1 (N:=RNum) l C1) (hC2 (N:=RNum) lg eps l C2) reg G D = reg * B D D.
Proof. intros. unfold gl_a, nopp. rewrite inner_R. rewrite (bil_D_G D D) by auto. cbn. ring. Qed.
Lemma gl_b_R : forall M reg G D, zero_rows D -> zero_cols D ->
  gl_b (N:=RNum) n m sym (hC1 (N:=RNum) l C1) (hC2 (N:=RNum) lg eps l C2) M reg G D = cost n m M D + reg * (B G D + B D G).
Proof.
  intros M reg G D Hr Hc. unfold gl_b, two. rewrite !inner_R. change (cost n m M D) with (dsum n m (fun i j => M i j * D i j)). destruct sym eqn:E.
  - destruct Hsym as [H1 H2]; auto. rewrite (bil_sym n m L C1 C2 D G H1 H2), (bil_G_D G D) by auto. cbn. ring.
  - rewrite (bil_G_D G D), (bil_D_G G D) by auto. cbn. ring.
Qed.
Lemma sr_tens : forall S i j, zero_rows S \/ True -> nsub (n:=RNum) (constC2 (N:=RNum) m l C2 (csum (N:=RNum) n S) i j) (bl S i j) =
  tens n m L C1 C2 S i j - rsum n (fun k => f1 (N:=RNum) lg eps l (C1 i k) * row_sum m S k).
Proof.
  intros S i j _. rewrite tens_bl, const2_R. cbn.
  rewrite (rsum_ext m (fun k => csum (N:=RNum) n S k * f2 (N:=RNum) l (C2 j k)) (fun k => f2 (N:=RNum) l (C2 j k) * col_sum n S k)) by (intros; rewrite csum_R; apply Rmult_comm).
  match goal with |- @eq _ ?x ?y => change (@eq R x y) end. ring.
Qed.
Lemma sr_inner_1 : forall S T, zero_rows S -> inner (N:=RNum) n m (fun i j => nsub (n:=RNum) (constC2 (N:=RNum) m l C2 (csum (N:=RNum) n S) i j) (bl S i j)) T = B T S.
Proof.
  intros S T Hr. rewrite inner_R, bil_tens. apply dsum_ext; intros i j Hi Hj. rewrite sr_tens by auto. rewrite (rsum_0 n); [match goal with |- @eq _ ?x ?y => change (@eq R x y) end; ring|]. intros; rewrite Hr by auto; ring.
Qed.
Lemma sr_inner_2 : forall S T, zero_rows T -> inner (N:=RNum) n m (fun i j => nsub (n:=RNum) (constC2 (N:=RNum) m l C2 (csum (N:=RNum) n S) i j) (bl S i j)) T = B T S.
Proof.
  intros S T Hr. rewrite inner_R, bil_tens.
  rewrite (dsum_ext n m _ (fun i j => T i j * tens n m L C1 C2 S i j - rsum n (fun k => f1 (N:=RNum) lg eps l (C1 i k) * row_sum m S k) * T i j)).
  2:{ intros. rewrite sr_tens by auto. match goal with |- @eq _ ?x ?y => change (@eq R x y) end; ring. }
  rewrite dsum_minus, dsum_row. rewrite (rsum_0 n (fun i => _ * row_sum m T i)); [match goal with |- @eq _ ?x ?y => change (@eq R x y) end; ring|]. intros; rewrite Hr by auto; ring.
Qed.
Lemma sr_a_R : forall reg G D, zero_rows D -> sr_a (N:=RNum) n m lg eps l C1 C2 reg G D = reg * B D D.
Proof. intros. unfold sr_a. rewrite sr_inner_1 by auto. reflexivity. Qed.
Lemma sr_b_R : forall M reg G D, zero_rows D -> sr_b (N:=RNum) n m lg eps l C1 C2 M reg G D = cost n m M D + reg * (B G D + B D G).
Proof. intros. unfold sr_b. rewrite sr_inner_1, sr_inner_2, inner_R by auto. reflexivity. Qed.
Lemma cost_add : forall (M G D : mat) t, cost n m M (fun i j => G i j + t * D i j) = cost n m M G + t * cost n m M D.
Proof.
  intros. unfold cost. fold (dsum n m (fun i j => M i j * (G i j + t * D i j))) (dsum n m (fun i j => M i j * G i j)) (dsum n m (fun i j => M i j * D i j)).
  rewrite <- dsum_scal, <- dsum_plus. apply dsum_ext; intros; ring.
Qed.
End Grad.

(** *** conditional gradient on an invariant convex set *)
Section CgOn.
Variables (n m : nat) (M : mat) (reg : R) (f : mat -> R) (df : mat -> mat) (lp : mat -> mat)
  (ls : @line_search_t RNum) (P : mat -> Prop) (Gr : mat -> mat -> Prop) (K : nat) (t1 t2 : R).
Let F := @cg_cost RNum n m M reg f.
(** [Gr G g]: g may be carried as the gradient at G *)
Hypothesis Hdf : forall G, P G -> Gr G (df G).
Hypothesis Hls : forall Fc G D Mi c g, P G -> Gr G g -> c = F G -> D = (fun i j => lp Mi i j - G i j) ->
  Mi = (fun i j => M i j + reg * g i j) ->
  let '(al, c', g') := ls Fc G D Mi c g in
  let G' := fun i j => G i j + al * D i j in
  P G' /\ c' = F G' /\ c' <= c /\ match g' with None => True | Some h => Gr G' h end.

Definition on_track (c0 : R) (s : @cg_state RNum) : Prop :=
  P (cg_G s) /\ match cg_grad s with None => True | Some g => Gr (cg_G s) g end /\
  cg_val s = F (cg_G s) /\ nonincreasing (cg_log s) /\ cg_log s <> [] /\ last (cg_log s) 0 = cg_val s /\ hd 0 (cg_log s) = c0.
Lemma cg_on : forall fuel a b G0 r, P G0 ->
  generic_conditional_gradient (N:=RNum) fuel n m a b M reg f df lp ls (Some G0) K t1 t2 = Some r ->
  P (cg_G r) /\ nonincreasing (cg_log r) /\ last (cg_log r) 0 = cg_val r /\ cg_val r = F (cg_G r) /\ F (cg_G r) <= F G0.
Proof.
  intros fuel a b G0 r H0 E. unfold generic_conditional_gradient in E.
  assert (T : on_track (F G0) r).
  { apply (loop_inv (N:=RNum) n m M reg f df lp ls K t1 t2 (on_track (F G0))) in E; auto.
    - intros s (I1 & I2 & I3 & I4 & I5 & I6 & I7). unfold cg_step.
      set (g := match cg_grad s with None => df (cg_G s) | Some g => g end).
      assert (Hg : Gr (cg_G s) g) by (unfold g; destruct (cg_grad s); auto).
      match goal with |- context [ls ?Fc ?G ?D ?Mi ?c g] => pose proof (Hls Fc G D Mi c g I1 Hg I3 eq_refl eq_refl) as X; destruct (ls Fc G D Mi c g) as [[al c'] g'] end.
      cbv zeta beta iota in X. destruct X as (X1 & X2 & X3 & X4). unfold on_track. cbn [fst cg_G cg_grad cg_val cg_log].
      split; [exact X1|]. split; [exact X4|]. split; [exact X2|]. split; [apply nonincr_app; auto; right; eapply Rle_trans; [exact X3|right; symmetry; exact I6]|].
      split; [intro Z; apply app_eq_nil in Z; destruct Z; discriminate|]. split; [apply last_last|]. destruct (cg_log s); [contradiction|exact I7].
    - unfold on_track. cbn. repeat split; auto. discriminate. }
  destruct T as (I1 & I2 & I3 & I4 & I5 & I6 & I7). split; auto. split; auto. split; auto. split; auto.
  rewrite <- I3, <- I6, <- I7. apply nonincr_last; auto.
Qed.
End CgOn.

(** quadratic line search, exact on differences of points of P *)
Lemma quad_ls_ok : forall n m M reg f (P : mat -> Prop) qa qb,
  (forall G Gc t, P G -> P Gc -> 0 <= t <= 1 -> P (fun i j => G i j + t * (Gc i j - G i j))) ->
  (forall G Gc t, P G -> P Gc -> 0 <= t <= 1 -> let D := fun i j => Gc i j - G i j in
     cg_cost (N:=RNum) n m M reg f (fun i j => G i j + t * D i j) = cg_cost (N:=RNum) n m M reg f G + qb G D * t + qa G D * t ^ 2) ->
  forall fuel a b df lp G0 K t1 t2 r, (forall Mi, P (lp Mi)) -> P G0 ->
  generic_conditional_gradient (N:=RNum) fuel n m a b M reg f df lp (quad_line_search (N:=RNum) qa qb (fun _ _ _ => None)) (Some G0) K t1 t2 = Some r ->
  P (cg_G r) /\ nonincreasing (cg_log r) /\ last (cg_log r) 0 = cg_val r /\ cg_val r = cg_cost (N:=RNum) n m M reg f (cg_G r) /\
  cg_cost (N:=RNum) n m M reg f (cg_G r) <= cg_cost (N:=RNum) n m M reg f G0.
Proof.
  intros n m M reg f P qa qb Hc Hq fuel a b df lp G0 K t1 t2 r Hlp H0 E.
  apply (cg_on n m M reg f df lp (quad_line_search (N:=RNum) qa qb (fun _ _ _ => None)) P (fun _ _ => True) K t1 t2) with (fuel := fuel) (a := a) (b := b); auto.
  intros Fc G D Mi c g HG _ Ec ED _. unfold quad_line_search. cbv zeta beta iota.
  set (al := solve_1d_linesearch_quad (N:=RNum) (qa G D) (qb G D)).
  pose proof (quad_ls_range (qa G D) (qb G D)) as Ra. pose proof (quad_ls_min (qa G D) (qb G D) 0 ltac:(lra)) as Q. cbn zeta in Q. fold al in Ra, Q.
  pose proof (Hq G (lp Mi) al HG (Hlp Mi) Ra) as X. cbv zeta in X. rewrite <- ED in X.
  split; [rewrite ED; apply Hc; auto|]. split; [etransitivity; [|symmetry; exact X]; rewrite Ec; cbn; ring|]. split; auto. cbn. lra.
Qed.
