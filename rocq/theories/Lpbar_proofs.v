(** Block matrices and the barycenter program (Lpbar_model.v) over the reals. *)
From Coq Require Import List Arith Bool Reals Lra Lia.
From Verif Require Import Num Sums Spec Emd1d_model Emd1d_perm_proofs Sinkhorn_model Sinkhorn_proofs Conv_proofs Lpbar_model.
Import ListNotations.
Local Open Scope R_scope.

Notation bm := (bmat (N:=RNum)).
Definition rowmul (B : bm) (x : vec) (p : nat) : R := rsum (b_cols B) (fun q => b_ent B p q * x q).
Lemma hstack_mul : forall (A B : bm) x p, rowmul (b_hstack A B) x p = rowmul A x p + rowmul B (fun q => x (b_cols A + q)%nat) p.
Proof.
  intros. unfold rowmul, b_hstack. cbn [b_cols b_ent]. rewrite rsum_split. f_equal; apply rsum_ext; intros q Hq.
  - rewrite (proj2 (Nat.ltb_lt _ _) Hq). reflexivity.
  - rewrite (proj2 (Nat.ltb_ge _ _)) by lia. replace (b_cols A + q - b_cols A)%nat with q by lia. reflexivity.
Qed.
Lemma diag2_mul1 : forall (A B : bm) x p, (p < b_rows A)%nat -> rowmul (b_diag2 A B) x p = rowmul A x p.
Proof.
  intros A B x p Hp. unfold rowmul, b_diag2. cbn [b_cols b_ent]. rewrite (proj2 (Nat.ltb_lt _ _) Hp). rewrite rsum_split.
  rewrite (rsum_0 (b_cols B)). 2:{ intros q Hq. rewrite (proj2 (Nat.ltb_ge _ _)) by lia. cbn [n0 RNum]. ring. }
  rewrite Rplus_0_r. apply rsum_ext; intros q Hq. rewrite (proj2 (Nat.ltb_lt _ _) Hq). reflexivity.
Qed.
Lemma diag2_mul2 : forall (A B : bm) x p, rowmul (b_diag2 A B) x (b_rows A + p) = rowmul B (fun q => x (b_cols A + q)%nat) p.
Proof.
  intros A B x p. unfold rowmul, b_diag2. cbn [b_cols b_ent]. rewrite (proj2 (Nat.ltb_ge _ _)) by lia. rewrite rsum_split.
  rewrite (rsum_0 (b_cols A)). 2:{ intros q Hq. rewrite (proj2 (Nat.ltb_lt _ _) Hq). cbn [n0 RNum]. ring. }
  rewrite Rplus_0_l. apply rsum_ext; intros q Hq. rewrite (proj2 (Nat.ltb_ge _ _)) by lia. replace (b_cols A + q - b_cols A)%nat with q by lia. replace (b_rows A + p - b_rows A)%nat with p by lia. reflexivity.
Qed.
Lemma vstack_mul1 : forall (A B : bm) x p, (p < b_rows A)%nat -> rowmul (b_vstack A B) x p = rowmul A x p.
Proof. intros A B x p Hp. unfold rowmul, b_vstack. cbn [b_cols b_ent]. rewrite (proj2 (Nat.ltb_lt _ _) Hp). reflexivity. Qed.
Lemma vstack_mul2 : forall (A B : bm) x p, b_cols A = b_cols B -> rowmul (b_vstack A B) x (b_rows A + p) = rowmul B x p.
Proof.
  intros A B x p H. unfold rowmul, b_vstack. cbn [b_cols b_ent]. rewrite (proj2 (Nat.ltb_ge _ _)) by lia. replace (b_rows A + p - b_rows A)%nat with p by lia. rewrite H. reflexivity.
Qed.
Lemma at0_repeat : forall (f : nat -> bm) B D, (forall i, (0 < i)%nat -> f i = B) -> at0 f D = (f 0%nat, repeat B (D - 1)).
Proof.
  intros f B D H. unfold at0. f_equal. generalize (D - 1)%nat. intros k. assert (G : forall s, (0 < s)%nat -> map f (seq s k) = repeat B k); [|apply G; lia].
  induction k as [|k IH]; intros s Hs; cbn; [reflexivity|]. rewrite H by auto. f_equal. apply IH. lia.
Qed.
Lemma diagl_rows : forall k (B0 B : bm), b_rows (b_diagl B0 (repeat B k)) = (b_rows B0 + k * b_rows B)%nat.
Proof. induction k as [|k IH]; intros; cbn [repeat b_diagl]; [lia|]. cbn [b_diag2 b_rows]. rewrite IH. lia. Qed.
Lemma diagl_cols : forall k (B0 B : bm), b_cols (b_diagl B0 (repeat B k)) = (b_cols B0 + k * b_cols B)%nat.
Proof. induction k as [|k IH]; intros; cbn [repeat b_diagl]; [lia|]. cbn [b_diag2 b_cols]. rewrite IH. lia. Qed.
Lemma vstackl_rows : forall k (B0 B : bm), b_rows (b_vstackl B0 (repeat B k)) = (b_rows B0 + k * b_rows B)%nat.
Proof. induction k as [|k IH]; intros; cbn [repeat b_vstackl]; [lia|]. cbn [b_vstack b_rows]. rewrite IH. lia. Qed.
Lemma vstackl_cols : forall k (B0 B : bm), b_cols (b_vstackl B0 (repeat B k)) = b_cols B0.
Proof. destruct k; reflexivity. Qed.
Lemma diagl_first : forall k (B0 B : bm) x p, (p < b_rows B0)%nat -> rowmul (b_diagl B0 (repeat B k)) x p = rowmul B0 x p.
Proof. destruct k; intros; cbn [repeat b_diagl]; [reflexivity|]. apply diag2_mul1; auto. Qed.
Lemma vstackl_first : forall k (B0 B : bm) x p, (p < b_rows B0)%nat -> rowmul (b_vstackl B0 (repeat B k)) x p = rowmul B0 x p.
Proof. destruct k; intros; cbn [repeat b_vstackl]; [reflexivity|]. apply vstack_mul1; auto. Qed.
Lemma diagl_next : forall k (B0 B : bm) x i s, (i < k)%nat -> (s < b_rows B)%nat ->
  rowmul (b_diagl B0 (repeat B k)) x (b_rows B0 + (i * b_rows B + s)) = rowmul B (fun q => x (b_cols B0 + (i * b_cols B + q))%nat) s.
Proof.
  induction k as [|k IH]; intros B0 B x i s Hi Hs; [lia|]. cbn [repeat b_diagl]. rewrite diag2_mul2. destruct i as [|i].
  - replace (0 * b_rows B + s)%nat with s by lia. rewrite diagl_first by auto. reflexivity.
  - replace (S i * b_rows B + s)%nat with (b_rows B + (i * b_rows B + s))%nat by lia. rewrite IH by (auto; lia). apply rsum_ext; intros q _. f_equal. f_equal. lia.
Qed.
Lemma vstackl_next : forall k (B0 B : bm) x i s, b_cols B0 = b_cols B -> (i < k)%nat -> (s < b_rows B)%nat ->
  rowmul (b_vstackl B0 (repeat B k)) x (b_rows B0 + (i * b_rows B + s)) = rowmul B x s.
Proof.
  induction k as [|k IH]; intros B0 B x i s Hc Hi Hs; [lia|]. cbn [repeat b_vstackl]. rewrite vstack_mul2 by (rewrite vstackl_cols; auto). destruct i as [|i].
  - replace (0 * b_rows B + s)%nat with s by lia. apply vstackl_first; auto.
  - replace (S i * b_rows B + s)%nat with (b_rows B + (i * b_rows B + s))%nat by lia. apply IH; auto; lia.
Qed.

Section Prog.
Variables (n D : nat) (A M : mat) (w : vec).
Hypotheses (Hn : (0 < n)%nat) (HD : (0 < D)%nat).
Definition plan (x : vec) (i : nat) : mat := fun s t => x (i * (n * n) + (s * n + t))%nat.
Definition bar (x : vec) : vec := fun t => x (D * (n * n) + t)%nat.
Lemma kron_row : forall (y : vec) s, (s < n)%nat -> rowmul (b_kron (N:=RNum) (b_eye n n) (b_ones 1 n)) y s = rsum n (fun t => y (s * n + t)%nat).
Proof.
  intros y s Hs. unfold rowmul, b_kron, b_eye, b_ones. cbn [b_rows b_cols b_ent]. rewrite Nat.div_1_r.
  rewrite (rsum_ext (n * n) _ (fun q => (fun u t => if Nat.eqb u s then y (u * n + t)%nat else 0) (q / n)%nat (q mod n)%nat)).
  2:{ intros q Hq. replace (q / n * n + q mod n)%nat with q by (assert (E := Nat.div_mod q n ltac:(lia)); lia).
      rewrite (Nat.eqb_sym s). destruct (Nat.eqb (q / n) s); cbn [nmul n0 n1 RNum]; ring. }
  rewrite <- (flat_sum n n (fun u t => if Nat.eqb u s then y (u * n + t)%nat else 0)) by auto.
  rewrite (rsum_single n s) by (auto; intros k Hk E; apply rsum_0; intros; rewrite (proj2 (Nat.eqb_neq k s)) by auto; reflexivity).
  rewrite Nat.eqb_refl. reflexivity.
Qed.
Lemma kron_col : forall k (y : vec) t, (t < k)%nat -> (k <= n)%nat -> rowmul (b_kron (N:=RNum) (b_ones 1 n) (b_eye k n)) y t = rsum n (fun s => y (s * n + t)%nat).
Proof.
  intros k y t Ht Hk. unfold rowmul, b_kron, b_eye, b_ones. cbn [b_rows b_cols b_ent]. rewrite (Nat.mod_small t k) by auto.
  rewrite (rsum_ext (n * n) _ (fun q => (fun u v => if Nat.eqb v t then y (u * n + v)%nat else 0) (q / n)%nat (q mod n)%nat)).
  2:{ intros q Hq. replace (q / n * n + q mod n)%nat with q by (assert (E := Nat.div_mod q n ltac:(lia)); lia).
      rewrite (Nat.eqb_sym t). destruct (Nat.eqb (q mod n) t); cbn [nmul n0 n1 RNum]; ring. }
  rewrite <- (flat_sum n n (fun u v => if Nat.eqb v t then y (u * n + v)%nat else 0)) by auto.
  apply rsum_ext; intros s Hs. rewrite (rsum_single n t) by (lia || (intros v Hv E; rewrite (proj2 (Nat.eqb_neq v t)) by auto; reflexivity)). rewrite Nat.eqb_refl. reflexivity.
Qed.
Lemma eye_row : forall k (y : vec) t, (t < k)%nat -> (k <= n)%nat -> rowmul (b_neg (N:=RNum) (b_eye k n)) y t = - y t.
Proof.
  intros k y t Ht Hk. unfold rowmul, b_neg, b_eye. cbn [b_rows b_cols b_ent]. rewrite (rsum_single n t); [|lia|].
  - rewrite Nat.eqb_refl. cbn [nsub n0 n1 RNum]. ring.
  - intros q Hq E. rewrite (proj2 (Nat.eqb_neq t q)) by auto. cbn [nsub n0 n1 RNum]. ring.
Qed.
Let K1 : bm := b_kron (N:=RNum) (b_eye n n) (b_ones 1 n).
Let K2 (k : nat) : bm := b_kron (N:=RNum) (b_ones 1 n) (b_eye k n).
Lemma A1_eq : dgl (at0 (fun _ => K1) D) = b_diagl K1 (repeat K1 (D - 1)).
Proof. unfold dgl. rewrite (at0_repeat _ K1) by auto. reflexivity. Qed.
Lemma A2_eq : dgl (at0 (lb_idiag2 (N:=RNum) n) D) = b_diagl (K2 n) (repeat (K2 (n - 1)) (D - 1)).
Proof. unfold dgl. rewrite (at0_repeat _ (K2 (n - 1))); [reflexivity|]. intros i Hi. unfold lb_idiag2. rewrite (proj2 (Nat.eqb_neq i 0)) by lia. reflexivity. Qed.
Lemma A3_eq : vsl (at0 (lb_eyes (N:=RNum) n) D) = b_vstackl (b_neg (b_eye n n)) (repeat (b_neg (b_eye (n - 1) n)) (D - 1)).
Proof. unfold vsl. rewrite (at0_repeat _ (b_neg (b_eye (n - 1) n))); [reflexivity|]. intros i Hi. unfold lb_eyes. rewrite (proj2 (Nat.eqb_neq i 0)) by lia. reflexivity. Qed.
Lemma A1_rows : b_rows (lb_A1 (N:=RNum) n D) = (D * n)%nat.
Proof. unfold lb_A1. cbn [b_hstack b_rows]. fold K1. rewrite A1_eq, diagl_rows. unfold K1. cbn [b_kron b_eye b_ones b_rows]. nia. Qed.
Lemma A1_cols : b_cols (lb_A1 (N:=RNum) n D) = (D * (n * n) + n)%nat.
Proof. unfold lb_A1. cbn [b_hstack b_cols b_zero]. fold K1. rewrite A1_eq, diagl_cols. unfold K1. cbn [b_kron b_eye b_ones b_cols]. nia. Qed.
Lemma A2_rows : b_rows (lb_A2 (N:=RNum) n D) = (n + (D - 1) * (n - 1))%nat.
Proof. unfold lb_A2. cbn [b_hstack b_rows]. rewrite A2_eq, diagl_rows. unfold K2. cbn [b_kron b_eye b_ones b_rows]. nia. Qed.
Lemma A2_cols : b_cols (lb_A2 (N:=RNum) n D) = (D * (n * n) + n)%nat.
Proof. unfold lb_A2. cbn [b_hstack b_cols]. rewrite A2_eq, A3_eq, diagl_cols, vstackl_cols. unfold K2. cbn [b_kron b_eye b_ones b_cols b_neg]. nia. Qed.
Lemma A1_mul : forall x i s, (i < D)%nat -> (s < n)%nat -> rowmul (lb_A1 (N:=RNum) n D) x (i * n + s) = row_sum n (plan x i) s.
Proof.
  intros x i s Hi Hs. unfold lb_A1. fold K1. rewrite hstack_mul. unfold rowmul at 2. rewrite (rsum_0 (b_cols _)) by (intros; cbn [b_zero b_ent n0 RNum]; ring). rewrite Rplus_0_r.
  rewrite A1_eq. assert (R1 : b_rows K1 = n) by (unfold K1; cbn [b_kron b_eye b_ones b_rows]; lia). assert (C1 : b_cols K1 = (n * n)%nat) by (unfold K1; cbn [b_kron b_eye b_ones b_cols]; lia).
  destruct i as [|i].
  - replace (0 * n + s)%nat with s by lia. rewrite diagl_first by lia. unfold K1. rewrite kron_row by auto. reflexivity.
  - replace (S i * n + s)%nat with (b_rows K1 + (i * b_rows K1 + s))%nat by lia. rewrite diagl_next by lia. unfold K1 at 1. rewrite kron_row by auto. unfold row_sum, plan. apply rsum_ext; intros t Ht. f_equal. lia.
Qed.
Lemma A2_mul0 : forall x t, (t < n)%nat -> rowmul (lb_A2 (N:=RNum) n D) x t = col_sum n (plan x 0) t - bar x t.
Proof.
  intros x t Ht. unfold lb_A2. rewrite hstack_mul, A2_eq, A3_eq, diagl_cols. rewrite diagl_first by (unfold K2; cbn [b_kron b_eye b_ones b_rows]; lia). rewrite vstackl_first by (cbn [b_neg b_eye b_rows]; lia).
  rewrite eye_row by lia. unfold K2 at 1. rewrite kron_col by lia. unfold col_sum, plan, bar, Rminus. f_equal. f_equal. f_equal. unfold K2. cbn [b_kron b_eye b_ones b_cols]. nia.
Qed.
Lemma A2_mul1 : forall x i t, (i < D - 1)%nat -> (t < n - 1)%nat -> rowmul (lb_A2 (N:=RNum) n D) x (n + (i * (n - 1) + t)) = col_sum n (plan x (S i)) t - bar x t.
Proof.
  intros x i t Hi Ht. unfold lb_A2. rewrite hstack_mul, A2_eq, A3_eq, diagl_cols.
  assert (R0 : b_rows (K2 n) = n) by (unfold K2; cbn [b_kron b_eye b_ones b_rows]; lia). assert (R1 : b_rows (K2 (n - 1)) = (n - 1)%nat) by (unfold K2; cbn [b_kron b_eye b_ones b_rows]; lia).
  assert (C0 : b_cols (K2 n) = (n * n)%nat) by (unfold K2; cbn [b_kron b_eye b_ones b_cols]; lia). assert (C1 : b_cols (K2 (n - 1)) = (n * n)%nat) by (unfold K2; cbn [b_kron b_eye b_ones b_cols]; lia).
  assert (E1 := diagl_next (D - 1) (K2 n) (K2 (n - 1)) x i t Hi ltac:(lia)). rewrite R0, R1 in E1. rewrite E1.
  assert (E2 := vstackl_next (D - 1) (b_neg (b_eye n n)) (b_neg (b_eye (n - 1) n)) (fun q => x (b_cols (K2 n) + (D - 1) * b_cols (K2 (n - 1)) + q)%nat) i t eq_refl Hi Ht).
  cbn [b_neg b_eye b_rows] in E2. rewrite E2. rewrite eye_row by lia. rewrite C0, C1. unfold K2 at 1. rewrite kron_col by lia.
  unfold col_sum, plan, bar, Rminus. f_equal; [apply rsum_ext; intros; f_equal; lia|]. f_equal. f_equal. nia.
Qed.
(** the equality constraints, read off *)
Definition lp_eqs (x : vec) : Prop :=
  (forall i s, (i < D)%nat -> (s < n)%nat -> row_sum n (plan x i) s = A s i) /\ (forall t, (t < n)%nat -> col_sum n (plan x 0) t = bar x t) /\
  (forall i t, (0 < i < D)%nat -> (t < n - 1)%nat -> col_sum n (plan x i) t = bar x t).
Lemma feas_iff : forall x, (forall p, (p < b_rows (lb_Aeq (N:=RNum) n D))%nat -> rowmul (lb_Aeq (N:=RNum) n D) x p = lb_beq (N:=RNum) n D A p) <-> lp_eqs x.
Proof.
  intros x. assert (Rw : b_rows (lb_Aeq (N:=RNum) n D) = (D * n + (n + (D - 1) * (n - 1)))%nat) by (unfold lb_Aeq; cbn [b_vstack b_rows]; rewrite A1_rows, A2_rows; reflexivity). rewrite Rw.
  assert (CC : b_cols (lb_A1 (N:=RNum) n D) = b_cols (lb_A2 (N:=RNum) n D)) by (rewrite A1_cols, A2_cols; reflexivity).
  assert (M1 : forall p, (p < D * n)%nat -> rowmul (lb_Aeq (N:=RNum) n D) x p = rowmul (lb_A1 (N:=RNum) n D) x p) by (intros; apply vstack_mul1; rewrite A1_rows; auto).
  assert (M2 : forall p, rowmul (lb_Aeq (N:=RNum) n D) x (D * n + p) = rowmul (lb_A2 (N:=RNum) n D) x p) by (intros p; unfold lb_Aeq; rewrite <- A1_rows at 1; apply vstack_mul2; auto).
  assert (B1 : forall i s, (i < D)%nat -> (s < n)%nat -> lb_beq (N:=RNum) n D A (i * n + s) = A s i).
  { intros i s Hi Hs. unfold lb_beq. rewrite (proj2 (Nat.ltb_lt _ _)) by nia. f_equal.
    - rewrite Nat.add_comm, Nat.mod_add by lia. apply Nat.mod_small; auto.
    - rewrite Nat.add_comm, Nat.div_add by lia. rewrite Nat.div_small by auto. lia. }
  assert (B2 : forall p, lb_beq (N:=RNum) n D A (D * n + p) = 0) by (intros p; unfold lb_beq; rewrite (proj2 (Nat.ltb_ge _ _)) by lia; reflexivity).
  split.
  - intros H. split; [|split].
    + intros i s Hi Hs. rewrite <- A1_mul by auto. rewrite <- M1 by nia. rewrite H by nia. apply B1; auto.
    + intros t Ht. assert (E := H (D * n + t)%nat ltac:(lia)). rewrite M2, B2, A2_mul0 in E by auto. lra.
    + intros i t Hi Ht. assert (E := H (D * n + (n + ((i - 1) * (n - 1) + t)))%nat ltac:(nia)). rewrite M2, B2, A2_mul1 in E by lia. replace (S (i - 1)) with i in E by lia. lra.
  - intros (H1 & H2 & H3) p Hp. destruct (Nat.lt_ge_cases p (D * n)) as [L|L].
    + rewrite M1 by auto. assert (E := Nat.div_mod p n ltac:(lia)). assert (Lm := Nat.mod_upper_bound p n ltac:(lia)). assert (Ld : (p / n < D)%nat) by (apply Nat.div_lt_upper_bound; lia).
      replace p with (p / n * n + p mod n)%nat by lia. rewrite A1_mul, B1 by auto. apply H1; auto.
    + replace p with (D * n + (p - D * n))%nat by lia. rewrite M2, B2. set (u := (p - D * n)%nat). destruct (Nat.lt_ge_cases u n) as [L'|L'].
      * rewrite A2_mul0 by auto. rewrite H2 by auto. lra.
      * assert (Hu : (u - n < (D - 1) * (n - 1))%nat) by (unfold u; lia). assert (Hk : (0 < n - 1)%nat) by (destruct (n - 1)%nat; lia).
        assert (E := Nat.div_mod (u - n) (n - 1) ltac:(lia)). assert (Lm := Nat.mod_upper_bound (u - n) (n - 1) ltac:(lia)). assert (Ld : ((u - n) / (n - 1) < D - 1)%nat) by (apply Nat.div_lt_upper_bound; lia).
        replace u with (n + ((u - n) / (n - 1) * (n - 1) + (u - n) mod (n - 1)))%nat by lia. rewrite A2_mul1 by auto. rewrite H3 by lia. lra.
Qed.
Lemma objective : forall x, rsum (D * (n * n) + n) (fun q => lb_c (N:=RNum) n D M w q * x q) = rsum D (fun i => w i * cost n n M (plan x i)).
Proof.
  intros x. rewrite rsum_split. rewrite (rsum_0 n). 2:{ intros q Hq. unfold lb_c. rewrite (proj2 (Nat.ltb_ge _ _)) by lia. cbn [n0 RNum]. ring. } rewrite Rplus_0_r.
  rewrite (rsum_ext (D * (n * n)) _ (fun q => (fun i z => w i * ((fun s t => M s t * plan x i s t) (z / n)%nat (z mod n)%nat)) (q / (n * n))%nat (q mod (n * n))%nat)).
  2:{ intros q Hq. unfold lb_c. rewrite (proj2 (Nat.ltb_lt _ _) Hq). cbn [nmul RNum]. unfold plan.
      assert (E1 := Nat.div_mod q (n * n) ltac:(nia)). assert (E2 := Nat.div_mod (q mod (n * n)) n ltac:(lia)).
      replace (q / (n * n) * (n * n) + (q mod (n * n) / n * n + (q mod (n * n)) mod n))%nat with q by nia. ring. }
  rewrite <- (flat_sum (n * n) D (fun i z => w i * ((fun s t => M s t * plan x i s t) (z / n)%nat (z mod n)%nat))) by nia.
  apply rsum_ext; intros i Hi. rewrite rsum_scal. f_equal. unfold cost. rewrite <- (flat_sum n n (fun s t => M s t * plan x i s t)) by auto. reflexivity.
Qed.
End Prog.
