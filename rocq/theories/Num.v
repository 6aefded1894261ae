(** Numeric interface.

    POT works on IEEE doubles.  The models are written against this record of
    operations, with no laws assumed, so that
    - structural theorems hold for every arithmetic (doubles, NaN included);
    - semantic theorems are stated at the exact reals ([RNum]);
    - concrete runs are computed at the rationals ([QNum]). *)
From Coq Require Import Reals QArith Bool.

Record NumOps := mkNum {
  carrier :> Type;
  n0 : carrier;
  n1 : carrier;
  nadd : carrier -> carrier -> carrier;
  nsub : carrier -> carrier -> carrier;
  nmul : carrier -> carrier -> carrier;
  ndiv : carrier -> carrier -> carrier;
  nltb : carrier -> carrier -> bool;
  nleb : carrier -> carrier -> bool;
  neqb : carrier -> carrier -> bool
}.

Arguments n0 {n}. Arguments n1 {n}.
Arguments nadd {n}. Arguments nsub {n}. Arguments nmul {n}. Arguments ndiv {n}.
Arguments nltb {n}. Arguments nleb {n}. Arguments neqb {n}.

Definition Rltb (x y : R) : bool := if Rlt_dec x y then true else false.
Definition Rleb (x y : R) : bool := if Rle_dec x y then true else false.
Definition Reqb (x y : R) : bool := if Req_EM_T x y then true else false.

Definition RNum : NumOps :=
  mkNum R 0%R 1%R Rplus Rminus Rmult Rdiv Rltb Rleb Reqb.

Definition Qltb (x y : Q) : bool := negb (Qle_bool y x).

(** Results are kept in lowest terms so that long runs stay small. *)
Definition QNum : NumOps :=
  mkNum Q 0%Q 1%Q
    (fun x y => Qred (x + y)) (fun x y => Qred (x - y))
    (fun x y => Qred (x * y)) (fun x y => Qred (x / y))
    Qltb Qle_bool Qeq_bool.

Definition nopp {N : NumOps} (x : N) : N := nsub n0 x.
Definition nmax {N : NumOps} (x y : N) : N := if nltb x y then y else x.
Definition nmin {N : NumOps} (x y : N) : N := if nltb y x then y else x.
Definition nabs {N : NumOps} (x : N) : N := if nltb x n0 then nopp x else x.

(** [nsum k f] = f 0 + ... + f (k-1). *)
Fixpoint nsum {N : NumOps} (k : nat) (f : nat -> N) : N :=
  match k with O => n0 | S k' => nadd (nsum k' f) (f k') end.

(** maximum of f 0 .. f k (k+1 values) *)
Fixpoint nmaxk {N : NumOps} (k : nat) (f : nat -> N) : N :=
  match k with O => f 0%nat | S k' => nmax (nmaxk k' f) (f (S k')) end.
Fixpoint nmink {N : NumOps} (k : nat) (f : nat -> N) : N :=
  match k with O => f 0%nat | S k' => nmin (nmink k' f) (f (S k')) end.

(** boolean reflection at R *)
Lemma Rltb_true : forall x y, Rltb x y = true <-> (x < y)%R.
Proof. intros; unfold Rltb; destruct (Rlt_dec x y); split; intros; auto; discriminate. Qed.
Lemma Rltb_false : forall x y, Rltb x y = false <-> (y <= x)%R.
Proof.
  intros; unfold Rltb; destruct (Rlt_dec x y); split; intros; auto; try discriminate.
  - exfalso; apply (Rlt_not_le _ _ r H).
  - apply Rnot_lt_le; auto.
Qed.
Lemma Rleb_true : forall x y, Rleb x y = true <-> (x <= y)%R.
Proof. intros; unfold Rleb; destruct (Rle_dec x y); split; intros; auto; discriminate. Qed.
Lemma Rleb_false : forall x y, Rleb x y = false <-> (y < x)%R.
Proof.
  intros; unfold Rleb; destruct (Rle_dec x y); split; intros; auto; try discriminate.
  - exfalso; apply (Rle_not_lt _ _ r H).
  - apply Rnot_le_lt; auto.
Qed.
Lemma Reqb_true : forall x y, Reqb x y = true <-> (x = y)%R.
Proof. intros; unfold Reqb; destruct (Req_EM_T x y); split; intros; auto; try discriminate; contradiction. Qed.
Lemma Reqb_false : forall x y, Reqb x y = false <-> (x <> y)%R.
Proof. intros; unfold Reqb; destruct (Req_EM_T x y); split; intros; auto; try discriminate; contradiction. Qed.

Lemma nmax_R : forall x y : RNum, nmax x y = Rmax x y.
Proof.
  intros; unfold nmax; cbn [nltb RNum]; destruct (Rltb x y) eqn:E.
  - apply Rltb_true in E. rewrite Rmax_right; auto; apply Rlt_le; auto.
  - apply Rltb_false in E. rewrite Rmax_left; auto.
Qed.
Lemma nmin_R : forall x y : RNum, nmin x y = Rmin x y.
Proof.
  intros; unfold nmin; cbn [nltb RNum]; destruct (Rltb y x) eqn:E.
  - apply Rltb_true in E. rewrite Rmin_right; auto; apply Rlt_le; auto.
  - apply Rltb_false in E. rewrite Rmin_left; auto.
Qed.
