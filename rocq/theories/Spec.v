(** Independent specification vocabulary: what a user of an optimal transport
    library means by a plan, its cost, optimality, divergences.  Nothing here
    refers to any model of the code. *)
From Coq Require Import Reals Lra Lia.
From Verif Require Import Sums.
Local Open Scope R_scope.

Definition vec := nat -> R.
Definition mat := nat -> nat -> R.

Definition row_sum (m : nat) (G : mat) (i : nat) : R := rsum m (fun j => G i j).
Definition col_sum (n : nat) (G : mat) (j : nat) : R := rsum n (fun i => G i j).
Definition total (n m : nat) (G : mat) : R := rsum n (fun i => rsum m (fun j => G i j)).

Definition nonneg_mat (n m : nat) (G : mat) : Prop :=
  forall i j, (i < n)%nat -> (j < m)%nat -> 0 <= G i j.

(** transport plan between the histograms a (size n) and b (size m) *)
Definition coupling (n m : nat) (a b : vec) (G : mat) : Prop :=
  nonneg_mat n m G /\
  (forall i, (i < n)%nat -> row_sum m G i = a i) /\
  (forall j, (j < m)%nat -> col_sum n G j = b j).

(** partial plan: ships at most a and delivers at most b *)
Definition subcoupling (n m : nat) (a b : vec) (G : mat) : Prop :=
  nonneg_mat n m G /\
  (forall i, (i < n)%nat -> row_sum m G i <= a i) /\
  (forall j, (j < m)%nat -> col_sum n G j <= b j).

(** <M, G> *)
Definition cost (n m : nat) (M G : mat) : R :=
  rsum n (fun i => rsum m (fun j => M i j * G i j)).

Definition dot (n : nat) (x y : vec) : R := rsum n (fun i => x i * y i).

Definition optimal_coupling (n m : nat) (a b : vec) (M G : mat) : Prop :=
  coupling n m a b G /\
  forall G', coupling n m a b G' -> cost n m M G <= cost n m M G'.

Definition dual_feasible (n m : nat) (M : mat) (u v : vec) : Prop :=
  forall i j, (i < n)%nat -> (j < m)%nat -> u i + v j <= M i j.

Definition dual_obj (n m : nat) (a b u v : vec) : R := dot n u a + dot m v b.

(** probability-like vectors *)
Definition nonneg_vec (n : nat) (a : vec) : Prop := forall i, (i < n)%nat -> 0 <= a i.
Definition pos_vec (n : nat) (a : vec) : Prop := forall i, (i < n)%nat -> 0 < a i.
Definition mass (n : nat) (a : vec) : R := rsum n a.

(** ** Elementary facts about the specification *)
Lemma cost_swap : forall n m M G,
  cost n m M G = rsum m (fun j => rsum n (fun i => M i j * G i j)).
Proof. intros; apply rsum_swap. Qed.

Lemma coupling_mass : forall n m a b G, coupling n m a b G -> mass n a = mass m b.
Proof.
  intros n m a b G (_ & Hr & Hc). unfold mass.
  rewrite (rsum_ext n a (fun i => rsum m (fun j => G i j))).
  - rewrite rsum_swap. apply rsum_ext; intros; apply Hc; auto.
  - intros; symmetry; apply Hr; auto.
Qed.

(** potentials evaluated against a coupling *)
Lemma potentials_cost : forall n m a b G u v, coupling n m a b G ->
  cost n m (fun i j => u i + v j) G = dual_obj n m a b u v.
Proof.
  intros n m a b G u v (_ & Hr & Hc). unfold cost, dual_obj, dot.
  rewrite (rsum_ext n _ (fun i => rsum m (fun j => u i * G i j) + rsum m (fun j => v j * G i j))).
  2:{ intros i Hi. rewrite <- rsum_plus. apply rsum_ext; intros; ring. }
  rewrite rsum_plus. f_equal.
  - apply rsum_ext; intros i Hi. rewrite rsum_scal. f_equal. apply Hr; auto.
  - rewrite rsum_swap. apply rsum_ext; intros j Hj. rewrite rsum_scal. f_equal. apply Hc; auto.
Qed.

Lemma cost_le : forall n m M M' G, nonneg_mat n m G ->
  (forall i j, (i < n)%nat -> (j < m)%nat -> M i j <= M' i j) ->
  cost n m M G <= cost n m M' G.
Proof.
  intros n m M M' G HG H. apply rsum_le; intros i Hi. apply rsum_le; intros j Hj.
  apply Rmult_le_compat_r; auto.
Qed.

(** weak duality *)
Lemma weak_duality : forall n m a b M G u v,
  coupling n m a b G -> dual_feasible n m M u v -> dual_obj n m a b u v <= cost n m M G.
Proof.
  intros n m a b M G u v HG Hd. rewrite <- (potentials_cost n m a b G u v HG).
  apply cost_le; auto. apply HG.
Qed.

(** optimality certificate: feasible potentials tight on the support *)
Lemma certificate_optimal : forall n m a b M G u v,
  coupling n m a b G -> dual_feasible n m M u v ->
  (forall i j, (i < n)%nat -> (j < m)%nat -> 0 < G i j -> u i + v j = M i j) ->
  optimal_coupling n m a b M G /\ cost n m M G = dual_obj n m a b u v.
Proof.
  intros n m a b M G u v HG Hd Ht.
  assert (E : cost n m M G = dual_obj n m a b u v).
  { rewrite <- (potentials_cost n m a b G u v HG). apply rsum_ext; intros i Hi.
    apply rsum_ext; intros j Hj. destruct HG as (Hn & _).
    destruct (Rle_lt_or_eq_dec _ _ (Hn i j Hi Hj)) as [Hp|Hz].
    - rewrite (Ht i j Hi Hj Hp); ring.
    - rewrite <- Hz; ring. }
  split; auto. split; auto. intros G' HG'. rewrite E. apply weak_duality; auto.
Qed.
