(** C127: the exact Sinkhorn solution exists, is unique, and the runs of sinkhorn_knopp converge to
    it (ot/bregman/_sinkhorn.py:591-692).  Exact reals. *)
From Coq Require Import List Arith Bool Reals Lra Lia ClassicalChoice.
From Verif Require Import Num Sums Spec Duals_proofs Entropy Exist Sinkhorn_model Sinkhorn_proofs Sinkhorn_more P_Sinkhorn Sink_exist.
Import ListNotations.
Local Open Scope R_scope.

(** P solves entropic transport: it is a coupling, of the form diag(u) exp(-M/reg) diag(v) *)
Definition sinkhorn_plan (n m : nat) (a b : vec) (M : mat) (reg : R) (P : mat) : Prop :=
  coupling n m a b P /\ exists u v, pos_vec n u /\ pos_vec m v /\ forall i j, (i < n)%nat -> (j < m)%nat -> P i j = u i * exp (- M i j / reg) * v j.

(** runs with thresholds tending to 0 that all end without warning have plans tending, entry by
    entry, to a coupling of the scaled form ... *)
Theorem C127_runs_converge : forall n m a b M reg (thr : nat -> R) (it : nat -> nat) (warm : nat -> option (vec * vec)),
  (0 < n)%nat -> (0 < m)%nat -> pos_vec n a -> pos_vec m b -> 0 < reg ->
  (forall k, pos_warm n m (warm k)) -> Un_cv thr 0 ->
  let run k := sinkhorn_knopp (N:=RNum) n m a b norm2 no_nan (thr k) (gibbs M reg) (it k) (warm k) in
  (forall k, exists i, sk_exit (run k) = Converged i) ->
  exists P, sinkhorn_plan n m a b M reg P /\
    forall i j, (i < n)%nat -> (j < m)%nat -> Un_cv (fun k => diag_plan (gibbs M reg) (sk_u (run k)) (sk_v (run k)) i j) (P i j).
Proof.
  intros n m a b M reg thr it warm Hn Hm Ha Hb Hr W Ht run HC.
  destruct (runs_limit n m a b M reg Hn Hm Ha Hb Hr thr it warm W Ht HC) as (L & CL & SL & CV). exists L. split; [split; auto|exact CV].
Qed.
Print Assumptions C127_runs_converge.
(** ... which exists for all positive weights of equal mass and every cost, is the only one, and is
    the strict minimiser of <M,P> + reg sum P log P. *)
Theorem C127_exists_unique : forall n m a b M reg, (0 < n)%nat -> (0 < m)%nat -> pos_vec n a -> pos_vec m b -> mass n a = mass m b -> 0 < reg ->
  exists P, sinkhorn_plan n m a b M reg P /\
  (forall Q, sinkhorn_plan n m a b M reg Q -> forall i j, (i < n)%nat -> (j < m)%nat -> Q i j = P i j) /\
  (forall Q, coupling n m a b Q -> ent_obj n m M reg P <= ent_obj n m M reg Q /\
     (ent_obj n m M reg Q <= ent_obj n m M reg P -> forall i j, (i < n)%nat -> (j < m)%nat -> Q i j = P i j)).
Proof.
  intros n m a b M reg Hn Hm Ha Hb HE Hr. destruct (entries_bounded n m M) as (B & HB).
  assert (X : forall k : nat, exists it i, sk_exit (sinkhorn_knopp (N:=RNum) n m a b norm2 no_nan (/ INR (S k)) (gibbs M reg) it None) = Converged i).
  { intros k. apply (C25_some_limit n m a b M reg (- B) B); auto. apply Rinv_0_lt_compat, lt_0_INR; lia. }
  destruct (choice _ X) as (it & Hit).
  destruct (C127_runs_converge n m a b M reg (fun k => / INR (S k)) it (fun _ => None) Hn Hm Ha Hb Hr (fun _ => I) inv_cv0 Hit) as (P & (CP & SP) & _).
  exists P. split; [split; auto|]. split.
  - intros Q (CQ & SQ) i j Hi Hj. apply (scaling_unique n m a b M reg Q P); auto.
  - intros Q CQ. destruct SP as (u & v & Hu & Hv & E).
    assert (CE : coupling n m a b (diag_plan (gibbs M reg) u v)).
    { destruct CP as (H1 & H2 & H3). split; [|split].
      - intros i j Hi Hj. specialize (H1 i j Hi Hj). rewrite (E i j Hi Hj) in H1. exact H1.
      - intros i Hi. rewrite <- (H2 i Hi). apply rsum_ext; intros; symmetry; apply E; auto.
      - intros j Hj. rewrite <- (H3 j Hj). apply rsum_ext; intros; symmetry; apply E; auto. }
    assert (OE : ent_obj n m M reg P = ent_obj n m M reg (diag_plan (gibbs M reg) u v)).
    { unfold ent_obj, cost, ent. f_equal; [|f_equal]; apply rsum_ext; intros i' Hi'; apply rsum_ext; intros j' Hj'; rewrite E; auto. }
    rewrite OE. destruct (C24_fixed_point_optimal n m a b M reg u v Hr Hu Hv CE Q CQ) as (U1 & U2). split; auto.
    intros H i j Hi Hj. rewrite (E i j Hi Hj). apply U2; auto.
Qed.
Print Assumptions C127_exists_unique.
(** an exact solver of all entropic problems with marginals a and b exists *)
Lemma exact_sinkhorn_exists : forall n m a b reg, (0 < n)%nat -> (0 < m)%nat -> pos_vec n a -> pos_vec m b -> mass n a = mass m b -> 0 < reg ->
  exists sk : mat -> mat, forall M, sinkhorn_plan n m a b M reg (sk M).
Proof.
  intros n m a b reg Hn Hm Ha Hb HE Hr. apply (choice (fun M P => sinkhorn_plan n m a b M reg P)). intros M.
  destruct (C127_exists_unique n m a b M reg Hn Hm Ha Hb HE Hr) as (P & HP & _). exists P. exact HP.
Qed.
(** the hypotheses of C127_runs_converge are met by uniform weights on two points, thresholds
    1/(k+1) and any cost *)
Example C127_case : forall M, exists it : nat -> nat, forall k, exists i,
  sk_exit (sinkhorn_knopp (N:=RNum) 2 2 (fun _ => / 2) (fun _ => / 2) norm2 no_nan (/ INR (S k)) (gibbs M 1) (it k) None) = Converged i.
Proof.
  intros M. destruct (entries_bounded 2 2 M) as (B & HB).
  apply (choice (fun k it => exists i, sk_exit (sinkhorn_knopp (N:=RNum) 2 2 (fun _ => / 2) (fun _ => / 2) norm2 no_nan (/ INR (S k)) (gibbs M 1) it None) = Converged i)).
  intros k. apply (C25_some_limit 2 2 (fun _ => / 2) (fun _ => / 2) M 1 (- B) B); auto; try lia; try lra; try (intros i Hi; lra).
  apply Rinv_0_lt_compat, lt_0_INR; lia.
Qed.
