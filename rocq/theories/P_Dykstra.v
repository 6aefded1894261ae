(** C37, C69: entropic partial transport by Dykstra iterations
    (ot/partial/partial_solvers.py:562-813), over the exact reals.
    [dykstra_run] is what the solver holds when it stops: K is the returned plan, q1, q2, q3 its
    scalings.  [err], [bad] stand for the norm and the NaN test and can be anything. *)
From Coq Require Import List Arith Bool Reals Lra Lia QArith Qreals.
From Verif Require Import Num Sums Spec Duals_proofs Entropy Partial_model Dykstra_proofs.
Import ListNotations.
Local Open Scope R_scope.

Definition dykstra_run n m a b w K0 err bad thr it : dstate (N:=RNum) :=
  d_loop (N:=RNum) n m a b w err bad thr it 0 1 (d_init (N:=RNum) n m w K0).

(** C37, first half: the returned plan is positive and has mass exactly w after any number of
    iterations, including none. *)
Theorem C37_entropic_partial_mass : forall n m a b K0 ow err bad thr it G,
  (0 < n)%nat -> (0 < m)%nat -> pos_vec n a -> pos_vec m b ->
  (forall i j, (i < n)%nat -> (j < m)%nat -> 0 < K0 i j) ->
  let w := match ow with Some w => w | None => Rmin (mass n a) (mass m b) end in 0 < w ->
  entropic_partial_wasserstein (N:=RNum) n m a b K0 ow err bad thr it = Some G ->
  total n m G = w /\ forall i j, (i < n)%nat -> (j < m)%nat -> 0 < G i j.
Proof.
  intros n m a b K0 ow err bad thr it G Hn Hm Ha Hb HK w Hw H.
  unfold entropic_partial_wasserstein in H. rewrite !nsum_R, nmin_R in H.
  assert (H' : (if nltb (n:=RNum) w n0 then None else if nltb (n:=RNum) (Rmin (rsum n a) (rsum m b)) w then None
    else Some (dK (dykstra_run n m a b w K0 err bad thr it))) = Some G).
  { rewrite <- H. unfold w, mass. destruct ow as [w0|]; [reflexivity|]. cbn. rewrite Rmult_1_r. reflexivity. }
  clear H. rename H' into H.
  destruct (nltb (n:=RNum) w n0); [discriminate|]. destruct (nltb (n:=RNum) _ w); [discriminate|]. injection H as <-.
  assert (I : dinv n m w K0 (dykstra_run n m a b w K0 err bad thr it)).
  { apply d_loop_inv; auto. apply d_init_inv; auto. }
  split; [apply I|apply I].
Qed.
Print Assumptions C37_entropic_partial_mass.

(** C37, second half: for the documented cost, the distance to optimality of the plan held at any
    moment is at most what its scalings say: the slack of each row and column constraint times the
    logarithm of its scaling, all scalings being at least 1. *)
Theorem C37_entropic_partial_gap : forall n m a b M reg w err bad thr it,
  (0 < n)%nat -> (0 < m)%nat -> pos_vec n a -> pos_vec m b -> 0 < w -> 0 < reg ->
  let s := dykstra_run n m a b w (fun i j => exp (- M i j / reg)) err bad thr it in
  (forall i, (i < n)%nat -> 1 <= dq1 s i 0%nat) /\ (forall j, (j < m)%nat -> 1 <= dq2 s 0%nat j) /\
  forall P, subcoupling n m a b P -> total n m P = w ->
  ent_obj n m M reg (dK s) <= ent_obj n m M reg P
    + reg * rsum n (fun i => ln (dq1 s i 0%nat) * (a i - row_sum m (dK s) i))
    + reg * rsum m (fun j => ln (dq2 s 0%nat j) * (b j - col_sum n (dK s) j)).
Proof.
  intros n m a b M reg w err bad thr it Hn Hm Ha Hb Hw Hr s.
  assert (HK : forall i j, (i < n)%nat -> (j < m)%nat -> 0 < exp (- M i j / reg)) by (intros; apply exp_pos).
  assert (I : dinv n m w (fun i j => exp (- M i j / reg)) s) by (apply d_loop_inv; auto; apply d_init_inv; auto).
  split; [intros i Hi; apply I; auto|]. split; [intros j Hj; apply I; auto|].
  intros P HP HPt. exact (dinv_gap n m a b w _ Hn Hm Hw HK M reg s P Hr (fun i j => eq_refl) I HP HPt).
Qed.
Print Assumptions C37_entropic_partial_gap.

(** hence a point left unchanged by a further pass is the optimal entropic partial plan *)
Theorem C37_fixed_point_optimal : forall n m a b M reg w err bad thr it,
  (0 < n)%nat -> (0 < m)%nat -> pos_vec n a -> pos_vec m b -> 0 < w -> 0 < reg ->
  let s := dykstra_run n m a b w (fun i j => exp (- M i j / reg)) err bad thr it in
  let s' := d_step (N:=RNum) n m a b w s in
  (forall i j, (i < n)%nat -> (j < m)%nat -> dq1 s' i j = dq1 s i j /\ dq2 s' i j = dq2 s i j) ->
  subcoupling n m a b (dK s) /\ total n m (dK s) = w /\
  forall P, subcoupling n m a b P -> total n m P = w -> ent_obj n m M reg (dK s) <= ent_obj n m M reg P.
Proof.
  intros n m a b M reg w err bad thr it Hn Hm Ha Hb Hw Hr s s' HF.
  assert (HK : forall i j, (i < n)%nat -> (j < m)%nat -> 0 < exp (- M i j / reg)) by (intros; apply exp_pos).
  assert (I : dinv n m w (fun i j => exp (- M i j / reg)) s) by (apply d_loop_inv; auto; apply d_init_inv; auto).
  destruct (d_fixed n m a b w _ Hn Hm Ha Hb Hw HK s I HF) as (S1 & S2 & S3).
  split; [exact S1|]. split; [apply I|]. intros P HP HPt.
  assert (G := dinv_gap n m a b w _ Hn Hm Hw HK M reg s P Hr (fun i j => eq_refl) I HP HPt).
  rewrite (rsum_0 n) in G by auto. rewrite (rsum_0 m) in G by auto. lra.
Qed.
Print Assumptions C37_fixed_point_optimal.

(** the solver really moves: one pass on a 2 x 2 problem whose first row constraint is active *)
Example dykstra_moves :
  let s := d_step (N:=QNum) 2 2 (fun i => nth i [1 # 4; 1]%Q 0%Q) (fun _ => 1%Q) 1%Q
     (d_init (N:=QNum) 2 2 1%Q (fun i j => if Nat.eqb i j then 2%Q else 1%Q)) in
  (map (fun i => map (fun j => Qred (dK s i j)) (seq 0 2)) (seq 0 2), Qred (dq1 s 0%nat 0%nat)) = ([[2 # 9; 1 # 9]; [2 # 9; 4 # 9]], 2)%Q.
Proof. vm_compute. reflexivity. Qed.

(** C69.  The log-domain solver and the multiplicative one walk through the same plans: each
    returns one of the plans K_0, K_1, ..., K_numItermax of a single sequence (they may stop at
    different indices, their error measures differ). *)
Theorem C69_logscale_same_iterates : forall n m a b L0 w err bad thr it err' bad' thr' it' G G',
  (0 < n)%nat -> (0 < m)%nat -> pos_vec n a -> pos_vec m b -> 0 < w ->
  let K := fun k => dK (Nat.iter k (d_step (N:=RNum) n m a b w) (d_init (N:=RNum) n m w (fun i j => exp (L0 i j)))) in
  entropic_partial_wasserstein (N:=RNum) n m a b (fun i j => exp (L0 i j)) (Some w) err bad thr it = Some G ->
  entropic_partial_wasserstein_logscale (N:=RNum) exp ln n m a b L0 (Some w) err' bad' thr' it' = Some G' ->
  (exists k, (k <= it)%nat /\ forall i j, (i < n)%nat -> (j < m)%nat -> G i j = K k i j) /\
  (exists k, (k <= it')%nat /\ forall i j, (i < n)%nat -> (j < m)%nat -> G' i j = K k i j).
Proof.
  intros n m a b L0 w err bad thr it err' bad' thr' it' G G' Hn Hm Ha Hb Hw K H H'.
  unfold entropic_partial_wasserstein in H. destruct (nltb (n:=RNum) w n0); [discriminate|]. destruct (nltb (n:=RNum) _ w); [discriminate|]. injection H as <-.
  unfold entropic_partial_wasserstein_logscale in H'. destruct (nltb (n:=RNum) w n0); [discriminate|]. destruct (nltb (n:=RNum) _ w); [discriminate|]. injection H' as <-.
  split.
  - destruct (d_loop_iter RNum n m a b w err bad thr it 0 1 (d_init (N:=RNum) n m w (fun i j => exp (L0 i j)))) as (k & Hk & E).
    exists k. split; auto. intros i j _ _. unfold K. change (@n1 RNum) with 1. rewrite E. reflexivity.
  - destruct (l_loop_iter RNum n m a b w err' bad' thr' exp ln it' 0 1 (l_init (N:=RNum) n m w exp ln L0)) as (k & Hk & E).
    exists k. split; auto. intros i j Hi Hj. change (@n1 RNum) with 1. rewrite E. unfold K. symmetry.
    apply (g_K n m _ _ (iter_logs n m a b w (fun i j => exp (L0 i j)) Hn Hm Ha Hb Hw ltac:(intros; apply exp_pos) L0 k ltac:(auto))); auto.
Qed.
Print Assumptions C69_logscale_same_iterates.

(** and both do answer on valid masses *)
Example dykstra_answers : forall err bad thr it,
  entropic_partial_wasserstein (N:=RNum) 1 1 (fun _ => 1) (fun _ => 1) (fun _ _ => 1) (Some (1 / 2)) err bad thr it <> None.
Proof.
  intros. unfold entropic_partial_wasserstein. rewrite !nsum_R, nmin_R. cbn [rsum].
  replace (nltb (n:=RNum) (1 / 2) n0) with false by (symmetry; apply Rltb_false; cbn; lra).
  replace (nltb (n:=RNum) (Rmin (0 + 1) (0 + 1)) (1 / 2)) with false by (symmetry; apply Rltb_false; rewrite Rmin_left by lra; cbn; lra).
  discriminate.
Qed.

(** a fixed point is met (inactive constraints, after any number of passes it stays there) *)
Example dykstra_fixed :
  let s := d_init (N:=QNum) 2 2 1%Q (fun i j => if Nat.eqb i j then 2%Q else 1%Q) in
  let s' := d_step (N:=QNum) 2 2 (fun _ => 1%Q) (fun _ => 1%Q) 1%Q s in
  forallb (fun i => forallb (fun j => Qeq_bool (dq1 s' i j) (dq1 s i j) && Qeq_bool (dq2 s' i j) (dq2 s i j)) (seq 0 2)) (seq 0 2) = true.
Proof. vm_compute. reflexivity. Qed.
