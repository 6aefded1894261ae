(** C63, C64, C92: smoothed transport (ot/smooth.py) and the value ot.solve reports for reg_type='L2'.
    [primal r gamma n m C T] is the problem of the docstring: <C, T> + sum over the columns t_j of
    gamma/2 |t_j|^2 (SquaredL2, Sparse k) or gamma sum_i t_ij ln t_ij (NegEntropy);
    [cols_admissible]: the columns are non-negative and, for Sparse k, have at most k non-zero entries. *)
From Coq Require Import List Arith Bool Reals Lra Lia QArith.
From Verif Require Import Num Sums Spec Entropy Duals_proofs Utils_model Utils_proofs Smooth_model Smooth_proofs.
Import ListNotations.
Local Open Scope R_scope.

(** the entropy convention: t ln t is continuous with value 0 at t = 0 *)
Example Om_at_zero : Om NegEntropy 1 1 (fun _ => 0) = 0.
Proof. cbn [Om rsum]. ring. Qed.

(** ** C63: at every pair of dual vectors *)
Theorem C63_smooth_dual : forall r n m (g : R) (al be a b : vec) (C : mat) D ga gb, 0 < g ->
  dual_obj_grad (N:=RNum) exp r n m g al be a b C = Some (D, ga, gb) ->
  exists T, get_plan_from_dual (N:=RNum) exp r n g al be C = Some T /\ cols_admissible r n m T /\
  (forall i, ga i = a i - row_sum m T i) /\ (forall j, gb j = b j - col_sum n T j) /\
  (* weak duality *)
  (forall P, coupling n m a b P -> cols_admissible r n m P -> D <= primal r g n m C P) /\
  (* the plan is optimal up to the reported residuals *)
  (forall P, coupling n m a b P -> cols_admissible r n m P -> primal r g n m C T <= primal r g n m C P - dot n al ga - dot m be gb) /\
  (* certificate: a zero gradient means the plan is an optimal coupling and the dual value is the optimum *)
  ((forall i, (i < n)%nat -> ga i = 0) -> (forall j, (j < m)%nat -> gb j = 0) ->
     coupling n m a b T /\ D = primal r g n m C T /\ forall P, coupling n m a b P -> cols_admissible r n m P -> primal r g n m C T <= primal r g n m C P).
Proof.
  intros r n m g al be a b C D ga gb Hg H. destruct (dual_val _ _ _ _ _ _ _ _ _ _ _ _ H) as (Hok & _ & T & HT & Ga & Gb & _). exists T. split; auto.
  destruct (dual_attain _ _ _ _ _ _ _ _ _ _ _ _ T Hg H HT) as [AT ED]. split; auto. split; auto. split; auto.
  assert (W : forall P, coupling n m a b P -> cols_admissible r n m P -> D <= primal r g n m C P).
  { intros P (_ & R1 & C1) HP. pose proof (dual_lagrange _ _ _ _ _ _ _ _ _ _ _ _ P Hg H HP) as L.
    rewrite (dot_zero n al (fun i => a i - row_sum m P i)), (dot_zero m be (fun j => b j - col_sum n P j)) in L by (intros i Hi; first [rewrite (R1 i Hi) | rewrite (C1 i Hi)]; ring). lra. }
  split; auto. split; [intros P HP HA; specialize (W P HP HA); lra|]. intros Z1 Z2.
  rewrite (dot_zero n al ga Z1), (dot_zero m be gb Z2) in ED. split; [|split; [lra|intros P HP HA; specialize (W P HP HA); lra]].
  split; [intros i j Hi Hj; apply (AT j Hj); auto|]. split; intros k Hk; [specialize (Ga k); rewrite (Z1 k Hk) in Ga|specialize (Gb k); rewrite (Z2 k Hk) in Gb]; lra.
Qed.
(** the returned gradient is a supergradient of the (concave) dual objective *)
Theorem C63_smooth_dual_supergradient : forall r n m (g : R) (al be al' be' a b : vec) (C : mat) D ga gb D' ga' gb', 0 < g ->
  dual_obj_grad (N:=RNum) exp r n m g al be a b C = Some (D, ga, gb) -> dual_obj_grad (N:=RNum) exp r n m g al' be' a b C = Some (D', ga', gb') ->
  D' <= D + dot n (fun i => al' i - al i) ga + dot m (fun j => be' j - be j) gb.
Proof.
  intros r n m g al be al' be' a b C D ga gb D' ga' gb' Hg H H'. destruct (dual_val _ _ _ _ _ _ _ _ _ _ _ _ H) as (_ & _ & T & HT & Ga & Gb & _).
  destruct (dual_attain _ _ _ _ _ _ _ _ _ _ _ _ T Hg H HT) as [AT ED]. pose proof (dual_lagrange _ _ _ _ _ _ _ _ _ _ _ _ T Hg H' AT) as L.
  assert (E1 : dot n al' (fun i => a i - row_sum m T i) = dot n al' ga) by (apply rsum_ext; intros; rewrite Ga; auto). assert (E2 : dot m be' (fun j => b j - col_sum n T j) = dot m be' gb) by (apply rsum_ext; intros; rewrite Gb; auto).
  rewrite !dot_minus_l. lra.
Qed.
(** a value is returned unless max_nz is at least the number of rows *)
Theorem C63_smooth_dual_defined : forall r n m (g : R) (al be a b : vec) (C : mat),
  (exists x, dual_obj_grad (N:=RNum) exp r n m g al be a b C = Some x) <-> match r with Sparse k => (k < n)%nat | _ => True end.
Proof.
  intros r n m g al be a b C. unfold dual_obj_grad. destruct r as [| |k]; cbn [delta_ok]; try (split; [auto|eexists; reflexivity]).
  destruct (k <? n)%nat eqn:E; [apply Nat.ltb_lt in E|apply Nat.ltb_ge in E]; split; intros H; auto; [eexists; reflexivity|destruct H; discriminate|lia].
Qed.

(** ** C92: the semi-dual; the second marginal is exact at every dual vector *)
Theorem C92_smooth_semi_dual : forall r n m (g : R) (al a b : vec) (C : mat) D ga, (0 < n)%nat -> 0 < g -> pos_vec m b ->
  semi_dual_obj_grad (N:=RNum) exp ln r n m g al a b C = Some (D, ga) ->
  exists T, get_plan_from_semi_dual (N:=RNum) exp ln r n g al b C = Some T /\ cols_admissible r n m T /\
  (forall j, (j < m)%nat -> col_sum n T j = b j) /\ (forall i, ga i = a i - row_sum m T i) /\
  (forall P, coupling n m a b P -> cols_admissible r n m P -> D <= primal r g n m C P) /\
  (forall P, coupling n m a b P -> cols_admissible r n m P -> primal r g n m C T <= primal r g n m C P - dot n al ga) /\
  ((forall i, (i < n)%nat -> ga i = 0) ->
     coupling n m a b T /\ D = primal r g n m C T /\ forall P, coupling n m a b P -> cols_admissible r n m P -> primal r g n m C T <= primal r g n m C P).
Proof.
  intros r n m g al a b C D ga Hn Hg Hb H. destruct (semi_val _ _ _ _ _ _ _ _ _ _ H) as (Hok & _ & T & HT & Ga & _). exists T. split; auto.
  destruct (semi_attain _ _ _ _ _ _ _ _ _ _ T Hn Hg Hb H HT) as (AT & MT & ED). split; auto. split; auto. split; auto.
  assert (W : forall P, coupling n m a b P -> cols_admissible r n m P -> D <= primal r g n m C P).
  { intros P (_ & R1 & C1) HP. pose proof (semi_lagrange _ _ _ _ _ _ _ _ _ _ P Hn Hg Hb H HP C1) as L.
    rewrite (dot_zero n al (fun i => a i - row_sum m P i)) in L by (intros i Hi; rewrite (R1 i Hi); ring). lra. }
  split; auto. split; [intros P HP HA; specialize (W P HP HA); lra|]. intros Z1.
  rewrite (dot_zero n al ga Z1) in ED. split; [|split; [lra|intros P HP HA; specialize (W P HP HA); lra]].
  split; [intros i j Hi Hj; apply (AT j Hj); auto|]. split; auto. intros k Hk. specialize (Ga k). rewrite (Z1 k Hk) in Ga. lra.
Qed.
Theorem C92_smooth_semi_dual_supergradient : forall r n m (g : R) (al al' a b : vec) (C : mat) D ga D' ga', (0 < n)%nat -> 0 < g -> pos_vec m b ->
  semi_dual_obj_grad (N:=RNum) exp ln r n m g al a b C = Some (D, ga) -> semi_dual_obj_grad (N:=RNum) exp ln r n m g al' a b C = Some (D', ga') ->
  D' <= D + dot n (fun i => al' i - al i) ga.
Proof.
  intros r n m g al al' a b C D ga D' ga' Hn Hg Hb H H'. destruct (semi_val _ _ _ _ _ _ _ _ _ _ H) as (_ & _ & T & HT & Ga & _).
  destruct (semi_attain _ _ _ _ _ _ _ _ _ _ T Hn Hg Hb H HT) as (AT & MT & ED). pose proof (semi_lagrange _ _ _ _ _ _ _ _ _ _ T Hn Hg Hb H' AT MT) as L.
  assert (E1 : dot n al' (fun i => a i - row_sum m T i) = dot n al' ga) by (apply rsum_ext; intros; rewrite Ga; auto).
  rewrite !dot_minus_l. lra.
Qed.
(** the best dual value over beta: eliminating beta from the dual gives the semi-dual *)
Theorem C92_semi_dual_dominates : forall r n m (g : R) (al be a b : vec) (C : mat) D ga gb D' ga', (0 < n)%nat -> 0 < g -> pos_vec m b ->
  dual_obj_grad (N:=RNum) exp r n m g al be a b C = Some (D, ga, gb) -> semi_dual_obj_grad (N:=RNum) exp ln r n m g al a b C = Some (D', ga') -> D <= D'.
Proof.
  intros r n m g al be a b C D ga gb D' ga' Hn Hg Hb H H'. destruct (semi_val _ _ _ _ _ _ _ _ _ _ H') as (_ & _ & T & HT & Ga & _).
  destruct (semi_attain _ _ _ _ _ _ _ _ _ _ T Hn Hg Hb H' HT) as (AT & MT & ED). pose proof (dual_lagrange _ _ _ _ _ _ _ _ _ _ _ _ T Hg H AT) as L.
  rewrite (dot_zero m be) in L by (intros j Hj; rewrite (MT j Hj); ring).
  assert (E1 : dot n al (fun i => a i - row_sum m T i) = dot n al ga') by (apply rsum_ext; intros; rewrite Ga; auto). lra.
Qed.

(** ** C64: ot.solve with reg_type 'L2' *)
Definition sqnorm (n m : nat) (P : mat) : R := rsum n (fun i => rsum m (fun j => P i j * P i j)).
Lemma primal_l2 : forall g n m C P, primal SquaredL2 g n m C P = cost n m C P + g / 2 * sqnorm n m P.
Proof. intros. unfold primal, sqnorm. cbn [Om]. rewrite rsum_scal, rsum_swap. reflexivity. Qed.
(** the documented objective <M, T> + reg |T|^2 *)
Definition documented_l2 (n m : nat) (reg : R) (M P : mat) : R := cost n m M P + reg * sqnorm n m P.
Lemma value_l2 : forall n m (reg : R) (M P : mat), solve_l2_value (N:=RNum) n m reg M P = documented_l2 n m reg M P.
Proof.
  intros. unfold solve_l2_value, documented_l2, cost, sqnorm. rewrite !nsum_R. cbn [nadd nmul RNum]. f_equal; [|f_equal]; apply rsum_ext; intros; rewrite nsum_R; reflexivity.
Qed.
(** what the plan at a zero gradient minimises: half the regularization that is reported *)
Theorem C64_l2_plan_minimises_half : forall n m (reg : R) (al be a b : vec) (M : mat) D ga gb T, 0 < reg ->
  dual_obj_grad (N:=RNum) exp SquaredL2 n m reg al be a b M = Some (D, ga, gb) -> get_plan_from_dual (N:=RNum) exp SquaredL2 n reg al be M = Some T ->
  (forall i, (i < n)%nat -> ga i = 0) -> (forall j, (j < m)%nat -> gb j = 0) ->
  coupling n m a b T /\ (forall P, coupling n m a b P -> documented_l2 n m (reg / 2) M T <= documented_l2 n m (reg / 2) M P) /\
  solve_l2_value (N:=RNum) n m reg M T = documented_l2 n m (reg / 2) M T + reg / 2 * sqnorm n m T /\
  (* the reported value exceeds the best value of the documented objective by at most reg/2 (|T|^2 - |P|^2) *)
  forall P, coupling n m a b P -> solve_l2_value (N:=RNum) n m reg M T <= documented_l2 n m reg M P + reg / 2 * (sqnorm n m T - sqnorm n m P).
Proof.
  intros n m reg al be a b M D ga gb T Hr H HT Z1 Z2. destruct (C63_smooth_dual _ _ _ _ _ _ _ _ _ _ _ _ Hr H) as (T' & HT' & _ & _ & _ & _ & _ & K). rewrite HT in HT'. injection HT' as <-.
  destruct (K Z1 Z2) as (CT & _ & OP). split; auto.
  assert (O2 : forall P, coupling n m a b P -> documented_l2 n m (reg / 2) M T <= documented_l2 n m (reg / 2) M P).
  { intros P HP. specialize (OP P HP). rewrite !primal_l2 in OP. apply OP. intros j Hj. split; auto. intros i Hi. apply HP; auto. }
  split; auto. rewrite value_l2. unfold documented_l2 in *. split; [change (carrier RNum) with R in *; field|]. intros P HP. specialize (O2 P HP). lra.
Qed.
(** the claim of the property fails: the certified plan does not minimise the value that ot.solve reports *)
Definition exM : mat := fun i j => if Nat.eqb i j then 0 else 1 / 4.
Theorem C64_l2_value_refuted : exists n m (reg : R) (al be a b : vec) (M : mat) D ga gb T P, 0 < reg /\
  dual_obj_grad (N:=RNum) exp SquaredL2 n m reg al be a b M = Some (D, ga, gb) /\ get_plan_from_dual (N:=RNum) exp SquaredL2 n reg al be M = Some T /\
  (forall i, (i < n)%nat -> ga i = 0) /\ (forall j, (j < m)%nat -> gb j = 0) /\ coupling n m a b T /\ coupling n m a b P /\
  solve_l2_value (N:=RNum) n m reg M P < solve_l2_value (N:=RNum) n m reg M T.
Proof.
  set (h := (fun _ => 1 / 2) : vec). set (al := (fun _ => 3 / 16) : vec).
  destruct (dual_obj_grad (N:=RNum) exp SquaredL2 2 2 1 al al h h exM) as [[[D ga] gb]|] eqn:E; [|discriminate].
  destruct (dual_val _ _ _ _ _ _ _ _ _ _ _ _ E) as (_ & _ & T & HT & Ga & Gb & ET).
  assert (TV : forall i j, T i j = if Nat.eqb i j then 3 / 8 else 1 / 8).
  { intros i j. rewrite ET. cbn [delta_Omega l2_delta snd]. cbv zeta. rewrite nmax_R. unfold Xdual, al, exM. cbn [nadd nsub ndiv n0 RNum]. destruct (Nat.eqb i j); unfold Rmax; match goal with |- context[Rle_dec ?x ?y] => destruct (Rle_dec x y) end; lra. }
  assert (Z1 : forall i, (i < 2)%nat -> ga i = 0) by (intros i Hi; rewrite Ga; unfold row_sum; cbn [rsum]; rewrite !TV; unfold h; destruct i as [|[|]]; [| |lia]; cbn [Nat.eqb]; lra).
  assert (Z2 : forall i, (i < 2)%nat -> gb i = 0) by (intros i Hi; rewrite Gb; unfold col_sum; cbn [rsum]; rewrite !TV; unfold h; destruct i as [|[|]]; [| |lia]; cbn [Nat.eqb]; lra).
  exists 2%nat, 2%nat, 1, al, al, h, h, exM, D, ga, gb, T, (fun i j => if Nat.eqb i j then 5 / 16 else 3 / 16).
  assert (H1 : 0 < 1) by lra. destruct (C64_l2_plan_minimises_half _ _ _ _ _ _ _ _ _ _ _ _ H1 E HT Z1 Z2) as [CT _].
  do 6 (split; [assumption|]). split.
  - split; [intros i j _ _; destruct (Nat.eqb i j); lra|]. split; intros k Hk; destruct k as [|[|]]; try lia; unfold row_sum, col_sum, h; cbn [rsum Nat.eqb]; lra.
  - rewrite !value_l2. unfold documented_l2, cost, sqnorm. cbn [rsum]. rewrite !TV. unfold exM. cbn [Nat.eqb]. lra.
Qed.

(** ** examples *)
(** zero-gradient points exist: the instance above for C63 and C64; the semi-dual on one row *)
Example C63_example : exists D ga gb, dual_obj_grad (N:=QNum) (fun _ => 1%Q) (Sparse 1) 2 2 1%Q (fun _ => (1 # 4)%Q) (fun _ => (1 # 4)%Q) (fun _ => (1 # 2)%Q) (fun _ => (1 # 2)%Q) (fun i j => if Nat.eqb i j then 0%Q else 1%Q)
  = Some (D, ga, gb) /\ ga 0%nat == 0%Q /\ ga 1%nat == 0%Q /\ gb 0%nat == 0%Q /\ gb 1%nat == 0%Q /\ D == (1 # 4)%Q.
Proof. do 3 eexists. split; [reflexivity|]. vm_compute. repeat split. Qed.
Example C92_example : exists D ga, semi_dual_obj_grad (N:=QNum) (fun _ => 1%Q) (fun _ => 1%Q) (Sparse 1) 2 2 1%Q (fun i => (Z.of_nat i # 8)%Q) (fun _ => (1 # 2)%Q) (fun _ => (1 # 2)%Q) (fun i j => if Nat.eqb i j then 0%Q else 1%Q)
  = Some (D, ga) /\ ga 0%nat == 0%Q /\ ga 1%nat == 0%Q /\ D == (1 # 4)%Q.
Proof. do 2 eexists. split; [reflexivity|]. vm_compute. repeat split. Qed.
Example C92_hyps : pos_vec 2 (fun _ => 1 / 2) /\ exists x, semi_dual_obj_grad (N:=RNum) exp ln (Sparse 1) 2 2 1 (fun _ => 0) (fun _ => 1 / 2) (fun _ => 1 / 2) exM = Some x.
Proof. split; [intros i _; lra|]. eexists. reflexivity. Qed.

Print Assumptions C63_smooth_dual.
Print Assumptions C63_smooth_dual_supergradient.
Print Assumptions C63_smooth_dual_defined.
Print Assumptions C92_smooth_semi_dual.
Print Assumptions C92_smooth_semi_dual_supergradient.
Print Assumptions C92_semi_dual_dominates.
Print Assumptions C64_l2_plan_minimises_half.
Print Assumptions C64_l2_value_refuted.
