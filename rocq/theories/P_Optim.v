(** C38-C43: line searches, conditional gradient, semi-relaxed oracle (ot/optim.py). *)
From Coq Require Import Reals Lra Lia QArith List.
Import ListNotations.
From Verif Require Import Num Sums Spec Optim_model Optim_proofs.
Local Open Scope R_scope.

(** C38.  The quadratic line search returns a point of [0,1] minimising a t^2 + b t on [0,1],
    convex or not. *)
Theorem C38_quad_linesearch : forall a b : R,
  let s := solve_1d_linesearch_quad (N:=RNum) a b in
  0 <= s <= 1 /\ forall t, 0 <= t <= 1 -> a * s ^ 2 + b * s <= a * t ^ 2 + b * t.
Proof. intros a b s. split; [apply quad_ls_range|]. intros t Ht. apply quad_ls_min; auto. Qed.
Print Assumptions C38_quad_linesearch.
Example quad_inside : (solve_1d_linesearch_quad (N:=QNum) 2 (-1) == 1 # 4)%Q.
Proof. reflexivity. Qed.
Example quad_concave : (solve_1d_linesearch_quad (N:=QNum) (-2) 1 == 1)%Q.
Proof. reflexivity. Qed.

(** C39.  Conditional gradient returns a coupling: any objective and gradient, any linear
    oracle answering couplings, any line search answering steps of [0,1], any limits. *)
Theorem C39_cg_feasible : forall fuel n m a b M reg f df lp ls G0 K t1 t2 r,
  coupling n m a b G0 ->
  (forall Mi, coupling n m a b (lp Mi)) ->
  (forall F G D Mi c g, 0 <= fst (fst (ls F G D Mi c g)) <= 1) ->
  generic_conditional_gradient (N:=RNum) fuel n m a b M reg f df lp ls (Some G0) K t1 t2 = Some r ->
  coupling n m a b (cg_G r).
Proof.
  intros fuel n m a b M reg f df lp ls G0 K t1 t2 r HG Hlp Hls E. unfold generic_conditional_gradient in E.
  eapply (loop_inv (N:=RNum) n m M reg f df lp ls K t1 t2 (fun s => coupling n m a b (cg_G s))) in E; [exact E| |exact HG].
  intros s Hs. unfold cg_step.
  match goal with |- context [ls ?F ?G ?D ?Mi ?c ?g] => specialize (Hls F G D Mi c g); destruct (ls F G D Mi c g) as [[al c'] g'] end.
  cbn [fst cg_G] in *. apply (convex_coupling n m a b (cg_G s)); auto.
Qed.
Print Assumptions C39_cg_feasible.

(** C39, the default start a b^T, for weights of total mass 1. *)
Theorem C39_cg_default_start : forall fuel n m a b M reg f df lp ls K t1 t2 r,
  nonneg_vec n a -> nonneg_vec m b -> mass n a = 1 -> mass m b = 1 ->
  (forall Mi, coupling n m a b (lp Mi)) ->
  (forall F G D Mi c g, 0 <= fst (fst (ls F G D Mi c g)) <= 1) ->
  generic_conditional_gradient (N:=RNum) fuel n m a b M reg f df lp ls None K t1 t2 = Some r ->
  coupling n m a b (cg_G r).
Proof.
  intros fuel n m a b M reg f df lp ls K t1 t2 r Ha Hb Ma Mb Hlp Hls E.
  apply (C39_cg_feasible fuel n m a b M reg f df lp ls (outer (N:=RNum) a b) K t1 t2 r); auto.
  unfold outer. cbn. split; [|split].
  - intros i j Hi Hj. apply Rmult_le_pos; auto.
  - intros i Hi. unfold row_sum. rewrite rsum_scal. unfold mass in Mb. change (fun j => b j) with b. rewrite Mb. ring.
  - intros j Hj. unfold col_sum. rewrite rsum_scal_r. unfold mass in Ma. change (fun i => a i) with a. rewrite Ma. ring.
Qed.
Print Assumptions C39_cg_default_start.

(** C39, the defect: with weights of common mass 2 the default start a b^T is not a
    coupling, and a run that makes no step returns it: every plan between a = b = (2) is the
    1x1 matrix 2, the call returns 4. *)
Theorem C39_unnormalised_default_start_refuted :
  exists (a b : nat -> Q) (lp : (nat -> nat -> Q) -> nat -> nat -> Q) r,
    (forall Mi i j, lp Mi i j = 2%Q) /\ a 0%nat = 2%Q /\ b 0%nat = 2%Q /\
    generic_conditional_gradient (N:=QNum) 10 1 1 a b (fun _ _ => 0%Q) 1%Q (fun _ => 0%Q) (fun _ _ _ => 0%Q) lp
      (quad_line_search (N:=QNum) (fun _ _ => 0%Q) (fun _ _ => 0%Q) (fun _ _ _ => None)) None 10 (1 # 1000000000) (1 # 1000000000) = Some r /\
    (cg_G r 0%nat 0%nat == 4)%Q.
Proof.
  exists (fun _ => 2%Q), (fun _ => 2%Q), (fun _ _ _ => 2%Q). eexists. split; [reflexivity|]. split; [reflexivity|]. split; [reflexivity|].
  split; [vm_compute; reflexivity|]. vm_compute. reflexivity.
Qed.
Print Assumptions C39_unnormalised_default_start_refuted.

(** C40.  If the objective is quadratic along segments with the coefficients given to the line
    search, the recorded losses never increase, the last one is the objective of the returned
    plan, and hence the returned plan is no worse than the start. *)
Theorem C40_cg_descends : forall fuel n m a b M reg f df lp qa qb gr G0 K t1 t2 r,
  (forall G D t, cg_cost (N:=RNum) n m M reg f (fun i j => G i j + t * D i j)
                 = cg_cost (N:=RNum) n m M reg f G + qb G D * t + qa G D * t ^ 2) ->
  generic_conditional_gradient (N:=RNum) fuel n m a b M reg f df lp (quad_line_search (N:=RNum) qa qb gr) (Some G0) K t1 t2 = Some r ->
  nonincreasing (cg_log r) /\ last (cg_log r) 0 = cg_val r /\
  cg_val r = cost n m M (cg_G r) + reg * f (cg_G r) /\
  cost n m M (cg_G r) + reg * f (cg_G r) <= cost n m M G0 + reg * f G0.
Proof.
  intros fuel n m a b M reg f df lp qa qb gr G0 K t1 t2 r Hq E. unfold generic_conditional_gradient in E.
  assert (CC : forall G, cg_cost (N:=RNum) n m M reg f G = cost n m M G + reg * f G) by apply cg_cost_R.
  pose proof (loop_inv (N:=RNum) n m M reg f df lp (quad_line_search (N:=RNum) qa qb gr) K t1 t2
    (fun s => tracked n m M reg f [] s /\ hd 0 (cg_log s) = cg_cost (N:=RNum) n m M reg f G0)) as LI. cbv beta in LI.
  destruct (LI) with (3 := E) as [(T1 & T2 & T3 & T4) HD].
  - intros s [T HH]. split; [apply step_tracked; auto|]. destruct T as (_ & _ & T3 & _).
    unfold cg_step, quad_line_search. cbn [fst cg_log]. destruct (cg_log s); [contradiction|exact HH].
  - split; [|reflexivity]. unfold tracked. cbn. repeat split; auto. discriminate.
  - split; auto. split; auto. rewrite <- CC. split; auto. rewrite <- T1, <- T4, <- CC, <- HD. apply nonincr_last; auto.
Qed.
Print Assumptions C40_cg_descends.

(** C41.  Accounting, for any arithmetic: the loop ends, after between 1 and
    max(1, numItermax) rounds, with one more recorded loss than rounds. *)
Theorem C41_cg_accounting : forall (N : NumOps) n m a b M reg f df lp ls G0 K t1 t2,
  exists r, generic_conditional_gradient (N:=N) (Nat.max 1 K) n m a b M reg f df lp ls G0 K t1 t2 = Some r /\
    (1 <= cg_it r <= Nat.max 1 K)%nat /\ length (cg_log r) = S (cg_it r).
Proof.
  intros N n m a b M reg f df lp ls G0 K t1 t2. unfold generic_conditional_gradient.
  set (s := mkCg _ _ _ _ _). destruct (loop_total n m M reg f df lp ls K t1 t2 (Nat.max 1 K) s) as [r E]; [lia|change (cg_it s) with 0%nat; lia|].
  exists r. split; auto. pose proof (loop_count n m M reg f df lp ls K t1 t2 _ s r E) as C. change (cg_it s) with 0%nat in C. split; [lia|].
  eapply loop_log; eauto.
Qed.
Print Assumptions C41_cg_accounting.

(** C41, why it stopped: the limit was reached, or the last change of the loss is below the
    absolute or the relative threshold. *)
Theorem C41_cg_exit : forall fuel n m a b M reg f df lp ls G0 K t1 t2 r,
  generic_conditional_gradient (N:=RNum) fuel n m a b M reg f df lp ls G0 K t1 t2 = Some r ->
  exists before, last (cg_log r) 0 = cg_val r /\
    ((K <= cg_it r)%nat \/ Rabs (cg_val r - before) < t2 \/
     (cg_val r <> 0 /\ Rabs (cg_val r - before) / Rabs (cg_val r) < t1)) /\
    nth (cg_it r - 1) (cg_log r) 0 = before.
Proof.
  intros fuel n m a b M reg f df lp ls G0 K t1 t2 r E. unfold generic_conditional_gradient in E.
  apply (loop_exit_log n m M reg f df lp ls K t1 t2) in E; [|reflexivity|reflexivity].
  destruct E as (s0 & E1 & E2 & E3 & E4). exists (cg_val s0). split; auto. split; [|exact E4].
  apply (step_exit n m M reg f df lp ls K t1 t2 s0 r E1).
Qed.
Print Assumptions C41_cg_exit.

(** C42.  Armijo search with the default alpha_min = 0 and an upper limit, relying only on
    scipy's contract (a returned step satisfies the decrease inequality for the function it
    was given): the step is in [0, alpha_max], the returned value is the objective at that
    step, and the decrease condition holds for the step actually returned. *)
Theorem C42_armijo : forall (c1 : R) search (fline : R -> R) (old : option R) (d hi al v : R),
  0 <= c1 -> armijo_contract c1 search -> d <= 0 -> 0 <= hi ->
  (old = None \/ old = Some (fline 0)) ->
  line_search_armijo (N:=RNum) search fline old d 0 (Some hi) = (al, v) ->
  0 <= al <= hi /\ v = fline al /\ v <= fline 0 + c1 * al * d.
Proof. exact armijo_ok. Qed.
Print Assumptions C42_armijo.
(** a search meeting the contract: try one step *)
Example armijo_one_step : armijo_contract (1 / 10000)
  (fun phi phi0 d amin => if Rle_dec (phi 1) (phi0 + 1 / 10000 * 1 * d) then (Some 1, phi 1) else (None, phi 1)).
Proof. intros phi phi0 d amin. destruct (Rle_dec _ _); auto. Qed.

(** C43.  The semi-relaxed oracle: row sums exactly a, non-negative, and minimal linearised
    cost among all plans with row sums a, up to the code's margin (1e-15) times the mass. *)
Theorem C43_semirelaxed_oracle : forall n m margin a Mi,
  (0 < m)%nat -> 0 <= margin -> nonneg_vec n a ->
  let G := semirelaxed_lp (N:=RNum) m margin a Mi in
  nonneg_mat n m G /\ (forall i, (i < n)%nat -> row_sum m G i = a i) /\
  forall G', nonneg_mat n m G' -> (forall i, (i < n)%nat -> row_sum m G' i = a i) ->
    cost n m Mi G <= cost n m Mi G' + margin * mass n a.
Proof.
  intros n m margin a Mi Hm He Ha G. split; [apply sr_nonneg; auto|]. split; [intros; apply sr_row; auto|]. apply sr_opt; auto.
Qed.
Print Assumptions C43_semirelaxed_oracle.
Example semirelaxed_tie : (semirelaxed_lp (N:=QNum) 3 0 (fun _ => 1%Q) (fun _ j => match j with 1%nat => 5%Q | _ => 2%Q end) 0%nat 2%nat == 1 # 2)%Q.
Proof. vm_compute. reflexivity. Qed.
