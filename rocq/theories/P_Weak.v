(** C101: weak optimal transport (ot/weak.py); C102: factored couplings (ot/factored.py). *)
From Coq Require Import Reals List Lra Lia QArith ClassicalChoice.
From Verif Require Import Num Sums Spec Perm Duals_proofs Emd1d_model Optim_model Optim_proofs Exist Weak_model Weak_proofs.
Import ListNotations.
Local Open Scope R_scope.

(** ** C101 *)
(** the loss of the code is sum_i a_i |x_i - E[y | x_i]|^2; its expansion along any direction is exact
    with the gradient of the code and a nonnegative quadratic term *)
Theorem C101_gradient : forall n m d a Xa Xb T D s, pos_vec n a ->
  weak_loss (N:=RNum) n m d a Xa Xb T = rsum n (fun i => a i * rsum d (fun t => (Xa i t - rsum m (fun j => T i j * Xb j t) / a i) ^ 2)) /\
  exists q, 0 <= q /\ weak_loss (N:=RNum) n m d a Xa Xb (fun i j => T i j + s * D i j)
    = weak_loss (N:=RNum) n m d a Xa Xb T + s * cost n m (weak_grad (N:=RNum) m d a Xa Xb T) D + s ^ 2 * q.
Proof.
  intros n m d a Xa Xb T D s Ha. split; [apply weak_loss_R|]. exists (quad_part n m d a Xb D). split; [apply quad_part_nonneg; auto|]. rewrite !weak_loss_R. apply weak_expand; auto.
Qed.
Print Assumptions C101_gradient.

(** the gap of the linear oracle certifies: any plan is optimal up to <grad, T - oracle answer> *)
Theorem C101_certificate : forall n m d a b Xa Xb T G, pos_vec n a -> optimal_coupling n m a b (weak_grad (N:=RNum) m d a Xa Xb T) G ->
  forall T', coupling n m a b T' ->
  weak_loss (N:=RNum) n m d a Xa Xb T <= weak_loss (N:=RNum) n m d a Xa Xb T' + cost n m (weak_grad (N:=RNum) m d a Xa Xb T) (fun i j => T i j - G i j).
Proof.
  intros n m d a b Xa Xb T G Ha [_ O] T' C'. rewrite !weak_loss_R. assert (Q := weak_convex_gap n m d a Xa Xb Ha T T'). specialize (O T' C').
  assert (L : forall A B, cost n m (weak_grad (N:=RNum) m d a Xa Xb T) (fun i j => A i j - B i j) = cost n m (weak_grad (N:=RNum) m d a Xa Xb T) A - cost n m (weak_grad (N:=RNum) m d a Xa Xb T) B).
  { intros A B. unfold cost. rewrite <- rsum_minus. apply rsum_ext; intros. rewrite <- rsum_minus. apply rsum_ext; intros. apply Rmult_minus_distr_l. }
  rewrite L in *. lra.
Qed.
Print Assumptions C101_certificate.

(** between the squared distance of the means and the quadratic transport cost *)
Theorem C101_bounds : forall n m d a b Xa Xb T, pos_vec n a -> coupling n m a b T ->
  weak_loss (N:=RNum) n m d a Xa Xb T <= cost n m (fun i j => rsum d (fun t => (Xa i t - Xb j t) ^ 2)) T /\
  (mass n a = 1 -> rsum d (fun t => (rsum n (fun i => a i * Xa i t) - rsum m (fun j => b j * Xb j t)) ^ 2) <= weak_loss (N:=RNum) n m d a Xa Xb T).
Proof. intros n m d a b Xa Xb T Ha C. rewrite weak_loss_R. split; [apply (weak_le_cost n m d a b); auto|]. intros. apply (weak_ge_means n m d a b); auto. Qed.
Print Assumptions C101_bounds.

(** the returned plan is a coupling, no worse than the start, and the recorded losses never increase;
    the oracle is exact, scipy's search is only assumed to answer steps of [0, 1] that do not raise the loss
    along a descent direction *)
Theorem C101_run : forall fuel n m d a b Xa Xb lp search G0 K t1 t2 r,
  pos_vec n a -> coupling n m a b G0 -> (forall Mi, optimal_coupling n m a b Mi (lp Mi)) -> search_contract search ->
  weak_optimal_transport (N:=RNum) fuel n m d a b Xa Xb lp search (Some G0) K t1 t2 = Some r ->
  coupling n m a b (cg_G r) /\ nonincreasing (cg_log r) /\ last (cg_log r) 0 = weak_loss (N:=RNum) n m d a Xa Xb (cg_G r) /\
  weak_loss (N:=RNum) n m d a Xa Xb (cg_G r) <= weak_loss (N:=RNum) n m d a Xa Xb G0.
Proof.
  intros fuel n m d a b Xa Xb lp search G0 K t1 t2 r Ha C0 Hlp Hs E. unfold weak_optimal_transport, generic_conditional_gradient in E.
  pose proof (loop_inv (N:=RNum) n m (fun _ _ => 0) 1 (weak_loss (N:=RNum) n m d a Xa Xb) (weak_grad (N:=RNum) m d a Xa Xb) lp (armijo_ls (N:=RNum) search n m) K t1 t2
    (fun s => winv n m d a b Xa Xb s /\ hd 0 (cg_log s) = weak_obj n m d a Xa Xb G0)) as LI. cbv beta in LI.
  destruct LI with (3 := E) as [(C & _ & V & NI & NE & LA) HD].
  - intros s [W HH]. split; [apply weak_step; auto|]. destruct W as (_ & _ & _ & _ & NE & _).
    unfold cg_step. match goal with |- context [match armijo_ls ?a0 ?a1 ?a2 ?a3 ?a4 ?a5 ?a6 ?a7 ?a8 with _ => _ end] => destruct (armijo_ls (N:=RNum) a0 a1 a2 a3 a4 a5 a6 a7 a8) as [[al c] g'] end.
    cbn [fst cg_log]. destruct (cg_log s); [contradiction|exact HH].
  - assert (F0 := F_obj n m d a Xa Xb G0). split; [|exact F0]. unfold winv. cbn [cg_G cg_grad cg_val cg_log]. split; auto. split; auto. split; [exact F0|]. split; [exact I|]. split; [discriminate|reflexivity].
  - rewrite !weak_loss_R. split; auto. split; auto. split; [rewrite LA; exact V|].
    assert (Q := nonincr_last (cg_log r) NI NE). assert (V' : last (cg_log r) 0 = weak_obj n m d a Xa Xb (cg_G r)) by (rewrite LA; exact V). rewrite <- V', <- HD. exact Q.
Qed.
Print Assumptions C101_run.
Example search_ex : search_contract (fun phi phi0 _ _ => if Rle_dec (phi 1) phi0 then (Some 1, phi 1) else (None, phi0)).
Proof. intros phi phi0 der amin. destruct (Rle_dec (phi 1) phi0); auto. repeat split; auto; lra. Qed.
(** all hypotheses of C101_run hold together for positive weights of equal mass *)
Example weak_run_hyps : forall n m a b, pos_vec n a -> pos_vec m b -> rsum n a = rsum m b -> 0 < rsum n a ->
  exists lp G0, coupling n m a b G0 /\ forall Mi, optimal_coupling n m a b Mi (lp Mi).
Proof.
  intros n m a b Ha Hb E P. assert (C := product_coupling n m a b (fun i Hi => Rlt_le _ _ (Ha i Hi)) (fun j Hj => Rlt_le _ _ (Hb j Hj)) E P).
  destruct (exact_oracle_exists n m a b (ex_intro _ _ C)) as [lp H]. eauto.
Qed.
Example weak_ex : (weak_loss (N:=QNum) 1 2 1 (fun _ => 1) (fun _ _ => 1) (fun j _ => if Nat.eqb j 0 then 0 else 4) (fun _ _ => 1 # 2) == 1)%Q.
Proof. vm_compute. reflexivity. Qed.

(** ** C102 *)
Definition unif (r : nat) : vec := fun _ => 1 / INR r.
(** a solver minimising linear cost + penalty over the couplings: emd (phi = 0) or sinkhorn
    (phi = reg times the entropy) *)
Definition exact_solver (ot : nat -> nat -> vec -> vec -> mat -> mat) (phi : nat -> nat -> mat -> R) : Prop :=
  forall k l w1 w2 M, (exists G, coupling k l w1 w2 G) -> coupling k l w1 w2 (ot k l w1 w2 M) /\
   forall G, coupling k l w1 w2 G -> cost k l M (ot k l w1 w2 M) + phi k l (ot k l w1 w2 M) <= cost k l M G + phi k l G.
Definition frob (r d : nat) (M : mat) : R := sqrt (rsum r (fun k => rsum d (fun t => M k t ^ 2))).
(** total cost of going through the support X *)
Definition through (na nb r d : nat) (Xa Xb : mat) (phi : nat -> nat -> mat -> R) (Ga Gb X : mat) : R :=
  cost na r (fun i k => rsum d (fun t => (Xa i t - X k t) ^ 2)) Ga + cost r nb (fun k j => rsum d (fun t => (X k t - Xb j t) ^ 2)) Gb + phi na r Ga + phi r nb Gb.

Theorem C102_factored : forall ot phi na nb r d Xa Xb a b X0 thr K,
  (0 < r)%nat -> (0 < K)%nat -> 0 <= thr -> exact_solver ot phi -> (exists G, coupling na r a (unif r) G) -> (exists G, coupling r nb (unif r) b G) ->
  let V := through na nb r d Xa Xb phi in
  exists o, factored_optimal_transport (N:=RNum) ot (frob r d) na nb r d Xa Xb a b X0 thr K = Some o /\
   coupling na r a (unif r) (fo_Ga o) /\ coupling r nb (unif r) b (fo_Gb o) /\
   (* the composed plan is a coupling of a and b, its cost is at most twice the cost through the support *)
   (let P := fact_lazy_plan (N:=RNum) r (fo_Ga o) (fo_Gb o) in coupling na nb a b P /\
      cost na nb (fun i j => rsum d (fun t => (Xa i t - Xb j t) ^ 2)) P
      <= 2 * (cost na r (fun i k => rsum d (fun t => (Xa i t - fo_X o k t) ^ 2)) (fo_Ga o) + cost r nb (fun k j => rsum d (fun t => (fo_X o k t - Xb j t) ^ 2)) (fo_Gb o))) /\
   (* the support is the best one for the plans, the plans are the best ones for the previous support *)
   (forall X, V (fo_Ga o) (fo_Gb o) (fo_X o) <= V (fo_Ga o) (fo_Gb o) X) /\
   (forall Ga Gb, coupling na r a (unif r) Ga -> coupling r nb (unif r) b Gb -> V (fo_Ga o) (fo_Gb o) (fo_old o) <= V Ga Gb (fo_old o)) /\
   V (fo_Ga o) (fo_Gb o) (fo_X o) = V (fo_Ga o) (fo_Gb o) (fo_old o) - 2 / INR r * frob r d (fun k t => fo_X o k t - fo_old o k t) ^ 2 /\
   (* stopping *)
   (1 <= fo_it o <= K)%nat /\ (frob r d (fun k t => fo_X o k t - fo_old o k t) < thr \/ fo_it o = K) /\
   (* descent from the first round on, with a bound on the number of rounds *)
   forall Ga Gb, coupling na r a (unif r) Ga -> coupling r nb (unif r) b Gb ->
     V (fo_Ga o) (fo_Gb o) (fo_X o) + INR (fo_it o - 1) * (2 / INR r * thr ^ 2) <= V Ga Gb X0.
Proof.
  intros ot phi na nb r d Xa Xb a b X0 thr K Hr HK Ht Hot Ea Eb V. unfold factored_optimal_transport.
  set (v0 := pen_obj na nb r d Xa Xb phi (fst (fact_plans (N:=RNum) ot na nb r d Xa Xb a b X0)) (snd (fact_plans (N:=RNum) ot na nb r d Xa Xb a b X0)) X0).
  assert (F := floop_ok na nb r d Xa Xb a b Hr ot phi (frob r d) thr Hot Ea Eb (fun M => eq_refl) K 0 X0 None v0 eq_refl Ht ltac:(unfold v0; cbn; lra)).
  destruct (fact_loop (N:=RNum) _ _ _ _ _ _ _ _ _ _ K 0 thr X0 None) as [o|] eqn:EL; [|destruct F; lia]. destruct F as (R & I & S & VV). assert (R' := R). destruct R' as (C1 & C2 & EX & O).
  exists o. split; auto. split; [exact C1|]. split; [exact C2|].
  assert (VE : forall Ga Gb X, V Ga Gb X = pen_obj na nb r d Xa Xb phi Ga Gb X) by reflexivity.
  split; [|split; [|split; [|split; [|split; [|split]]]]].
  - split; [apply (fact_plan_coupling na nb r a b Hr); auto|]. apply (fact_plan_cost na nb r d Xa Xb a b Hr (fo_Ga o) (fo_Gb o) (fo_X o) C1 C2).
  - intros X. change (pen_obj na nb r d Xa Xb phi (fo_Ga o) (fo_Gb o) (fo_X o) <= pen_obj na nb r d Xa Xb phi (fo_Ga o) (fo_Gb o) X). unfold pen_obj. rewrite (fact_obj_shift na nb r d Xa Xb a b Hr _ _ X C1 C2), (fact_obj_shift na nb r d Xa Xb a b Hr _ _ (fo_X o) C1 C2).
    rewrite (rsum_0 r (fun k => rsum d (fun t => (fo_X o k t - _) ^ 2))) by (intros k Hk; apply rsum_0; intros t Htt; rewrite EX; ring).
    assert (P := lt_0_INR r Hr). assert (0 <= 2 / INR r * rsum r (fun k => rsum d (fun t => (X k t - fact_support (N:=RNum) na nb r Xa Xb (fo_Ga o) (fo_Gb o) k t) ^ 2))); [|lra].
    apply Rmult_le_pos; [apply Rle_mult_inv_pos; lra|]. apply rsum_nonneg; intros; apply rsum_nonneg; intros; apply pow2_ge_0.
  - intros Ga Gb H1 H2. rewrite !VE. apply O; auto.
  - rewrite !VE. apply (round_decrease na nb r d Xa Xb a b Hr phi (frob r d) (fun M => eq_refl) o R).
  - split; [|cbn in I; lia]. clear - EL HK. destruct K as [|K]; [lia|].
    assert (G : forall k it X last, (match last with Some o' => (1 <= fo_it o')%nat | None => True end) -> forall o, fact_loop (N:=RNum) ot (frob r d) na nb r d Xa Xb a b k it thr X last = Some o -> (1 <= fo_it o)%nat).
    { clear. induction k; intros it X last Hl o E; cbn [fact_loop] in E; [subst last; exact Hl|]. destruct (fact_plans (N:=RNum) _ _ _ _ _ _ _ _ _ _) as [Ga Gb] in E. destruct (nltb _ _) in E.
      - injection E as <-. cbn. lia.
      - eapply IHk; [|exact E]. cbn. lia. }
    cbn [fact_loop] in EL. destruct (fact_plans (N:=RNum) _ _ _ _ _ _ _ _ _ _) as [Ga Gb] in EL. destruct (nltb _ _) in EL; [injection EL as <-; cbn; lia|]. eapply G; [|exact EL]. cbn. lia.
  - destruct S as [S|S]; [left; exact S|right; cbn in S; lia].
  - intros Ga Gb H1 H2. rewrite !VE. eapply Rle_trans; [exact VV|]. unfold v0. destruct (plans_ok na nb r d Xa Xb a b ot phi Hot Ea Eb X0) as (_ & _ & O0). apply O0; auto.
Qed.
Print Assumptions C102_factored.

(** numItermax = 0: the plans are never bound and the function raises *)
Theorem C102_no_iteration : forall (N : NumOps) ot norm na nb r d Xa Xb a b X0 thr,
  factored_optimal_transport (N:=N) ot norm na nb r d Xa Xb a b X0 thr 0 = None.
Proof. reflexivity. Qed.
Print Assumptions C102_no_iteration.

(** the logged costs costa and costb are those of the plans on the support of the previous round: together
    they exceed the cost through the returned support by (2/r) |X - X_old|^2 *)
Theorem C102_logged_costs : forall ot phi na nb r d Xa Xb a b X0 thr K o,
  (0 < r)%nat -> (0 < K)%nat -> 0 <= thr -> exact_solver ot phi -> (exists G, coupling na r a (unif r) G) -> (exists G, coupling r nb (unif r) b G) ->
  factored_optimal_transport (N:=RNum) ot (frob r d) na nb r d Xa Xb a b X0 thr K = Some o ->
  fst (fact_costs (N:=RNum) na nb r d Xa Xb o) + snd (fact_costs (N:=RNum) na nb r d Xa Xb o)
  = through na nb r d Xa Xb (fun _ _ _ => 0) (fo_Ga o) (fo_Gb o) (fo_X o) + 2 / INR r * frob r d (fun k t => fo_X o k t - fo_old o k t) ^ 2.
Proof.
  intros ot phi na nb r d Xa Xb a b X0 thr K o Hr HK Ht Hot Ea Eb E.
  destruct (C102_factored ot phi na nb r d Xa Xb a b X0 thr K Hr HK Ht Hot Ea Eb) as [o' [E' (_ & _ & _ & _ & _ & V & _)]]. rewrite E in E'. injection E' as <-.
  unfold through in *. cbn [fact_costs fst snd]. rewrite !inner_cost.
  assert (SQ : forall n X Y G n', cost n n' (sqd (N:=RNum) d X Y) G = cost n n' (fun i k => rsum d (fun t => (X i t - Y k t) ^ 2)) G).
  { intros. unfold cost. apply rsum_ext; intros; apply rsum_ext; intros. unfold sqd. rewrite nsum_R. f_equal. apply rsum_ext; intros. cbn. ring. }
  rewrite !SQ. lra.
Qed.
Print Assumptions C102_logged_costs.
(** an exact solver exists, and no solver of the theorem is asked for more *)
Example exact_solver_ex : exists ot, exact_solver ot (fun _ _ _ => 0).
Proof.
  pose (P := fun (x : nat * nat * (vec * vec * mat)) (G : mat) => let '(k, l, (w1, w2, M)) := x in (exists G, coupling k l w1 w2 G) -> optimal_coupling k l w1 w2 M G).
  destruct (choice P) as [f Hf].
  { intros [[k l] [[w1 w2] M]]. cbn. destruct (Classical_Prop.classic (exists G, coupling k l w1 w2 G)) as [H|H].
    - destruct (optimal_exists k l w1 w2 M H) as [T HT]. exists T. auto.
    - exists (fun _ _ => 0). intros; contradiction. }
  exists (fun k l w1 w2 M => f (k, l, (w1, w2, M))). intros k l w1 w2 M H. destruct (Hf (k, l, (w1, w2, M)) H) as [C O]. split; auto.
  intros G HG. specialize (O G HG). lra.
Qed.
(** existence of the couplings assumed above: any positive mass-one weights *)
Example factored_start_ex : exists G, coupling 2 3 (fun i => if Nat.eqb i 0 then 1 / 4 else 3 / 4) (unif 3) G.
Proof.
  exists (fun i k => (if Nat.eqb i 0 then 1 / 4 else 3 / 4) * (1 / 3)). split; [|split].
  - intros i j _ _. destruct (Nat.eqb i 0); lra.
  - intros [|[|i]] Hi; try lia; unfold row_sum; cbn; lra.
  - intros [|[|[|j]]] Hj; try lia; unfold col_sum, unif; cbn; lra.
Qed.
