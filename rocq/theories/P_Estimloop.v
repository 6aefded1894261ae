(** C150, continued: the two stochastic solvers of ot/gromov/_estimators.py. *)
From Coq Require Import List Arith Bool Reals Lra Lia.
From Verif Require Import Num Sums Spec Duals_proofs Sinkhorn_model Sinkhorn_stab Monge Emd1d_model Emd1d_proofs Emd1d_final Estim_model Estim_proofs P_Estim.
Import ListNotations.
Local Open Scope R_scope.

(** ** the gradient sampled by sampled_gromov_wasserstein *)
(** derivative of the Gromov-Wasserstein loss at T *)
Definition gw_grad (n m : nat) (loss : R -> R -> R) (C1 C2 T : mat) : mat := fun k l =>
  rsum n (fun i => rsum m (fun j => (loss (C1 i k) (C2 j l) + loss (C1 k i) (C2 l j)) * T i j)).
(** expected value of the sampled cost, all rows, one column per row, uniform weights: a multiple of the gradient *)
Definition sg_draws_of (i : nat -> nat) (lj lc : list nat) : sg_draws := SgDraws i (fun r _ => nth r lj 0%nat) (fun r => Nat.eqb (nth r lc 0%nat) 1).
Lemma fair_law : is_law 2 (fun _ => / 2).
Proof. unfold is_law. cbn [rsum]. lra. Qed.
Theorem C150_gradient : forall (loss : R -> R -> R) n m (C1 C2 : mat) p q T sym i k l, (0 < n)%nat -> (forall x, (x < n)%nat -> p x = 1 / INR n) -> coupling n m p q T ->
  drawn_rows n n p i -> (k < n)%nat -> (l < m)%nat ->
  (sym = true -> (forall x y, (x < n)%nat -> (y < n)%nat -> C1 x y = C1 y x) /\ (forall x y, (x < m)%nat -> (y < m)%nat -> C2 x y = C2 y x)) ->
  expect m (row_laws n 1 p T i) (fun lj => expect 2 (repeat (fun _ => / 2) n) (fun lc => lik (N:=RNum) loss C1 C2 sym n 1 (sg_draws_of i lj lc) k l)) =
  INR n / 2 * gw_grad n m loss C1 C2 T k l.
Proof.
  intros loss n m C1 C2 p q T sym i k l Hn U HT DI Hk Hl SY. assert (In := lt_0_INR n Hn).
  assert (LC : Forall (is_law 2) (repeat (fun _ => / 2) n)) by (apply Forall_forall; intros d Hd; apply repeat_spec in Hd; subst; apply fair_law).
  assert (LI := row_laws_ok n m n 1 p q T i HT (proj1 DI)).
  set (F := fun x y => / 2 * (loss (C1 x k) (C2 y l) + loss (C1 k x) (C2 l y))).
  rewrite (expect_ext m _ _ (fun lj => rsum n (fun r => (if sym then loss (C1 (i r) k) (C2 (nth r lj 0%nat) l) else F (i r) (nth r lj 0%nat))))).
  - rewrite expect_sum. rewrite (rsum_ext n _ (fun r => INR n * rsum m (fun y => T (i r) y * F (i r) y))).
    + rewrite rsum_scal. rewrite (rsum_inj n i (fun x => rsum m (fun y => T x y * F x y))); [|apply DI|apply DI].
      unfold gw_grad. replace (INR n / 2) with (INR n * / 2) by reflexivity. rewrite Rmult_assoc. f_equal. rewrite <- rsum_scal. apply rsum_ext; intros x Hx. rewrite <- rsum_scal. apply rsum_ext; intros y Hy. unfold F. ring.
    + intros r Hr. destruct (proj1 DI r Hr) as (I1 & _).
      rewrite (expect_nth m (row_laws n 1 p T i) r (fun y => if sym then loss (C1 (i r) k) (C2 y l) else F (i r) y)) by (auto; rewrite row_laws_len; lia).
      assert (EN := row_laws_nth n 1 p T i r 0 Hr ltac:(lia)). replace (r * 1 + 0)%nat with r in EN by lia. rewrite EN. rewrite <- rsum_scal. apply rsum_ext; intros y Hy. rewrite U by auto.
      assert (EF : (if sym then loss (C1 (i r) k) (C2 y l) else F (i r) y) = F (i r) y).
      { destruct sym; [|reflexivity]. destruct (SY eq_refl) as (S1 & S2). unfold F. rewrite (S1 k (i r)), (S2 l y) by auto. field. }
      rewrite EF. field. lra.
  - intros lj _. rewrite (expect_ext 2 _ _ (fun lc => rsum n (fun r => if (negb sym && Nat.eqb (nth r lc 0%nat) 1)%bool then loss (C1 k (i r)) (C2 l (nth r lj 0%nat)) else loss (C1 (i r) k) (C2 (nth r lj 0%nat) l)))).
    + rewrite expect_sum. apply rsum_ext; intros r Hr.
      rewrite (expect_nth 2 (repeat (fun _ => / 2) n) r (fun c => if (negb sym && Nat.eqb c 1)%bool then loss (C1 k (i r)) (C2 l (nth r lj 0%nat)) else loss (C1 (i r) k) (C2 (nth r lj 0%nat) l))) by (auto; rewrite repeat_length; auto).
      assert (EN : nth r (repeat (fun _ : nat => / 2) n) (fun _ => 0) = (fun _ => / 2)) by (rewrite (nth_indep _ _ (fun _ => / 2)) by (rewrite repeat_length; auto); apply nth_repeat).
      rewrite (rsum_ext 2 _ (fun c => / 2 * (if (negb sym && Nat.eqb c 1)%bool then loss (C1 k (i r)) (C2 l (nth r lj 0%nat)) else loss (C1 (i r) k) (C2 (nth r lj 0%nat) l)))) by (intros c _; apply f_equal2; [exact (f_equal (fun h => h c) EN)|reflexivity]). cbn [rsum]. unfold F. destruct sym; cbn [negb andb Nat.eqb]; field.
    + intros lc _. unfold lik. rewrite nsum_R. apply rsum_ext; intros r Hr. rewrite nsum_R, nat_num_INR. cbn [ndiv RNum rsum sg_draws_of s_i s_j s_coin INR].
      match goal with |- ?x = ?y => change (@eq R x y) end. destruct (negb sym && (nth r lc 0 =? 1)%nat)%bool; field.
Qed.
Print Assumptions C150_gradient.
(** [gw_grad] is the gradient: the loss is quadratic, with this linear part *)
Theorem C150_gradient_spec : forall loss n m C1 C2 T E t,
  gw_of n m loss C1 C2 (fun i k => T i k + t * E i k) =
  gw_of n m loss C1 C2 T + t * cost n m (gw_grad n m loss C1 C2 T) E + t * t * gw_of n m loss C1 C2 E.
Proof.
  intros loss n m C1 C2 T E t.
  set (B := fun (X Y : mat) => rsum n (fun i => rsum n (fun j => rsum m (fun k => rsum m (fun l => loss (C1 i j) (C2 k l) * X i k * Y j l))))).
  assert (E1 : gw_of n m loss C1 C2 (fun i k => T i k + t * E i k) = B T T + t * B T E + t * B E T + t * t * B E E).
  { unfold gw_of, B. rewrite <- !rsum_scal, <- !rsum_plus. apply rsum_ext; intros i Hi. rewrite <- !rsum_scal, <- !rsum_plus. apply rsum_ext; intros j Hj.
    rewrite <- !rsum_scal, <- !rsum_plus. apply rsum_ext; intros k Hk. rewrite <- !rsum_scal, <- !rsum_plus. apply rsum_ext; intros l Hl. ring. }
  assert (E2 : cost n m (gw_grad n m loss C1 C2 T) E = B T E + B E T).
  { unfold cost, gw_grad, B.
    (* first order: B T E = sum_{j,l} E j l sum_{i,k} loss(C1 i j, C2 k l) T i k *)
    assert (X1 : rsum n (fun i => rsum n (fun j => rsum m (fun k => rsum m (fun l => loss (C1 i j) (C2 k l) * T i k * E j l)))) =
      rsum n (fun j => rsum m (fun l => rsum n (fun i => rsum m (fun k => loss (C1 i j) (C2 k l) * T i k)) * E j l))).
    { rewrite rsum_swap. apply rsum_ext; intros j Hj.
      transitivity (rsum n (fun i => rsum m (fun l => rsum m (fun k => loss (C1 i j) (C2 k l) * T i k) * E j l))).
      - apply rsum_ext; intros i Hi. rewrite rsum_swap. apply rsum_ext; intros l Hl. rewrite <- rsum_scal_r. reflexivity.
      - rewrite rsum_swap. apply rsum_ext; intros l Hl. rewrite <- rsum_scal_r. reflexivity. }
    assert (X2 : rsum n (fun i => rsum n (fun j => rsum m (fun k => rsum m (fun l => loss (C1 i j) (C2 k l) * E i k * T j l)))) =
      rsum n (fun i => rsum m (fun k => rsum n (fun j => rsum m (fun l => loss (C1 i j) (C2 k l) * T j l)) * E i k))).
    { apply rsum_ext; intros i Hi. rewrite rsum_swap. apply rsum_ext; intros k Hk. rewrite <- rsum_scal_r. apply rsum_ext; intros j Hj. rewrite <- rsum_scal_r. apply rsum_ext; intros l Hl. ring. }
    rewrite X1, X2, <- rsum_plus. apply rsum_ext; intros j Hj. rewrite <- rsum_plus. apply rsum_ext; intros l Hl.
    rewrite <- Rmult_plus_distr_r. f_equal. rewrite <- rsum_plus. apply rsum_ext; intros i Hi. rewrite <- rsum_plus. apply rsum_ext; intros k Hk. ring. }
  rewrite E1, E2. change (gw_of n m loss C1 C2 T) with (B T T). change (gw_of n m loss C1 C2 E) with (B E E). ring.
Qed.
Print Assumptions C150_gradient_spec.

(** ** sampled_gromov_wasserstein *)
(** Any arithmetic: an int nb_samples_grad above the number of source points asks for nb // ns columns without replacement;
    if the target has fewer points the call fails, whatever the data. *)
Theorem C150_sample_sizes_refuted : forall (N : NumOps) loss prob_ok prox emd_ tiny ns nt (C1 C2 : nat -> nat -> N) p q sym nb eps max_iter g,
  (0 < ns < nb)%nat -> (nt < nb / ns)%nat -> (0 < max_iter)%nat ->
  sampled_gw loss prob_ok prox emd_ tiny ns nt C1 C2 p q sym (NbInt nb) eps max_iter g = GValueError.
Proof.
  intros N loss prob_ok prox emd_ tiny ns nt C1 C2 p q sym nb eps max_iter g (H1 & H2) H3 H4. destruct max_iter as [|it]; [lia|].
  unfold sampled_gw, grad_sizes. rewrite (proj2 (Nat.ltb_lt _ _)) by auto. cbn [fst snd sg_loop].
  destruct (choice_ok prob_ok ns ns p false); cbn [negb]; [|reflexivity].
  match goal with |- (if existsb ?f ?l then _ else _) = _ => assert (EX : existsb f l = true) end.
  { apply existsb_exists. exists 0%nat. split; [apply in_seq; lia|]. unfold choice_ok. cbn [orb].
    match goal with |- negb (_ && (?a <=? support_size ?n ?x)%nat) = true => pose proof (support_le N n x); rewrite (proj2 (Nat.leb_gt a (support_size n x))) by lia end.
    rewrite andb_false_r. reflexivity. }
  rewrite EX. reflexivity.
Qed.
Print Assumptions C150_sample_sizes_refuted.
(** the default nb_samples_grad=100 on two graphs of five nodes *)
Example C150_default_case : (0 < 5 < 100)%nat /\ (5 < 100 / 5)%nat.
Proof. vm_compute. lia. Qed.

(** Whatever is drawn, every plan is the product plan or an answer of the transport solver; so the result is a coupling as
    soon as these answers are. *)
Theorem C150_sampled : forall loss prob_ok prox emd_ tiny ns nt C1 C2 p q sym nb eps max_iter g T,
  prob ns p -> prob nt q -> (forall L T T', coupling ns nt p q T -> prox L T = Some T' -> coupling ns nt p q T') -> (forall L, coupling ns nt p q (emd_ L)) ->
  sampled_gw (N:=RNum) loss prob_ok prox emd_ tiny ns nt C1 C2 p q sym nb eps max_iter g = GOk T -> coupling ns nt p q T.
Proof.
  intros loss prob_ok prox emd_ tiny ns nt C1 C2 p q sym nb eps max_iter g T (P0 & P1) (Q0 & Q1) HP HE H.
  assert (L : forall left cpt low T0, coupling ns nt p q T0 -> sg_loop (N:=RNum) loss prob_ok prox emd_ tiny ns nt C1 C2 p sym (fst (grad_sizes ns nb)) (snd (grad_sizes ns nb)) eps g left cpt low T0 = GOk T -> coupling ns nt p q T).
  { induction left as [|left IH]; intros cpt low T0 H0 E; cbn [sg_loop] in E; [injection E as <-; auto|].
    destruct (negb _); [discriminate|]. destruct (existsb _ _); [discriminate|]. destruct (neqb _ _); [eapply IH; eauto|].
    destruct (nltb n0 eps).
    - destruct (prox _ T0) as [T'|] eqn:EP; [|injection E as <-; auto]. pose proof (HP _ _ _ H0 EP) as H'.
      destruct (nleb _ _); [destruct (100 <? S low)%nat; [injection E as <-; exact H'|]|]; (eapply IH; [|exact E]; exact H').
    - destruct (nleb _ _); [destruct (100 <? S low)%nat; [injection E as <-; apply HE|]|]; (eapply IH; [|exact E]; apply HE). }
  apply (L max_iter 0%nat 0%nat (fun i j => p i * q j)); [|exact H]. split; [|split].
  - intros i j Hi Hj. apply Rmult_le_pos; auto.
  - intros i Hi. unfold row_sum. rewrite rsum_scal, Q1. ring.
  - intros j Hj. unfold col_sum. rewrite rsum_scal_r, P1. ring.
Qed.
Print Assumptions C150_sampled.

(** The sign of the loss: dividing by the maximum keeps the problem when the losses are positive, and turns it into its
    opposite when they are negative.  One step with the exact solver (epsilon <= 0). *)
Lemma fold_max_P : forall (P : R -> Prop) l x, P x -> (forall y, In y l -> P y) -> P (fold_left (fun x y => nmax (N:=RNum) x y) l x).
Proof.
  intros P l; induction l as [|y l IH]; intros x Hx H; cbn [fold_left]; [auto|]. apply IH; [|intros z Hz; apply H; right; auto].
  rewrite nmax_R. unfold Rmax. destruct (Rle_dec x y); [apply H; left; auto|auto].
Qed.
Lemma mat_max_P : forall (P : R -> Prop) n m (L : mat), (0 < n)%nat -> (0 < m)%nat -> (forall i j, (i < n)%nat -> (j < m)%nat -> P (L i j)) -> P (mat_max (N:=RNum) n m L).
Proof.
  intros P n m L Hn Hm H. unfold mat_max. apply fold_max_P; [apply H; auto|]. intros y Hy. apply in_flat_map in Hy. destruct Hy as (i & Hi & Hy).
  apply in_map_iff in Hy. destruct Hy as (j & <- & Hj). apply in_seq in Hi. apply in_seq in Hj. apply H; lia.
Qed.
Lemma lik_P : forall loss C1 C2 sym np nq d k l, (0 < np)%nat -> (0 < nq)%nat ->
  ((forall x y, 0 < loss x y) -> 0 < lik (N:=RNum) loss C1 C2 sym np nq d k l) /\ ((forall x y, loss x y < 0) -> lik (N:=RNum) loss C1 C2 sym np nq d k l < 0).
Proof.
  intros loss C1 C2 sym np nq d k l Hp Hq. assert (Iq := lt_0_INR nq Hq).
  set (v := fun r c => if (negb sym && s_coin d r)%bool then loss (C1 k (s_i d r)) (C2 l (s_j d r c)) else loss (C1 (s_i d r) k) (C2 (s_j d r c) l)).
  assert (E : lik (N:=RNum) loss C1 C2 sym np nq d k l = rsum np (fun r => rsum nq (v r) / INR nq)).
  { unfold lik. rewrite nsum_R. apply rsum_ext; intros r Hr. rewrite nsum_R, nat_num_INR. reflexivity. }
  rewrite E. split; intros H.
  - apply rsum_pos; auto. intros r Hr. apply Rdiv_lt_0_compat; auto. apply rsum_pos; auto. intros c Hc. unfold v. destruct (negb sym && s_coin d r)%bool; apply H.
  - assert (X : 0 < rsum np (fun r => rsum nq (fun c => - v r c) / INR nq)).
    { apply rsum_pos; auto. intros r Hr. apply Rdiv_lt_0_compat; auto. apply rsum_pos; auto. intros c Hc. unfold v. destruct (negb sym && s_coin d r)%bool;
        [pose proof (H (C1 k (s_i d r)) (C2 l (s_j d r c)))|pose proof (H (C1 (s_i d r) k) (C2 (s_j d r c) l))]; lra. }
    assert (Y : rsum np (fun r => rsum nq (fun c => - v r c) / INR nq) = - 1 * rsum np (fun r => rsum nq (v r) / INR nq)).
    { rewrite <- rsum_scal. apply rsum_ext; intros r Hr. rewrite (rsum_ext nq (fun c => - v r c) (fun c => - 1 * v r c)) by (intros; ring). rewrite rsum_scal. unfold Rdiv. ring. }
    lra.
Qed.
Theorem C150_sign : forall loss prob_ok prox emd_ tiny ns nt C1 C2 p q sym nb eps g T,
  (0 < ns)%nat -> (0 < nt)%nat -> (0 < fst (grad_sizes ns nb))%nat -> (0 < snd (grad_sizes ns nb))%nat -> eps <= 0 ->
  (forall L, optimal_coupling ns nt p q L (emd_ L)) ->
  sampled_gw (N:=RNum) loss prob_ok prox emd_ tiny ns nt C1 C2 p q sym nb eps 1 g = GOk T ->
  let L := lik (N:=RNum) loss C1 C2 sym (fst (grad_sizes ns nb)) (snd (grad_sizes ns nb)) (g 0%nat (fun i j => p i * q j)) in
  ((forall x y, 0 < loss x y) -> optimal_coupling ns nt p q L T) /\
  ((forall x y, loss x y < 0) -> optimal_coupling ns nt p q (fun k l => - L k l) T).
Proof.
  intros loss prob_ok prox emd_ tiny ns nt C1 C2 p q sym nb eps g T Hs Ht Hp Hq He HO H L.
  unfold sampled_gw in H. cbn [sg_loop] in H. destruct (negb _); [discriminate|]. destruct (existsb _ _); [discriminate|].
  change (fun i j : nat => nmul (n:=RNum) (p i) (q j)) with (fun i j : nat => p i * q j) in H. fold L in H.
  set (top := mat_max (N:=RNum) ns nt L) in *.
  replace (nltb (n:=RNum) n0 eps) with false in H by (symmetry; apply Rltb_false; cbn; lra).
  assert (SC : forall c G, cost ns nt (fun k l => c * L k l) G = c * cost ns nt L G).
  { intros c G. unfold cost. rewrite <- rsum_scal. apply rsum_ext; intros i _. rewrite <- rsum_scal. apply rsum_ext; intros j _. ring. }
  assert (D : neqb (n:=RNum) top n0 = false -> T = emd_ (fun k l => L k l / top)).
  { intros E. rewrite E in H. destruct (nleb _ _) in H; injection H as <-; reflexivity. }
  assert (DC : forall G, cost ns nt (fun k l => L k l / top) G = / top * cost ns nt L G).
  { intros G. rewrite <- SC. unfold cost. apply rsum_ext; intros i _. apply rsum_ext; intros j _. unfold Rdiv. ring. }
  split; intros HL.
  - assert (TP : 0 < top). { apply (mat_max_P (fun x => 0 < x)); auto. intros i j _ _. apply lik_P; auto. }
    rewrite D by (apply Reqb_false; cbn; lra). destruct (HO (fun k l => L k l / top)) as (A & B). split; [exact A|]. intros G HG. specialize (B G HG). rewrite !DC in B.
    apply (Rmult_le_reg_l (/ top)); [apply Rinv_0_lt_compat; auto|exact B].
  - assert (TP : top < 0). { apply (mat_max_P (fun x => x < 0)); auto. intros i j _ _. apply lik_P; auto. }
    rewrite D by (apply Reqb_false; cbn; lra). destruct (HO (fun k l => L k l / top)) as (A & B). split; [exact A|]. intros G HG. specialize (B G HG). rewrite !DC in B.
    assert (NS : forall G, cost ns nt (fun k l => - L k l) G = - cost ns nt L G).
    { intros G0. rewrite <- (Rmult_1_l (cost ns nt L G0)), Ropp_mult_distr_l, <- SC. unfold cost. apply rsum_ext; intros i _. apply rsum_ext; intros j _. ring. }
    rewrite !NS. assert (I0 := Rinv_lt_0_compat top TP). nra.
Qed.
Print Assumptions C150_sign.

(** ** pointwise_gromov_wasserstein *)
(** the plans visited; the loss does not appear *)
Section Pw.
Context {N : NumOps}.
Variable powf : N -> N -> N.
Variable close : N -> N -> bool.
Fixpoint pw_plans (ns nt : nat) (C1 C2 : nat -> nat -> N) (p q : nat -> N) (alpha thr : N) (w : @pw_draws N) (c : nat) : option (nat -> nat -> N) :=
  match c with
  | O => plan_1d powf close ns nt C1 C2 p q (w_i0 w) (w_j0 w)
  | S c' => match pw_plans ns nt C1 C2 p q alpha thr w c' with
    | Some T => match plan_1d powf close ns nt C1 C2 p q (w_i w c') (w_j w c' T) with Some new => Some (pw_mix alpha thr T new) | None => None end
    | None => None
    end
  end.
Definition checked (max_iter c : nat) : Prop := (c < max_iter)%nat /\ ((c mod 10 = 0)%nat \/ c = (max_iter - 1)%nat).
End Pw.
Definition pw_est loss root prob_ok heur ns nt C1 C2 p q (w : @pw_draws RNum) c T :=
  gw_estimate (N:=RNum) loss root prob_ok heur ns nt C1 C2 p q T true None None false (w_d w c T).
(** the best plan so far *)
Definition best_inv loss root prob_ok heur close ns nt C1 C2 p q alpha thr max_iter (w : @pw_draws RNum) (cpt : nat) (best : option (R * mat)) : Prop :=
  let est := pw_est loss root prob_ok heur ns nt C1 C2 p q w in
  let plans := pw_plans (N:=RNum) rpow close ns nt C1 C2 p q alpha thr w in
  match best with
  | None => forall c T, (c < cpt)%nat -> checked max_iter c -> plans (S c) = Some T -> est c T = GOk None
  | Some (x, T) => (exists c sd, (c < cpt)%nat /\ checked max_iter c /\ plans (S c) = Some T /\ est c T = GOk (Some (x, sd))) /\
      (forall c T' y sd, (c < cpt)%nat -> checked max_iter c -> plans (S c) = Some T' -> est c T' = GOk (Some (y, sd)) -> x <= y)
  end.
Lemma pw_loop_best : forall loss root prob_ok heur close ns nt C1 C2 p q alpha thr max_iter (w : @pw_draws RNum) left cpt T best best',
  (cpt + left = max_iter)%nat -> pw_plans (N:=RNum) rpow close ns nt C1 C2 p q alpha thr w cpt = Some T ->
  best_inv loss root prob_ok heur close ns nt C1 C2 p q alpha thr max_iter w cpt best ->
  pw_loop (N:=RNum) loss root prob_ok heur rpow close ns nt C1 C2 p q alpha thr max_iter w left cpt T best = GOk best' ->
  best_inv loss root prob_ok heur close ns nt C1 C2 p q alpha thr max_iter w max_iter best'.
Proof.
  intros loss root prob_ok heur close ns nt C1 C2 p q alpha thr max_iter w left; induction left as [|left IH]; intros cpt T best best' HL HT HB H; cbn [pw_loop] in H.
  - injection H as <-. replace max_iter with cpt at 2 by lia. exact HB.
  - destruct (negb _); [discriminate|]. destruct (plan_1d (N:=RNum) rpow close ns nt C1 C2 p q (w_i w cpt) (w_j w cpt T)) as [new|] eqn:EN; [|discriminate].
    set (T' := pw_mix (N:=RNum) alpha thr T new) in *.
    assert (PT : pw_plans (N:=RNum) rpow close ns nt C1 C2 p q alpha thr w (S cpt) = Some T') by (cbn [pw_plans]; rewrite HT, EN; reflexivity).
    destruct ((cpt mod 10 =? 0)%nat || (cpt =? max_iter - 1)%nat)%bool eqn:EC.
    + assert (CK : checked max_iter cpt).
      { split; [lia|]. apply orb_true_iff in EC. destruct EC as [EC|EC]; apply Nat.eqb_eq in EC; auto. }
      change (gw_estimate (N:=RNum) loss root prob_ok heur ns nt C1 C2 p q T' true None None false (w_d w cpt T')) with (pw_est loss root prob_ok heur ns nt C1 C2 p q w cpt T') in H.
      destruct (pw_est loss root prob_ok heur ns nt C1 C2 p q w cpt T') as [e| | |] eqn:EE; try discriminate.
      refine (IH (S cpt) T' _ best' ltac:(lia) PT _ H). clear H.
      destruct e as [[x sd]|]; cbn [better].
      * destruct best as [[y Ty]|].
        -- destruct (nltb (n:=RNum) x y) eqn:EL.
           ++ apply Rltb_true in EL. split.
              ** exists cpt, sd. split; [lia|]. auto.
              ** intros c T2 z sd' Hc HK H2 H3. destruct (Nat.eq_dec c cpt) as [->|NE]; [|].
                 --- rewrite PT in H2. injection H2 as <-. rewrite EE in H3. injection H3 as <- <-. apply Rle_refl.
                 --- apply Rle_trans with y; [left; exact EL|]. destruct HB as (_ & HB). apply (HB c T2 z sd'); auto. lia.
           ++ apply Rltb_false in EL. destruct HB as ((c & sd' & A1 & A2 & A3 & A4) & HB). split.
              ** exists c, sd'. split; [lia|]. auto.
              ** intros c' T2 z sd2 Hc HK H2 H3. destruct (Nat.eq_dec c' cpt) as [->|NE].
                 --- rewrite PT in H2. injection H2 as <-. rewrite EE in H3. injection H3 as <- <-. cbn in EL. lra.
                 --- apply (HB c' T2 z sd2); auto. lia.
        -- split.
           ++ exists cpt, sd. split; [lia|]. auto.
           ++ intros c T2 z sd' Hc HK H2 H3. destruct (Nat.eq_dec c cpt) as [->|NE].
              ** rewrite PT in H2. injection H2 as <-. rewrite EE in H3. injection H3 as <- <-. apply Rle_refl.
              ** cbn in HB. rewrite (HB c T2 ltac:(lia) HK H2) in H3. discriminate.
      * destruct best as [[y Ty]|].
        -- destruct HB as ((c & sd' & A1 & A2 & A3 & A4) & HB). split.
           ++ exists c, sd'. split; [lia|]. auto.
           ++ intros c' T2 z sd2 Hc HK H2 H3. destruct (Nat.eq_dec c' cpt) as [->|NE].
              ** rewrite PT in H2. injection H2 as <-. rewrite EE in H3. discriminate.
              ** apply (HB c' T2 z sd2); auto. lia.
        -- intros c T2 Hc HK H2. destruct (Nat.eq_dec c cpt) as [->|NE].
           ++ rewrite PT in H2. injection H2 as <-. exact EE.
           ++ apply HB; auto. lia.
    + refine (IH (S cpt) T' _ best' ltac:(lia) PT _ H). clear H.
      assert (NC : ~ checked max_iter cpt).
      { intros (_ & HK). apply orb_false_iff in EC. destruct EC as (C1' & C2'). apply Nat.eqb_neq in C1'. apply Nat.eqb_neq in C2'. tauto. }
      destruct best as [[y Ty]|].
      * destruct HB as ((c & sd' & A1 & A2 & A3 & A4) & HB). split.
        -- exists c, sd'. split; [lia|]. auto.
        -- intros c' T2 z sd2 Hc HK H2 H3. destruct (Nat.eq_dec c' cpt) as [->|NE]; [tauto|]. apply (HB c' T2 z sd2); auto. lia.
      * intros c T2 Hc HK H2. destruct (Nat.eq_dec c cpt) as [->|NE]; [tauto|]. apply HB; auto. lia.
Qed.
(** The returned plan is one of the plans visited at the checks (every tenth iteration and the last), with the lowest
    estimate among them. *)
Theorem C150_best : forall loss root prob_ok heur close ns nt C1 C2 p q alpha max_iter thr log w T e,
  pointwise_gw (N:=RNum) loss root prob_ok heur rpow close ns nt C1 C2 p q alpha max_iter thr log w = GOk (T, e) ->
  exists c x sd, checked max_iter c /\ pw_plans (N:=RNum) rpow close ns nt C1 C2 p q alpha thr w (S c) = Some T /\
    pw_est loss root prob_ok heur ns nt C1 C2 p q w c T = GOk (Some (x, sd)) /\
    forall c' T' y sd', checked max_iter c' -> pw_plans (N:=RNum) rpow close ns nt C1 C2 p q alpha thr w (S c') = Some T' ->
      pw_est loss root prob_ok heur ns nt C1 C2 p q w c' T' = GOk (Some (y, sd')) -> x <= y.
Proof.
  intros loss root prob_ok heur close ns nt C1 C2 p q alpha max_iter thr log w T e H. unfold pointwise_gw in H.
  destruct (negb _); [discriminate|]. destruct (plan_1d (N:=RNum) rpow close ns nt C1 C2 p q (w_i0 w) (w_j0 w)) as [T0|] eqn:E0; [|discriminate].
  destruct (pw_loop _ _ _ _ _ _ _ _ _ _ _ _ _ _ _ _ _ _ _ _) as [[[x Tb]|]| | |] eqn:EL; try discriminate.
  assert (B := pw_loop_best loss root prob_ok heur close ns nt C1 C2 p q alpha thr max_iter w max_iter 0 T0 None (Some (x, Tb)) ltac:(lia) E0 ltac:(intros c T1 Hc; lia) EL).
  assert (ET : Tb = T). { destruct log; [destruct (gw_estimate _ _ _ _ _ _ _ _ _ _ _ _ _ _ _ _); try discriminate|]; injection H as <- _; reflexivity. }
  subst Tb. destruct B as ((c & sd & A1 & A2 & A3 & A4) & B). exists c, x, sd. split; [auto|]. split; [auto|]. split; [auto|].
  intros c' T' y sd' K1 K2 K3. apply (B c' T' y sd'); auto. apply K1.
Qed.
Print Assumptions C150_best.

(** int(5 * (n * log n) ** 0.5) *)
Definition heur_spec (heur : nat -> nat) : Prop := forall n, (0 < n)%nat -> INR (heur n) <= 5 * sqrt (INR n * ln (INR n)) < INR (heur n) + 1.
Lemma heur_one : forall heur, heur_spec heur -> heur 1%nat = 0%nat.
Proof.
  intros heur H. destruct (H 1%nat ltac:(lia)) as (A & _). cbn [INR] in A. rewrite ln_1, Rmult_0_r, sqrt_0, Rmult_0_r in A.
  destruct (heur 1%nat) as [|k]; [reflexivity|]. exfalso. rewrite S_INR in A. pose proof (pos_INR k). lra.
Qed.
Lemma heur_pos : forall heur n, heur_spec heur -> (2 <= n)%nat -> (0 < heur n)%nat.
Proof.
  intros heur n H Hn. destruct (H n ltac:(lia)) as (_ & A). destruct (heur n) as [|k]; [|lia]. exfalso. cbn [INR] in A.
  assert (I2 : 2 <= INR n) by (apply (le_INR 2); auto).
  assert (L2 : / 2 <= ln (INR n)).
  { apply Rle_trans with (ln 2).
    - assert (X : exp (/ 2) <= 2).
      { assert (Y : exp (/ 2) * exp (/ 2) = exp 1) by (rewrite <- exp_plus; f_equal; field). pose proof exp_le_3. pose proof (exp_pos (/ 2)). nra. }
      rewrite <- (ln_exp (/ 2)). destruct X as [X|X]; [left; apply ln_increasing; auto; apply exp_pos|rewrite X; right; reflexivity].
    - destruct I2 as [I2|I2]; [left; apply ln_increasing; lra|rewrite <- I2; right; reflexivity]. }
  assert (S1 : 1 <= sqrt (INR n * ln (INR n))) by (rewrite <- sqrt_1; apply sqrt_le_1_alt; nra). lra.
Qed.

(** Two one-point spaces: the only plan is 1, but no estimate is ever made and the call raises UnboundLocalError. *)
Theorem C150_one_point_refuted : forall loss root prob_ok heur close C1 C2 p q alpha max_iter thr log w,
  heur_spec heur -> forall r, pointwise_gw (N:=RNum) loss root prob_ok heur rpow close 1 1 C1 C2 p q alpha max_iter thr log w <> GOk r.
Proof.
  intros loss root prob_ok heur close C1 C2 p q alpha max_iter thr log w HH r H.
  destruct r as (T & e). destruct (C150_best _ _ _ _ _ _ _ _ _ _ _ _ _ _ _ _ _ _ H) as (c & x & sd & _ & _ & E & _).
  unfold pw_est, gw_estimate in E. change (1 <? 1)%nat with false in E. cbv iota in E. rewrite (heur_one heur HH) in E. cbn [Nat.min Nat.eqb] in E.
  destruct (negb _); [discriminate|]. destruct (existsb _ _); discriminate.
Qed.
Print Assumptions C150_one_point_refuted.

(** rows drawn for an estimate: on the larger side *)
Definition est_rows (heur : nat -> nat) (ns nt : nat) (p q : vec) (d : draws) : Prop :=
  let n := if (ns <? nt)%nat then nt else ns in
  drawn_rows n (Nat.min (heur n) n) (if (ns <? nt)%nat then q else p) (d_i d) /\ drawn_rows n (Nat.min (heur n) n) (if (ns <? nt)%nat then q else p) (d_j d).
Definition valid_draws (heur : nat -> nat) (ns nt : nat) (p q : vec) (w : @pw_draws RNum) : Prop :=
  (forall c, (w_i w c < ns)%nat) /\ (forall c T, est_rows heur ns nt p q (w_d w c T)) /\ (forall T, est_rows heur ns nt p q (w_log w T)).
Lemma est_some : forall loss root (prob_ok : nat -> vec -> bool) heur ns nt C1 C2 p q T (std : bool) d,
  numpy_accepts prob_ok -> heur_spec heur -> (2 <= ns \/ 2 <= nt)%nat -> pos_vec ns p -> pos_vec nt q -> rsum ns p = 1 -> rsum nt q = 1 -> coupling ns nt p q T ->
  est_rows heur ns nt p q d -> exists x sd, gw_estimate (N:=RNum) loss root prob_ok heur ns nt C1 C2 p q T true None None std d = GOk (Some (x, sd)).
Proof.
  assert (G : forall loss root (prob_ok : nat -> vec -> bool) heur n m C1 C2 p q T (std : bool) d,
    numpy_accepts prob_ok -> heur_spec heur -> (2 <= n)%nat -> (m <= n)%nat -> pos_vec n p -> rsum n p = 1 -> coupling n m p q T ->
    drawn_rows n (Nat.min (heur n) n) p (d_i d) -> drawn_rows n (Nat.min (heur n) n) p (d_j d) ->
    exists x sd, gw_estimate (N:=RNum) loss root prob_ok heur n m C1 C2 p q T true None None std d = GOk (Some (x, sd))).
  { intros loss root prob_ok heur n m C1 C2 p q T std d OK HH H2 Hmn Pp P1 HT DI DJ. pose proof (heur_pos heur n HH H2) as HP.
    rewrite (estimate_ok loss root prob_ok heur n m C1 C2 p q T true None None std d); auto.
    - cbv zeta. rewrite support_full by auto. rewrite (proj2 (Nat.leb_le _ _)) by lia. rewrite (proj2 (Nat.eqb_neq _ _)) by lia. do 2 eexists; reflexivity.
    - intros i Hi. left; apply Pp; auto.
    - cbv zeta. intros r Hr. split; [apply DI|apply DJ]; auto.
    - destruct std; cbn; lia. }
  intros loss root prob_ok heur ns nt C1 C2 p q T std d OK HH H2 Pp Pq P1 Q1 HT (DI & DJ). destruct (Nat.ltb_spec ns nt) as [L|L].
  - rewrite C150_swap by auto. apply (G loss root prob_ok heur nt ns C2 C1 q p (fun i j => T j i) std d); auto; try lia.
    destruct HT as (A & B & C). split; [intros i j Hi Hj; apply A; auto|split; auto].
  - apply G; auto. lia.
Qed.
Lemma mix_coupling : forall n m p q T U a, 0 <= a <= 1 -> coupling n m p q T -> coupling n m p q U -> coupling n m p q (fun i j => (1 - a) * T i j + a * U i j).
Proof.
  intros n m p q T U a Ha (A & B & C) (A' & B' & C'). split; [|split].
  - intros i j Hi Hj. specialize (A i j Hi Hj). specialize (A' i j Hi Hj). nra.
  - intros i Hi. unfold row_sum in *. rewrite rsum_plus, !rsum_scal. specialize (B i Hi). specialize (B' i Hi). change (rsum m (T i)) with (rsum m (fun j => T i j)). rewrite B. change (rsum m (U i)) with (rsum m (fun j => U i j)). rewrite B'. ring.
  - intros j Hj. unfold col_sum in *. rewrite rsum_plus, !rsum_scal. rewrite (C j Hj), (C' j Hj). ring.
Qed.
(** On positive probability weights with alpha in [0,1] and no threshold: every plan is a coupling, no draw fails, and the
    call returns a coupling (with alpha = 1, an optimal 1-D plan between two rows) as soon as there is an iteration. *)
Definition good_plan ns nt C1 C2 p q (alpha : R) T : Prop :=
  coupling ns nt p q T /\ (alpha = 1 -> exists i j, optimal_coupling ns nt p q (row_cost C1 C2 i j) T).
Theorem C150_pointwise : forall loss root (prob_ok : nat -> vec -> bool) heur close ns nt C1 C2 p q alpha max_iter thr (log : bool) w,
  numpy_accepts prob_ok -> heur_spec heur -> (forall x, close x x = true) ->
  (0 < ns)%nat -> (0 < nt)%nat -> (2 <= ns \/ 2 <= nt)%nat -> pos_vec ns p -> pos_vec nt q -> rsum ns p = 1 -> rsum nt q = 1 ->
  0 <= alpha <= 1 -> thr <= 0 -> valid_draws heur ns nt p q w ->
  let r := pointwise_gw (N:=RNum) loss root prob_ok heur rpow close ns nt C1 C2 p q alpha max_iter thr log w in
  (max_iter = 0%nat -> r = GUnbound) /\
  ((0 < max_iter)%nat -> exists T e, r = GOk (T, e) /\ good_plan ns nt C1 C2 p q alpha T /\ (log = true <-> exists x sd, e = Some (Some (x, sd)))).
Proof.
  intros loss root prob_ok heur close ns nt C1 C2 p q alpha max_iter thr log w OK HH HC Hs Ht H2 Pp Pq P1 Q1 Ha Hthr (WI & WD & WL) r.
  assert (PL : forall i j, exists T, plan_1d (N:=RNum) rpow close ns nt C1 C2 p q i j = Some T /\ optimal_coupling ns nt p q (row_cost C1 C2 i j) T).
  { intros i j. apply plan_1d_ok; auto; try lra; intros k Hk; left; auto. }
  assert (CK1 : forall k x, (0 < k)%nat -> (forall i, (i < k)%nat -> 0 <= x i) -> rsum k x = 1 -> choice_ok (N:=RNum) prob_ok k 1 x true = true).
  { intros k x _ A B. unfold choice_ok. rewrite (OK k x A B). reflexivity. }
  assert (LP : forall left cpt (T : @emat RNum) (best : option (RNum * @emat RNum)), good_plan ns nt C1 C2 p q alpha T -> (match best with Some (_, B) => good_plan ns nt C1 C2 p q alpha B | None => True end) -> (cpt + left = max_iter)%nat ->
     exists best' : option (RNum * @emat RNum), pw_loop (N:=RNum) loss root prob_ok heur rpow close ns nt C1 C2 p q alpha thr max_iter w left cpt T best = GOk best' /\
       (match best' with Some (_, B) => good_plan ns nt C1 C2 p q alpha B | None => left = 0%nat /\ best = None end)).
  { induction left as [|left IH]; intros cpt T best GT GB HL; cbn [pw_loop].
    - exists best. split; [reflexivity|]. destruct best as [[x B]|]; auto.
    - destruct (row_law ns nt p q T (w_i w cpt) (proj1 GT) (WI cpt) (Pp _ (WI cpt))) as (R1 & R2 & _). rewrite (CK1 nt _ Ht R2 R1). cbn [negb].
      destruct (PL (w_i w cpt) (w_j w cpt T)) as (new & EN & ON). rewrite EN. set (T' := pw_mix (N:=RNum) alpha thr T new).
      assert (GT' : good_plan ns nt C1 C2 p q alpha T').
      { unfold T', pw_mix. destruct (neqb (n:=RNum) alpha n1) eqn:EA.
        - apply Reqb_true in EA. split; [apply ON|]. intros _. exists (w_i w cpt), (w_j w cpt T). exact ON.
        - apply Reqb_false in EA. unfold eliminate. replace (nltb (n:=RNum) n0 thr) with false by (symmetry; apply Rltb_false; cbn; lra).
          split; [apply (mix_coupling ns nt p q T new alpha Ha (proj1 GT) (proj1 ON))|]. intros X. exfalso. apply EA. exact X. }
      destruct ((cpt mod 10 =? 0)%nat || (cpt =? max_iter - 1)%nat)%bool eqn:EC.
      + destruct (est_some loss root prob_ok heur ns nt C1 C2 p q T' false (w_d w cpt T') OK HH H2 Pp Pq P1 Q1 (proj1 GT') (WD cpt T')) as (x & sd & EE). rewrite EE.
        destruct (IH (S cpt) T' (if better (N:=RNum) (Some (x, sd)) best then Some (x, T') else best) GT') as (b' & E' & B').
        * destruct (better _ best); auto.
        * lia.
        * exists b'. split; [exact E'|]. destruct b' as [[y B]|]; [exact B'|]. destruct B' as (_ & B'). destruct best as [[y B]|]; cbn [better] in B'; [destruct (nltb (n:=RNum) x y)|]; discriminate.
      + destruct (IH (S cpt) T' best GT' GB ltac:(lia)) as (b' & E' & B'). exists b'. split; [exact E'|]. destruct b' as [[y B]|]; [exact B'|].
        destruct B' as (L0 & _). exfalso. subst left. apply orb_false_iff in EC. destruct EC as (_ & EC). apply Nat.eqb_neq in EC. lia. }
  assert (ER : r = match plan_1d (N:=RNum) rpow close ns nt C1 C2 p q (w_i0 w) (w_j0 w) with
    | None => GFailed
    | Some T0 => match pw_loop (N:=RNum) loss root prob_ok heur rpow close ns nt C1 C2 p q alpha thr max_iter w max_iter 0 T0 None with
      | GOk None => GUnbound
      | GOk (Some (_, T)) => if log then match gw_estimate (N:=RNum) loss root prob_ok heur ns nt C1 C2 p q T true None None true (w_log w T) with
          | GOk e => GOk (T, Some e) | GValueError => GValueError | GUnbound => GUnbound | GFailed => GFailed end else GOk (T, None)
      | GValueError => GValueError | GUnbound => GUnbound | GFailed => GFailed end end).
  { unfold r, pointwise_gw. rewrite !CK1; auto; intros k Hk; left; auto. }
  destruct (PL (w_i0 w) (w_j0 w)) as (T0 & E0 & O0). rewrite E0 in ER. split.
  - intros ->. rewrite ER. reflexivity.
  - intros HI. destruct (LP max_iter 0%nat T0 None) as (b & Eb & B); auto.
    { split; [apply O0|]. intros _. exists (w_i0 w), (w_j0 w). exact O0. }
    rewrite Eb in ER. destruct b as [[x T]|]; [|lia]. destruct log.
    + destruct (est_some loss root prob_ok heur ns nt C1 C2 p q T true (w_log w T) OK HH H2 Pp Pq P1 Q1 (proj1 B) (WL T)) as (y & sd & EE). rewrite EE in ER.
      exists T, (Some (Some (y, sd))). split; [exact ER|]. split; [exact B|]. split; [intros _; exists y, sd; reflexivity|reflexivity].
    + exists T, None. split; [exact ER|]. split; [exact B|]. split; [discriminate|]. intros (y & sd & E). discriminate.
Qed.
Print Assumptions C150_pointwise.

Lemma convex_le : forall a x y z : R, 0 <= a <= 1 -> x <= z -> y <= z -> (1 - a) * x + a * y <= z.
Proof. intros; nra. Qed.
(** With a positive threshold mass is lost, never gained. *)
Definition sub_plan (n m : nat) (p q : vec) (T : mat) : Prop :=
  (forall i j, (i < n)%nat -> (j < m)%nat -> 0 <= T i j) /\ (forall i, (i < n)%nat -> row_sum m T i <= p i) /\ (forall j, (j < m)%nat -> col_sum n T j <= q j).
Theorem C150_threshold : forall loss root prob_ok heur close ns nt C1 C2 p q alpha max_iter thr log w T e,
  (0 < ns)%nat -> (0 < nt)%nat -> prob ns p -> prob nt q -> (forall x, close x x = true) -> 0 <= alpha <= 1 ->
  pointwise_gw (N:=RNum) loss root prob_ok heur rpow close ns nt C1 C2 p q alpha max_iter thr log w = GOk (T, e) -> sub_plan ns nt p q T.
Proof.
  intros loss root prob_ok heur close ns nt C1 C2 p q alpha max_iter thr log w T e Hs Ht (P0 & P1) (Q0 & Q1) HC Ha H.
  destruct (C150_best _ _ _ _ _ _ _ _ _ _ _ _ _ _ _ _ _ _ H) as (c & _ & _ & _ & E & _). clear H. revert T E.
  assert (PL : forall i j U, plan_1d (N:=RNum) rpow close ns nt C1 C2 p q i j = Some U -> sub_plan ns nt p q U).
  { intros i j U EU. destruct (plan_1d_ok close ns nt C1 C2 p q i j Hs Ht P0 Q0 ltac:(lra) ltac:(lra) HC) as (V & EV & ((A & B & C) & _)). rewrite EU in EV. injection EV as <-.
    split; [auto|]. split; intros k Hk; [rewrite B|rewrite C]; auto; apply Rle_refl. }
  enough (G : forall c T, pw_plans (N:=RNum) rpow close ns nt C1 C2 p q alpha thr w c = Some T -> sub_plan ns nt p q T) by (intros T; apply G).
  clear c. induction c as [|c IH]; intros T E; cbn [pw_plans] in E; [apply (PL _ _ _ E)|].
  destruct (pw_plans (N:=RNum) rpow close ns nt C1 C2 p q alpha thr w c) as [T0|]; [|discriminate]. specialize (IH T0 eq_refl).
  destruct (plan_1d (N:=RNum) rpow close ns nt C1 C2 p q (w_i w c) (w_j w c T0)) as [new|] eqn:EN; [|discriminate]. apply PL in EN. injection E as <-.
  unfold pw_mix. destruct (neqb (n:=RNum) alpha n1); [exact EN|].
  destruct IH as (A & B & C). destruct EN as (A' & B' & C').
  assert (M : sub_plan ns nt p q (fun i j => (1 - alpha) * T0 i j + alpha * new i j)).
  { split; [|split].
    - intros i j Hi Hj. specialize (A i j Hi Hj). specialize (A' i j Hi Hj). nra.
    - intros i Hi. specialize (B i Hi). specialize (B' i Hi). unfold row_sum. rewrite rsum_plus, !rsum_scal. apply convex_le; auto.
    - intros j Hj. specialize (C j Hj). specialize (C' j Hj). unfold col_sum. rewrite rsum_plus, !rsum_scal. apply convex_le; auto. }
  unfold eliminate. destruct (nltb (n:=RNum) n0 thr); [|exact M]. destruct M as (X & Y & Z). cbn [nadd nmul nsub n1 RNum].
  assert (LE : forall i j, (i < ns)%nat -> (j < nt)%nat -> 0 <= (if nleb (n:=RNum) (nabs (N:=RNum) ((1 - alpha) * T0 i j + alpha * new i j)) thr then 0 else (1 - alpha) * T0 i j + alpha * new i j) <= (1 - alpha) * T0 i j + alpha * new i j).
  { intros i j Hi Hj. specialize (X i j Hi Hj). destruct (nleb (n:=RNum) _ thr); lra. }
  split; [|split].
  - intros i j Hi Hj. apply LE; auto.
  - intros i Hi. eapply Rle_trans; [|apply (Y i Hi)]. unfold row_sum. apply rsum_le. intros j Hj. apply LE; auto.
  - intros j Hj. eapply Rle_trans; [|apply (Z j Hj)]. unfold col_sum. apply rsum_le. intros i Hi. apply LE; auto.
Qed.
Print Assumptions C150_threshold.

(** the hypotheses are met: the two-point space of C150_unbiased_refuted, rows drawn in order *)
Lemma heur_exists : exists heur, heur_spec heur.
Proof.
  exists (fun n => Z.to_nat (Int_part (5 * sqrt (INR n * ln (INR n))))). intros n Hn. set (x := 5 * sqrt (INR n * ln (INR n))).
  assert (X : 0 <= x) by (unfold x; pose proof (sqrt_pos (INR n * ln (INR n))); lra).
  destruct (base_Int_part x) as (A & B).
  assert (Z0 : (0 <= Int_part x)%Z). { apply Z.lt_succ_r. apply lt_IZR. rewrite succ_IZR. lra. }
  rewrite INR_IZR_INZ, Z2Nat.id by auto. lra.
Qed.
Definition two_draws : draws := Draws (fun r => r) (fun r => r) (fun r _ => r) (fun r _ => r).
Definition two_w : @pw_draws RNum := PwDraws 0 1 (fun _ => 0%nat) (fun _ _ => 0%nat) (fun _ _ => two_draws) (fun _ => two_draws).
Example C150_case : exists heur, heur_spec heur /\ valid_draws heur 2 2 two_p two_p two_w /\ numpy_accepts (fun _ _ => true) /\
  exists T e, pointwise_gw (N:=RNum) (fun x y => (x - y) * (x - y)) (fun x => x) (fun _ _ => true) heur rpow (fun _ _ => true) 2 2 two_C two_C two_p two_p (1 / 2) 12 0 true two_w = GOk (T, e) /\ coupling 2 2 two_p two_p T.
Proof.
  destruct heur_exists as (heur & HH). destruct two_ok as (A & B & _). exists heur. split; [exact HH|].
  assert (ER : est_rows heur 2 2 two_p two_p two_draws).
  { unfold est_rows. change (2 <? 2)%nat with false. cbv iota zeta. split; (split; [|auto]); intros r Hr; cbn [two_draws d_i d_j]; (split; [lia|apply A; lia]). }
  assert (V : valid_draws heur 2 2 two_p two_p two_w) by (split; [intros c; cbn; lia|split; intros; exact ER]).
  split; [exact V|]. split; [intros k x _ _; reflexivity|].
  destruct (C150_pointwise (fun x y => (x - y) * (x - y)) (fun x => x) (fun _ _ => true) heur (fun _ _ => true) 2 2 two_C two_C two_p two_p (1 / 2) 12 0 true two_w) as (_ & X);
    auto; try lia; try lra; [intros k x _ _; reflexivity|]. destruct (X ltac:(lia)) as (T & e & E & (G & _) & _). exists T, e. auto.
Qed.
