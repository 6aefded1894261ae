(** C109, C110: CO-Optimal Transport (ot/coot.py).
    Specification (Coot_proofs): coot_obj = sum_{ijkl} (X_ik - Y_jl)^2 Ps_ij Pf_kl + al_s <Ms, Ps> + al_f <Mf, Pf>
    + eps_s KL(Ps | ws vs) + eps_f KL(Pf | wf vf); the inner solvers return minimisers over the couplings. *)
From Coq Require Import Reals Lra Lia List Arith QArith.
From Verif Require Import Num Sums Spec Entropy Duals_proofs Optim_model Optim_proofs Exist Sinkhorn_model Sinkhorn_proofs NS_model NS_emd_model Emd_model Coot_model Coot_proofs.
Import ListNotations.
Local Open Scope R_scope.

(** C109: whatever the number of rounds, the evaluation period, the tolerances and the warm start: both
    returned plans are couplings, the logged values are objective values of couplings and never increase, no
    change of the feature plan alone improves the objective, the objective at the returned plans is at most
    the last logged value and equals it when the last round was an evaluated one; and a run started at
    couplings (the default start is) never logs or returns anything worse than its start. *)
Theorem C109_descent : forall tiny emd skh n d m e (X Y : mat) (ws wf vs vf : vec) eps_s eps_f al_s al_f Ms Mf warm nits tb ts E s,
  tiny = 0 \/ (eps_s = 0 /\ eps_f = 0) -> 0 <= eps_s -> 0 <= eps_f ->
  (if Req_EM_T eps_s 0 then emd_exact emd n m ws vs else skh_exact skh n m ws vs eps_s) ->
  (if Req_EM_T eps_f 0 then emd_exact emd d e wf vf else skh_exact skh d e wf vf eps_f) ->
  (0 < nits)%nat ->
  co_optimal_transport (N:=RNum) ln tiny emd skh n d m e X Y ws wf vs vf eps_s eps_f al_s al_f Ms Mf warm nits tb ts E = Some s ->
  let obj := coot_obj n d m e X Y ws wf vs vf eps_s eps_f al_s al_f Ms Mf in
  let s0 := coot_start (N:=RNum) ws wf vs vf warm in
  coupling n m ws vs (co_s s) /\ coupling d e wf vf (co_f s) /\
  (1 <= co_it s <= nits)%nat /\
  nonincreasing (co_log s) /\
  Forall (fun v => exists Ps Pf, coupling n m ws vs Ps /\ coupling d e wf vf Pf /\ v = obj Ps Pf) (co_log s) /\
  (forall Q, coupling d e wf vf Q -> obj (co_s s) (co_f s) <= obj (co_s s) Q) /\
  (co_log s <> [] /\ obj (co_s s) (co_f s) <= last (co_log s) 0) /\
  (((co_it s - 1) mod E = 0)%nat -> last (co_log s) 0 = obj (co_s s) (co_f s)) /\
  (coupling n m ws vs (co_s s0) -> coupling d e wf vf (co_f s0) ->
     obj (co_s s) (co_f s) <= obj (co_s s0) (co_f s0) /\ Forall (fun v => v <= obj (co_s s0) (co_f s0)) (co_log s)).
Proof.
  intros tiny emd skh n d m e X Y ws wf vs vf eps_s eps_f al_s al_f Ms Mf warm nits tb ts E s T Hs Hf Ks Kf Hn Run obj s0.
  assert (L0 : co_log s0 = [] /\ co_it s0 = 0%nat) by (unfold s0, coot_start; destruct warm as [[[[? ?] ?] ?]|]; split; reflexivity). destruct L0 as [L0 I0].
  assert (G : forall B, match B with None => True | Some B => coupling n m ws vs (co_s s0) /\ coupling d e wf vf (co_f s0) /\ obj (co_s s0) (co_f s0) <= B end ->
     exists k, (1 <= k <= nits)%nat /\ inv n d m e X Y ws wf vs vf eps_s eps_f al_s al_f Ms Mf E B k s).
  { intros B HB. destruct (loop_ok tiny n d m e X Y ws wf vs vf eps_s eps_f al_s al_f Ms Mf emd skh T Hs Hf Ks Kf E B tb ts nits 0 None s0 s) as (k & Hk & Ik & Nk).
    - constructor; rewrite ?L0; try lia; auto; try constructor. destruct B as [B|]; auto. destruct HB as (H1 & H2 & H3). split; [split; auto|]. split; auto.
    - exact Run.
    - exists k. split; auto. split; [|lia]. destruct k; [|lia]. destruct (Nk eq_refl); lia. }
  destruct (G None Logic.I) as (k & Hk & [i1 i2 i3 i4 i5 i6 i7 i8 i9 i10]). assert (Hp : (0 < k)%nat) by lia. destruct (i2 Hp) as [P1 P2].
  split; [exact P1|]. split; [exact P2|]. split; [lia|]. split; [exact i4|]. split; [exact i9|]. split; [apply i3; auto|]. split; [split; [apply i5; auto|apply i6; auto]|]. split; [rewrite i1; apply i7; auto|].
  intros C1 C2. destruct (G (Some (obj (co_s s0) (co_f s0))) (conj C1 (conj C2 (Rle_refl _)))) as (k' & _ & [_ _ _ _ _ _ _ i8' _ _]). destruct i8' as (_ & Q1 & Q2). split; auto.
Qed.
Print Assumptions C109_descent.
(** without regularisation and with nonnegative extra costs everything stays nonnegative: a warm start of cost 0
    (identical data up to relabelling) is kept at cost 0 *)
Theorem C109_zero : forall tiny emd skh n d m e (X Y : mat) (ws wf vs vf : vec) Ps0 Pf0 ds df nits tb ts E s,
  emd_exact emd n m ws vs -> emd_exact emd d e wf vf -> (0 < nits)%nat ->
  coupling n m ws vs Ps0 -> coupling d e wf vf Pf0 ->
  (forall i j k l, (i < n)%nat -> (j < m)%nat -> (k < d)%nat -> (l < e)%nat -> 0 < Ps0 i j -> 0 < Pf0 k l -> X i k = Y j l) ->
  co_optimal_transport (N:=RNum) ln tiny emd skh n d m e X Y ws wf vs vf 0 0 0 0 None None (Some (Ps0, Pf0, ds, df)) nits tb ts E = Some s ->
  Forall (fun v => v = 0) (co_log s) /\
  (forall i j k l, (i < n)%nat -> (j < m)%nat -> (k < d)%nat -> (l < e)%nat -> 0 < co_s s i j -> 0 < co_f s k l -> X i k = Y j l).
Proof.
  intros tiny emd skh n d m e X Y ws wf vs vf Ps0 Pf0 ds df nits tb ts E s Ks Kf Hn C1 C2 H0 Run.
  assert (K : forall k l a b, emd_exact emd k l a b -> if Req_EM_T 0 0 then emd_exact emd k l a b else skh_exact skh k l a b 0) by (intros; destruct (Req_EM_T 0 0); [auto|congruence]).
  pose proof (C109_descent tiny emd skh n d m e X Y ws wf vs vf 0 0 0 0 None None (Some (Ps0, Pf0, ds, df)) nits tb ts E s (or_intror (conj eq_refl eq_refl)) (Rle_refl 0) (Rle_refl 0) (K _ _ _ _ Ks) (K _ _ _ _ Kf) Hn Run) as D. cbv zeta in D.
  destruct D as (P1 & P2 & _ & _ & V & _ & _ & _ & B). specialize (B C1 C2). cbn [coot_start co_s co_f] in B.
  assert (OBJ : forall Ps Pf, coot_obj n d m e X Y ws wf vs vf 0 0 0 0 None None Ps Pf = coot_loss n d m e X Y Ps Pf) by (intros; unfold coot_obj, olin; ring).
  rewrite !OBJ in B. assert (Z : coot_loss n d m e X Y Ps0 Pf0 = 0).
  { unfold coot_loss. transitivity (dsum n m (fun _ _ => 0)); [|unfold dsum; apply rsum_0; intros; apply rsum_0; auto]. apply dsum_ext. intros i j Hi Hj. destruct (Rle_lt_or_eq_dec 0 (Ps0 i j)) as [Pp|<-]; [apply C1; auto| |ring].
    rewrite (dsum_ext d e _ (fun _ _ => 0)); [unfold dsum; rewrite (rsum_0 d); [ring|intros; apply rsum_0; auto]|]. intros k l Hk Hl. destruct (Rle_lt_or_eq_dec 0 (Pf0 k l)) as [Qp|<-]; [apply C2; auto| |ring]. rewrite (H0 i j k l) by auto. ring. }
  assert (NN : forall Pf i j, coupling d e wf vf Pf -> 0 <= dsum d e (fun k l => (X i k - Y j l) * (X i k - Y j l) * Pf k l)) by (intros Pf i j C; apply dsum_nonneg; intros; apply Rmult_le_pos; [apply Rle_0_sqr|apply C; auto]).
  assert (NL : forall Ps Pf, coupling n m ws vs Ps -> coupling d e wf vf Pf -> 0 <= coot_loss n d m e X Y Ps Pf) by (intros Ps Pf Q1 Q2; apply dsum_nonneg; intros; apply Rmult_le_pos; [apply NN; auto|apply Q1; auto]).
  rewrite Z in B. destruct B as [B1 B2]. split.
  - rewrite Forall_forall in *. intros v Hv. specialize (B2 v Hv). destruct (V v Hv) as (Ps & Pf & Q1 & Q2 & ->). rewrite OBJ in *. pose proof (NL Ps Pf Q1 Q2). lra.
  - intros i j k l Hi Hj Hk Hl Hp Hq. assert (Z1 : coot_loss n d m e X Y (co_s s) (co_f s) = 0) by (pose proof (NL _ _ P1 P2); lra).
    assert (Y1 := dsum_zero n m _ (fun i j Hi Hj => Rmult_le_pos _ _ (NN (co_f s) i j P2) (proj1 P1 i j Hi Hj)) Z1 i j Hi Hj). cbv beta in Y1.
    assert (Y2 : dsum d e (fun k l => (X i k - Y j l) * (X i k - Y j l) * co_f s k l) = 0) by (apply Rmult_integral in Y1; destruct Y1; auto; lra).
    assert (Y3 := dsum_zero d e _ (fun k l Hk Hl => Rmult_le_pos _ _ (Rle_0_sqr (X i k - Y j l)) (proj1 P2 k l Hk Hl)) Y2 k l Hk Hl). cbv beta in Y3. apply Rmult_integral in Y3. destruct Y3 as [Y3|Y3]; [|lra]. apply Rmult_integral in Y3. destruct Y3; lra.
Qed.
Print Assumptions C109_zero.
(** the failures, in any arithmetic: eval_bcd = 0 (modulo by zero) and co_optimal_transport2 with nits_bcd = 0 *)
Theorem C109_errors : forall (N : NumOps) lg tiny emd skh n d m e (X Y : nat -> nat -> N) ws wf vs vf eps_s eps_f al_s al_f Ms Mf warm nits tb ts E,
  co_optimal_transport lg tiny emd skh n d m e X Y ws wf vs vf eps_s eps_f al_s al_f Ms Mf warm (S nits) tb ts 0 = None /\
  co_optimal_transport2 lg tiny emd skh n d m e X Y ws wf vs vf eps_s eps_f al_s al_f Ms Mf warm 0 tb ts E = None /\
  (exists s, co_optimal_transport lg tiny emd skh n d m e X Y ws wf vs vf eps_s eps_f al_s al_f Ms Mf warm nits tb ts (S E) = Some s /\ (co_it s <= nits)%nat).
Proof.
  intros. split; [|split].
  - unfold co_optimal_transport. cbn [coot_loop]. destruct (block _ _ _ _ _ _ _ _ _ _ _). destruct (block _ _ _ _ _ _ _ _ _ _ _). reflexivity.
  - unfold co_optimal_transport2, co_optimal_transport, coot_start. cbn [coot_loop]. destruct warm as [[[[? ?] ?] ?]|]; reflexivity.
  - unfold co_optimal_transport. assert (I : co_it (coot_start ws wf vs vf warm) = 0%nat) by (destruct warm as [[[[? ?] ?] ?]|]; reflexivity).
    assert (L : forall left idx prev s, co_it s = idx -> exists r, coot_loop lg tiny emd skh n d m e X Y ws wf vs vf eps_s eps_f al_s al_f Ms Mf left idx tb ts (S E) prev s = Some r /\ (co_it r <= idx + left)%nat).
    { induction left as [|left IH]; intros idx prev s Hi; cbn [coot_loop]; [exists s; split; auto; lia|].
      destruct (block _ _ _ _ _ _ _ _ _ _ _) as [Ps ds]. destruct (block _ _ _ _ _ _ _ _ _ _ _) as [Pf df].
      destruct (Nat.eqb _ _).
      - match goal with |- context [if ?c then _ else _] => destruct c end; [eexists; split; [reflexivity|cbn; lia]|].
        match goal with |- context [coot_loop _ _ _ _ _ _ _ _ _ _ _ _ _ _ _ _ _ _ _ _ _ (S idx) _ _ _ ?p ?q] => destruct (IH (S idx) p q eq_refl) as (r & Er & Hr) end. exists r. split; [exact Er|lia].
      - match goal with |- context [coot_loop _ _ _ _ _ _ _ _ _ _ _ _ _ _ _ _ _ _ _ _ _ (S idx) _ _ _ ?p ?q] => destruct (IH (S idx) p q eq_refl) as (r & Er & Hr) end. exists r. split; [exact Er|lia]. }
    destruct (L nits 0%nat None _ I) as (r & Er & Hr). exists r. split; auto.
Qed.
Print Assumptions C109_errors.
(** ... but with eval_bcd = 2 and two rounds the value returned by co_optimal_transport2 is that of the first
    round, not that of the returned plans.  The inner solver is the modelled network simplex. *)
Definition emdQ (n m : nat) (a b : nat -> Q) (M : nat -> nat -> Q) : (nat -> nat -> Q) * ((nat -> Q) * (nat -> Q)) :=
  match emd (N:=QNum) 200 100 true n m a b M with Ret o => (eo_G o, (eo_alpha o, eo_beta o)) | _ => ((fun _ _ => 0%Q), ((fun _ => 0%Q), (fun _ => 0%Q))) end.
Definition lossQ (n d m e : nat) (X Y Ps Pf : nat -> nat -> Q) : Q :=
  nsum (N:=QNum) n (fun i => nsum (N:=QNum) m (fun j => nsum (N:=QNum) d (fun k => nsum (N:=QNum) e (fun l => Qred ((X i k - Y j l) * (X i k - Y j l) * Ps i j * Pf k l)%Q)))).
Theorem C109_stale_value_refuted : exists (X Y : nat -> nat -> Q),
  let h := fun _ : nat => (1 # 2)%Q in
  let run E := match co_optimal_transport2 (N:=QNum) (fun x => x) 0%Q emdQ (fun _ _ _ _ M _ dl => (M, dl)) 2 2 2 2 X Y h h h h 0%Q 0%Q 0%Q 0%Q None None None 2 0%Q 0%Q E with
               | Some (c, _, s) => (c, lossQ 2 2 2 2 X Y (co_s s) (co_f s)) | None => (0%Q, 0%Q) end in
  run 1%nat = ((3 # 2)%Q, (3 # 2)%Q) /\ run 2%nat = (2%Q, (3 # 2)%Q).
Proof.
  exists (fun i k => nth k (nth i [[0; 1]; [0; 2]]%Q []) 0%Q), (fun i k => nth k (nth i [[0; 3]; [2; 2]]%Q []) 0%Q). cbv zeta. split; vm_compute; reflexivity.
Qed.
Print Assumptions C109_stale_value_refuted.

(** C110: the gradients attached to X and Y are those of the objective at the returned plans, and give an
    upper bound on the COOT value of perturbed data *)
Theorem C110_data_gradients : forall n d m e (X Y X' Y' : mat) (ws wf vs vf : vec) eps_s eps_f al_s al_f Ms Mf Ps Pf,
  coupling n m ws vs Ps -> coupling d e wf vf Pf ->
  let obj := fun X Y => coot_obj n d m e X Y ws wf vs vf eps_s eps_f al_s al_f Ms Mf Ps Pf in
  obj X' Y = obj X Y + dsum n d (fun i k => grad_X (N:=RNum) m e X Y ws wf Ps Pf i k * (X' i k - X i k)) + dsum n d (fun i k => ws i * wf k * ((X' i k - X i k) * (X' i k - X i k))) /\
  obj X Y' = obj X Y + dsum m e (fun j l => grad_Y (N:=RNum) n d X Y vs vf Ps Pf j l * (Y' j l - Y j l)) + dsum m e (fun j l => vs j * vf l * ((Y' j l - Y j l) * (Y' j l - Y j l))).
Proof.
  intros n d m e X Y X' Y' ws wf vs vf eps_s eps_f al_s al_f Ms Mf Ps Pf (NP & R1 & C1) (NF & R2 & C2) obj.
  assert (MULT : forall (F : nat -> nat -> nat -> nat -> R), dsum n m (fun i j => dsum d e (fun k l => F i j k l)) = dsum n d (fun i k => dsum m e (fun j l => F i j k l))).
  { intros F. unfold dsum. apply rsum_ext. intros i _. apply (rsum_swap m d). }
  assert (MULT2 : forall (F : nat -> nat -> nat -> nat -> R), dsum n m (fun i j => dsum d e (fun k l => F i j k l)) = dsum m e (fun j l => dsum n d (fun i k => F i j k l))).
  { intros F. rewrite MULT, dsum_swap2. reflexivity. }
  assert (DP : forall p q (f g : nat -> R), rsum p f * rsum q g = dsum p q (fun i j => f i * g j)) by (intros; unfold dsum; rewrite <- rsum_scal_r; apply rsum_ext; intros; symmetry; apply rsum_scal).
  assert (GX : forall i k, (i < n)%nat -> (k < d)%nat -> grad_X (N:=RNum) m e X Y ws wf Ps Pf i k = dsum m e (fun j l => 2 * (X i k - Y j l) * Ps i j * Pf k l)).
  { intros i k Hi Hk. unfold grad_X. rewrite nsum_R. cbn [nsub nmul RNum]. rewrite two_R. rewrite <- (R1 i Hi), <- (R2 k Hk). unfold row_sum.
    transitivity (dsum m e (fun j l => 2 * X i k * Ps i j * Pf k l) - dsum m e (fun j l => 2 * Ps i j * Y j l * Pf k l)); [|rewrite <- dsum_minus; apply dsum_ext; intros; ring]. f_equal.
    - rewrite DP, <- dsum_scal. apply dsum_ext; intros; ring.
    - unfold dsum. rewrite (rsum_swap m e). apply rsum_ext. intros l _. rewrite nsum_R, <- rsum_scal_r. apply rsum_ext; intros; rewrite ?two_R; cbn; ring. }
  assert (GY : forall j l, (j < m)%nat -> (l < e)%nat -> grad_Y (N:=RNum) n d X Y vs vf Ps Pf j l = dsum n d (fun i k => - (2 * (X i k - Y j l)) * Ps i j * Pf k l)).
  { intros j l Hj Hl. unfold grad_Y. rewrite nsum_R. cbn [nsub nmul RNum]. rewrite two_R. rewrite <- (C1 j Hj), <- (C2 l Hl). unfold col_sum.
    transitivity (dsum n d (fun i k => 2 * Y j l * Ps i j * Pf k l) - dsum n d (fun i k => 2 * Ps i j * X i k * Pf k l)); [|rewrite <- dsum_minus; apply dsum_ext; intros; ring]. f_equal.
    - rewrite DP, <- dsum_scal. apply dsum_ext; intros; ring.
    - unfold dsum. rewrite (rsum_swap n d). apply rsum_ext. intros k _. rewrite nsum_R, <- rsum_scal_r. apply rsum_ext; intros; rewrite ?two_R; cbn; ring. }
  assert (LO : forall X Y, coot_loss n d m e X Y Ps Pf = dsum n m (fun i j => dsum d e (fun k l => (X i k - Y j l) * (X i k - Y j l) * Ps i j * Pf k l))).
  { intros. unfold coot_loss. apply dsum_ext; intros. rewrite Rmult_comm, <- dsum_scal. apply dsum_ext; intros; ring. }
  assert (XX : coot_loss n d m e X' Y Ps Pf = coot_loss n d m e X Y Ps Pf + dsum n d (fun i k => grad_X (N:=RNum) m e X Y ws wf Ps Pf i k * (X' i k - X i k)) + dsum n d (fun i k => ws i * wf k * ((X' i k - X i k) * (X' i k - X i k)))).
  { rewrite !LO, !MULT, <- !dsum_plus. apply dsum_ext. intros i k Hi Hk. rewrite (GX i k Hi Hk), <- (R1 i Hi), <- (R2 k Hk). unfold row_sum. rewrite DP.
    rewrite (Rmult_comm (dsum m e (fun j l => 2 * _ * _ * _))), <- dsum_scal. rewrite (Rmult_comm (dsum m e (fun j l => Ps i j * Pf k l))), <- dsum_scal. rewrite <- !dsum_plus. apply dsum_ext; intros; ring. }
  assert (YY : coot_loss n d m e X Y' Ps Pf = coot_loss n d m e X Y Ps Pf + dsum m e (fun j l => grad_Y (N:=RNum) n d X Y vs vf Ps Pf j l * (Y' j l - Y j l)) + dsum m e (fun j l => vs j * vf l * ((Y' j l - Y j l) * (Y' j l - Y j l)))).
  { rewrite !LO, !MULT2, <- !dsum_plus. apply dsum_ext. intros j l Hj Hl. rewrite (GY j l Hj Hl), <- (C1 j Hj), <- (C2 l Hl). unfold col_sum. rewrite DP.
    rewrite (Rmult_comm (dsum n d (fun i k => - _ * _ * _))), <- dsum_scal. rewrite (Rmult_comm (dsum n d (fun i k => Ps i j * Pf k l))), <- dsum_scal. rewrite <- !dsum_plus. apply dsum_ext; intros; ring. }
  unfold obj, coot_obj. rewrite XX, YY. split; ring.
Qed.
Print Assumptions C110_data_gradients.
(** what co_optimal_transport2 attaches, and the bound on the value of perturbed data: [V'] is any lower bound of
    the objective of the perturbed problem over the couplings *)
Theorem C110_attached : forall tiny emd skh n d m e (X Y : mat) (ws wf vs vf : vec) eps_s eps_f al_s al_f Ms Mf warm nits tb ts E c g s,
  tiny = 0 \/ (eps_s = 0 /\ eps_f = 0) -> 0 <= eps_s -> 0 <= eps_f ->
  (if Req_EM_T eps_s 0 then emd_exact emd n m ws vs else skh_exact skh n m ws vs eps_s) ->
  (if Req_EM_T eps_f 0 then emd_exact emd d e wf vf else skh_exact skh d e wf vf eps_f) ->
  co_optimal_transport2 (N:=RNum) ln tiny emd skh n d m e X Y ws wf vs vf eps_s eps_f al_s al_f Ms Mf warm nits tb ts E = Some (c, g, s) ->
  forall X' Y' V', (forall Ps Pf, coupling n m ws vs Ps -> coupling d e wf vf Pf -> V' <= coot_obj n d m e X' Y' ws wf vs vf eps_s eps_f al_s al_f Ms Mf Ps Pf) ->
  (Y' = Y -> V' <= c + dsum n d (fun i k => cg_X g i k * (X' i k - X i k)) + dsum n d (fun i k => ws i * wf k * ((X' i k - X i k) * (X' i k - X i k)))) /\
  (X' = X -> V' <= c + dsum m e (fun j l => cg_Y g j l * (Y' j l - Y j l)) + dsum m e (fun j l => vs j * vf l * ((Y' j l - Y j l) * (Y' j l - Y j l)))).
Proof.
  intros tiny emd skh n d m e X Y ws wf vs vf eps_s eps_f al_s al_f Ms Mf warm nits tb ts E c g s T Hs Hf Ks Kf Run X' Y' V' HV.
  destruct nits as [|nits]; [rewrite (proj1 (proj2 (C109_errors RNum ln tiny emd skh n d m e X Y ws wf vs vf eps_s eps_f al_s al_f Ms Mf warm 0 tb ts E))) in Run; discriminate|].
  unfold co_optimal_transport2 in Run. destruct (co_optimal_transport (N:=RNum) ln tiny emd skh n d m e X Y ws wf vs vf eps_s eps_f al_s al_f Ms Mf warm (S nits) tb ts E) as [s'|] eqn:R1; [|discriminate].
  destruct (C109_descent _ _ _ _ _ _ _ _ _ _ _ _ _ _ _ _ _ _ _ _ _ _ _ _ _ T Hs Hf Ks Kf (Nat.lt_0_succ nits) R1) as (P1 & P2 & _ & _ & _ & _ & (NE & LA) & _).
  destruct (rev (co_log s')) as [|c' r] eqn:RV; [discriminate|]. inversion Run; subst c' g s'; clear Run.
  assert (LC : last (co_log s) 0 = c) by (rewrite <- (rev_involutive (co_log s)), RV; cbn [rev]; apply last_last). rewrite LC in LA. cbn [cg_X cg_Y].
  split; intros ->.
  - destruct (C110_data_gradients n d m e X Y X' Y ws wf vs vf eps_s eps_f al_s al_f Ms Mf (co_s s) (co_f s) P1 P2) as [GX _]. cbv zeta in GX. specialize (HV _ _ P1 P2). rewrite GX in HV. lra.
  - destruct (C110_data_gradients n d m e X Y X Y' ws wf vs vf eps_s eps_f al_s al_f Ms Mf (co_s s) (co_f s) P1 P2) as [_ GY]. cbv zeta in GY. specialize (HV _ _ P1 P2). rewrite GY in HV. lra.
Qed.
Print Assumptions C110_attached.
(** the gradients attached to the weights are the duals of the last inner solves, but for the entropic solver
    they are log u instead of eps log u.  Two samples 1 and 0 against the single sample 0, one feature,
    eps = 1/2: the COOT value of the weights w is w_0 (slope 1 along (1, -1)), the attached slope is 2.  The
    inner solver is one iteration of the modelled sinkhorn_knopp, which is exact here. *)
Definition skhR (it : nat) (thr : R) (n m : nat) (a b : vec) (M : mat) (eps : R) (dl : vec * vec) : mat * (vec * vec) :=
  let K := fun i j => exp (- M i j / eps) in
  let o := sinkhorn_knopp (N:=RNum) n m a b norm2 no_nan thr K it (Some ((fun i => exp (fst dl i)), (fun j => exp (snd dl j)))) in
  (scaled (N:=RNum) K (sk_u o) (sk_v o), (sk_u o, sk_v o)).
Lemma skhR_col : forall thr n a b M eps dl, (0 < n)%nat -> pos_vec n a -> pos_vec 1 b ->
  exists v0, 0 < v0 /\ forall i, (i < n)%nat -> fst (snd (skhR 1 thr n 1 a b M eps dl)) i = a i / (exp (- M i 0%nat / eps) * v0) /\ fst (skhR 1 thr n 1 a b M eps dl) i 0%nat = a i.
Proof.
  intros thr n a b M eps dl Hn Ha Hb. set (K := fun i j : nat => exp (- M i j / eps)). set (u := fun i => exp (fst dl i)).
  assert (PU : pos_vec n u) by (intros i _; apply exp_pos). assert (PK : forall i j, 0 < K i j) by (intros; apply exp_pos).
  set (v' := kp_v (N:=RNum) n b K u). set (u' := kp_u (N:=RNum) 1 a K v').
  assert (KP : 0 < KtU (N:=RNum) n K u 0%nat). { unfold KtU. rewrite nsum_R. apply rsum_pos; auto. intros; apply Rmult_lt_0_compat; auto. }
  assert (PV : 0 < v' 0%nat) by (unfold v', kp_v; cbn [ndiv RNum]; apply Rdiv_lt_0_compat; auto).
  assert (UE : forall i, (i < n)%nat -> u' i = a i / (K i 0%nat * v' 0%nat)).
  { intros i Hi. unfold u', kp_u. rewrite nsum_R. cbn [rsum ndiv nmul RNum]. change (@n1 RNum) with 1. pose proof (Ha i Hi). pose proof (PK i 0%nat). match goal with |- ?x = ?y => change (@eq R x y) end. rewrite Rplus_0_l. field. repeat split; lra. }
  assert (BAD : kp_bad (N:=RNum) n 1 no_nan K u u' v' = false).
  { unfold kp_bad. cbn [any]. replace (neqb (n:=RNum) (KtU (N:=RNum) n K u 0%nat) n0) with false by (symmetry; apply Reqb_false; cbn; lra).
    assert (A : forall k (f : nat -> R), any k (fun i => no_nan (f i)) = false) by (induction k; intros; cbn; auto; rewrite IHk; auto). rewrite (A n u'). reflexivity. }
  assert (S : sk_u (sinkhorn_knopp (N:=RNum) n 1 a b norm2 no_nan thr K 1 (Some (u, (fun j => exp (snd dl j))))) = u' /\ sk_v (sinkhorn_knopp (N:=RNum) n 1 a b norm2 no_nan thr K 1 (Some (u, (fun j => exp (snd dl j))))) = v').
  { unfold sinkhorn_knopp. cbn [kp_loop]. fold v'. fold u'. rewrite BAD. cbn [Nat.modulo Nat.eqb]. destruct (Nat.eqb _ _); [|split; reflexivity]. destruct (nltb _ _); split; reflexivity. }
  exists (v' 0%nat). split; auto. intros i Hi. unfold skhR. cbn [fst snd]. fold K. fold u. destruct S as [-> ->]. split; [apply UE; auto|].
  unfold scaled. rewrite (UE i Hi). cbn [nmul RNum]. pose proof (PK i 0%nat). field. split; lra.
Qed.
(** so this solver is exact for one target *)
Lemma skhR_exact : forall thr n a b eps, (0 < n)%nat -> pos_vec n a -> pos_vec 1 b -> mass n a = b 0%nat -> skh_exact (skhR 1 thr) n 1 a b eps.
Proof.
  intros thr n a b eps Hn Ha Hb Hm M dl. destruct (skhR_col thr n a b M eps dl Hn Ha Hb) as (v0 & _ & H). set (P := fst (skhR 1 thr n 1 a b M eps dl)) in *.
  assert (CP : coupling n 1 a b P).
  { split; [|split].
    - intros i j Hi Hj. replace j with 0%nat by lia. rewrite (proj2 (H i Hi)). left; auto.
    - intros i Hi. unfold row_sum. cbn [rsum]. rewrite (proj2 (H i Hi)). ring.
    - intros j Hj. replace j with 0%nat by lia. unfold col_sum. rewrite <- Hm. apply rsum_ext. intros i Hi. apply H; auto. }
  split; auto. intros Q (_ & RQ & _). right.
  assert (E : forall i j, (i < n)%nat -> (j < 1)%nat -> P i j = Q i j).
  { intros i j Hi Hj. replace j with 0%nat by lia. rewrite (proj2 (H i Hi)). specialize (RQ i Hi). unfold row_sum in RQ. cbn [rsum] in RQ. lra. }
  unfold cost, klprod, dsum. f_equal; [|f_equal]; apply rsum_ext; intros; apply rsum_ext; intros; rewrite E; auto.
Qed.
Theorem C110_weight_gradient_refuted : forall emd thr tb ts, exists (X Y : mat) eps c g s,
  let h := (fun _ => / 2) : vec in let one := (fun _ => 1) : vec in
  0 < eps /\
  co_optimal_transport2 (N:=RNum) ln 0 emd (skhR 1 thr) 2 1 1 1 X Y h one one one eps eps 0 0 None None None 1 tb ts 1 = Some (c, g, s) /\
  (forall (w : vec) Ps Pf, pos_vec 2 w -> coupling 2 1 w one Ps -> coupling 1 1 one one Pf ->
     coot_obj 2 1 1 1 X Y w one one one eps eps 0 0 None None Ps Pf = w 0%nat) /\
  cg_ws g 0%nat - cg_ws g 1%nat = 2.
Proof.
  intros emd thr tb ts. set (X := (fun i _ => if Nat.eqb i 0 then 1 else 0) : mat). set (Y := (fun _ _ => 0) : mat). set (h := (fun _ => / 2) : vec). set (one := (fun _ => 1) : vec).
  assert (P1 : pos_vec 1 one) by (intros i _; unfold one; lra). assert (Ph : pos_vec 2 h) by (intros i _; unfold h; lra).
  set (M := cost_s (N:=RNum) 1 1 X Y one one 0 None (outer (N:=RNum) one one)).
  assert (C11 : coupling 1 1 one one (outer (N:=RNum) one one)).
  { split; [|split]; intros i Hi; unfold outer, row_sum, col_sum, one; cbn; try lra. }
  assert (ME : forall i, M i 0%nat = X i 0%nat).
  { intros i. etransitivity; [exact (cost_s_R 1 1 X Y one one 0 None (outer (N:=RNum) one one) i 0%nat C11)|]. unfold dsum, linv, outer, one, Y, X. cbn. destruct (Nat.eqb i 0); ring. }
  destruct (skhR_col thr 2 h one M (/ 2) ((fun _ => 0), (fun _ => 0)) ltac:(lia) Ph P1) as (v0 & Hv & U).
  set (dl0 := ((fun _ : nat => 0), (fun _ : nat => 0)) : vec * vec) in *. set (r := skhR 1 thr 2 1 h one M (/ 2) dl0) in *.
  assert (BL : forall P, block (N:=RNum) ln emd (skhR 1 thr) 2 1 h one (/ 2) M P dl0 = (fst r, ((fun i => ln (fst (snd r) i)), (fun i => ln (snd (snd r) i))))).
  { intros P. unfold block. assert (LT : nltb (n:=RNum) n0 (/ 2) = true) by (apply Rltb_true; cbn; lra). rewrite LT. unfold r. destruct (skhR 1 thr 2 1 h one M (/ 2) dl0) as (Ps & u & v). reflexivity. }
  exists X, Y, (/ 2). unfold co_optimal_transport2, co_optimal_transport, coot_start. cbn [coot_loop co_f co_s co_ds co_df co_log]. cbv zeta. fold h one.
  match goal with |- context [let '(_, _) := ?x in _] => replace x with ((fst r, ((fun i => ln (fst (snd r) i)), (fun i => ln (snd (snd r) i)))) : mat * (vec * vec)) by (symmetry; exact (BL _)) end. cbv beta iota.
  match goal with |- context [let '(_, _) := ?x in _] => destruct x as [Pf df] end.
  eexists _, _, _. split; [lra|]. split; [match goal with |- context [if ?c then Some _ else _] => destruct c end; cbn [co_log rev app]; reflexivity|]. split.
  - intros w Qs Qf Hw (_ & R1 & _) (_ & R2 & _). unfold coot_obj, coot_loss, klprod, olin, dsum. pose proof (R1 0%nat ltac:(lia)) as A0. pose proof (R1 1%nat ltac:(lia)) as A1. pose proof (R2 0%nat ltac:(lia)) as A2. unfold row_sum in A0, A1, A2. cbn [rsum] in *.
    rewrite Rplus_0_l in A0, A1, A2. rewrite A0, A1, A2. unfold X, Y, one. cbn [Nat.eqb]. pose proof (Hw 0%nat ltac:(lia)). pose proof (Hw 1%nat ltac:(lia)).
    replace (w 0%nat / (w 0%nat * 1)) with 1 by (field; lra). replace (w 1%nat / (w 1%nat * 1)) with 1 by (field; lra). replace (1 / (1 * 1)) with 1 by field. rewrite ln_1. ring.
  - cbn [cg_ws co_ds fst]. rewrite (proj1 (U 0%nat ltac:(lia))), (proj1 (U 1%nat ltac:(lia))), !ME. unfold X, h. cbn [Nat.eqb].
    assert (L : forall x, ln (/ 2 / (exp (- x / / 2) * v0)) = ln (/ 2) + 2 * x - ln v0).
    { intros x. rewrite ln_div by (try lra; apply Rmult_lt_0_compat; auto; apply exp_pos). rewrite ln_mult by (auto; apply exp_pos). rewrite ln_exp. field. }
    rewrite !L. ring.
Qed.
Print Assumptions C110_weight_gradient_refuted.

(** the hypotheses of C109_descent are met: exact linear solvers exist whenever couplings do, and the modelled
    sinkhorn_knopp is exact for a single target *)
Example coot_solvers_ex : forall (ws vs wf vf : vec), (exists T, coupling 2 3 ws vs T) -> (exists T, coupling 4 2 wf vf T) ->
  exists emd, emd_exact emd 2 3 ws vs /\ emd_exact emd 4 2 wf vf.
Proof.
  intros ws vs wf vf E1 E2. destruct (exact_oracle_exists _ _ _ _ E1) as [l1 H1]. destruct (exact_oracle_exists _ _ _ _ E2) as [l2 H2].
  exists (fun n _ _ _ M => ((if Nat.eqb n 2 then l1 M else l2 M), ((fun _ => 0), (fun _ => 0)))). split; intros M; cbn [fst Nat.eqb]; auto.
Qed.
Example coot_sinkhorn_ex : skh_exact (skhR 1 1) 3 1 (fun _ => / 3) (fun _ => 1) (/ 10).
Proof. apply skhR_exact; try lia; try (intros i _; lra). unfold mass. cbn. lra. Qed.
