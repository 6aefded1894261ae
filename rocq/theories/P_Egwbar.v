(** C133, C134: entropic GW and FGW barycenters (ot/gromov/_bregman.py:756-994, 1790-2113). *)
From Coq Require Import List Arith Bool Reals Lra Lia.
From Verif Require Import Num Sums Spec Duals_proofs Entropy Optim_model Gw_model Gw_proofs Gw_more Gwbar_model Gwbar_proofs P_Gwbar Egw_model Egw_proofs Egw_eucl Egw_crit Egw_more P_Egw Sinkhorn_more P_Sinkhorn P_Sinkexist.
Import ListNotations.
Local Open Scope R_scope.

(** *** C133: specification.  The objective of the entropic barycenter problem. *)
Definition ebary_obj (S K : nat) (ns : nat -> nat) (lam : vec) (Cs : nat -> mat) (eps : R) (C : mat) (Ts : nat -> mat) : R :=
  rsum S (fun s => lam s * (gw_obj K (ns s) sq_loss C (Cs s) (Ts s) + eps * ent K (ns s) (Ts s))).

(** the update preserves Euclidean structures *)
Lemma new_C_R : forall S K ns ex floor p lam Cs Ts i j, pos_vec K p -> (i < K)%nat -> (j < K)%nat ->
  new_C (N:=RNum) S ns ln ex floor SquareLoss p lam Cs Ts i j = rsum S (fun s => lam s * dsum (ns s) (ns s) (fun c d => (Ts s i c / p i) * (Ts s j d / p j) * Cs s c d)).
Proof.
  intros S K ns ex floor p lam Cs Ts i j Hp Hi Hj. unfold new_C, update_barycenter_structure. cbn [nmul RNum]. rewrite pulled_R. unfold prod_, inv_. cbn [andb ndiv nmul n1 RNum].
  unfold Avg, tau. assert (A := Hp i Hi). assert (B := Hp j Hj).
  rewrite <- rsum_scal_r. apply rsum_ext; intros s Hs. rewrite Rmult_assoc. f_equal. unfold dsum. rewrite <- rsum_scal_r. apply rsum_ext; intros c Hc. rewrite <- rsum_scal_r. apply rsum_ext; intros d Hd. field. lra.
Qed.
Lemma new_C_eucl : forall S K ns ex floor p lam Cs Ts, pos_vec K p -> (forall s, (s < S)%nat -> 0 <= lam s /\ eucl (ns s) (Cs s) /\ forall i, (i < K)%nat -> row_sum (ns s) (Ts s) i = p i) ->
  eucl K (new_C (N:=RNum) S ns ln ex floor SquareLoss p lam Cs Ts).
Proof.
  intros S K ns ex floor p lam Cs Ts Hp H.
  apply (eucl_ext K (fun i j => rsum S (fun s => lam s * dsum (ns s) (ns s) (fun c d => (Ts s i c / p i) * (Ts s j d / p j) * Cs s c d)))).
  { intros i j Hi Hj. symmetry. apply new_C_R with (K := K); auto. }
  apply (eucl_rsum S K (fun s i j => lam s * dsum (ns s) (ns s) (fun c d => (Ts s i c / p i) * (Ts s j d / p j) * Cs s c d))). intros s Hs. destruct (H s Hs) as (Hl & He & Hr).
  apply eucl_scal; auto. apply (eucl_pull K (ns s) (fun i c => Ts s i c / p i) (Cs s) He). intros i Hi. rewrite rsum_div. change (rsum (ns s) (Ts s i)) with (row_sum (ns s) (Ts s) i). rewrite Hr by auto. specialize (Hp i Hi). field. lra.
Qed.

Section Descent.
Variables (S K : nat) (ns : nat -> nat) (ex : R -> R) (floor tiny : R) (p lam : vec) (ps : nat -> vec) (Cs : nat -> mat) (eps tol tol_in : R).
Variables (normb : mat -> R) (norm : nat -> mat -> R) (sk : nat -> warm_t (N:=RNum) -> mat -> mat * ((nat -> R) * (nat -> R))) (w1 w2 : R) (ws sym : bool) (max_in : nat) (crit : stop_c).
Hypothesis (Heps : 0 < eps) (Hp : pos_vec K p) (Hm : mass K p = 1).
Hypothesis (Hs : forall s, (s < S)%nat -> 0 <= lam s /\ eucl (ns s) (Cs s) /\ pos_vec (ns s) (ps s) /\ mass (ns s) (ps s) = 1 /\ exact_inner K (ns s) p (ps s) eps (sk s)).
Hypothesis (Hl : rsum S lam = 1).
(** the inner calls: the PGD solver with square loss *)
Definition inner_gw (s : nat) (C : mat) (G0 : option mat) : mat * R :=
  entropic_gromov_wasserstein (N:=RNum) K (ns s) ln tiny SquareLoss sym C (Cs s) p (ps s) eps (norm s) tol_in PGD (sk s) w1 w2 G0 ws max_in.
Notation step := (gb_step (N:=RNum) S ns ln ex floor SquareLoss p lam Cs inner_gw normb crit true).
Notation Psi := (ebary_obj S K ns lam Cs eps).
Definition Tof (s : gb_st (N:=RNum)) (k : nat) : mat := match g_T s with Some T => T k | None => fun i j => p i * ps k j end.
Definition good (s : gb_st (N:=RNum)) : Prop := eucl K (g_C s) /\ forall k, (k < S)%nat -> coupling K (ns k) p (ps k) (Tof s k) /\ pos_mat K (ns k) (Tof s k).
Lemma step_C : forall s, g_C (step s) = new_C (N:=RNum) S ns ln ex floor SquareLoss p lam Cs (Tof (step s)).
Proof. intros s. unfold gb_step. destruct crit; reflexivity. Qed.
Lemma step_Tof : forall s k, Tof (step s) k = fst (inner_gw k (g_C s) (match g_T s with None => None | Some T => Some (T k) end)).
Proof. intros s k. unfold Tof, gb_step. destruct crit; reflexivity. Qed.
Lemma inner_good : forall s k, good s -> (k < S)%nat ->
  (coupling K (ns k) p (ps k) (Tof (step s) k) /\ pos_mat K (ns k) (Tof (step s) k)) /\
  gw_obj K (ns k) sq_loss (g_C s) (Cs k) (Tof (step s) k) + eps * ent K (ns k) (Tof (step s) k) <= gw_obj K (ns k) sq_loss (g_C s) (Cs k) (Tof s k) + eps * ent K (ns k) (Tof s k).
Proof.
  intros s k (GE & GT) Hk. destruct (Hs k Hk) as (_ & EC & _ & _ & EX). destruct (GT k Hk) as (CT & PT). rewrite step_Tof.
  set (G0 := match g_T s with None => None | Some T => Some (T k) end).
  assert (ES : start_plan p (ps k) G0 = Tof s k) by (unfold G0, Tof; destruct (g_T s); reflexivity).
  assert (SO : sym_ok sym K (ns k) (g_C s) (Cs k)) by (intros _; split; apply eucl_sym; auto).
  unfold inner_gw. rewrite (C128_gw_is_fused K (ns k) tiny SquareLoss sym (g_C s) (Cs k) (fun _ _ => 0)).
  destruct (C128_steps K (ns k) tiny SquareLoss sym (g_C s) (Cs k) (fun _ _ => 0) p (ps k) 1 eps (norm k) tol_in PGD (sk k) w1 w2 G0 ws max_in SO Heps EX) as (kk & T & _ & E0 & Ek & HC & _).
  { rewrite ES. exact CT. }
  destruct (C129_descent K (ns k) tiny sym (g_C s) (Cs k) (fun _ _ => 0) p (ps k) 1 eps (norm k) tol_in PGD (sk k) w1 w2 G0 ws max_in SO Heps EX) as (_ & _ & _ & _ & _ & _ & D); try (rewrite ES; assumption); auto; try lra.
  split.
  - assert (XX : forall A : mat, A = T kk -> coupling K (ns k) p (ps k) A /\ pos_mat K (ns k) A); [|apply XX; exact Ek].
    intros A ->. split; [apply HC|]. destruct kk; [rewrite E0, ES; exact PT|apply HC].
  - rewrite ES in D. unfold sv_obj, fgw_obj in D. set (x := fst _) in D. change (gw_obj K (ns k) sq_loss (g_C s) (Cs k) x + eps * ent K (ns k) x <= gw_obj K (ns k) sq_loss (g_C s) (Cs k) (Tof s k) + eps * ent K (ns k) (Tof s k)). lra.
Qed.
Lemma step_good : forall s, good s -> good (step s).
Proof.
  intros s H. split; [|intros k Hk; apply (inner_good s k H Hk)].
  rewrite step_C. apply new_C_eucl; auto. intros k Hk. destruct (Hs k Hk) as (A & B & _). split; auto. split; auto. apply (inner_good s k H Hk).
Qed.
Lemma step_T_desc : forall s, good s -> Psi (g_C s) (Tof (step s)) <= Psi (g_C s) (Tof s).
Proof. intros s H. apply rsum_le. intros k Hk. apply Rmult_le_compat_l; [apply (Hs k Hk)|apply (inner_good s k H Hk)]. Qed.
Lemma Psi_bary : forall C Ts, Psi C Ts = bary_obj S K ns false lam Ts Cs sq_loss C + rsum S (fun s => lam s * (eps * ent K (ns s) (Ts s))).
Proof. intros. unfold ebary_obj, bary_obj. rewrite <- rsum_plus. apply rsum_ext; intros; ring. Qed.
Lemma step_C_desc : forall s, good s -> forall C, Psi (g_C (step s)) (Tof (step s)) <= Psi C (Tof (step s)).
Proof.
  intros s H C. rewrite !Psi_bary. apply Rplus_le_compat_r. rewrite step_C. unfold new_C. apply (C49_structure_square S K ns false lam (Tof (step s)) Cs (Shared (N:=RNum) p) ln ex false floor).
  - split; [intros k Hk; apply (Hs k Hk)|]. intros k c i Hk Hc Hi. cbv iota. apply (inner_good s k H Hk); auto.
  - split; [exact Hl|]. intros k i Hk Hi. unfold marg, tau. destruct (inner_good s k H Hk) as (((_ & RW & _) & _) & _). apply RW; auto.
Qed.
Fixpoint iter (k : nat) (s : gb_st (N:=RNum)) : gb_st (N:=RNum) := match k with O => s | Datatypes.S k => step (iter k s) end.
Lemma iter_S : forall k s, iter k (step s) = iter (Datatypes.S k) s.
Proof. induction k; intros; [reflexivity|]. cbn [iter]. rewrite IHk. reflexivity. Qed.
Lemma loop_iter : forall left s, exists k, (k <= left)%nat /\ gb_loop (N:=RNum) S ns ln ex floor SquareLoss p lam Cs tol inner_gw normb crit true left s = iter k s /\
  (forall j, (j < k)%nat -> gt_tol (N:=RNum) tol (g_err (iter j s)) = true) /\ ((k < left)%nat -> gt_tol (N:=RNum) tol (g_err (iter k s)) = false).
Proof.
  induction left; intros s; cbn [gb_loop].
  - exists 0%nat. split; [lia|]. split; [reflexivity|]. split; intros; lia.
  - destruct (gt_tol (N:=RNum) tol (g_err s)) eqn:E.
    + destruct (IHleft (step s)) as (k & Hk & EK & B & A). exists (Datatypes.S k). split; [lia|]. rewrite EK. split; [apply iter_S|]. split.
      * intros [|j] Hj; [exact E|]. rewrite <- iter_S. apply B. lia.
      * intros. rewrite <- iter_S. apply A. lia.
    + exists 0%nat. split; [lia|]. split; [reflexivity|]. split; [intros; lia|]. intros _. exact E.
Qed.
End Descent.

(** entropic_gromov_barycenters with warmstartT=True, square loss, Euclidean structures and exact
    inner Sinkhorn solutions: every iteration decreases the objective in the plans, then minimises
    it exactly in C over all matrices; structures remain Euclidean, plans remain couplings. *)
Theorem C133_block_descent : forall S K ns ex floor tiny p lam ps Cs eps tol tol_in normb norm sk w1 w2 ws sym max_in crit big C0 max_iter,
  0 < eps -> pos_vec K p -> mass K p = 1 -> rsum S lam = 1 -> eucl K C0 ->
  (forall s, (s < S)%nat -> 0 <= lam s /\ eucl (ns s) (Cs s) /\ pos_vec (ns s) (ps s) /\ mass (ns s) (ps s) = 1 /\ exact_inner K (ns s) p (ps s) eps (sk s)) ->
  let Psi := ebary_obj S K ns lam Cs eps in
  let r := entropic_gromov_barycenters (N:=RNum) S ns ln ex floor SquareLoss p lam Cs tol
             (inner_gw K ns tiny p ps Cs eps tol_in norm sk w1 w2 ws sym max_in) normb crit true big C0 max_iter in
  exists (k : nat) (C : nat -> mat) (T : nat -> nat -> mat), (k <= max_iter)%nat /\ C 0%nat = C0 /\ T 0%nat = (fun s i j => p i * ps s j) /\
    g_C r = C k /\ ((0 < k)%nat -> g_T r = Some (T k)) /\
    (forall j, eucl K (C j) /\ forall s, (s < S)%nat -> coupling K (ns s) p (ps s) (T j s)) /\
    (forall j, Psi (C j) (T (Datatypes.S j)) <= Psi (C j) (T j) /\ forall C', Psi (C (Datatypes.S j)) (T (Datatypes.S j)) <= Psi C' (T (Datatypes.S j))) /\
    Psi (g_C r) (T k) <= Psi C0 (T 0%nat).
Proof.
  intros S K ns ex floor tiny p lam ps Cs eps tol tol_in normb norm sk w1 w2 ws sym max_in crit big C0 max_iter He Hp Hm Hl HC0 Hs Psi r.
  set (s0 := mk_gb (N:=RNum) C0 None (Some big) big).
  destruct (loop_iter S K ns ex floor tiny p lam ps Cs eps tol tol_in normb norm sk w1 w2 ws sym max_in crit max_iter s0) as (k & Hk & E & _ & _).
  set (it := fun k => iter S K ns ex floor tiny p lam ps Cs eps tol_in normb norm sk w1 w2 ws sym max_in crit k s0).
  assert (G : forall k, good S K ns p ps (it k)).
  { induction k0.
    - split; [exact HC0|]. intros s Hss. destruct (Hs s Hss) as (_ & _ & Q & QM & _). unfold it, s0, Tof. cbn [iter g_T]. split.
      + split; [intros i j Hi Hj; left; apply Rmult_lt_0_compat; auto|]. split; [intros i Hi|intros j Hj]; unfold row_sum, col_sum.
        * rewrite rsum_scal. change (p i * mass (ns s) (ps s) = p i). rewrite QM. ring.
        * rewrite rsum_scal_r. change (mass K p * ps s j = ps s j). rewrite Hm. ring.
      + intros i j Hi Hj. apply Rmult_lt_0_compat; auto.
    - apply (step_good S K ns ex floor tiny p lam ps Cs eps tol_in normb norm sk w1 w2 ws sym max_in crit He Hp Hs). exact IHk0. }
  exists k, (fun j => g_C (it j)), (fun j => Tof p ps (it j)).
  assert (D : forall j, Psi (g_C (it j)) (Tof p ps (it (Datatypes.S j))) <= Psi (g_C (it j)) (Tof p ps (it j)) /\ forall C', Psi (g_C (it (Datatypes.S j))) (Tof p ps (it (Datatypes.S j))) <= Psi C' (Tof p ps (it (Datatypes.S j)))).
  { intros j. split.
    - apply (step_T_desc S K ns ex floor tiny p lam ps Cs eps tol_in normb norm sk w1 w2 ws sym max_in crit He Hs). apply G.
    - apply (step_C_desc S K ns ex floor tiny p lam ps Cs eps tol_in normb norm sk w1 w2 ws sym max_in crit He Hs Hl). apply G. }
  split; [exact Hk|]. split; [reflexivity|]. split; [reflexivity|]. split; [exact (f_equal (fun s => g_C s) E)|]. split.
  { intros Kp. transitivity (g_T (it k)); [exact (f_equal (fun s => g_T s) E)|]. destruct k; [lia|]. unfold it. cbn [iter]. unfold Tof, gb_step. destruct crit; reflexivity. }
  split; [intros j; split; [apply G|intros s Hss; apply (G j); auto]|]. split; [exact D|].
  assert (Q : forall k, Psi (g_C (it k)) (Tof p ps (it k)) <= Psi C0 (Tof p ps (it 0%nat))).
  { induction k0; [apply Rle_refl|]. destruct (D k0) as (A & B). specialize (B (g_C (it k0))). lra. }
  change (g_C r) with (g_C (gb_loop (N:=RNum) S ns ln ex floor SquareLoss p lam Cs tol (inner_gw K ns tiny p ps Cs eps tol_in norm sk w1 w2 ws sym max_in) normb crit true max_iter s0)). rewrite E. apply Q.
Qed.
Print Assumptions C133_block_descent.
(** The loop ends at max_iter or when its criterion passes; the 'loss' criterion compares the plain
    sums (not weighted by lambdas) of the inner distances, and also stops when the last sum was 0. *)
Theorem C133_stop : forall S ns ex floor l p lam Cs (tol : R) solve normb crit wt big C0 max_iter,
  let step := gb_step (N:=RNum) S ns ln ex floor l p lam Cs solve normb crit wt in
  let fix it (k : nat) := match k with O => mk_gb (N:=RNum) C0 None (Some big) big | Datatypes.S k => step (it k) end in
  exists k, (k <= max_iter)%nat /\ entropic_gromov_barycenters (N:=RNum) S ns ln ex floor l p lam Cs tol solve normb crit wt big C0 max_iter = it k /\
    ((k < max_iter)%nat -> k = 0%nat /\ big <= tol \/ exists j, k = Datatypes.S j /\
       match crit with
       | ByBarycenter => normb (fun a b => g_C (it k) a b - g_C (it j) a b) <= tol
       | ByLoss => let G0 i := if wt then match g_T (it j) with None => None | Some T => Some (T i) end else None in
                   g_loss (it k) = rsum S (fun i => snd (solve i (g_C (it j)) (G0 i))) /\
                   (g_loss (it j) = 0 \/ Rabs (g_loss (it k) - g_loss (it j)) / g_loss (it j) <= tol)
       end).
Proof.
  intros S ns ex floor l p lam Cs tol solve normb crit wt big C0 max_iter step it.
  assert (SH : forall left j, exists k, (k <= left)%nat /\ gb_loop (N:=RNum) S ns ln ex floor l p lam Cs tol solve normb crit wt left (it j) = it (k + j)%nat /\ ((k < left)%nat -> gt_tol (N:=RNum) tol (g_err (it (k + j)%nat)) = false)).
  { induction left; intros j; cbn [gb_loop]; [exists 0%nat; split; [lia|]; split; [reflexivity|intros; lia]|].
    destruct (gt_tol (N:=RNum) tol (g_err (it j))) eqn:E.
    - destruct (IHleft (Datatypes.S j)) as (k & Hk & EK & A). exists (Datatypes.S k). split; [lia|]. replace (Datatypes.S k + j)%nat with (k + Datatypes.S j)%nat by lia. split; [exact EK|]. intros; apply A; lia.
    - exists 0%nat. split; [lia|]. split; [reflexivity|]. intros _. exact E. }
  destruct (SH max_iter 0%nat) as (k & Hk & E & A). rewrite Nat.add_0_r in E, A. exists k. split; [exact Hk|]. split; [exact E|]. intros HL. specialize (A HL).
  destruct k as [|j]; [left; split; auto; cbn in A; apply Rltb_false in A; exact A|]. right. exists j. split; [reflexivity|].
  change (it (Datatypes.S j)) with (step (it j)) in *. unfold step, gb_step in A |- *. destruct crit; cbn [g_err g_C g_loss] in A |- *.
  - unfold gt_tol in A. apply Rltb_false in A. exact A.
  - split; [apply nsum_R|]. unfold gt_tol, rel_err in A. destruct (neqb (n:=RNum) (g_loss (it j)) n0) eqn:Q.
    + left. apply Reqb_true in Q. exact Q.
    + right. apply Rltb_false in A. rewrite nabs_R in A. exact A.
Qed.
Print Assumptions C133_stop.
(** the hypotheses of C133_block_descent are met: two spaces of two points, uniform weights *)
Example C133_case : exists sk : nat -> warm_t (N:=RNum) -> mat -> mat * ((nat -> R) * (nat -> R)),
  rsum 2 (fun _ => / 2) = 1 /\ mass 2 (fun _ => / 2) = 1 /\ eucl 2 (fun i k => rsum 1 (fun e => (INR i - INR k) ^ 2)) /\
  forall s, (s < 2)%nat -> 0 <= / 2 /\ eucl 2 (fun i k => rsum 1 (fun e => (INR s * INR i - INR s * INR k) ^ 2)) /\ pos_vec 2 (fun _ => / 2) /\ exact_inner 2 2 (fun _ => / 2) (fun _ => / 2) 1 (sk s).
Proof.
  destruct (exact_sinkhorn_exists 2 2 (fun _ => / 2) (fun _ => / 2) 1) as (sk & Hsk); try lia; try lra; try (intros i Hi; lra); try reflexivity.
  exists (fun _ _ M => (sk M, (fun _ => 1, fun _ => 1))). split; [cbn; lra|]. split; [unfold mass; cbn; lra|]. split; [apply (eucl_sqdist 2 1 (fun i _ => INR i))|].
  intros s _. split; [lra|]. split; [apply (eucl_sqdist 2 1 (fun i _ => INR s * INR i))|]. split; [intros i _; lra|]. intros w M. apply Hsk.
Qed.

(** *** C134: entropic_fused_gromov_barycenters.  Whatever the arithmetic, the inner solver, the
    stopping rule and the flags, the features returned are those of the start. *)
Theorem C134_features_never_updated : forall (N : NumOps) S ns lg ex (floor : N) l p lam Cs tol solve norm dist_ Ys crit wt fs ff big C0 Y0 max_iter,
  f_Y (entropic_fused_gromov_barycenters (N:=N) S ns lg ex floor l p lam Cs tol solve norm dist_ Ys crit wt fs ff big C0 Y0 max_iter)
  = match Y0 with Some Y => Y | None => fun _ _ => n0 end.
Proof.
  intros. unfold entropic_fused_gromov_barycenters.
  assert (ST : forall s, f_Y (fst (fb_step (N:=N) S ns lg ex floor l p lam Cs tol solve norm dist_ Ys crit wt fs ff s)) = f_Y s) by (intros s; unfold fb_step; destruct crit; reflexivity).
  assert (X : forall left s, f_Y (fb_loop (N:=N) S ns lg ex floor l p lam Cs tol solve norm dist_ Ys crit wt fs ff left s) = f_Y s).
  { induction left; intros s; cbn [fb_loop]; [reflexivity|]. destruct (snd _); [apply ST|]. rewrite IHleft. apply ST. }
  rewrite X. reflexivity.
Qed.
Print Assumptions C134_features_never_updated.
(** With stop_criterion = 'barycenter' and tol >= 0 the loop makes exactly one iteration, in all
    four combinations of fixed_structure and fixed_features. *)
Theorem C134_one_iteration : forall S ns lg ex floor l p lam Cs tol solve norm dist_ Ys wt fs ff big C0 Y0 max_iter,
  0 <= tol -> norm (fun _ _ => 0) = 0 -> (forall A B, (forall i j, A i j = B i j) -> norm A = norm B) -> (0 < max_iter)%nat ->
  f_it (entropic_fused_gromov_barycenters (N:=RNum) S ns lg ex floor l p lam Cs tol solve norm dist_ Ys ByBarycenter wt fs ff big C0 Y0 max_iter) = 1%nat.
Proof.
  intros S ns lg ex floor l p lam Cs tol solve norm dist_ Ys wt fs ff big C0 Y0 [|max_iter] Ht Hn He Hk; [lia|]. unfold entropic_fused_gromov_barycenters. cbn [fb_loop].
  set (s := mk_fb (N:=RNum) _ _ _ _ _ _ _).
  assert (E : snd (fb_step (N:=RNum) S ns lg ex floor l p lam Cs tol solve norm dist_ Ys ByBarycenter wt fs ff s) = true).
  { unfold fb_step. cbn [snd]. assert (Q : nleb (n:=RNum) (if ff then n0 else norm (fun i j => nsub (f_Y s i j) (f_Y s i j))) tol = true).
    { apply Rleb_true. destruct ff; [exact Ht|]. rewrite (He _ (fun _ _ => 0)); [rewrite Hn; exact Ht|]. intros i j. cbn [nsub RNum]. apply Rminus_diag_eq. reflexivity. }
    rewrite Q. reflexivity. }
  rewrite E. reflexivity.
Qed.
Print Assumptions C134_one_iteration.
(** So the features are not the weighted means the documentation announces: one space with one point
    of feature 1, barycenter of one point; the feature minimising the objective for the plan found
    is 1, the function returns 0. *)
Theorem C134_features_refuted : exists ns p lam Cs (Ys : nat -> mat) solve max_iter,
  let r := entropic_fused_gromov_barycenters (N:=RNum) 1 ns ln exp 0 SquareLoss p lam Cs 0 solve (fun A => Rabs (A 0%nat 0%nat))
             (fun s X Y i j => (X i 0%nat - Y j 0%nat) ^ 2) Ys ByBarycenter false false false 1 (fun _ _ => 0) None max_iter in
  (0 < max_iter)%nat /\ f_T r = Some (fun _ _ _ => 1) /\
  f_Y r 0%nat 0%nat = 0 /\ f_X r <> None /\
  forall Y : mat, Y 0%nat 0%nat = 1 -> rsum 1 (fun s => lam s * dsum 1 (ns s) (fun i j => (Y i 0%nat - Ys s j 0%nat) ^ 2 * 1)) < rsum 1 (fun s => lam s * dsum 1 (ns s) (fun i j => (f_Y r i 0%nat - Ys s j 0%nat) ^ 2 * 1)).
Proof.
  exists (fun _ => 1%nat), (fun _ => 1), (fun _ => 1), (fun _ _ _ => 0), (fun _ _ _ => 1), (fun _ _ _ _ => (fun _ _ => 1, 0)), 1%nat. cbv zeta.
  assert (EY := C134_features_never_updated RNum 1 (fun _ => 1%nat) ln exp 0 SquareLoss (fun _ => 1) (fun _ => 1) (fun _ _ _ => 0) 0 (fun _ _ _ _ => (fun _ _ => 1, 0)) (fun A => Rabs (A 0%nat 0%nat))
             (fun s X Y i j => (X i 0%nat - Y j 0%nat) ^ 2) (fun _ _ _ => 1) ByBarycenter false false false 1 (fun _ _ => 0) None 1%nat).
  split; [lia|]. split.
  { unfold entropic_fused_gromov_barycenters. cbn [fb_loop]. destruct (snd _); reflexivity. }
  split; [exact (f_equal (fun Y => Y 0%nat 0%nat) EY)|]. split.
  { unfold entropic_fused_gromov_barycenters. cbn [fb_loop]. destruct (snd _); cbn; discriminate. }
  intros Y HY. assert (E0 : f_Y (entropic_fused_gromov_barycenters (N:=RNum) 1 (fun _ => 1%nat) ln exp 0 SquareLoss (fun _ => 1) (fun _ => 1) (fun _ _ _ => 0) 0 (fun _ _ _ _ => (fun _ _ => 1, 0)) (fun A => Rabs (A 0%nat 0%nat))
             (fun s X Y i j => (X i 0%nat - Y j 0%nat) ^ 2) (fun _ _ _ => 1) ByBarycenter false false false 1 (fun _ _ => 0) None 1%nat) 0%nat 0%nat = 0) by exact (f_equal (fun Y => Y 0%nat 0%nat) EY).
  unfold dsum. cbn [rsum]. rewrite HY, E0. lra.
Qed.
Print Assumptions C134_features_refuted.
