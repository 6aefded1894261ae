(** Proofs about Coot_model at the exact reals. *)
From Coq Require Import Reals Lra Lia List Arith.
From Verif Require Import Num Sums Spec Entropy Duals_proofs Optim_model Optim_proofs Coot_model.
Import ListNotations.
Local Open Scope R_scope.

(** ** specification *)
(** sum_{ijkl} (X_ik - Y_jl)^2 Ps_ij Pf_kl *)
Definition coot_loss (n d m e : nat) (X Y Ps Pf : mat) : R :=
  dsum n m (fun i j => dsum d e (fun k l => (X i k - Y j l) * (X i k - Y j l) * Pf k l) * Ps i j).
(** sum P ln (P / (a b)) *)
Definition klprod (n m : nat) (a b : vec) (P : mat) : R := dsum n m (fun i j => P i j * ln (P i j / (a i * b j))).
Definition olin (n m : nat) (al : R) (M : option mat) (P : mat) : R := match M with None => 0 | Some M => al * cost n m M P end.
Definition coot_obj (n d m e : nat) (X Y : mat) (ws wf vs vf : vec) (eps_s eps_f al_s al_f : R) (Ms Mf : option mat) (Ps Pf : mat) : R :=
  coot_loss n d m e X Y Ps Pf + olin n m al_s Ms Ps + olin d e al_f Mf Pf + eps_s * klprod n m ws vs Ps + eps_f * klprod d e wf vf Pf.
(** what the inner solvers must deliver: minimisers over the couplings of the (KL-regularised) linear cost *)
Definition best (n m : nat) (a b : vec) (eps : R) (M P : mat) : Prop :=
  coupling n m a b P /\ forall Q, coupling n m a b Q -> cost n m M P + eps * klprod n m a b P <= cost n m M Q + eps * klprod n m a b Q.
Definition emd_exact (emd : nat -> nat -> vec -> vec -> mat -> mat * (vec * vec)) (n m : nat) (a b : vec) : Prop := forall M, optimal_coupling n m a b M (fst (emd n m a b M)).
Definition skh_exact (skh : nat -> nat -> vec -> vec -> mat -> R -> vec * vec -> mat * (vec * vec)) (n m : nat) (a b : vec) (eps : R) : Prop :=
  forall M dl, best n m a b eps M (fst (skh n m a b M eps dl)).

Lemma inner_dsum : forall n m (A B : mat), inner (N:=RNum) n m A B = dsum n m (fun i j => A i j * B i j).
Proof. intros. unfold inner, dsum. rewrite nsum_R. apply rsum_ext; intros. rewrite nsum_R. reflexivity. Qed.
Lemma two_R : two (N:=RNum) = 2. Proof. unfold two. cbn. ring. Qed.
Lemma dsum_opp_lin : forall n m c f, dsum n m (fun i j => f i j * c) = c * dsum n m f.
Proof. intros. rewrite <- dsum_scal. apply dsum_ext; intros; ring. Qed.
Lemma dsum_swap2 : forall n m d e (F : nat -> nat -> nat -> nat -> R),
  dsum n m (fun i j => dsum d e (fun k l => F i j k l)) = dsum d e (fun k l => dsum n m (fun i j => F i j k l)).
Proof.
  intros. unfold dsum.
  rewrite (rsum_ext n _ (fun i => rsum d (fun k => rsum m (fun j => rsum e (fun l => F i j k l))))) by (intros; apply rsum_swap).
  rewrite rsum_swap. apply rsum_ext. intros k _.
  rewrite (rsum_ext n _ (fun i => rsum e (fun l => rsum m (fun j => F i j k l)))) by (intros; apply rsum_swap).
  apply rsum_swap.
Qed.

Section P.
Variables (tiny : R) (n d m e : nat) (X Y : mat) (ws wf vs vf : vec) (eps_s eps_f al_s al_f : R) (Ms Mf : option mat).
Notation csts := (cost_s (N:=RNum) d e X Y wf vf al_s Ms).
Notation cstf := (cost_f (N:=RNum) n m X Y ws vs al_f Mf).
Notation obj := (coot_obj n d m e X Y ws wf vs vf eps_s eps_f al_s al_f Ms Mf).
Definition linv (al : R) (M : option mat) : mat := fun i j => match M with None => 0 | Some M => al * M i j end.
Lemma lin_R : forall al M i j, fst (lin (N:=RNum) al M) * snd (lin (N:=RNum) al M) i j = linv al M i j.
Proof.
  intros al [M|] i j; unfold lin, linv; [|cbn; ring]. destruct (neqb (n:=RNum) al n0) eqn:E; cbn; auto. apply Reqb_true in E. cbn in E. rewrite E. ring.
Qed.
Lemma linv_olin : forall k l al M P, dsum k l (fun i j => linv al M i j * P i j) = olin k l al M P.
Proof.
  intros k l al [M|] P; unfold linv, olin.
  - unfold cost. fold (dsum k l (fun i j => M i j * P i j)). rewrite <- dsum_scal. apply dsum_ext; intros; ring.
  - transitivity (0 * dsum k l P); [rewrite <- dsum_scal; apply dsum_ext; intros; ring|ring].
Qed.
Lemma cost_s_R : forall Pf i j, coupling d e wf vf Pf -> csts Pf i j = dsum d e (fun k l => (X i k - Y j l) * (X i k - Y j l) * Pf k l) + linv al_s Ms i j.
Proof.
  intros Pf i j (_ & R1 & C1). unfold cost_s, xy_sqr. rewrite !nsum_R. cbn [nadd nsub nmul RNum]. rewrite (lin_R al_s Ms i j).
  assert (E1 : rsum d (fun k => X i k * X i k * wf k) = dsum d e (fun k l => (X i k * X i k) * Pf k l)) by (rewrite (dsum_row d e (fun k => X i k * X i k)); apply rsum_ext; intros k Hk; rewrite (R1 k Hk); auto).
  assert (E2 : rsum e (fun l => Y j l * Y j l * vf l) = dsum d e (fun k l => (Y j l * Y j l) * Pf k l)) by (rewrite (dsum_col d e (fun l => Y j l * Y j l)); apply rsum_ext; intros l Hl; rewrite (C1 l Hl); auto).
  assert (E3 : rsum e (fun l => nsum (N:=RNum) d (fun k => two (N:=RNum) * X i k * Pf k l) * Y j l) = dsum d e (fun k l => 2 * X i k * Y j l * Pf k l)).
  { unfold dsum. rewrite rsum_swap. apply rsum_ext. intros l _. rewrite nsum_R, <- rsum_scal_r. apply rsum_ext. intros. rewrite two_R. ring. }
  change (carrier RNum) with R in *. rewrite E1, E2, E3. replace (dsum d e (fun k l => (X i k - Y j l) * (X i k - Y j l) * Pf k l)) with (dsum d e (fun k l => (X i k * X i k) * Pf k l) + dsum d e (fun k l => (Y j l * Y j l) * Pf k l) - dsum d e (fun k l => 2 * X i k * Y j l * Pf k l)); [ring|].
  rewrite <- dsum_plus, <- dsum_minus. apply dsum_ext. intros; ring.
Qed.
Lemma cost_f_R : forall Ps k l, coupling n m ws vs Ps -> cstf Ps k l = dsum n m (fun i j => (X i k - Y j l) * (X i k - Y j l) * Ps i j) + linv al_f Mf k l.
Proof.
  intros Ps k l (_ & R1 & C1). unfold cost_f, xy_sqr_T. rewrite !nsum_R. cbn [nadd nsub nmul RNum]. rewrite (lin_R al_f Mf k l).
  assert (E1 : rsum n (fun i => X i k * X i k * ws i) = dsum n m (fun i j => (X i k * X i k) * Ps i j)) by (rewrite (dsum_row n m (fun i => X i k * X i k)); apply rsum_ext; intros i Hk; rewrite (R1 i Hk); auto).
  assert (E2 : rsum m (fun j => Y j l * Y j l * vs j) = dsum n m (fun i j => (Y j l * Y j l) * Ps i j)) by (rewrite (dsum_col n m (fun j => Y j l * Y j l)); apply rsum_ext; intros j Hl; rewrite (C1 j Hl); auto).
  assert (E3 : rsum m (fun j => nsum (N:=RNum) n (fun i => two (N:=RNum) * X i k * Ps i j) * Y j l) = dsum n m (fun i j => 2 * X i k * Y j l * Ps i j)).
  { unfold dsum. rewrite rsum_swap. apply rsum_ext. intros j _. rewrite nsum_R, <- rsum_scal_r. apply rsum_ext. intros. rewrite two_R. ring. }
  change (carrier RNum) with R in *. rewrite E1, E2, E3. replace (dsum n m (fun i j => (X i k - Y j l) * (X i k - Y j l) * Ps i j)) with (dsum n m (fun i j => (X i k * X i k) * Ps i j) + dsum n m (fun i j => (Y j l * Y j l) * Ps i j) - dsum n m (fun i j => 2 * X i k * Y j l * Ps i j)); [ring|].
  rewrite <- dsum_plus, <- dsum_minus. apply dsum_ext. intros; ring.
Qed.
Lemma loss_f : forall Ps Pf, coot_loss n d m e X Y Ps Pf = dsum d e (fun k l => dsum n m (fun i j => (X i k - Y j l) * (X i k - Y j l) * Ps i j) * Pf k l).
Proof.
  intros. unfold coot_loss.
  rewrite (dsum_ext n m _ (fun i j => dsum d e (fun k l => (X i k - Y j l) * (X i k - Y j l) * Ps i j * Pf k l))) by (intros; rewrite (Rmult_comm _ (Ps _ _)), <- dsum_scal; apply dsum_ext; intros; ring).
  rewrite dsum_swap2. apply dsum_ext. intros. rewrite (Rmult_comm _ (Pf _ _)), <- dsum_scal. apply dsum_ext; intros; ring.
Qed.
Lemma cost_s_total : forall Ps Pf, coupling d e wf vf Pf -> cost n m (csts Pf) Ps = coot_loss n d m e X Y Ps Pf + olin n m al_s Ms Ps.
Proof.
  intros Ps Pf C. rewrite <- linv_olin. unfold cost, coot_loss. fold (dsum n m (fun i j => csts Pf i j * Ps i j)). rewrite <- dsum_plus. apply dsum_ext. intros i j _ _. rewrite (cost_s_R Pf i j C). ring.
Qed.
Lemma cost_f_total : forall Ps Pf, coupling n m ws vs Ps -> cost d e (cstf Ps) Pf = coot_loss n d m e X Y Ps Pf + olin d e al_f Mf Pf.
Proof.
  intros Ps Pf C. rewrite <- linv_olin, loss_f. unfold cost. fold (dsum d e (fun i j => cstf Ps i j * Pf i j)). rewrite <- dsum_plus. apply dsum_ext. intros i j _ _. rewrite (cost_f_R Ps i j C). ring.
Qed.
Lemma kl_div_R : forall k l a b P, kl_div (N:=RNum) ln 0 k l P (outer (N:=RNum) a b) = klprod k l a b P.
Proof.
  intros. unfold kl_div, klprod, dsum. rewrite nsum_R. apply rsum_ext; intros. rewrite nsum_R. apply rsum_ext; intros. unfold outer. cbn [nmul nadd ndiv RNum]. rewrite Rplus_0_r. reflexivity.
Qed.
Lemma value_R : forall Ps Pf, (tiny = 0 \/ (eps_s = 0 /\ eps_f = 0)) -> coupling n m ws vs Ps ->
  coot_value (N:=RNum) ln tiny n d m e X Y ws wf vs vf eps_s eps_f al_s al_f Ms Mf Ps Pf = obj Ps Pf.
Proof.
  intros Ps Pf T C. unfold coot_value, coot_obj. cbv zeta.
  assert (E : inner (N:=RNum) d e (cstf Ps) Pf = coot_loss n d m e X Y Ps Pf + olin d e al_f Mf Pf) by (rewrite <- (cost_f_total Ps Pf C); rewrite inner_dsum; reflexivity).
  rewrite E. assert (Z : forall x : R, neqb (n:=RNum) x n0 = true -> x = 0) by (intros x; apply Reqb_true).
  assert (L : (if neqb (n:=RNum) (fst (lin (N:=RNum) al_s Ms)) n0 then coot_loss n d m e X Y Ps Pf + olin d e al_f Mf Pf
     else nadd (n:=RNum) (coot_loss n d m e X Y Ps Pf + olin d e al_f Mf Pf) (nmul (n:=RNum) (fst (lin (N:=RNum) al_s Ms)) (inner (N:=RNum) n m (snd (lin (N:=RNum) al_s Ms)) Ps)))
     = coot_loss n d m e X Y Ps Pf + olin n m al_s Ms Ps + olin d e al_f Mf Pf).
  { rewrite <- (linv_olin n m al_s Ms Ps). assert (F : fst (lin (N:=RNum) al_s Ms) * inner (N:=RNum) n m (snd (lin (N:=RNum) al_s Ms)) Ps = dsum n m (fun i j => linv al_s Ms i j * Ps i j)).
    { rewrite inner_dsum, <- dsum_scal. apply dsum_ext; intros. rewrite <- lin_R. rewrite Rmult_assoc. reflexivity. }
    destruct (neqb (n:=RNum) (fst (lin (N:=RNum) al_s Ms)) n0) eqn:Q.
    - apply Z in Q. rewrite <- F. rewrite Q. rewrite Rmult_0_l. rewrite Rplus_0_r. reflexivity.
    - cbn [nadd nmul RNum]. rewrite F. ring. }
  change (carrier RNum) with R in *. rewrite L. clear L E.
  destruct (neqb (n:=RNum) eps_s n0) eqn:Es; destruct (neqb (n:=RNum) eps_f n0) eqn:Ef; try apply Z in Es; try apply Z in Ef;
   try (assert (tiny = 0) by (destruct T as [|[? ?]]; auto; exfalso; subst; unfold neqb in *; cbn in *; unfold Reqb in *; destruct (Req_EM_T 0 0); congruence); subst tiny);
   try (rewrite Es); try (rewrite Ef); cbn [nadd nmul RNum]; try (change (@n0 RNum) with 0); rewrite ?kl_div_R; ring.
Qed.

Section Run.
Variables (emd : nat -> nat -> vec -> vec -> mat -> mat * (vec * vec)) (skh : nat -> nat -> vec -> vec -> mat -> R -> vec * vec -> mat * (vec * vec)).
Hypothesis T0 : tiny = 0 \/ (eps_s = 0 /\ eps_f = 0).
Hypothesis Hs : 0 <= eps_s. Hypothesis Hf : 0 <= eps_f.
Hypothesis Ks : if Req_EM_T eps_s 0 then emd_exact emd n m ws vs else skh_exact skh n m ws vs eps_s.
Hypothesis Kf : if Req_EM_T eps_f 0 then emd_exact emd d e wf vf else skh_exact skh d e wf vf eps_f.
Notation blk := (block (N:=RNum) ln emd skh).
Lemma block_best : forall k l a b eps M P dl, 0 <= eps -> (if Req_EM_T eps 0 then emd_exact emd k l a b else skh_exact skh k l a b eps) ->
  best k l a b eps M (fst (blk k l a b eps M P dl)).
Proof.
  intros k l a b eps M P dl He K. unfold block. destruct (nltb (n:=RNum) n0 eps) eqn:E.
  - apply Rltb_true in E. cbn in E. destruct (Req_EM_T eps 0); [lra|]. specialize (K M dl). destruct (skh k l a b M eps dl) as (Q & u & v). exact K.
  - apply Rltb_false in E. cbn in E. assert (eps = 0) by lra. subst eps. destruct (Req_EM_T 0 0) as [_|]; [|congruence].
    replace (neqb (n:=RNum) 0 n0) with true by (symmetry; apply Reqb_true; reflexivity). change (best k l a b 0 M (fst (emd k l a b M))). destruct (K M) as [C O]. split; auto. intros Q HQ. specialize (O Q HQ). rewrite !Rmult_0_l. lra.
Qed.
Notation loop := (coot_loop (N:=RNum) ln tiny emd skh n d m e X Y ws wf vs vf eps_s eps_f al_s al_f Ms Mf).
Notation out := (coot_out (N:=RNum)).
Definition plans_ok (s : out) : Prop := coupling n m ws vs (co_s s) /\ coupling d e wf vf (co_f s).
(** one round from couplings does not increase the objective *)
Lemma round_ok : forall (s : out), let r := blk n m ws vs eps_s (csts (co_f s)) (co_s s) (co_ds s) in
  let r' := blk d e wf vf eps_f (cstf (fst r)) (co_f s) (co_df s) in
  coupling n m ws vs (fst r) /\ coupling d e wf vf (fst r') /\
  (forall Q, coupling d e wf vf Q -> obj (fst r) (fst r') <= obj (fst r) Q) /\
  (plans_ok s -> obj (fst r) (fst r') <= obj (co_s s) (co_f s)).
Proof.
  intros s r r'. destruct (block_best n m ws vs eps_s (csts (co_f s)) (co_s s) (co_ds s) Hs Ks) as [C1 O1]. destruct (block_best d e wf vf eps_f (cstf (fst r)) (co_f s) (co_df s) Hf Kf) as [C2 O2].
  fold r in C1, O1. fold r' in C2, O2.
  assert (OF : forall Q, coupling d e wf vf Q -> obj (fst r) (fst r') <= obj (fst r) Q).
  { intros Q HQ. specialize (O2 Q HQ). rewrite !(cost_f_total _ _ C1) in O2. unfold coot_obj. lra. }
  repeat split; try apply C1; try apply C2; auto.
  intros [P1 P2]. apply Rle_trans with (obj (fst r) (co_f s)); [apply OF; auto|]. specialize (O1 _ P1). rewrite !(cost_s_total _ _ P2) in O1. unfold coot_obj. lra.
Qed.
Definition ev (E idx : nat) : Prop := (idx mod E = 0)%nat.
Record inv (E : nat) (B : option R) (idx : nat) (s : out) : Prop := mk_inv {
  i_it : co_it s = idx;
  i_ok : (0 < idx)%nat -> plans_ok s;
  i_best : (0 < idx)%nat -> forall Q, coupling d e wf vf Q -> obj (co_s s) (co_f s) <= obj (co_s s) Q;
  i_log : nonincreasing (co_log s);
  i_ne : (0 < idx)%nat -> co_log s <> [];
  i_last : (0 < idx)%nat -> obj (co_s s) (co_f s) <= last (co_log s) 0;
  i_ev : (0 < idx)%nat -> ev E (idx - 1) -> last (co_log s) 0 = obj (co_s s) (co_f s);
  i_B : match B with None => True | Some B => plans_ok s /\ obj (co_s s) (co_f s) <= B /\ Forall (fun v => v <= B) (co_log s) end;
  i_val : Forall (fun v => exists Ps Pf, coupling n m ws vs Ps /\ coupling d e wf vf Pf /\ v = obj Ps Pf) (co_log s);
  i_first : idx = 0%nat -> co_log s = []
}.
Lemma mod0 : forall E, (0 < E)%nat -> (0 mod E = 0)%nat. Proof. intros. apply Nat.mod_0_l. lia. Qed.
Lemma loop_ok : forall E B tb ts left idx prev s r, inv E B idx s -> loop left idx tb ts E prev s = Some r -> exists k, (idx <= k <= idx + left)%nat /\ inv E B k r /\ (k = idx -> r = s /\ left = 0%nat).
Proof.
  intros E B tb ts. induction left as [|left IH]; intros idx prev s r I; cbn [coot_loop].
  - intros H. inversion H. subst r. exists idx. split; [lia|]. split; auto.
  - pose proof (round_ok s) as Rk. cbv zeta in Rk.
    change (block (N:=RNum) ln emd skh n m ws vs eps_s (cost_s (N:=RNum) d e X Y wf vf al_s Ms (co_f s)) (co_s s) (co_ds s)) with (blk n m ws vs eps_s (csts (co_f s)) (co_s s) (co_ds s)).
    destruct (blk n m ws vs eps_s (csts (co_f s)) (co_s s) (co_ds s)) as [Ps ds] eqn:EQ1. cbn [fst] in Rk.
    destruct (blk d e wf vf eps_f (cstf Ps) (co_f s) (co_df s)) as [Pf df] eqn:EQ2. cbn [fst] in Rk. destruct Rk as (C1 & C2 & OF & DE).
    destruct E as [|E']; [discriminate|]. set (E := S E') in *.
    assert (V := value_R Ps Pf T0 C1).
    assert (BB : match B with None => True | Some B => obj Ps Pf <= B end) by (destruct B; auto; destruct (i_B _ _ _ _ I) as (P & Q & _); specialize (DE P); lra).
    assert (Lst : (0 < idx)%nat -> obj Ps Pf <= last (co_log s) 0) by (intros Hi; specialize (DE (i_ok _ _ _ _ I Hi)); pose proof (i_last _ _ _ _ I Hi); lra).
    destruct (Nat.eqb (idx mod E) 0) eqn:EM.
    + apply Nat.eqb_eq in EM. rewrite V.
      assert (I' : inv E B (S idx) (mkCoot (N:=RNum) Ps Pf ds df (co_log s ++ [obj Ps Pf]) (S idx))).
      { constructor; cbn [co_it co_s co_f co_log]; auto.
        - intros _. split; auto.
        - apply nonincr_app; [apply (i_log _ _ _ _ I)|]. destruct idx; [left; apply (i_first _ _ _ _ I); auto|right; apply Lst; lia].
        - intros _ H. apply app_eq_nil in H. destruct H; discriminate.
        - intros _. rewrite last_last. lra.
        - intros _ _. apply last_last.
        - destruct B as [B|]; auto. destruct (i_B _ _ _ _ I) as (P & Q & F). split; [split; auto|]. split; [exact BB|]. apply Forall_app. split; auto.
        - apply Forall_app. split; [apply (i_val _ _ _ _ I)|]. constructor; auto. exists Ps, Pf. auto.
        - discriminate. }
      match goal with |- (if ?c then _ else _) = _ -> _ => destruct c end.
      * intros H. inversion H. exists (S idx). split; [lia|]. split; [exact I'|]. intros; lia.
      * intros H. destruct (IH _ _ _ _ I' H) as (k & Hk & Ik & _). exists k. split; [lia|]. split; auto. intros; lia.
    + apply Nat.eqb_neq in EM. assert (Hi : (0 < idx)%nat) by (destruct idx; [rewrite mod0 in EM; unfold E in *; lia|lia]).
      assert (I' : inv E B (S idx) (mkCoot (N:=RNum) Ps Pf ds df (co_log s) (S idx))).
      { constructor; cbn [co_it co_s co_f co_log]; auto.
        - intros _. split; auto.
        - apply (i_log _ _ _ _ I).
        - intros _. apply (i_ne _ _ _ _ I Hi).
        - intros _ Hev. exfalso. unfold ev in Hev. replace (S idx - 1)%nat with idx in Hev by lia. auto.
        - destruct B as [B|]; auto. destruct (i_B _ _ _ _ I) as (P & Q & F). split; [split; auto|]. split; [exact BB|]; auto.
        - apply (i_val _ _ _ _ I).
        - discriminate. }
      intros H. destruct (IH _ _ _ _ I' H) as (k & Hk & Ik & _). exists k. split; [lia|]. split; auto. intros; lia.
Qed.
End Run.
End P.
