(** run() on a bipartite network (network_simplex_simple.h:1162-1173, 2256-2328). *)
From Coq Require Import List Arith Bool Lia Permutation Reals Lra.
Import ListNotations.
From Verif Require Import Num Spec Sums NS_model NS_list NS_tree NS_update NS_walk NS_pivot NS_inv NS_enter NS_main NS_init NS_cert.
Local Open Scope R_scope.

Lemma nmaxk_ge : forall k (f : nat -> R) i, (i <= k)%nat -> f i <= @nmaxk RNum k f.
Proof.
  induction k as [|k IH]; intros f i Hi; cbn [nmaxk].
  - replace i with 0%nat by lia. right; auto.
  - rewrite nmax_R. destruct (Nat.eq_dec i (S k)) as [->|E].
    + apply Rmax_r.
    + eapply Rle_trans; [apply (IH f i); lia|]. apply Rmax_l.
Qed.
Lemma nmaxk_in : forall k (f : nat -> R), exists i, (i <= k)%nat /\ f i = @nmaxk RNum k f.
Proof.
  induction k as [|k IH]; intros f; cbn [nmaxk].
  - exists 0%nat; auto.
  - destruct (IH f) as (i & Hi & E). rewrite nmax_R.
    unfold Rmax. destruct (Rle_dec (@nmaxk RNum k f) (f (S k))) as [E2|E2]; cycle 1.
    + exists i. split; auto.
    + exists (S k). auto.
Qed.

Lemma feas_spec : forall len e (f : nat -> R),
  match @feas_loop RNum len e f with
  | Some f' => (forall k, ~ (e <= k < e + len)%nat -> f' k = f k) /\
               (forall k, (e <= k < e + len)%nat -> f' k = 0 /\ Rabs (f k) <= @EPSILON_feas RNum)
  | None => exists k, (e <= k < e + len)%nat /\ @EPSILON_feas RNum < Rabs (f k)
  end.
Proof.
  pose proof EPSfeas_pos as HE.
  induction len as [|len IH]; intros e f; cbn [feas_loop].
  - split; intros; auto; lia.
  - destruct (@neqb RNum (f e) n0) eqn:E.
    + apply Reqb_true in E. specialize (IH (S e) f). destruct (@feas_loop RNum len (S e) f) as [f'|].
      * destruct IH as [A B]. split.
        -- intros k Hk. apply A; lia.
        -- intros k Hk. destruct (Nat.eq_dec k e) as [->|Hne].
           ++ split; [rewrite A; [exact E|lia]|]. rewrite E. cbn. rewrite Rabs_R0. cbn in HE; lra.
           ++ apply B; lia.
      * destruct IH as (k & Hk & H). exists k; split; auto; lia.
    + rewrite nabs_R. destruct (@nltb RNum EPSILON_feas (Rabs (f e))) eqn:E2.
      * apply Rltb_true in E2. exists e; split; auto; lia.
      * apply Rltb_false in E2. specialize (IH (S e) (upd f e 0)).
        change (upd f e (@n0 RNum)) with (upd f e 0).
        destruct (@feas_loop RNum len (S e) (upd f e 0)) as [f'|].
        -- destruct IH as [A B]. split.
           ++ intros k Hk. rewrite A by lia. apply upd_other; lia.
           ++ intros k Hk. destruct (Nat.eq_dec k e) as [->|Hne].
              ** split; auto. rewrite A by lia. apply upd_same.
              ** destruct (B k) as [B1 B2]; [lia|]. split; auto. rewrite upd_other in B2; auto.
        -- destruct IH as (k & Hk & H). exists k. split; [lia|]. rewrite upd_other in H; auto. lia.
Qed.

Lemma shift_spec : forall (g : net) (p : nat -> R), exists k, forall u, (u < node_num g)%nat -> @shift_pi RNum g p u = p u - k.
Proof.
  intros g p. unfold shift_pi. cbn zeta. destruct (@nltb RNum n0 (@nmaxk RNum (node_num g - 1) p)).
  - exists (@nmaxk RNum (node_num g - 1) p). intros u Hu. destruct (Nat.ltb_spec u (node_num g)); [auto|lia].
  - exists 0. intros; lra.
Qed.

Lemma min_arc_in : forall (g : net) arcs e, min_arc g arcs = Some e -> In e arcs.
Proof.
  intros g arcs e. unfold min_arc.
  assert (K : forall l b, fold_left (fun best e => match best with
                           | None => Some e
                           | Some b => if nltb (a_cost g e) (a_cost g b) then Some e else best
                           end) l b = Some e -> b = Some e \/ In e l).
  { induction l as [|x l IH]; intros b H; cbn [fold_left] in H; auto.
    apply IH in H as [H|H]; [|right; cbn; auto].
    destruct b as [b|].
    - destruct (nltb (a_cost g x) (a_cost g b)); injection H as ->; cbn; auto.
    - injection H as ->; cbn; auto. }
  intros H. apply K in H as [H|H]; auto. discriminate.
Qed.
Lemma min_arc_some : forall (g : net) arcs, arcs <> [] -> exists e, min_arc g arcs = Some e.
Proof.
  intros g arcs. unfold min_arc. destruct arcs as [|x l]; [congruence|]. intros _. cbn [fold_left].
  generalize x. induction l as [|y l IH]; intros z; cbn [fold_left]; eauto.
  destruct (nltb (a_cost g y) (a_cost g z)); apply IH.
Qed.

(** start(): what is known about the final state *)
Inductive run_end (g : net) (r : result) (s : ns) : Prop :=
| end_opt : rs_type r = OPTIMAL -> certified g s ->
    (forall e, (e < arc_num g)%nat -> rs_flow r e = flow s e) ->
    (forall e, (arc_num g <= e < all_arc_num g)%nat -> flow s e <= @EPSILON_feas RNum) -> run_end g r s
| end_max : rs_type r = MAX_ITER_REACHED ->
    (forall e, (e < arc_num g)%nat -> rs_flow r e = flow s e) -> run_end g r s
| end_inf : rs_type r = INFEASIBLE -> certified g s ->
    (exists e, (arc_num g <= e < all_arc_num g)%nat /\ @EPSILON_feas RNum < flow s e) -> run_end g r s.

Theorem start_spec : forall fuel g max_iter s0 pivots s1 r, acyclic g ->
  pivots s0 = Ret (Some s1) -> good g s1 -> in_arc s1 <> None ->
  start fuel g max_iter s0 pivots = Ret r ->
  exists s, good g s /\ run_end g r s /\ obj g (flow s) <= obj g (flow s1) /\
    (rs_type r <> INFEASIBLE -> exists k, forall u, (u < node_num g)%nat -> rs_pi r u = (pi s u : R) - k) /\
    (rs_type r = MAX_ITER_REACHED -> (0 < max_iter)%nat).
Proof.
  intros fuel g max_iter s0 pivots s1 r HA Hp HG Hin HR. unfold start in HR. rewrite Hp in HR. cbn [bind] in HR.
  destruct (main_loop fuel g max_iter 0 s1) as [o| |] eqn:EM; try discriminate. cbn [bind] in HR.
  destruct (main_loop_ok g max_iter fuel 0 s1 o HA HG Hin EM) as (ty & s & -> & G' & Hob & [[-> Hc]|[-> Hm]]).
  - pose proof (feas_spec (node_num g) (arc_num g) (flow s)) as HF.
    destruct (feas_loop (node_num g) (arc_num g) (flow s)) as [f|].
    + injection HR as <-. destruct HF as [F1 F2]. exists s. split; auto. split; [|split; [auto|split]].
      * apply end_opt; auto; cbn [rs_flow].
        -- intros e He. apply F1. lia.
        -- intros e He. unfold all_arc_num in He. destruct (F2 e He) as [_ F3].
           eapply Rle_trans; [apply Rle_abs|exact F3].
      * intros _. cbn [rs_pi]. apply shift_spec.
      * discriminate.
    + injection HR as <-. destruct HF as (e & He & H). exists s. split; auto. split; [|split; [auto|split]].
      * apply end_inf; auto. exists e. split; [unfold all_arc_num; lia|].
        destruct (gd_inv _ _ G') as (t & HI). rewrite Rabs_right in H; auto.
        apply Rle_ge. apply (iv_pos _ _ _ HI). unfold all_arc_num; lia.
      * cbn [rs_type]. congruence.
      * discriminate.
  - injection HR as <-. exists s. split; auto. split; [|split; [auto|split]].
    + apply end_max; auto.
    + intros _. cbn [rs_pi]. apply shift_spec.
    + auto.
Qed.

Theorem start_answers : forall fuel g max_iter s0 pivots s1, acyclic g ->
  pivots s0 = Ret (Some s1) -> good g s1 -> in_arc s1 <> None ->
  (0 < max_iter)%nat -> (max_iter <= fuel)%nat -> exists r, start fuel g max_iter s0 pivots = Ret r.
Proof.
  intros fuel g max_iter s0 pivots s1 HA Hp HG Hin Hm Hf. unfold start. rewrite Hp. cbn [bind].
  destruct (main_loop_answers g max_iter fuel 0 s1 HA HG Hin Hm) as (o & E); [lia|lia|].
  rewrite E. cbn [bind]. destruct o as [ty s]. destruct ty; eauto.
  destruct (feas_loop (node_num g) (arc_num g) (flow s)); eauto.
Qed.
