(** Final lemmas for P_Sinkhorn: exits of the loops in any arithmetic, optimality of scaled
    kernels, error to suboptimality, last step, log-domain batch, epsilon scaling. *)
From Coq Require Import List Arith Bool Reals Lra Lia.
From Verif Require Import Num Sums Spec Duals_proofs Entropy Sinkhorn_model Sinkhorn_proofs Sinkhorn_more Sinkhorn_stab.
Import ListNotations.
Local Open Scope R_scope.

(** ** exits, any arithmetic *)
Section Exit.
Context (N : NumOps) (n m : nat) (a b : nat -> N) (norm : nat -> (nat -> N) -> N) (nan : N -> bool) (thr : N).
Lemma kp_exit : forall K left ii u v errs,
  let o := kp_loop n m a b norm nan thr K left ii u v errs in
  match sk_exit o with
  | Converged k => (ii <= k < ii + left)%nat /\ (k mod 10 = 0)%nat /\ nltb (kp_err n m b norm K (sk_u o) (sk_v o)) thr = true /\
       exists l, sk_err o = errs ++ l ++ [kp_err n m b norm K (sk_u o) (sk_v o)] /\ Forall (fun e => nltb e thr = false) l
  | NumErr k => (ii <= k < ii + left)%nat
  | MaxIter => exists l, sk_err o = errs ++ l /\ Forall (fun e => nltb e thr = false) l
  end.
Proof.
  intros K. induction left; intros ii u v errs; cbn [kp_loop].
  { cbn. exists []. rewrite app_nil_r. auto. }
  destruct (kp_bad _ _ _ _ _ _ _); [cbn; lia|].
  destruct (Nat.eqb_spec (ii mod 10) 0) as [Z|Z].
  - set (v' := kp_v n b K u). set (u' := kp_u m a K v'). set (e := kp_err n m b norm K u' v').
    destruct (nltb e thr) eqn:E.
    + cbn. repeat split; auto; try lia. exists []. split; auto.
    + specialize (IHleft (S ii) u' v' (errs ++ [e])). cbn zeta in *.
      destruct (sk_exit _) as [k|k|].
      * destruct IHleft as (A & B & C & l & D & F). repeat split; auto; try lia. exists (e :: l). rewrite D, <- app_assoc. split; auto.
      * lia.
      * destruct IHleft as (l & D & F). exists (e :: l). rewrite D, <- app_assoc. split; auto.
  - specialize (IHleft (S ii) (kp_u m a K (kp_v n b K u)) (kp_v n b K u) errs). cbn zeta in *. destruct (sk_exit _) as [k|k|]; try lia; auto.
    destruct IHleft as (A & B). split; [lia|auto].
Qed.
Lemma lg_exit : forall ex lg Mr left ii u v errs,
  let o := lg_loop n m a b norm thr ex lg Mr left ii u v errs in
  match sk_exit o with
  | Converged k => (ii <= k < ii + left)%nat /\ (k mod 10 = 0)%nat /\ nltb (lg_err n m b norm ex Mr (sk_u o) (sk_v o)) thr = true /\
       exists l, sk_err o = errs ++ l ++ [lg_err n m b norm ex Mr (sk_u o) (sk_v o)] /\ Forall (fun e => nltb e thr = false) l
  | NumErr k => False
  | MaxIter => exists l, sk_err o = errs ++ l /\ Forall (fun e => nltb e thr = false) l
  end.
Proof.
  intros ex lg Mr. induction left; intros ii u v errs; cbn [lg_loop].
  { cbn. exists []. rewrite app_nil_r. auto. }
  destruct (Nat.eqb_spec (ii mod 10) 0) as [Z|Z].
  - set (v' := lg_v n b ex lg Mr u). set (u' := lg_u m a ex lg Mr v'). set (e := lg_err n m b norm ex Mr u' v').
    destruct (nltb e thr) eqn:E.
    + cbn. repeat split; auto; try lia. exists []. split; auto.
    + specialize (IHleft (S ii) u' v' (errs ++ [e])). cbn zeta in *.
      destruct (sk_exit _) as [k|k|]; auto.
      * destruct IHleft as (A & B & C & l & D & F). repeat split; auto; try lia. exists (e :: l). rewrite D, <- app_assoc. split; auto.
      * destruct IHleft as (l & D & F). exists (e :: l). rewrite D, <- app_assoc. split; auto.
  - specialize (IHleft (S ii) (lg_u m a ex lg Mr (lg_v n b ex lg Mr u)) (lg_v n b ex lg Mr u) errs). cbn zeta in *. destruct (sk_exit _) as [k|k|]; auto.
    destruct IHleft as (A & B). split; [lia|auto].
Qed.
(** the last potentials of the log loop *)
Lemma lg_last : forall ex lg Mr left ii u v errs, (0 < left)%nat ->
  let o := lg_loop n m a b norm thr ex lg Mr left ii u v errs in sk_u o = lg_u m a ex lg Mr (sk_v o).
Proof.
  intros ex lg Mr. induction left; intros ii u v errs Hl; [lia|]. cbn [lg_loop].
  destruct (Nat.eqb _ _); [destruct (nltb _ thr); [reflexivity|]|]; (destruct left; [reflexivity|apply IHleft; lia]).
Qed.
(** epsilon scaling cannot leave its loop before iteration 36 *)
Lemma ep_exit : forall ex lg M get_reg tau inner period left ii err al be G k,
  snd (ep_loop n m a b norm nan ex lg M get_reg tau thr inner period left ii err al be G) = Converged k -> (35 < k < ii + left)%nat.
Proof.
  intros ex lg M get_reg tau inner period. induction left; intros ii err al be G k; cbn [ep_loop]; [discriminate|].
  destruct (_ && Nat.ltb 35 ii)%bool eqn:E.
  - cbn [snd]. intros H. injection H as <-. apply andb_true_iff in E. destruct E as [_ E]. apply Nat.ltb_lt in E. lia.
  - intros H. apply IHleft in H. lia.
Qed.
End Exit.

(** ** the returned scalings after at least one iteration *)
Lemma kp_last : forall n m a b K, (0 < n)%nat -> (0 < m)%nat -> pos_vec n a -> pos_vec m b ->
  (forall i j, (i < n)%nat -> (j < m)%nat -> 0 < K i j) ->
  forall norm thr left ii u v errs, pos_vec n u -> pos_vec m v -> (0 < left)%nat ->
  let o := kp_loop (N:=RNum) n m a b norm no_nan thr K left ii u v errs in
  exists u0, pos_vec n u0 /\ sk_v o = kp_v (N:=RNum) n b K u0 /\ sk_u o = kp_u (N:=RNum) m a K (sk_v o).
Proof.
  intros n m a b K Hn Hm Ha Hb HK norm thr. induction left; intros ii u v errs Hu Hv Hl; [lia|]. cbn [kp_loop].
  assert (Hv' := kv_pos n m b K Hn Hb HK u Hu). assert (Hu' := ku_pos n m a K Hm Ha HK _ Hv').
  rewrite (bad_false n m K Hn HK) by auto.
  destruct (Nat.eqb (ii mod 10) 0); [destruct (nltb _ thr)|].
  - exists u. auto.
  - destruct left; [exists u; auto|]. apply IHleft; auto; lia.
  - destruct left; [exists u; auto|]. apply IHleft; auto; lia.
Qed.

(** ** optimality *)
Section Opt.
Variables (n m : nat) (a b : vec) (M : mat) (reg : R).
Hypotheses (Hn : (0 < n)%nat) (Hm : (0 < m)%nat) (Ha : pos_vec n a) (Hb : pos_vec m b) (Hreg : 0 < reg).
Notation K := (kern M reg).
Notation pl u v := (scaled (N:=RNum) K u v).
Lemma pl_split : forall u v i j, 0 < u i -> 0 < v j -> M i j + reg * ln (pl u v i j) = reg * ln (u i) + reg * ln (v j) + 0.
Proof.
  intros u v i j Hu Hv. unfold scaled, kern. cbn. assert (E := exp_pos (- M i j / reg)).
  rewrite !ln_mult, ln_exp by (auto; apply Rmult_lt_0_compat; auto). field; lra.
Qed.
Lemma pl_opt : forall u v, pos_vec n u -> pos_vec m v -> coupling n m a b (pl u v) ->
  forall P, coupling n m a b P ->
    ent_obj n m M reg (pl u v) <= ent_obj n m M reg P /\
    (ent_obj n m M reg P <= ent_obj n m M reg (pl u v) -> forall i j, (i < n)%nat -> (j < m)%nat -> P i j = pl u v i j).
Proof.
  intros u v Hu Hv (C1 & C2 & C3) P (P1 & P2 & P3).
  assert (HP : forall i j, (i < n)%nat -> (j < m)%nat -> 0 < pl u v i j) by (intros; apply (pl_pos n m); auto; intros; apply exp_pos).
  assert (HS : forall i j, (i < n)%nat -> (j < m)%nat -> M i j + reg * ln (pl u v i j) = reg * ln (u i) + reg * ln (v j) + 0)
    by (intros; apply pl_split; auto).
  assert (Z : rsum n (fun i => reg * ln (u i) * (row_sum m P i - row_sum m (pl u v) i)) + rsum m (fun j => reg * ln (v j) * (col_sum n P j - col_sum n (pl u v) j))
    + (0 + reg) * (total n m P - total n m (pl u v)) = 0).
  { rewrite (rsum_0 n) by (intros i Hi; rewrite C2, P2 by auto; ring). rewrite (rsum_0 m) by (intros j Hj; rewrite C3, P3 by auto; ring).
    replace (total n m P) with (total n m (pl u v)); [ring|]. apply rsum_ext; intros i Hi. fold (row_sum m P i) (row_sum m (pl u v) i). rewrite C2, P2 by auto. auto. }
  split.
  - assert (G := ent_gap n m M reg P (pl u v) (fun i => reg * ln (u i)) (fun j => reg * ln (v j)) 0 (Rlt_le _ _ Hreg) P1 HP HS). lra.
  - intros HL i j Hi Hj. destruct (Req_dec (P i j) (pl u v i j)) as [E|E]; auto. exfalso.
    assert (G := ent_gap_strict n m M reg P (pl u v) (fun i => reg * ln (u i)) (fun j => reg * ln (v j)) 0 i j Hreg P1 HP HS Hi Hj E). lra.
Qed.
(** a plan with exact rows: its objective exceeds that of any coupling by at most what its column
    errors allow *)
Lemma pl_subopt : forall u v lo hi u0, pos_vec n u0 -> pos_vec n u -> (forall j, v j = kp_v (N:=RNum) n b K u0 j) ->
  (forall i j, (i < n)%nat -> (j < m)%nat -> lo <= M i j <= hi) ->
  (forall i, (i < n)%nat -> row_sum m (pl u v) i = a i) -> mass n a = mass m b ->
  forall P, coupling n m a b P ->
  ent_obj n m M reg (pl u v) - ent_obj n m M reg P <=
    reg * rsum m (fun j => ln (b j) * (col_sum n (pl u v) j - b j)) + (hi - lo) * rsum m (fun j => Rabs (col_sum n (pl u v) j - b j)).
Proof.
  intros u v lo hi u0 Hu0 Hu Ev HM HR Hmass P (P1 & P2 & P3).
  assert (HK : forall i j, (i < n)%nat -> (j < m)%nat -> 0 < K i j) by (intros; apply exp_pos).
  assert (Hv : pos_vec m v) by (intros j Hj; rewrite Ev; apply (kv_pos n m b K Hn Hb HK); auto).
  assert (HP : forall i j, (i < n)%nat -> (j < m)%nat -> 0 < pl u v i j) by (intros; apply (pl_pos n m); auto).
  assert (HS : forall i j, (i < n)%nat -> (j < m)%nat -> M i j + reg * ln (pl u v i j) = reg * ln (u i) + reg * ln (v j) + 0)
    by (intros; apply pl_split; auto).
  assert (G := ent_gap n m M reg P (pl u v) (fun i => reg * ln (u i)) (fun j => reg * ln (v j)) 0 (Rlt_le _ _ Hreg) P1 HP HS).
  rewrite (rsum_0 n) in G by (intros i Hi; rewrite HR, P2 by auto; ring).
  assert (T : total n m P = total n m (pl u v)).
  { apply rsum_ext; intros i Hi. fold (row_sum m P i) (row_sum m (pl u v) i). rewrite HR, P2 by auto. auto. }
  rewrite T in G.
  assert (CZ : rsum m (fun j => col_sum n (pl u v) j - b j) = 0).
  { assert (T2 : total n m (pl u v) = rsum m (fun j => col_sum n (pl u v) j)) by (unfold total; rewrite rsum_swap; reflexivity).
    assert (T3 : total n m (pl u v) = rsum n a) by (apply rsum_ext; exact HR).
    rewrite (rsum_minus m (fun j => col_sum n (pl u v) j) b). rewrite <- T2, T3. unfold mass in Hmass. rewrite Hmass. apply Rminus_diag_eq. reflexivity. }
  (* ln v_j = ln b_j - ln (K^T u0)_j and the second part oscillates by at most (hi-lo)/reg *)
  set (S := rsum n u0). assert (HS0 : 0 < S) by (apply rsum_pos; auto).
  assert (B : forall j, (j < m)%nat -> exp (- hi / reg) * S <= ktu n K u0 j <= exp (- lo / reg) * S).
  { intros j Hj. unfold ktu, S. rewrite <- !rsum_scal. split; apply rsum_le; intros i Hi; (apply Rmult_le_compat_r; [left; auto|]); unfold kern;
    specialize (HM i j Hi Hj); destruct HM as [[L|<-] [U|U]]; try (left; apply exp_increasing; unfold Rdiv; apply Rmult_lt_compat_r; [apply Rinv_0_lt_compat; auto|lra]);
    try (rewrite U; right; reflexivity); right; reflexivity. }
  assert (LB : forall j, (j < m)%nat -> - hi / reg + ln S <= ln (ktu n K u0 j) <= - lo / reg + ln S).
  { intros j Hj. destruct (B j Hj) as [B1 B2]. assert (Q : 0 < exp (- hi / reg) * S) by (apply Rmult_lt_0_compat; auto; apply exp_pos).
    split.
    - rewrite <- (ln_exp (- hi / reg)), <- ln_mult by (auto; apply exp_pos). apply ln_mono; auto.
    - rewrite <- (ln_exp (- lo / reg)), <- ln_mult by (auto; apply exp_pos). apply ln_mono; auto; lra. }
  set (w := - hi / reg + ln S) in *.
  assert (E : rsum m (fun j => reg * ln (v j) * (col_sum n P j - col_sum n (pl u v) j)) =
     - (reg * rsum m (fun j => ln (b j) * (col_sum n (pl u v) j - b j))) + rsum m (fun j => reg * (ln (ktu n K u0 j) - w) * (col_sum n (pl u v) j - b j))).
  { rewrite <- rsum_scal, <- rsum_opp, <- rsum_plus.
    transitivity (rsum m (fun j => (- (reg * (ln (b j) * (col_sum n (pl u v) j - b j))) + reg * (ln (ktu n K u0 j) - w) * (col_sum n (pl u v) j - b j)) + reg * w * (col_sum n (pl u v) j - b j))).
    - apply rsum_ext; intros j Hj. rewrite P3, Ev, kv_R by auto. assert (0 < ktu n K u0 j) by (apply (ktu_pos n m); auto). rewrite ln_div by auto. ring.
    - rewrite rsum_plus, rsum_scal, CZ. ring. }
  rewrite E in G.
  assert (F : - ((hi - lo) * rsum m (fun j => Rabs (col_sum n (pl u v) j - b j))) <= rsum m (fun j => reg * (ln (ktu n K u0 j) - w) * (col_sum n (pl u v) j - b j))).
  { rewrite <- rsum_scal, <- rsum_opp. apply rsum_le; intros j Hj. specialize (LB j Hj).
    assert (X : 0 <= reg * (ln (ktu n K u0 j) - w) <= hi - lo).
    { split; [apply Rmult_le_pos; lra|]. apply Rle_trans with (reg * ((hi - lo) / reg)); [apply Rmult_le_compat_l; [lra|]|right; field; lra].
      unfold w. unfold w in LB. replace ((hi - lo) / reg) with (- lo / reg + ln S - (- hi / reg + ln S)) by (field; lra). lra. }
    set (x := reg * (ln (ktu n K u0 j) - w)) in *. set (y := col_sum n (pl u v) j - b j).
    assert (- Rabs y <= y) by (assert (Q := Rle_abs (- y)); rewrite Rabs_Ropp in Q; lra).
    assert (0 <= Rabs y) by apply Rabs_pos. nra. }
  lra.
Qed.
End Opt.

(** ** last step of ot.solve *)
Section LS.
Variables (n m : nat) (a b : vec) (Mr : mat).
Hypotheses (Hn : (0 < n)%nat) (Hm : (0 < m)%nat) (Ha : pos_vec n a) (Hb : pos_vec m b).
Notation lp := (lg_plan (N:=RNum) exp Mr).
Lemma lv_col : forall u j, (j < m)%nat -> col_sum n (lp u (lg_v (N:=RNum) n b exp ln Mr u)) j = b j.
Proof.
  intros u j Hj. unfold col_sum.
  assert (P : 0 < rsum n (fun i => exp (Mr i j + u i))) by (apply rsum_pos; auto; intros; apply exp_pos).
  assert (E : exp (lg_v (N:=RNum) n b exp ln Mr u j) = b j / rsum n (fun i => exp (Mr i j + u i))).
  { unfold lg_v, logsumexp. rewrite nsum_R. change (exp (ln (b j) - ln (rsum n (fun i => exp (Mr i j + u i)))) = b j / rsum n (fun i => exp (Mr i j + u i))).
    unfold Rminus. rewrite exp_plus, exp_Ropp, !exp_ln by auto. reflexivity. }
  rewrite (rsum_ext n (fun i => lp u (lg_v (N:=RNum) n b exp ln Mr u) i j) (fun i => exp (Mr i j + u i) * (b j / rsum n (fun i => exp (Mr i j + u i))))).
  - rewrite rsum_scal_r. field. lra.
  - intros i Hi. unfold lg_plan. change (nadd (n:=RNum)) with Rplus. rewrite exp_plus, E. reflexivity.
Qed.
Lemma lu_row : forall v i, (i < n)%nat -> row_sum m (lp (lg_u (N:=RNum) m a exp ln Mr v) v) i = a i.
Proof.
  intros v i Hi. unfold row_sum.
  assert (P : 0 < rsum m (fun j => exp (Mr i j + v j))) by (apply rsum_pos; auto; intros; apply exp_pos).
  assert (E : exp (lg_u (N:=RNum) m a exp ln Mr v i) = a i / rsum m (fun j => exp (Mr i j + v j))).
  { unfold lg_u, logsumexp. rewrite nsum_R. change (exp (ln (a i) - ln (rsum m (fun j => exp (Mr i j + v j)))) = a i / rsum m (fun j => exp (Mr i j + v j))).
    unfold Rminus. rewrite exp_plus, exp_Ropp, !exp_ln by auto. reflexivity. }
  rewrite (rsum_ext m (fun j => lp (lg_u (N:=RNum) m a exp ln Mr v) v i j) (fun j => exp (Mr i j + v j) * (a i / rsum m (fun j => exp (Mr i j + v j))))).
  - rewrite rsum_scal_r. field. lra.
  - intros j Hj. unfold lg_plan. change (nadd (n:=RNum)) with Rplus. rewrite !exp_plus, E. ring.
Qed.
End LS.

(** ** log-domain batch *)
Section BLog.
Variables (B n m : nat) (a b : nat -> vec) (L : nat -> mat) (norm : nat -> (nat -> R) -> R) (tol : R).
Hypotheses (HB : (0 < B)%nat) (Hn : (0 < n)%nat) (Hm : (0 < m)%nat)
  (Ha : forall q, (q < B)%nat -> pos_vec n (a q)) (Hb : forall q, (q < B)%nat -> pos_vec m (b q))
  (Hnorm : forall k f g, (forall j, (j < k)%nat -> f j = g j) -> norm k f = norm k g).
Definition bK (q : nat) : mat := fun i j => exp (L q i j).
Definition brel (s l : bs (N:=RNum)) : Prop :=
  (forall q i, (q < B)%nat -> (i < n)%nat -> b_f s q i = exp (b_f l q i)) /\ (forall q j, (q < B)%nat -> (j < m)%nat -> b_g s q j = exp (b_g l q j)).
Lemma bl_u_rel : forall g v, (forall q j, (q < B)%nat -> (j < m)%nat -> g q j = exp (v q j)) -> forall q i, (q < B)%nat -> (i < n)%nat ->
  bp_f (N:=RNum) m a bK g q i = exp (bl_u (N:=RNum) m a exp ln L v q i).
Proof.
  intros g v H q i Hq Hi. unfold bp_f, bl_u, logsumexp. rewrite !nsum_R.
  assert (E : rsum m (fun j => nmul (n:=RNum) (bK q i j) (g q j)) = rsum m (fun j => exp (L q i j + v q j))).
  { apply rsum_ext; intros j Hj. rewrite H, exp_plus by auto. reflexivity. }
  rewrite E. assert (P : 0 < rsum m (fun j => exp (L q i j + v q j))) by (apply rsum_pos; auto; intros; apply exp_pos).
  change (a q i / rsum m (fun j => exp (L q i j + v q j)) = exp (ln (a q i) - ln (rsum m (fun j => exp (L q i j + v q j))))).
  unfold Rminus. rewrite exp_plus, exp_Ropp, !exp_ln; auto. apply Ha; auto.
Qed.
Lemma bl_v_rel : forall f u, (forall q i, (q < B)%nat -> (i < n)%nat -> f q i = exp (u q i)) -> forall q j, (q < B)%nat -> (j < m)%nat ->
  bp_g (N:=RNum) n b bK f q j = exp (bl_v (N:=RNum) n b exp ln L u q j).
Proof.
  intros f u H q j Hq Hj. unfold bp_g, bl_v, logsumexp. rewrite !nsum_R.
  assert (E : rsum n (fun i => nmul (n:=RNum) (bK q i j) (f q i)) = rsum n (fun i => exp (L q i j + u q i))).
  { apply rsum_ext; intros i Hi. rewrite H, exp_plus by auto. reflexivity. }
  rewrite E. assert (P : 0 < rsum n (fun i => exp (L q i j + u q i))) by (apply rsum_pos; auto; intros; apply exp_pos).
  change (b q j / rsum n (fun i => exp (L q i j + u q i)) = exp (ln (b q j) - ln (rsum n (fun i => exp (L q i j + u q i))))).
  unfold Rminus. rewrite exp_plus, exp_Ropp, !exp_ln; auto. apply Hb; auto.
Qed.
Lemma brel_T : forall s l, brel s l -> forall q i j, (q < B)%nat -> (i < n)%nat -> (j < m)%nat -> bp_T (N:=RNum) bK s q i j = bl_T (N:=RNum) exp L l q i j.
Proof.
  intros s l [Rf Rg] q i j Hq Hi Hj. unfold bp_T, bl_T. rewrite Rf, Rg by auto. change (nadd (n:=RNum)) with Rplus. rewrite !exp_plus. reflexivity.
Qed.
Lemma nmaxk_ext : forall k (f g : nat -> R), (forall i, (i <= k)%nat -> f i = g i) -> nmaxk (N:=RNum) k f = nmaxk (N:=RNum) k g.
Proof. induction k; intros f g H; cbn [nmaxk]; [apply H; lia|]. rewrite (IHk f g) by (intros; apply H; lia). rewrite (H (S k)) by lia. reflexivity. Qed.
Lemma brel_err : forall s l, brel s l -> bp_err (N:=RNum) B n m a norm (bp_T (N:=RNum) bK s) = bp_err (N:=RNum) B n m a norm (bl_T (N:=RNum) exp L l).
Proof.
  intros s l R. unfold bp_err. apply nmaxk_ext. intros q Hq. apply Hnorm. intros i Hi. rewrite !nsum_R. f_equal. apply rsum_ext; intros j Hj. apply brel_T; auto; lia.
Qed.
Lemma b_lockstep : forall left ii s l, brel s l ->
  let r := bp_loop (N:=RNum) B n m a b norm tol bK left ii s in
  let r' := bl_loop (N:=RNum) B n m a b norm tol exp ln L left ii l in
  brel (fst r) (fst r') /\ snd r = snd r'.
Proof.
  induction left; intros ii s l R; cbn [bp_loop bl_loop]; [split; auto|].
  set (s' := mk_bs _ _). set (l' := mk_bs (bl_u _ _ _ _ _ _) _).
  assert (R' : brel s' l').
  { assert (U := bl_u_rel (b_g s) (b_g l) (proj2 R)). split; [exact U|]. exact (bl_v_rel _ _ U). }
  rewrite (brel_err s' l' R'). destruct (_ && _)%bool; [split; auto|]. apply IHleft; auto.
Qed.
End BLog.
