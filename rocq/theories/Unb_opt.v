(** Optimality of unbalanced Sinkhorn fixed points; the translation-invariant and the stabilised
    variants. *)
From Coq Require Import List Arith Bool Reals Lra Lia.
From Verif Require Import Num Sums Spec Duals_proofs Entropy Sinkhorn_model Sinkhorn_proofs Sinkhorn_more Unb_model Unb_proofs Unb_conv.
Import ListNotations.
Local Open Scope R_scope.

Definition splan (K : mat) (u v : vec) : mat := fun i j => u i * K i j * v j.
Lemma splan_row : forall m K u v i, row_sum m (splan K u v) i = u i * rkv m K v i.
Proof. intros. unfold row_sum, splan, rkv. rewrite <- rsum_scal. apply rsum_ext; intros; ring. Qed.
Lemma splan_col : forall n K u v j, col_sum n (splan K u v) j = rktu n K u j * v j.
Proof. intros. unfold col_sum, splan, rktu. rewrite <- rsum_scal_r. apply rsum_ext; intros; ring. Qed.

Section Opt.
Variables (n m : nat) (a b : vec) (M c : mat) (reg : R) (rm1 rm2 : option R).
Hypotheses (Hn : (0 < n)%nat) (Hm : (0 < m)%nat) (Ha : pos_vec n a) (Hb : pos_vec m b) (Hreg : 0 < reg)
  (Hr1 : pos_rm rm1) (Hr2 : pos_rm rm2).
Hypothesis Hc : forall i j, (i < n)%nat -> (j < m)%nat -> 0 < c i j.
Let K : mat := un_K (N:=RNum) exp reg M c.
Let f1 : R := fi (N:=RNum) reg rm1.
Let f2 : R := fi (N:=RNum) reg rm2.
Notation U := (un_u (N:=RNum) m a Rpower K f1).
Notation V := (un_v (N:=RNum) n b Rpower K f2).
Let J := uot_obj n m a b M c reg rm1 rm2.

Lemma un_K_R : forall i j, K i j = exp (- M i j / reg) * c i j.
Proof. intros. unfold K, un_K, nopp. cbn [nmul ndiv nsub n0 RNum]. f_equal. f_equal. field; lra. Qed.
Lemma K_pos : forall i j, (i < n)%nat -> (j < m)%nat -> 0 < K i j.
Proof. intros. rewrite un_K_R. apply Rmult_lt_0_compat; auto. apply exp_pos. Qed.
Lemma fi_range : forall rm, pos_rm rm -> 0 < fi (N:=RNum) reg rm <= 1.
Proof.
  intros [r|] H; cbn in *; [|lra]. split; [apply Rdiv_lt_0_compat; lra|].
  apply Rmult_le_reg_r with (r + reg); [lra|]. unfold Rdiv. rewrite Rmult_assoc, Rinv_l by lra. lra.
Qed.
Lemma fi_lt1 : forall r, 0 < r -> fi (N:=RNum) reg (Some r) < 1.
Proof. intros r H. cbn. apply Rmult_lt_reg_r with (r + reg); [lra|]. unfold Rdiv. rewrite Rmult_assoc, Rinv_l by lra. lra. Qed.
Lemma splan_pos : forall u v, pos_vec n u -> pos_vec m v -> forall i j, (i < n)%nat -> (j < m)%nat -> 0 < splan K u v i j.
Proof. intros u v Hu Hv i j Hi Hj. unfold splan. apply Rmult_lt_0_compat; [apply Rmult_lt_0_compat; [auto|apply K_pos; auto]|auto]. Qed.
Lemma splan_fg : forall u v, pos_vec n u -> pos_vec m v -> forall i j, (i < n)%nat -> (j < m)%nat ->
  M i j + reg * ln (splan K u v i j / c i j) = reg * ln (u i) + reg * ln (v j).
Proof.
  intros u v Hu Hv i j Hi Hj. unfold splan. rewrite un_K_R.
  replace (u i * (exp (- M i j / reg) * c i j) * v j / c i j) with (u i * exp (- M i j / reg) * v j) by (field; apply Rgt_not_eq, Hc; auto).
  assert (E := exp_pos (- M i j / reg)). rewrite !ln_mult by (auto; apply Rmult_lt_0_compat; auto). rewrite ln_exp. field. lra.
Qed.

(** the column condition: holds as soon as v = V u *)
Lemma col_cond : forall u v j, pos_vec n u -> (j < m)%nat -> v j = V u j ->
  match rm2 with Some r2 => reg * ln (v j) + slope rm2 (col_sum n (splan K u v)) b j = 0 | None => col_sum n (splan K u v) j = b j end.
Proof.
  intros u v j Hu Hj E. assert (Pk := rktu_pos n m K Hn K_pos u j Hu Hj). assert (Pv := V_pos n b K f2 u j). rewrite <- E in Pv.
  assert (L := ln_V n m b K f2 Hn Hb K_pos u j Hu Hj). rewrite <- E in L.
  destruct rm2 as [r2|] eqn:E2; unfold slope.
  - rewrite splan_col. rewrite ln_div by (auto; apply Rmult_lt_0_compat; auto). rewrite ln_mult by auto.
    cbn in Hr2. assert (L' : (r2 + reg) * ln (v j) = r2 * (ln (b j) - ln (rktu n K u j))) by (rewrite L; unfold f2; cbn; field; lra). lra.
  - rewrite splan_col, E, V_R. unfold f2; cbn [fi n1 RNum]. rewrite Rpower_1 by (apply Rdiv_lt_0_compat; auto). field. lra.
Qed.
Lemma row_cond : forall u v i, pos_vec m v -> (i < n)%nat -> u i = U v i ->
  match rm1 with Some r1 => reg * ln (u i) + slope rm1 (row_sum m (splan K u v)) a i = 0 | None => row_sum m (splan K u v) i = a i end.
Proof.
  intros u v i Hv Hi E. assert (Pk := rkv_pos n m K Hm K_pos v i Hv Hi). assert (Pu := U_pos m a K f1 v i). rewrite <- E in Pu.
  assert (L := ln_U n m a K f1 Hm Ha K_pos v i Hv Hi). rewrite <- E in L.
  destruct rm1 as [r1|] eqn:E1; unfold slope.
  - rewrite splan_row. rewrite ln_div by (auto; apply Rmult_lt_0_compat; auto). rewrite ln_mult by auto.
    cbn in Hr1. assert (L' : (r1 + reg) * ln (u i) = r1 * (ln (a i) - ln (rkv m K v i))) by (rewrite L; unfold f1; cbn; field; lra). lra.
  - rewrite splan_row, E, U_R. unfold f1; cbn [fi n1 RNum]. rewrite Rpower_1 by (apply Rdiv_lt_0_compat; auto). field. lra.
Qed.
(** the row residual when u is not yet stationary *)
Lemma row_resid : forall u v i r1, rm1 = Some r1 -> pos_vec n u -> pos_vec m v -> (i < n)%nat ->
  reg * ln (u i) + slope rm1 (row_sum m (splan K u v)) a i = (reg + r1) * (ln (u i) - ln (U v i)).
Proof.
  intros u v i r1 E1 Hu Hv Hi. assert (Pk := rkv_pos n m K Hm K_pos v i Hv Hi).
  rewrite (ln_U n m a K f1 Hm Ha K_pos v i Hv Hi). rewrite E1. unfold slope. rewrite splan_row.
  rewrite ln_div by (auto; apply Rmult_lt_0_compat; auto). rewrite ln_mult by auto.
  unfold f1; rewrite E1; cbn. rewrite E1 in Hr1; cbn in Hr1. field; lra.
Qed.
Lemma lin_col : forall u v Q, pos_vec n u -> (forall j, (j < m)%nat -> v j = V u j) -> uot_plan n m a b rm1 rm2 Q ->
  rsum m (fun j => (reg * ln (v j) + slope rm2 (col_sum n (splan K u v)) b j) * (col_sum n Q j - col_sum n (splan K u v) j)) = 0.
Proof.
  intros u v Q Hu E [_ [_ H2]]. apply rsum_0; intros j Hj. assert (C := col_cond u v j Hu Hj (E j Hj)).
  destruct rm2 as [r2|]; [rewrite C; ring|]. cbn in H2. rewrite C, (H2 j Hj). ring.
Qed.
Lemma lin_row : forall u v Q, pos_vec m v -> (forall i, (i < n)%nat -> u i = U v i) -> uot_plan n m a b rm1 rm2 Q ->
  rsum n (fun i => (reg * ln (u i) + slope rm1 (row_sum m (splan K u v)) a i) * (row_sum m Q i - row_sum m (splan K u v) i)) = 0.
Proof.
  intros u v Q Hv E [_ [H1 _]]. apply rsum_0; intros i Hi. assert (C := row_cond u v i Hv Hi (E i Hi)).
  destruct rm1 as [r1|]; [rewrite C; ring|]. cbn in H1. rewrite C, (H1 i Hi). ring.
Qed.
Lemma fix_plan : forall u v, pos_vec n u -> pos_vec m v -> (forall i, (i < n)%nat -> u i = U v i) -> (forall j, (j < m)%nat -> v j = V u j) ->
  uot_plan n m a b rm1 rm2 (splan K u v).
Proof.
  intros u v Hu Hv EU EV. split; [intros i j Hi Hj; left; apply splan_pos; auto|]. split.
  - assert (C := fun i Hi => row_cond u v i Hv Hi (EU i Hi)). unfold hard. destruct rm1 as [r|]; auto.
  - assert (C := fun j Hj => col_cond u v j Hu Hj (EV j Hj)). unfold hard. destruct rm2 as [r|]; auto.
Qed.
Lemma fix_optimal : forall u v, pos_vec n u -> pos_vec m v -> (forall i, (i < n)%nat -> u i = U v i) -> (forall j, (j < m)%nat -> v j = V u j) ->
  forall Q, uot_plan n m a b rm1 rm2 Q -> J (splan K u v) <= J Q /\
  (J Q <= J (splan K u v) -> forall i j, (i < n)%nat -> (j < m)%nat -> Q i j = splan K u v i j).
Proof.
  intros u v Hu Hv EU EV Q HQ.
  assert (LZ : uot_lin n m a b rm1 rm2 (splan K u v) (fun i => reg * ln (u i)) (fun j => reg * ln (v j)) Q = 0)
    by (unfold uot_lin; rewrite lin_row, lin_col by auto; ring).
  assert (G1 := uot_gap n m a b M c reg rm1 rm2 (splan K u v) _ _ Hn Hm Ha Hb Hreg Hr1 Hr2 Hc (splan_pos u v Hu Hv) (splan_fg u v Hu Hv) Q (proj1 HQ)).
  rewrite LZ in G1. split; [unfold J; lra|]. intros HJ i j Hi Hj.
  destruct (Req_dec (Q i j) (splan K u v i j)) as [E|E]; auto. exfalso.
  assert (G2 := uot_gap_strict n m a b M c reg rm1 rm2 (splan K u v) _ _ Hn Hm Ha Hb Hreg Hr1 Hr2 Hc (splan_pos u v Hu Hv) (splan_fg u v Hu Hv) Q i j (proj1 HQ) Hi Hj E).
  rewrite LZ in G2. unfold J in HJ. lra.
Qed.
(** suboptimality of any iterate *)
Lemma iter_gap : forall r1 u v Q, rm1 = Some r1 -> pos_vec n u -> pos_vec m v -> (forall j, (j < m)%nat -> v j = V u j) -> uot_plan n m a b rm1 rm2 Q ->
  J (splan K u v) <= J Q + (reg + r1) * rsum n (fun i => (ln (u i) - ln (U v i)) * (row_sum m (splan K u v) i - row_sum m Q i)).
Proof.
  intros r1 u v Q E1 Hu Hv EV HQ.
  assert (G1 := uot_gap n m a b M c reg rm1 rm2 (splan K u v) _ _ Hn Hm Ha Hb Hreg Hr1 Hr2 Hc (splan_pos u v Hu Hv) (splan_fg u v Hu Hv) Q (proj1 HQ)).
  unfold uot_lin in G1. rewrite lin_col in G1 by auto.
  rewrite (rsum_ext n _ (fun i => - ((reg + r1) * ((ln (u i) - ln (U v i)) * (row_sum m (splan K u v) i - row_sum m Q i))))) in G1.
  2: { intros i Hi. rewrite (row_resid u v i r1 E1 Hu Hv Hi). ring. }
  rewrite rsum_opp, rsum_scal in G1. unfold J. lra.
Qed.

(** ** translation-invariant updates, equal penalties *)
Section TI.
Variable r : R.
Hypotheses (Hr : 0 < r) (E1 : rm1 = Some r) (E2 : rm2 = Some r).
Notation tu := (ti_u (N:=RNum) n m a b Rpower K reg (Some r) (Some r)).
Notation tv := (ti_v (N:=RNum) n m a b Rpower K reg (Some r) (Some r)).
Notation tt := (ti_t (N:=RNum) n m a b Rpower reg (Some r) (Some r)).
Let f := r / (r + reg).
Lemma ti_sum_R : forall k (w x : vec) p, ti_sum (N:=RNum) Rpower k w x p = rsum k (fun i => w i * Rpower (x i) p).
Proof. intros. unfold ti_sum. rewrite nsum_R. reflexivity. Qed.
Definition psum (k : nat) (w x : vec) : R := rsum k (fun i => w i * Rpower (x i) (- (reg / r))).
Lemma psum_pos : forall k w x, (0 < k)%nat -> pos_vec k w -> 0 < psum k w x.
Proof. intros k w x Hk Hw. apply rsum_pos; auto. intros i Hi. apply Rmult_lt_0_compat; auto. apply exp_pos. Qed.
Lemma psum_scale : forall k w x s, 0 < s -> pos_vec k x -> psum k w (fun i => x i * s) = Rpower s (- (reg / r)) * psum k w x.
Proof.
  intros k w x s Hs Hx. unfold psum. rewrite <- rsum_scal. apply rsum_ext; intros i Hi. rewrite <- Rpower_mult_distr by auto. ring.
Qed.
Lemma tu_pos : forall v i, 0 < tu v i.
Proof. intros. unfold ti_u. cbn [nmul RNum]. repeat apply Rmult_lt_0_compat; apply exp_pos. Qed.
Lemma tv_pos : forall u i, 0 < tv u i.
Proof. intros. unfold ti_v. cbn [nmul RNum]. repeat apply Rmult_lt_0_compat; apply exp_pos. Qed.
Lemma ln_pw : forall x y, ln (Rpower x y) = y * ln x.
Proof. intros. unfold Rpower. apply ln_exp. Qed.
Lemma tt_R : forall u v, tt u v = Rpower (psum n a u / psum m b v) (r / 2 / reg).
Proof.
  intros. unfold ti_t. rewrite !ti_sum_R. cbn [ndiv RNum]. unfold psum, nopp, ti_ratio, ti_fi12. cbn [nsub n0 ndiv nmul nadd RNum].
  f_equal; [|field; lra]. f_equal; apply rsum_ext; intros; do 2 f_equal; ring.
Qed.
(** ln v_ = f (ln b - ln K^T u_) + f/2 (ln sum a u_^-ratio - ln sum b v_^-ratio) *)
Lemma ln_tv : forall u j, pos_vec n u -> (j < m)%nat ->
  ln (tv u j) = f * (ln (b j) - ln (rktu n K u j)) + f / 2 * (ln (psum n a u) - ln (psum m b (tv u))).
Proof.
  intros u j Hu Hj.
  set (A := psum n a u). assert (PA : 0 < A) by (apply psum_pos; auto).
  set (hat := fun j : nat => Rpower (b j / rktu n K u j) f * Rpower A (f / 2)).
  assert (Ph : pos_vec m hat) by (intros k Hk; unfold hat; apply Rmult_lt_0_compat; apply exp_pos).
  set (q := Rpower (psum m b hat) (- (r / (reg + 2 * r)))). assert (Pq : 0 < q) by apply exp_pos.
  assert (Etv : forall k, tv u k = hat k * q).
  { intros k. unfold ti_v. rewrite !ti_sum_R. cbn [nmul RNum].
    assert (Eh : forall k, Rpower (b k / un_Ktu (N:=RNum) n K u k) (fi (N:=RNum) reg (Some r)) * Rpower (rsum n (fun i => a i * Rpower (u i) (nopp (N:=RNum) (ti_ratio (N:=RNum) reg (Some r))))) (ti_kr1 (N:=RNum) reg (Some r) (Some r)) = hat k).
    { intros k'. rewrite un_Ktu_R. unfold hat. f_equal. replace (ti_kr1 (N:=RNum) reg (Some r) (Some r)) with (f / 2) by (unfold ti_kr1, ti_k1, f; cbn; field; lra).
      f_equal. unfold A, psum. apply rsum_ext; intros; do 2 f_equal. unfold nopp, ti_ratio. cbn. ring. }
    change (ndiv (n:=RNum)) with Rdiv.
    rewrite Eh. f_equal. unfold q. replace (nopp (N:=RNum) (ti_xr2 (N:=RNum) reg (Some r) (Some r))) with (- (r / (reg + 2 * r))) by (unfold nopp, ti_xr2, ti_xi2; cbn; field; lra).
    f_equal. unfold psum. apply rsum_ext; intros i0 Hi0. rewrite Eh. do 2 f_equal. unfold nopp, ti_ratio. cbn. ring. }
  assert (Pb := psum_pos m b hat Hm Hb).
  assert (EB : psum m b (tv u) = Rpower q (- (reg / r)) * psum m b hat).
  { rewrite <- psum_scale by auto. unfold psum. apply rsum_ext; intros; rewrite Etv; auto. }
  assert (LB : ln (psum m b (tv u)) = - (reg / r) * ln q + ln (psum m b hat)) by (rewrite EB, ln_mult by (auto; apply exp_pos); rewrite ln_pw; auto).
  assert (Lq : ln q = - (r / (reg + 2 * r)) * ln (psum m b hat)) by (unfold q; apply ln_pw).
  assert (Lh : ln (hat j) = f * (ln (b j) - ln (rktu n K u j)) + f / 2 * ln A).
  { unfold hat. rewrite ln_mult by apply exp_pos. rewrite !ln_pw. rewrite ln_div; auto. apply (rktu_pos n m K Hn K_pos u j Hu Hj). }
  rewrite Etv, ln_mult by auto. rewrite Lh.
  assert (QQ : ln q = - (f / 2) * ln (psum m b (tv u))).
  { rewrite LB, Lq. unfold f. field. lra. }
  rewrite QQ. ring.
Qed.
(** u_ is a multiple of (a / K v_)^f *)
Lemma ln_tu : forall v, pos_vec m v -> exists s, forall i, (i < n)%nat -> ln (tu v i) = s + f * (ln (a i) - ln (rkv m K v i)).
Proof.
  intros v Hv. unfold ti_u. cbn [nmul RNum]. eexists. intros i Hi. rewrite !ln_mult by (repeat apply Rmult_lt_0_compat; apply exp_pos).
  rewrite !ln_pw. rewrite un_Kv_R. cbn [ndiv RNum]. rewrite ln_div; [|apply Ha; auto|apply (rkv_pos n m K Hm K_pos v i Hv Hi)].
  change (fi (N:=RNum) reg (Some r)) with f.
  match goal with |- f * ?z + ?x + ?y = _ => instantiate (1 := x + y) end. ring.
Qed.
Lemma ti_fix : forall v_, pos_vec m v_ -> let u_ := tu v_ in (forall j, (j < m)%nat -> tv u_ j = v_ j) ->
  let t := tt u_ v_ in let u := fun i => u_ i * t in let v := fun j => v_ j / t in
  (forall i, (i < n)%nat -> u i = U v i) /\ (forall j, (j < m)%nat -> v j = V u j).
Proof.
  intros v_ Hv_ u_ EV t u v.
  assert (Hu_ : pos_vec n u_) by (intros i Hi; apply tu_pos).
  set (A := psum n a u_). set (B := psum m b v_).
  assert (PA : 0 < A) by (apply psum_pos; auto). assert (PB : 0 < B) by (apply psum_pos; auto).
  assert (Et : ln t = r / 2 / reg * (ln A - ln B)) by (unfold t; rewrite tt_R, ln_pw, ln_div by auto; reflexivity).
  assert (Pt : 0 < t) by apply exp_pos.
  assert (Hu : pos_vec n u) by (intros i Hi; apply Rmult_lt_0_compat; auto).
  assert (Hv : pos_vec m v) by (intros i Hi; apply Rdiv_lt_0_compat; auto).
  assert (Ku : forall j, rktu n K u j = rktu n K u_ j * t).
  { intros j. unfold rktu, u. rewrite <- rsum_scal_r. apply rsum_ext; intros; ring. }
  assert (Kv : forall i, rkv m K v i = rkv m K v_ i / t).
  { intros i. unfold rkv, v. rewrite <- rsum_div. apply rsum_ext; intros; unfold Rdiv; ring. }
  assert (EBv : psum m b (tv u_) = B) by (unfold psum, B; apply rsum_ext; intros j Hj; rewrite EV; auto).
  assert (FV : f2 = f) by (unfold f2; rewrite E2; reflexivity). assert (FU : f1 = f) by (unfold f1; rewrite E1; reflexivity).
  assert (Rf : f * (r + reg) = r) by (unfold f; field; lra).
  assert (LVv : forall j, (j < m)%nat -> ln (v j) = f * (ln (b j) - ln (rktu n K u j))).
  { intros j Hj. assert (Pk := rktu_pos n m K Hn K_pos u_ j Hu_ Hj). unfold v. rewrite ln_div by auto. rewrite <- EV by auto. rewrite ln_tv by auto.
    rewrite EBv. fold A. rewrite Ku, ln_mult by auto. rewrite Et. unfold f. field. lra. }
  assert (EVV : forall j, (j < m)%nat -> v j = V u j).
  { intros j Hj. apply ln_inv; [auto|apply V_pos|]. rewrite (ln_V n m b K f2 Hn Hb K_pos u j Hu Hj), FV. auto. }
  split; [|auto].
  destruct (ln_tu v_ Hv_) as [s0 Hs0]. change (tu v_) with u_ in Hs0.
  (* ln u = s + f (ln a - ln Kv), s to be shown 0 *)
  set (s := s0 + (1 - f) * ln t).
  assert (LU : forall i, (i < n)%nat -> ln (u i) = s + f * (ln (a i) - ln (rkv m K v i))).
  { intros i Hi. assert (Pk := rkv_pos n m K Hm K_pos v_ i Hv_ Hi). unfold u. rewrite ln_mult by auto. rewrite Hs0, Kv, ln_div by auto. unfold s. ring. }
  (* masses *)
  assert (Pf : 0 < f) by (unfold f; apply Rdiv_lt_0_compat; lra).
  assert (MC : total n m (splan K u v) = psum m b v).
  { transitivity (rsum m (fun j => col_sum n (splan K u v) j)); [unfold total, row_sum, col_sum; apply rsum_swap|]. apply rsum_ext; intros j Hj.
    rewrite splan_col. assert (Pk := rktu_pos n m K Hn K_pos u j Hu Hj). apply ln_inv; [apply Rmult_lt_0_compat; auto|apply Rmult_lt_0_compat; [auto|apply exp_pos]|].
    rewrite ln_mult by auto. rewrite ln_mult by (auto; apply exp_pos). rewrite ln_pw.
    assert (X := LVv j Hj). assert (X' : (r + reg) * ln (v j) = r * (ln (b j) - ln (rktu n K u j))) by (rewrite X; rewrite <- Rmult_assoc; f_equal; rewrite Rmult_comm; exact Rf).
    apply Rmult_eq_reg_l with r; [|lra]. replace (r * (ln (b j) + - (reg / r) * ln (v j))) with (r * ln (b j) - reg * ln (v j)) by (field; lra). lra. }
  assert (MR : total n m (splan K u v) = exp (s / f) * psum n a u).
  { unfold total. unfold psum. rewrite <- rsum_scal. apply rsum_ext; intros i Hi.
    change (rsum m (fun j => splan K u v i j)) with (row_sum m (splan K u v) i).
    rewrite splan_row. assert (Pk := rkv_pos n m K Hm K_pos v i Hv Hi).
    apply ln_inv; [apply Rmult_lt_0_compat; auto|repeat apply Rmult_lt_0_compat; auto; apply exp_pos|].
    rewrite ln_mult by auto. rewrite ln_mult by (try apply Rmult_lt_0_compat; auto; apply exp_pos). rewrite ln_mult by (auto; apply exp_pos). rewrite ln_pw, ln_exp.
    assert (X := LU i Hi). assert (X' : (r + reg) * ln (u i) = r / f * s + r * (ln (a i) - ln (rkv m K v i))).
    { rewrite X. replace (r + reg) with (r / f) by (unfold f; field; lra). field; lra. }
    apply Rmult_eq_reg_l with r; [|lra]. replace (r * (s / f + (ln (a i) + - (reg / r) * ln (u i)))) with (r / f * s + r * ln (a i) - reg * ln (u i)) by (field; lra). lra. }
  assert (PU : psum n a u = Rpower t (- (reg / r)) * A) by (unfold u; apply psum_scale; auto).
  assert (PV' : psum m b v = Rpower (/ t) (- (reg / r)) * B).
  { transitivity (psum m b (fun i => v_ i * / t)); [reflexivity|apply psum_scale; [apply Rinv_0_lt_compat; auto|auto]]. }
  assert (S0 : s = 0).
  { assert (X : exp (s / f) * (Rpower t (- (reg / r)) * A) = Rpower (/ t) (- (reg / r)) * B) by (rewrite <- PU, <- PV', <- MR; exact MC).
    apply (f_equal ln) in X. assert (T1 := exp_pos (s / f)). assert (T2 : 0 < Rpower t (- (reg / r))) by apply exp_pos. assert (T3 : 0 < Rpower (/ t) (- (reg / r))) by apply exp_pos.
    rewrite !ln_mult in X by (auto; apply Rmult_lt_0_compat; auto). rewrite !ln_pw, ln_exp, ln_Rinv in X by auto. rewrite Et in X.
    assert (Y : s / f = 0). { replace (- (reg / r) * (r / 2 / reg * (ln A - ln B))) with (- (ln A - ln B) / 2) in X by (field; lra).
      replace (- (reg / r) * - (r / 2 / reg * (ln A - ln B))) with ((ln A - ln B) / 2) in X by (field; lra). lra. }
    replace s with (s / f * f) by (field; lra). rewrite Y. ring. }
  intros i Hi. apply ln_inv; [auto|apply U_pos|]. rewrite (ln_U n m a K f1 Hm Ha K_pos v i Hv Hi), FU, LU by auto. rewrite S0. ring.
Qed.
End TI.
End Opt.
