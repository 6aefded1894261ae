(** Concrete one-point instances used by P_Unb.v. *)
From Coq Require Import List Arith Bool Reals Lra Lia.
From Verif Require Import Num Sums Spec Duals_proofs Entropy Sinkhorn_model Sinkhorn_proofs Sinkhorn_more Unb_model Unb_proofs Unb_conv Unb_opt Unb_stab.
Import ListNotations.
Local Open Scope R_scope.

Lemma lnpw : forall x y, ln (Rpower x y) = y * ln x.
Proof. intros. unfold Rpower. apply ln_exp. Qed.
Lemma pw_pos : forall x y, 0 < Rpower x y. Proof. intros; apply exp_pos. Qed.

(** ** translation-invariant updates, a = b = 1, M = 20, reg = 1, reg_m = (1, 3) *)
Definition one : vec := fun _ => 1.
Definition M20 : mat := fun _ _ => 20.
Definition c1 : mat := fun _ _ => 1.
Notation KK := (un_K (N:=RNum) exp 1 M20 c1).
Notation tu := (ti_u (N:=RNum) 1 1 one one Rpower KK 1 (Some 1) (Some 3)).
Notation tv := (ti_v (N:=RNum) 1 1 one one Rpower KK 1 (Some 1) (Some 3)).
Lemma KK_R : forall i j, KK i j = exp (-20).
Proof. intros. rewrite un_K_R by lra. unfold M20, c1. rewrite Rmult_1_r. f_equal. field. Qed.
Lemma ti_sum1 : forall (x : vec) p, ti_sum (N:=RNum) Rpower 1 one x p = Rpower (x 0%nat) p.
Proof. intros. rewrite ti_sum_R. cbn. unfold one. ring. Qed.
Lemma tu_pos1 : forall v i, 0 < tu v i.
Proof. intros. unfold ti_u. cbn zeta. cbn [nmul RNum]. apply Rmult_lt_0_compat; [apply Rmult_lt_0_compat|]; apply pw_pos. Qed.
Lemma tv_pos1 : forall v i, 0 < tv v i.
Proof. intros. unfold ti_v. cbn zeta. cbn [nmul RNum]. apply Rmult_lt_0_compat; [apply Rmult_lt_0_compat|]; apply pw_pos. Qed.
Lemma kv1 : forall v : vec, un_Kv (N:=RNum) 1 KK v 0 = exp (-20) * v 0%nat.
Proof. intros. rewrite un_Kv_R. unfold rkv. cbn [rsum]. rewrite KK_R. match goal with |- @eq _ ?x ?y => change (@eq R x y) end. ring. Qed.
Lemma ktu1 : forall v : vec, un_Ktu (N:=RNum) 1 KK v 0 = exp (-20) * v 0%nat.
Proof. intros. rewrite un_Ktu_R. unfold rktu. cbn [rsum]. rewrite KK_R. match goal with |- @eq _ ?x ?y => change (@eq R x y) end. ring. Qed.
Lemma ln_tu1 : forall v, 0 < v 0%nat -> ln (tu v 0%nat) = 16 - ln (v 0%nat) / 2.
Proof.
  intros v Hv. unfold ti_u. cbn zeta. rewrite !ti_sum1. cbn [nmul ndiv RNum]. rewrite kv1.
  assert (P := exp_pos (-20)). assert (Pv : 0 < exp (-20) * v 0%nat) by (apply Rmult_lt_0_compat; auto).
  repeat (rewrite ln_mult by (try apply Rmult_lt_0_compat; apply pw_pos)). rewrite !lnpw.
  repeat (rewrite ln_mult by (try apply Rmult_lt_0_compat; apply pw_pos)). rewrite !lnpw.
  rewrite ln_div by (unfold one; auto; lra). rewrite ln_mult by auto. rewrite ln_exp. unfold one. rewrite ln_1.
  unfold ti_kr2, ti_xr1, ti_k2, ti_xi1, ti_ratio, fi, nopp. cbn. field.
Qed.
Lemma ln_tv1 : forall u, 0 < u 0%nat -> ln (tv u 0%nat) = 16 - 14 / 15 * ln (u 0%nat).
Proof.
  intros v Hv. unfold ti_v. cbn zeta. rewrite !ti_sum1. cbn [nmul ndiv RNum]. rewrite ktu1.
  assert (P := exp_pos (-20)). assert (Pv : 0 < exp (-20) * v 0%nat) by (apply Rmult_lt_0_compat; auto).
  repeat (rewrite ln_mult by (try apply Rmult_lt_0_compat; apply pw_pos)). rewrite !lnpw.
  repeat (rewrite ln_mult by (try apply Rmult_lt_0_compat; apply pw_pos)). rewrite !lnpw.
  rewrite ln_div by (unfold one; auto; lra). rewrite ln_mult by auto. rewrite ln_exp. unfold one. rewrite ln_1.
  unfold ti_kr1, ti_xr2, ti_k1, ti_xi2, ti_ratio, fi, nopp. cbn. field.
Qed.
Definition big_plan (u v : vec) : Prop := exp (-3) <= u 0%nat * exp (-20) * v 0%nat.
Lemma ti_loop1 : forall thr left ii (u v u_ v_ : vec) errs, 0 < v_ 0%nat -> 0 <= ln (v_ 0%nat) <= 2 -> (0 < left)%nat \/ big_plan u v ->
  let o := ti_loop (N:=RNum) 1 1 one one Rpower no_nan KK 1 (Some 1) (Some 3) thr left ii u v u_ v_ errs in big_plan (sk_u o) (sk_v o).
Proof.
  intros thr. induction left; intros ii u v u_ v_ errs Hv Hl Hor; [destruct Hor as [Z|Z]; [lia|exact Z]|].
  cbn [ti_loop]. cbn zeta.
  assert (Pu := tu_pos1 v_ 0). assert (Pv := tv_pos1 (tu v_) 0). assert (Lu := ln_tu1 v_ Hv). assert (Lv := ln_tv1 (tu v_) Pu).
  assert (BD : (any 1 (fun j => neqb (n:=RNum) (un_Ktu (N:=RNum) 1 KK (tu v_) j) (@n0 RNum)) || any 1 (fun i => no_nan (tu v_ i)) || any 1 (fun j => no_nan (tv (tu v_) j)))%bool = false).
  { rewrite !orb_false_iff. repeat split; apply any_false; intros k Hk; auto. cbn [neqb RNum n0]. apply Reqb_false. apply Rgt_not_eq. destruct k; [|lia]. rewrite ktu1.
    apply Rmult_lt_0_compat; [apply exp_pos|exact Pu]. }
  rewrite BD. set (t := ti_t _ _ _ _ _ _ _ _ _ _). assert (Pt : 0 < t) by apply pw_pos.
  assert (BP : big_plan (fun i => nmul (n:=RNum) (tu v_ i) t) (fun j => ndiv (n:=RNum) (tv (tu v_) j) t)).
  { unfold big_plan. cbn [nmul ndiv RNum]. replace (tu v_ 0%nat * t * exp (-20) * (tv (tu v_) 0%nat / t)) with (tu v_ 0%nat * exp (-20) * tv (tu v_) 0%nat) by (match goal with |- @eq _ ?x ?y => change (@eq R x y) end; field; lra).
    rewrite <- (exp_ln (tu v_ 0%nat)) by exact Pu. rewrite <- (exp_ln (tv (tu v_) 0%nat)) by exact Pv. rewrite <- !exp_plus.
    destruct (Req_dec (-3) (ln (tu v_ 0%nat) + -20 + ln (tv (tu v_) 0%nat))) as [->|Hd]; [lra|]. left. apply exp_increasing. lra. }
  destruct (nltb _ _); cbn [sk_u sk_v]; [exact BP|]. apply IHleft; [exact Pv| |right; exact BP]. lra.
Qed.

(** objective of the 1 x 1 problem above *)
Lemma obj20 : forall P : mat, 0 < P 0%nat 0%nat -> uot_obj 1 1 one one M20 c1 1 (Some 1) (Some 3) P = 20 * P 0%nat 0%nat + 5 * gkl (P 0%nat 0%nat) 1.
Proof.
  intros P HP. unfold uot_obj, penalty, cost, row_sum, col_sum. cbn [rsum]. unfold one, M20, c1. rewrite !Rplus_0_l. unfold gkl. ring.
Qed.
Lemma gkl_e : forall x, gkl (exp x) 1 = exp x * (x - 1) + 1.
Proof. intros. unfold gkl. replace (exp x / 1) with (exp x) by field. rewrite ln_exp. ring. Qed.
Lemma obj20_big : forall P : mat, exp (-3) <= P 0%nat 0%nat -> 5 <= uot_obj 1 1 one one M20 c1 1 (Some 1) (Some 3) P.
Proof.
  intros P HP. assert (E3 := exp_pos (-3)). rewrite obj20 by lra.
  assert (A := gkl_tan (P 0%nat 0%nat) (exp (-3)) 1 ltac:(lra) E3 ltac:(lra)). rewrite gkl_e in A.
  replace (exp (-3) / 1) with (exp (-3)) in A by field. rewrite ln_exp in A. nra.
Qed.
Lemma obj20_opt : forall P : mat, P 0%nat 0%nat = exp (-4) -> uot_obj 1 1 one one M20 c1 1 (Some 1) (Some 3) P = 5 - 5 * exp (-4).
Proof. intros P E. assert (E4 := exp_pos (-4)). rewrite obj20 by (rewrite E; auto). rewrite E, gkl_e. ring. Qed.

(** ** histograms, a = b = e^2, M = 1, reg = reg_m = 1 *)
Definition e2 : vec := fun _ => exp 2.
Lemma lnU1 : forall k (x v : vec), 0 < v 0%nat -> 0 < x 0%nat -> ln (un_u (N:=RNum) 1 x Rpower (fun _ _ => exp k) (fi (N:=RNum) 1 (Some 1)) v 0) = (ln (x 0%nat) - k - ln (v 0%nat)) / 2.
Proof.
  intros k x v Hv Hx. rewrite U_R, lnpw. unfold rkv. cbn [rsum]. assert (P := exp_pos k).
  rewrite Rplus_0_l, ln_div, ln_mult, ln_exp by (auto; apply Rmult_lt_0_compat; auto). unfold fi. cbn. field.
Qed.
Lemma lnV1 : forall k (x u : vec), 0 < u 0%nat -> 0 < x 0%nat -> ln (un_v (N:=RNum) 1 x Rpower (fun _ _ => exp k) (fi (N:=RNum) 1 (Some 1)) u 0) = (ln (x 0%nat) - k - ln (u 0%nat)) / 2.
Proof.
  intros k x v Hv Hx. rewrite V_R, lnpw. unfold rktu. cbn [rsum]. assert (P := exp_pos k).
  rewrite Rplus_0_l, ln_div, ln_mult, ln_exp by (auto; apply Rmult_lt_0_compat; auto). unfold fi. cbn. field.
Qed.
Notation vit1 k := (vit 1 1 e2 e2 (fun _ _ => exp k) (fi (N:=RNum) 1 (Some 1)) (fi (N:=RNum) 1 (Some 1))).
Notation uit1 k := (uit 1 1 e2 e2 (fun _ _ => exp k) (fi (N:=RNum) 1 (Some 1)) (fi (N:=RNum) 1 (Some 1))).
Lemma vit1_pos : forall k q v, 0 < v 0%nat -> 0 < vit1 k q v 0%nat.
Proof. intros k [|q] v Hv; [exact Hv|]. cbn [vit]. rewrite V_R. apply pw_pos. Qed.
Lemma uit1_pos : forall k q u v, 0 < uit1 k (S q) u v 0%nat.
Proof. intros. unfold uit. rewrite U_R. apply pw_pos. Qed.
Lemma e2_ln : ln (e2 0%nat) = 2. Proof. apply ln_exp. Qed.
Lemma e2_pos : 0 < e2 0%nat. Proof. apply exp_pos. Qed.
Lemma vit1_S : forall k q v, 0 < v 0%nat -> ln (vit1 k (S q) v 0%nat) = (2 - k) / 4 + ln (vit1 k q v 0%nat) / 4.
Proof.
  intros k q v Hv. change (vit1 k (S q) v) with (un_v (N:=RNum) 1 e2 Rpower (fun _ _ => exp k) (fi (N:=RNum) 1 (Some 1)) (uit1 k (S q) v v)).
  rewrite lnV1 by (try apply uit1_pos; apply e2_pos). change (uit1 k (S q) v v) with (un_u (N:=RNum) 1 e2 Rpower (fun _ _ => exp k) (fi (N:=RNum) 1 (Some 1)) (vit1 k q v)).
  rewrite lnU1 by (try (apply vit1_pos; auto); apply e2_pos). rewrite e2_ln. field.
Qed.
Lemma plan1 : forall k q u v, 0 < v 0%nat -> uit1 k (S q) u v 0%nat * exp k * vit1 k (S q) v 0%nat = exp (k + (2 - k) / 2 - ln (vit1 k q v 0%nat) / 2 + ln (vit1 k (S q) v 0%nat)).
Proof.
  intros k q u v Hv. rewrite !exp_plus. rewrite (exp_ln (vit1 k (S q) v 0%nat)) by (apply vit1_pos; auto).
  assert (E : exp k * exp ((2 - k) / 2) * exp (- (ln (vit1 k q v 0%nat) / 2)) = uit1 k (S q) u v 0%nat * exp k).
  { rewrite <- (exp_ln (uit1 k (S q) u v 0%nat)) by apply uit1_pos.
    change (uit1 k (S q) u v) with (un_u (N:=RNum) 1 e2 Rpower (fun _ _ => exp k) (fi (N:=RNum) 1 (Some 1)) (vit1 k q v)).
    rewrite lnU1 by (try (apply vit1_pos; auto); apply e2_pos). rewrite e2_ln. rewrite <- !exp_plus. f_equal. field. }
  unfold Rminus. rewrite !exp_plus. unfold Rminus in E. rewrite E. ring.
Qed.
Lemma vit_col : forall q v, 0 < v 0%nat -> ln (v 0%nat) = 0 -> 0 <= ln (vit1 (-1) q v 0%nat) <= 1.
Proof. induction q; intros v Hv Hl; [cbn; rewrite Hl; lra|]. rewrite vit1_S by auto. specialize (IHq v Hv Hl). lra. Qed.
Lemma vit_kl : forall q v, 0 < v 0%nat -> ln (v 0%nat) = 0 -> - (1 / 3) <= ln (vit1 3 q v 0%nat) <= 0.
Proof. induction q; intros v Hv Hl; [cbn; rewrite Hl; lra|]. rewrite vit1_S by auto. specialize (IHq v Hv Hl). lra. Qed.
Lemma exp_le : forall x y, x <= y -> exp x <= exp y.
Proof. intros x y [H| ->]; [left; apply exp_increasing; auto|lra]. Qed.
Lemma col_plan : forall q u v, 0 < v 0%nat -> ln (v 0%nat) = 0 -> uit1 (-1) (S q) u v 0%nat * exp (-1) * vit1 (-1) (S q) v 0%nat <= exp (5 / 4).
Proof. intros q u v Hv Hl. rewrite plan1 by auto. apply exp_le. rewrite vit1_S by auto. assert (A := vit_col q v Hv Hl). lra. Qed.
Lemma kl_plan : forall q u v, 0 < v 0%nat -> ln (v 0%nat) = 0 -> exp (9 / 4) <= uit1 3 (S q) u v 0%nat * exp 3 * vit1 3 (S q) v 0%nat.
Proof. intros q u v Hv Hl. rewrite plan1 by auto. apply exp_le. rewrite vit1_S by auto. assert (A := vit_kl q v Hv Hl). lra. Qed.
