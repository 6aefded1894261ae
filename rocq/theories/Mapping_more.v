(** The alternation of the joint mapping estimation; interpolation constraints of smooth strongly convex functions. *)
From Coq Require Import Reals List Lra Lia Bool.
From Verif Require Circle_proofs.
From Verif Require Import Num Sums Spec Duals_proofs Emd1d_model Emd1d_perm_proofs Optim_model Optim_proofs Weak_model Weak_proofs Da_reg_proofs Mapping_model Mapping_proofs.
Import ListNotations.
Local Open Scope R_scope.

Definition uniform (n : nat) : vec := fun _ => 1 / INR n.
Lemma unif_R : forall n, unif (N:=RNum) n = uniform n.
Proof. intros. unfold unif, uniform. rewrite nofnat_INR. reflexivity. Qed.
Definition sqdist (d : nat) (X Y : mat) : mat := fun i j => rsum d (fun t => (X i t - Y j t) ^ 2).
Lemma sqd_R : forall d X Y i j, sqd (N:=RNum) d X Y i j = sqdist d X Y i j.
Proof. intros. unfold sqd, sqdist. rewrite nsum_R. apply rsum_ext; intros. cbn. ring. Qed.
Lemma sqsum_R : forall n m A, sqsum (N:=RNum) n m A = rsum n (fun i => rsum m (fun t => A i t ^ 2)).
Proof. intros. unfold sqsum. rewrite nsum_R. apply rsum_ext; intros. rewrite nsum_R. apply rsum_ext; intros. cbn. ring. Qed.
Lemma mmul_R : forall k A B i t, mmul (N:=RNum) k A B i t = rsum k (fun s => A i s * B s t).
Proof. intros. unfold mmul. apply nsum_R. Qed.

Section Alt.
Variables (ns nt d : nat) (xs xt : mat) (mu : R) (lp : mat -> mat) (search : (R -> R) -> R -> R -> R -> option R * R).
Variables (K Ki : nat) (thr thri thr2 : R) (k : nat) (P : mat) (solve_L : mat -> option mat) (loss : mat -> mat -> R) (pen : mat -> R).
Definition target (G : mat) : mat := fun i t => INR ns * rsum nt (fun j => G i j * xt j t).
Definition fitmap (L : mat) : mat := fun i t => rsum k (fun s => P i s * L s t).
Definition full (L G : mat) : R :=
  rsum ns (fun i => rsum d (fun t => (fitmap L i t - target G i t) ^ 2)) + mu * (INR ns * cost ns nt (sqdist d xs xt) G) + pen L.
Hypotheses (Hmu : 0 < mu) (Hlp : forall Mi, optimal_coupling ns nt (uniform ns) (uniform nt) Mi (lp Mi)) (Hs : search_contract search)
  (Hloss : forall L G, loss L G = full L G)
  (Hsol : forall G L, solve_L G = Some L -> forall L', full L G <= full L' G).
Lemma jY_R : forall G i t, jY (N:=RNum) ns nt xt G i t = target G i t.
Proof. intros. unfold jY, target. rewrite mmul_R, nofnat_INR. reflexivity. Qed.
Lemma jM_R : forall i j, jM (N:=RNum) ns d xs xt i j = INR ns * sqdist d xs xt i j.
Proof. intros. unfold jM. rewrite sqd_R, nofnat_INR. apply Rmult_comm. Qed.
Lemma jf_R : forall xsi G, j_f (N:=RNum) ns nt d xt xsi G = rsum ns (fun i => rsum d (fun t => (xsi i t - target G i t) ^ 2)).
Proof. intros. unfold j_f. rewrite sqsum_R. apply rsum_ext; intros; apply rsum_ext; intros. rewrite jY_R. reflexivity. Qed.
Lemma full_total : forall L G, full L G = mu * Da_reg_proofs.total ns nt (jM (N:=RNum) ns d xs xt) (1 / mu) (j_f (N:=RNum) ns nt d xt (mmul (N:=RNum) k P L)) G + pen L.
Proof.
  intros. unfold full, Da_reg_proofs.total. rewrite jf_R.
  assert (C : cost ns nt (jM (N:=RNum) ns d xs xt) G = INR ns * cost ns nt (sqdist d xs xt) G).
  { unfold cost. rewrite <- rsum_scal. apply rsum_ext; intros. rewrite <- rsum_scal. apply rsum_ext; intros. rewrite jM_R. ring. }
  rewrite C. rewrite (rsum_ext ns (fun i => rsum d (fun t => (mmul (N:=RNum) k P L i t - target G i t) ^ 2)) (fun i => rsum d (fun t => (fitmap L i t - target G i t) ^ 2))).
  - field. lra.
  - intros; apply rsum_ext; intros. rewrite mmul_R. reflexivity.
Qed.
Lemma solve_G_ok : forall L G0 G, coupling ns nt (uniform ns) (uniform nt) G0 ->
  solve_G (N:=RNum) ns nt d xs xt mu lp search Ki thri thr2 (mmul (N:=RNum) k P L) G0 = Some G ->
  coupling ns nt (uniform ns) (uniform nt) G /\ full L G <= full L G0.
Proof.
  intros L G0 G C0 E. unfold solve_G, generic_conditional_gradient in E.
  destruct (cg_loop _ _ _ _ _ _ _ _ _ _ _ _ _) as [r|] eqn:R0; [|discriminate]. inversion E; subst G; clear E.
  assert (RR := crun ns nt (uniform ns) (uniform nt) (jM (N:=RNum) ns d xs xt) (1 / mu) (j_f (N:=RNum) ns nt d xt (mmul (N:=RNum) k P L)) (j_df (N:=RNum) ns nt d xt (mmul (N:=RNum) k P L)) lp search Ki thri thr2).
  destruct (RR) with (fuel := Nat.max 1 Ki) (G0 := G0) (r := r) as (C & _ & _ & LE); auto.
  - intros G G' HG. rewrite !jf_R. apply rsum_ext; intros i Hi. apply rsum_ext; intros t Ht. do 2 f_equal. unfold target. f_equal. apply rsum_ext; intros j Hj. rewrite HG; auto.
  - split; auto. rewrite !full_total. apply Rplus_le_compat_r. apply Rmult_le_compat_l; lra.
Qed.
Definition good (r : @jres RNum) (v0 : R) : Prop :=
  coupling ns nt (uniform ns) (uniform nt) (j_G r) /\ (forall L', full (j_L r) (j_G r) <= full L' (j_G r)) /\ nonincreasing (j_loss r) /\
  last (j_loss r) 0 = full (j_L r) (j_G r) /\ hd 0 (j_loss r) = v0 /\ j_loss r <> [].
Lemma j_loop_good : forall left G L old log r v0, good (mk_jres (N:=RNum) G L log) v0 -> old = last log 0 ->
  j_loop (N:=RNum) ns nt d xs xt mu lp search Ki thr thri thr2 k P solve_L loss left G L old log = Some r -> good r v0.
Proof.
  induction left as [|left IH]; intros G L old log r v0 HG HO E; cbn [j_loop] in E.
  - inversion E; subst; auto.
  - destruct (solve_G _ _ _ _ _ _ _ _ _ _ _ _ _) as [G'|] eqn:EG; [|discriminate]. destruct (solve_L G') as [L'|] eqn:EL; [|discriminate].
    destruct HG as (C & MN & NI & LA & HD & NE). cbn [j_G j_L j_loss] in *.
    destruct (solve_G_ok L G G' C EG) as [C' LE]. assert (ML := Hsol G' L' EL).
    assert (GOOD : good (mk_jres (N:=RNum) G' L' (log ++ [loss L' G'])) v0).
    { unfold good. cbn [j_G j_L j_loss]. split; auto. split; auto. split; [|split; [|split]].
      - apply nonincr_app; auto. right. rewrite Hloss. eapply Rle_trans; [apply ML|]. eapply Rle_trans; [exact LE|]. rewrite <- LA. apply Rle_refl.
      - rewrite last_last. apply Hloss.
      - rewrite hd_app; auto.
      - intro X. apply app_eq_nil in X. destruct X; discriminate. }
    match type of E with context [if ?c then _ else _] => destruct c end; [inversion E; subst; exact GOOD|].
    apply (IH _ _ _ _ _ _ GOOD) in E; auto. rewrite last_last. reflexivity.
Qed.
Lemma j_loop_len : forall left G L old log r,
  j_loop (N:=RNum) ns nt d xs xt mu lp search Ki thr thri thr2 k P solve_L loss left G L old log = Some r ->
  (length log <= length (j_loss r) <= length log + left)%nat /\
  ((length (j_loss r) < length log + left)%nat -> old = last log (0 : R) -> exists a b l, j_loss r = l ++ [a; b] /\ a <> 0 /\ Rabs (b - a) / Rabs a < thr).
Proof.
  induction left as [|left IH]; intros G L old log r E; cbn [j_loop] in E.
  - inversion E; subst. cbn. split; [lia|]. intros; lia.
  - destruct (solve_G _ _ _ _ _ _ _ _ _ _ _ _ _) as [G'|] eqn:EG; [|discriminate]. destruct (solve_L G') as [L'|] eqn:EL; [|discriminate].
    destruct (j_stop (N:=RNum) thr (loss L' G') old) eqn:ST.
    + inversion E; subst. cbn [j_loss]. rewrite app_length. cbn [length]. change (carrier RNum) with R in *. split; [lia|]. intros _ HO. unfold j_stop in ST.
      destruct (neqb (n:=RNum) old (n0 (n:=RNum))) eqn:NZ; [discriminate|].
      cbn [neqb ndiv nsub nltb RNum] in NZ, ST. rewrite !Circle_proofs.nabs_R in ST. apply Rltb_true in ST.
      assert (NE : log <> [] \/ log = []) by (destruct log; [right|left]; congruence).
      destruct NE as [NE| ->]; [|exfalso; cbn in HO; subst old; apply Reqb_false in NZ; apply NZ; reflexivity].
      destruct (exists_last NE) as (l & a & ->). rewrite last_last in HO. subst old. exists a, (loss L' G'), l. rewrite <- app_assoc. split; [reflexivity|].
      split; [apply Reqb_false in NZ; exact NZ|]. exact ST.
    + apply IH in E. rewrite app_length in E. cbn [length] in E. change (carrier RNum) with R in *. destruct E as [E1 E2]. split; [lia|]. intros HL _. apply E2; [lia|]. rewrite last_last. reflexivity.
Qed.
Lemma j_run_good : forall r,
  j_run (N:=RNum) ns nt d xs xt mu lp search K Ki thr thri thr2 k P solve_L loss = Some r ->
  (exists L0, solve_L (lp (jM (N:=RNum) ns d xs xt)) = Some L0 /\ good r (full L0 (lp (jM (N:=RNum) ns d xs xt)))) /\
  (1 <= length (j_loss r) <= S K)%nat /\
  ((length (j_loss r) < S K)%nat -> exists a b l, j_loss r = l ++ [a; b] /\ a <> 0 /\ Rabs (b - a) / Rabs a < thr).
Proof.
  intros r E. unfold j_run in E. set (G0 := lp (jM (N:=RNum) ns d xs xt)) in *. destruct (solve_L G0) as [L0|] eqn:EL; [|discriminate].
  assert (LN := j_loop_len _ _ _ _ _ _ E). cbn [length] in LN. destruct LN as [LN1 LN2]. split; [|split; [lia|intros H; apply LN2; [lia|reflexivity]]].
  exists L0. split; auto. eapply j_loop_good; [| |exact E]; [|reflexivity]. unfold good. cbn [j_G j_L j_loss]. split; [apply (Hlp (jM (N:=RNum) ns d xs xt))|]. split; [apply Hsol; auto|].
  split; [exact I|]. split; [apply Hloss|]. split; [apply Hloss|discriminate].
Qed.
End Alt.

(** ** the two mapping updates solve their least squares problems *)
Definition solve_contract (solve : nat -> nat -> mat -> mat -> option mat) : Prop :=
  forall k d A B X, solve k d A B = Some X -> forall s t, (s < k)%nat -> (t < d)%nat -> rsum k (fun r => A s r * X r t) = B s t.
Lemma cols_lsq : forall n k d P Y eta Rg J L,
  rsum n (fun i => rsum d (fun t => (rsum k (fun s => P i s * L s t) - Y i t) ^ 2)) +
    eta * rsum d (fun t => rsum k (fun s => rsum k (fun r => (L s t - J s t) * Rg s r * (L r t - J r t)))) =
  rsum d (fun t => lsq n k P (fun i => Y i t) eta Rg (fun s => J s t) (fun s => L s t)).
Proof. intros. rewrite rsum_swap. unfold lsq. rewrite rsum_plus, rsum_scal. reflexivity. Qed.

Section Lin.
Variables (ns nt d : nat) (xs xt : mat) (mu eta : R) (bias : bool) (solve : nat -> nat -> mat -> mat -> option mat).
Hypotheses (Heta : 0 <= eta) (Hsolve : solve_contract solve).
Notation k := (l_k d bias). Notation P := (l_xs1 (N:=RNum) d xs bias). Notation Id := (l_Id (N:=RNum) d bias).
Lemma Id_val : forall s r, (s < k)%nat -> Id s r = if (Nat.ltb s d && Nat.eqb s r)%bool then 1 else 0.
Proof.
  intros s r Hs. unfold l_Id, l_k, eye0, eye in *. cbn [n0 n1 RNum]. destruct bias.
  - destruct (Nat.eqb_spec s d); [subst; rewrite Nat.ltb_irrefl; reflexivity|]. replace (Nat.ltb s d) with true by (symmetry; apply Nat.ltb_lt; lia). reflexivity.
  - replace (Nat.ltb s d) with true by (symmetry; apply Nat.ltb_lt; lia). reflexivity.
Qed.
Lemma Id_row : forall s x, (s < k)%nat -> rsum k (fun r => Id s r * x r) = if Nat.ltb s d then x s else 0.
Proof.
  intros s x Hs. rewrite (rsum_single k s); auto.
  - rewrite Id_val, Nat.eqb_refl by auto. destruct (Nat.ltb s d); cbn [andb]; ring.
  - intros r Hr Hn. rewrite Id_val by auto. destruct (Nat.eqb_spec s r); [subst; contradiction|]. rewrite andb_false_r. ring.
Qed.
Lemma Id_form : forall x, rsum k (fun s => rsum k (fun r => x s * Id s r * x r)) = rsum d (fun s => x s ^ 2).
Proof.
  intros x. rewrite (rsum_ext k _ (fun s => if Nat.ltb s d then x s ^ 2 else 0)).
  - unfold l_k. destruct bias; [cbn [rsum]; rewrite Nat.ltb_irrefl, Rplus_0_r|]; apply rsum_ext; intros s Hs; replace (Nat.ltb s d) with true by (symmetry; apply Nat.ltb_lt; lia); reflexivity.
  - intros s Hs. rewrite (rsum_ext k _ (fun r => x s * (Id s r * x r))) by (intros; ring). rewrite rsum_scal, Id_row by auto. destruct (Nat.ltb s d); ring.
Qed.
Definition lin_pen (L : mat) : R := eta * rsum d (fun s => rsum d (fun t => (L s t - (if Nat.eqb s t then 1 else 0)) ^ 2)).
Lemma lin_pen_form : forall L, lin_pen L = eta * rsum d (fun t => rsum k (fun s => rsum k (fun r => (L s t - Id s t) * Id s r * (L r t - Id r t)))).
Proof.
  intros L. unfold lin_pen. f_equal. rewrite rsum_swap. apply rsum_ext; intros t Ht. rewrite (Id_form (fun s => L s t - Id s t)). apply rsum_ext; intros s Hs.
  rewrite Id_val by (unfold l_k; destruct bias; lia). replace (Nat.ltb s d) with true by (symmetry; apply Nat.ltb_lt; lia). reflexivity.
Qed.
Lemma l_loss_full : forall L G, l_loss (N:=RNum) ns nt d xs xt mu eta bias L G = full ns nt d xs xt mu k P lin_pen L G.
Proof.
  intros L G. unfold l_loss, full. rewrite !sqsum_R. cbn [nadd nmul nsub RNum]. f_equal; [f_equal|].
  - apply rsum_ext; intros; apply rsum_ext; intros. rewrite mmul_R, jY_R. reflexivity.
  - f_equal. rewrite Weak_proofs.inner_cost. unfold cost. rewrite <- rsum_scal. apply rsum_ext; intros. rewrite <- rsum_scal. apply rsum_ext; intros. rewrite jM_R. ring.
  - unfold lin_pen. f_equal. apply rsum_ext; intros s Hs; apply rsum_ext; intros t Ht. unfold l_I0. rewrite Id_val by (unfold l_k; destruct bias; lia).
    replace (Nat.ltb s d) with true by (symmetry; apply Nat.ltb_lt; lia). reflexivity.
Qed.
Lemma l_solve_min : forall G L, l_solve_L (N:=RNum) ns nt d xs xt eta solve bias G = Some L ->
  forall L', full ns nt d xs xt mu k P lin_pen L G <= full ns nt d xs xt mu k P lin_pen L' G.
Proof.
  intros G L E L'. unfold l_solve_L in E. assert (NE := Hsolve _ _ _ _ _ E). cbv beta in NE. clear E.
  assert (Q : forall L, rsum ns (fun i => rsum d (fun t => (fitmap k P L i t - target ns nt xt G i t) ^ 2)) + lin_pen L =
     rsum d (fun t => lsq ns k P (fun i => target ns nt xt G i t) eta Id (fun s => Id s t) (fun s => L s t))) by (intros; rewrite lin_pen_form; apply cols_lsq).
  unfold full. assert (QQ : rsum ns (fun i => rsum d (fun t => (fitmap k P L i t - target ns nt xt G i t) ^ 2)) + lin_pen L <= rsum ns (fun i => rsum d (fun t => (fitmap k P L' i t - target ns nt xt G i t) ^ 2)) + lin_pen L'); [|lra].
  rewrite !Q. apply rsum_le. intros t Ht. apply ls_min; auto.
  - intros s r Hs Hr. rewrite !Id_val by auto. rewrite (Nat.eqb_sym r s). destruct (Nat.eqb_spec s r); [subst; reflexivity|]. rewrite !andb_false_r. reflexivity.
  - intros x. rewrite Id_form. apply rsum_nonneg; intros; apply pow2_ge_0.
  - intros s Hs. specialize (NE s t Hs Ht). rewrite nsum_R in NE. cbn [nadd nmul RNum] in NE. unfold l_I0 in NE.
    rewrite (rsum_ext k (fun r => Id s r * (L r t - Id r t)) (fun r => Id s r * L r t - Id s r * Id r t)) by (intros; ring). rewrite rsum_minus.
    rewrite (Id_row s (fun r => Id r t)) by auto.
    assert (A : rsum ns (fun i => P i s * (rsum k (fun r => P i r * L r t) - target ns nt xt G i t)) = rsum k (fun r => rsum ns (fun i => P i s * P i r) * L r t) - rsum ns (fun i => P i s * target ns nt xt G i t)).
    { rewrite (rsum_ext ns _ (fun i => rsum k (fun r => P i s * P i r * L r t) - P i s * target ns nt xt G i t)).
      - rewrite rsum_minus, rsum_swap. f_equal. apply rsum_ext; intros. rewrite rsum_scal_r. reflexivity.
      - intros i Hi. rewrite Rmult_minus_distr_l, <- rsum_scal. f_equal. apply rsum_ext; intros; ring. }
    rewrite A. rewrite (rsum_ext k _ (fun r => rsum ns (fun i => P i s * P i r) * L r t + eta * (Id s r * L r t))) in NE by (intros; rewrite nsum_R; cbn [nmul RNum]; ring).
    rewrite rsum_plus, rsum_scal in NE.
    rewrite (rsum_ext ns (fun i => P i s * jY (N:=RNum) ns nt xt G i t) (fun i => P i s * target ns nt xt G i t)) in NE by (intros; rewrite jY_R; reflexivity).
    assert (IV := Id_val s t Hs). change (carrier RNum) with R in *. destruct (Nat.ltb s d); cbn [andb] in IV; [clear IV; lra|rewrite IV in *; lra].
Qed.
End Lin.

Section Ker.
Variables (ns nt d : nat) (xs xt K : mat) (mu eta : R) (bias : bool) (solve : nat -> nat -> mat -> mat -> option mat).
Hypotheses (Heta : 0 <= eta) (Hsolve : solve_contract solve) (Ksym : forall i j, K i j = K j i)
  (Kpsd : forall x : vec, 0 <= rsum ns (fun i => rsum ns (fun j => x i * K i j * x j))).
Notation k := (k_k ns bias). Notation P := (k_K1 (N:=RNum) ns bias K). Notation Rg := (k_Kreg (N:=RNum) ns bias K).
Lemma Rg_sym : forall s r, Rg s r = Rg r s.
Proof.
  intros s r. unfold k_Kreg. destruct bias; [|apply Ksym]. rewrite (andb_comm (Nat.ltb r ns)). destruct (Nat.ltb s ns && Nat.ltb r ns)%bool; [apply Ksym|].
  unfold eye. rewrite Nat.eqb_sym. reflexivity.
Qed.
Lemma Rg_form : forall x, rsum k (fun s => rsum k (fun r => x s * Rg s r * x r)) = rsum ns (fun s => rsum ns (fun r => x s * K s r * x r)) + (if bias then x ns ^ 2 else 0).
Proof.
  intros x. unfold k_k, k_Kreg, eye. cbn [n0 n1 RNum]. destruct bias; [|ring]. cbn [rsum]. rewrite !Nat.ltb_irrefl, Nat.eqb_refl, !andb_false_r.
  rewrite (rsum_0 ns (fun r => x ns * _ * x r)).
  - rewrite (rsum_ext ns _ (fun s => rsum ns (fun r => x s * K s r * x r))); [ring|]. intros s Hs. rewrite ?andb_false_r. replace (Nat.eqb s ns) with false by (symmetry; apply Nat.eqb_neq; lia).
    rewrite Rmult_0_r, Rmult_0_l, Rplus_0_r. apply rsum_ext; intros r Hr. replace (Nat.ltb s ns) with true by (symmetry; apply Nat.ltb_lt; lia). replace (Nat.ltb r ns) with true by (symmetry; apply Nat.ltb_lt; lia). reflexivity.
  - intros r Hr. replace (Nat.eqb ns r) with false by (symmetry; apply Nat.eqb_neq; lia). cbn [andb]. ring.
Qed.
Definition ker_pen (L : mat) : R := eta * rsum d (fun t => rsum ns (fun s => rsum ns (fun r => L s t * K s r * L r t)) + (if bias then L ns t ^ 2 else 0)).
Lemma ker_pen_form : forall L, ker_pen L = eta * rsum d (fun t => rsum k (fun s => rsum k (fun r => (L s t - 0) * Rg s r * (L r t - 0)))).
Proof.
  intros L. unfold ker_pen. f_equal. apply rsum_ext; intros t Ht. rewrite <- Rg_form. apply rsum_ext; intros; apply rsum_ext; intros. ring.
Qed.
Lemma k_loss_full : forall L G, k_loss (N:=RNum) ns nt d xs xt mu eta bias K L G = full ns nt d xs xt mu k P ker_pen L G.
Proof.
  intros L G. unfold k_loss, full. rewrite !sqsum_R. cbn [nadd nmul nsub RNum]. f_equal; [f_equal|].
  - apply rsum_ext; intros; apply rsum_ext; intros. rewrite mmul_R, jY_R. reflexivity.
  - f_equal. rewrite Weak_proofs.inner_cost. unfold cost. rewrite <- rsum_scal. apply rsum_ext; intros. rewrite <- rsum_scal. apply rsum_ext; intros. rewrite jM_R. ring.
  - unfold ker_pen. rewrite nsum_R. f_equal. apply rsum_ext; intros t Ht. rewrite <- (Rg_form (fun s => L s t)), nsum_R. rewrite rsum_swap. apply rsum_ext; intros i Hi. rewrite nsum_R. cbn [nmul RNum].
    rewrite <- rsum_scal_r. reflexivity.
Qed.
Lemma k_solve_min : forall G L, k_solve_L (N:=RNum) ns nt d xt eta solve bias K G = Some L ->
  forall L', full ns nt d xs xt mu k P ker_pen L G <= full ns nt d xs xt mu k P ker_pen L' G.
Proof.
  intros G L E L'. unfold k_solve_L in E. assert (NE := Hsolve _ _ _ _ _ E). cbv beta in NE. clear E.
  assert (Q : forall L, rsum ns (fun i => rsum d (fun t => (fitmap k P L i t - target ns nt xt G i t) ^ 2)) + ker_pen L =
     rsum d (fun t => lsq ns k P (fun i => target ns nt xt G i t) eta Rg (fun s => 0) (fun s => L s t))) by (intros; rewrite ker_pen_form; apply (cols_lsq ns k d P (target ns nt xt G) eta Rg (fun _ _ => 0))).
  unfold full. assert (QQ : rsum ns (fun i => rsum d (fun t => (fitmap k P L i t - target ns nt xt G i t) ^ 2)) + ker_pen L <= rsum ns (fun i => rsum d (fun t => (fitmap k P L' i t - target ns nt xt G i t) ^ 2)) + ker_pen L'); [|lra].
  rewrite !Q. apply rsum_le. intros t Ht. apply ls_min; auto.
  - intros; apply Rg_sym.
  - intros x. rewrite Rg_form. assert (A := Kpsd x). destruct bias; [assert (B := pow2_ge_0 (x ns))|]; lra.
  - intros s Hs. rewrite (rsum_ext k (fun r => Rg s r * (L r t - 0)) (fun r => Rg s r * L r t)) by (intros; ring). clear Q L'.
    revert NE Hs. unfold k_K0. destruct bias; intros NE Hs; [|].
    2: { revert NE Hs. unfold k_k, k_K1, k_Kreg. intros NE Hs. rewrite <- rsum_scal, <- rsum_plus. apply rsum_0. intros i Hi. rewrite (Ksym i s).
      specialize (NE i t Hi Ht). cbn [nadd nmul RNum] in NE. rewrite jY_R in NE. rewrite <- NE.
      rewrite (rsum_ext ns (fun r => (K i r + eta * eye (N:=RNum) i r) * L r t) (fun r => K i r * L r t + eta * (eye (N:=RNum) i r * L r t))) by (intros; ring).
      rewrite rsum_plus, rsum_scal. rewrite (rsum_single ns i (fun r => eye (N:=RNum) i r * L r t)); auto.
      * unfold eye. rewrite Nat.eqb_refl. cbn [n1 RNum]. ring.
      * intros r Hr Hn. unfold eye. replace (Nat.eqb i r) with false by (symmetry; apply Nat.eqb_neq; auto). cbn [n0 RNum]. ring. }
    + specialize (NE s t Hs Ht).
      set (k := k_k ns true) in *. set (P := k_K1 (N:=RNum) ns true K) in *. set (Rg := k_Kreg (N:=RNum) ns true K) in *.
      rewrite nsum_R in NE. cbn [nadd nmul RNum] in NE.
      assert (A : rsum ns (fun i => P i s * (rsum k (fun r => P i r * L r t) - target ns nt xt G i t)) = rsum k (fun r => rsum ns (fun i => P i s * P i r) * L r t) - rsum ns (fun i => P i s * target ns nt xt G i t)).
      { rewrite (rsum_ext ns _ (fun i => rsum k (fun r => P i s * P i r * L r t) - P i s * target ns nt xt G i t)).
        - rewrite rsum_minus, rsum_swap. f_equal. apply rsum_ext; intros. rewrite rsum_scal_r. reflexivity.
        - intros i Hi. rewrite Rmult_minus_distr_l, <- rsum_scal. f_equal. apply rsum_ext; intros; ring. }
      rewrite A. rewrite (rsum_ext k _ (fun r => rsum ns (fun i => P i s * P i r) * L r t + eta * (Rg s r * L r t))) in NE by (intros; rewrite nsum_R; cbn [nmul RNum]; ring).
      rewrite rsum_plus, rsum_scal in NE.
      rewrite (rsum_ext ns (fun i => P i s * jY (N:=RNum) ns nt xt G i t) (fun i => P i s * target ns nt xt G i t)) in NE by (intros; rewrite jY_R; reflexivity).
      change (carrier RNum) with R in *. lra.
Qed.
End Ker.

(** ** smooth strongly convex functions satisfy the interpolation constraints *)
Section Smooth.
Variables (d : nat) (l L : R).
Hypotheses (H0 : 0 < l) (HL : l < L).
Definition lower_quad (phi : vec -> R) (g : vec -> vec) : Prop := forall x y, phi x + rsum d (fun t => g x t * (y t - x t)) + l / 2 * rsum d (fun t => (y t - x t) ^ 2) <= phi y.
Definition upper_quad (phi : vec -> R) (g : vec -> vec) : Prop := forall x y, phi y <= phi x + rsum d (fun t => g x t * (y t - x t)) + L / 2 * rsum d (fun t => (y t - x t) ^ 2).
Lemma interp : forall phi g c1 c2 c3 x y, lower_quad phi g -> upper_quad phi g -> ssnb_constants (N:=RNum) l L = Some (c1, c2, c3) ->
  ssnb_rhs (N:=RNum) d c1 c2 c3 (g x) x (phi y) (g y) y <= phi x.
Proof.
  intros phi g c1 c2 c3 x y HLo HU E. unfold ssnb_constants in E. cbn [n0 n1 nltb nmul ndiv nsub RNum] in E.
  assert (T1 : Rltb 0 l = true) by (apply Rltb_true; auto). assert (T2 : Rltb l L = true) by (apply Rltb_true; auto). rewrite T1, T2 in E. cbn [andb] in E.
  inversion E; clear E.
  set (w := fun t => (g x t - g y t) - l * (x t - y t)). set (z := fun t => x t - / (L - l) * w t).
  assert (A := HU x z). assert (B := HLo y z).
  unfold ssnb_rhs, ip, vsub. rewrite !nsum_R. cbn [nadd nmul nsub RNum]. change (two (N:=RNum)) with (1 + 1).
  match goal with |- ?lhs <= _ => assert (EQ : lhs = phi y + rsum d (fun t => g y t * (z t - y t)) + l / 2 * rsum d (fun t => (z t - y t) ^ 2) - rsum d (fun t => g x t * (z t - x t)) - L / 2 * rsum d (fun t => (z t - x t) ^ 2)) end.
  { unfold Rminus. rewrite !Rplus_assoc. f_equal. rewrite !Ropp_mult_distr_l. rewrite <- (Rmult_1_l (- rsum d (fun t => g x t * _))), <- Ropp_mult_distr_r, Ropp_mult_distr_l.
    rewrite <- !rsum_scal. rewrite <- !rsum_plus. apply rsum_ext; intros t Ht. unfold z, w. field. lra. }
  rewrite EQ. lra.
Qed.
End Smooth.
