(** unbalanced_sliced_ot: the loop, the returned marginals and the certificates *)
From Coq Require Import Reals Lra Lia List Arith Permutation Bool Sorted.
From Verif Require Import Num Sums Spec Monge Perm Emd1d_model Emd1d_proofs Emd1d_perm_proofs Emd1d_final W1d_model W1d_proofs
  Duals_model Duals_proofs Circle_proofs Unb_proofs Utils_model Circle_model Sliced_model Uot1d_model Uot1d_proofs Uot1d_more Uot1d_uot Usot_model.
Import ListNotations.
Local Open Scope R_scope.

(** ** specification: marginals a', b' shared by all directions, one coupling per direction *)
Definition davg (K : nat) (x : nat -> R) : R := rsum K x / INR K.
Definition usot_plan (K n m : nat) (a b : vec) (r1 r2 : option R) (a' b' : vec) (P : nat -> mat) : Prop :=
  (forall q, (q < K)%nat -> coupling n m a' b' (P q)) /\ nonneg_vec n a' /\ nonneg_vec m b' /\ hard r1 n a' a /\ hard r2 m b' b.
Definition usot_obj (K n m : nat) (M : nat -> mat) (a b : vec) (r1 r2 : option R) (a' b' : vec) (P : nat -> mat) : R :=
  davg K (fun q => cost n m (M q) (P q)) + penalty r1 n a' a + penalty r2 m b' b.
(** potentials that are averages of feasible potentials, one pair per direction *)
Definition usot_feasible (K n m : nat) (M : nat -> mat) (f g : vec) : Prop :=
  exists fq gq : nat -> vec, (forall q, (q < K)%nat -> dual_feasible n m (M q) (fq q) (gq q))
    /\ (forall i, (i < n)%nat -> f i = davg K (fun q => fq q i)) /\ (forall j, (j < m)%nat -> g j = davg K (fun q => gq q j)).

Lemma INRK : forall K, (0 < K)%nat -> 0 < INR K. Proof. intros. change 0 with (INR 0). apply lt_INR; auto. Qed.
Lemma dmean_R : forall K x, dmean (N:=RNum) K x = davg K x.
Proof. intros. unfold dmean, davg. rewrite nsum_R, nofnat_INR. reflexivity. Qed.
Lemma davg_ext : forall K x y, (forall q, (q < K)%nat -> x q = y q) -> davg K x = davg K y.
Proof. intros. unfold davg. f_equal. apply rsum_ext; auto. Qed.
Lemma davg_le : forall K x y, (forall q, (q < K)%nat -> x q <= y q) -> davg K x <= davg K y.
Proof.
  intros K x y H. unfold davg, Rdiv. destruct K; [cbn; lra|]. apply Rmult_le_compat_r; [apply Rlt_le, Rinv_0_lt_compat, INRK; lia|]. apply rsum_le; auto.
Qed.
Lemma davg_plus : forall K x y, davg K (fun q => x q + y q) = davg K x + davg K y.
Proof. intros. unfold davg. rewrite (rsum_plus K x y). unfold Rdiv. ring. Qed.
Lemma davg_scal : forall K c x, davg K (fun q => c * x q) = c * davg K x.
Proof. intros. unfold davg. rewrite (rsum_scal K c x). unfold Rdiv. ring. Qed.
Lemma davg_const : forall K c, (0 < K)%nat -> davg K (fun _ => c) = c.
Proof. intros K c H. unfold davg. rewrite rsum_const. pose proof (INRK K H). field. lra. Qed.
Lemma davg_sum : forall K n (x : nat -> nat -> R), rsum n (fun i => davg K (fun q => x q i)) = davg K (fun q => rsum n (x q)).
Proof. intros. unfold davg. rewrite rsum_div. f_equal. rewrite rsum_swap. reflexivity. Qed.

(** weak duality *)
Lemma usot_weak : forall K n m M a b r1 r2 f g a' b' P, (0 < K)%nat -> pos_rm r1 -> pos_rm r2 -> pos_vec n a -> pos_vec m b ->
  usot_feasible K n m M f g -> usot_plan K n m a b r1 r2 a' b' P -> udual n m a b r1 r2 f g <= usot_obj K n m M a b r1 r2 a' b' P.
Proof.
  intros K n m M a b r1 r2 f g a' b' P HK H1 H2 Ha Hb (fq & gq & Hf & Ef & Eg) (HP & Na & Nb & Hh1 & Hh2).
  pose proof (dterm_weak n a f r1 a' H1 Ha Na Hh1) as A.
  pose proof (dterm_weak m b g r2 b' H2 Hb Nb Hh2) as B.
  assert (C : rsum n (fun i => f i * a' i) + rsum m (fun j => g j * b' j) <= davg K (fun q => cost n m (M q) (P q))).
  { rewrite (rsum_ext n (fun i => f i * a' i) (fun i => davg K (fun q => a' i * fq q i)))
      by (intros i Hi; rewrite (davg_scal K (a' i) (fun q => fq q i)), (Ef i Hi); ring).
    rewrite (rsum_ext m (fun j => g j * b' j) (fun j => davg K (fun q => b' j * gq q j)))
      by (intros j Hj; rewrite (davg_scal K (b' j) (fun q => gq q j)), (Eg j Hj); ring).
    rewrite (davg_sum K n (fun q i => a' i * fq q i)), (davg_sum K m (fun q j => b' j * gq q j)), <- davg_plus.
    apply davg_le. intros q Hq. destruct (HP q Hq) as (Pn & Pr & Pc). unfold cost.
    rewrite (rsum_ext n (fun i => a' i * fq q i) (fun i => rsum m (fun j => fq q i * P q i j))).
    2:{ intros i Hi. rewrite <- (Pr i Hi). unfold row_sum. rewrite (rsum_scal m (fq q i) (fun j => P q i j)). ring. }
    rewrite (rsum_ext m (fun j => b' j * gq q j) (fun j => rsum n (fun i => gq q j * P q i j))).
    2:{ intros j Hj. rewrite <- (Pc j Hj). unfold col_sum. rewrite (rsum_scal n (gq q j) (fun i => P q i j)). ring. }
    rewrite (rsum_swap m n). rewrite <- rsum_plus. apply rsum_le. intros i Hi. rewrite <- rsum_plus. apply rsum_le. intros j Hj.
    pose proof (Hf q Hq i j Hi Hj). pose proof (Pn i j Hi Hj). nra. }
  unfold udual, usot_obj. lra.
Qed.

Lemma all_ok_seq : forall (A : Type) (d : A) (F : nat -> res A) K, (forall q, (q < K)%nat -> exists y, F q = Ok y) ->
  exists ys, all_ok (map F (seq 0 K)) = Ok ys /\ length ys = K /\ forall q, (q < K)%nat -> F q = Ok (nth q ys d).
Proof.
  intros A d F K H.
  assert (G : forall k s, (s + k <= K)%nat -> exists ys, all_ok (map F (seq s k)) = Ok ys /\ length ys = k /\ forall q, (q < k)%nat -> F (s + q)%nat = Ok (nth q ys d)).
  { induction k; intros s Hs; [exists []; repeat split; intros; lia|].
    destruct (H s ltac:(lia)) as (y & E). destruct (IHk (S s) ltac:(lia)) as (ys & E' & L & Q).
    exists (y :: ys). cbn [seq map all_ok]. rewrite E, E'. split; [reflexivity|]. split; [cbn; congruence|].
    intros [|q] Hq; [rewrite Nat.add_0_r; exact E|]. cbn [nth]. rewrite <- Q by lia. f_equal. lia. }
  destruct (G K 0%nat ltac:(lia)) as (ys & E & L & Q). exists ys. auto.
Qed.

(** ** one direction *)
Section Dir.
Variable tsort : list (R * tag) -> list (R * tag).
Hypothesis Hsort : sorter tsort.
Variables (u v : list RNum) (p : R) (w1 w2 : vec).
Let n := length u.
Let m := length v.
Hypothesis Hn : (0 < n)%nat.
Hypothesis Hm : (0 < m)%nat.
Hypothesis Hp : 1 <= p.
Hypothesis P1 : pos_vec n w1.
Hypothesis P2 : pos_vec m w2.
Hypothesis Heq : mass n w1 = mass m w2.
Let M i j := wmetric p (lnth u i) (lnth v j).
Let pu := argsort (N:=RNum) u.
Let pv := argsort (N:=RNum) v.
Let us := sl_us (mk_slice (N:=RNum) u v).
Let vs := sl_vs (mk_slice (N:=RNum) u v).
Let s1 : vec := fun l => w1 (nth l pu 0%nat).
Let s2 : vec := fun l => w2 (nth l pv 0%nat).
Let ur : vec := fun l => s1 l / rsum n s1.
Let vr : vec := fun l => s2 l / rsum m s2.

Lemma dir_facts : Permutation pu (seq 0 n) /\ Permutation pv (seq 0 m) /\ length us = n /\ length vs = m
  /\ (forall i, (i < n)%nat -> lnth us i = lnth u (pfun pu i)) /\ (forall j, (j < m)%nat -> lnth vs j = lnth v (pfun pv j))
  /\ sorted n (lnth us) /\ sorted m (lnth vs) /\ rsum n s1 = mass n w1 /\ rsum m s2 = mass m w2 /\ 0 < mass n w1
  /\ pos_vec n ur /\ pos_vec m vr /\ mass n ur = 1 /\ mass m vr = 1.
Proof.
  destruct (argsort_sorts u) as [Pu Su]. destruct (argsort_sorts v) as [Pv Sv]. fold n pu in Pu, Su. fold m pv in Pv, Sv.
  pose proof (perm_list_on n pu Pu) as Sa. pose proof (perm_list_on m pv Pv) as Sb.
  assert (Lu : length us = n) by (unfold us; cbn [mk_slice sl_us]; rewrite map_length; apply (pp_len n pu Pu)).
  assert (Lv : length vs = m) by (unfold vs; cbn [mk_slice sl_vs]; rewrite map_length; apply (pp_len m pv Pv)).
  assert (EU : forall i, (i < n)%nat -> lnth us i = lnth u (pfun pu i)) by (intros; apply lnth_take; rewrite (pp_len n pu Pu); auto).
  assert (EV : forall j, (j < m)%nat -> lnth vs j = lnth v (pfun pv j)) by (intros; apply lnth_take; rewrite (pp_len m pv Pv); auto).
  assert (E1 : rsum n s1 = mass n w1) by (apply (rsum_perm n (pfun pu) w1); auto).
  assert (E2 : rsum m s2 = mass m w2) by (apply (rsum_perm m (pfun pv) w2); auto).
  assert (Pm : 0 < mass n w1) by (apply sum_pos; auto).
  repeat (split; [first [assumption | intros i Hi; rewrite ?EU, ?EV by lia; first [apply Su; auto | apply Sv; auto]] | ]).
  split; [intros i Hi; unfold ur; rewrite E1; apply Rdiv_lt_0_compat; [apply P1, Sa; auto|auto]|].
  split; [intros i Hi; unfold vr; rewrite E2, <- Heq; apply Rdiv_lt_0_compat; [apply P2, Sb; auto|auto]|].
  split.
  - unfold mass, ur. rewrite (rsum_ext n _ (fun l => / rsum n s1 * s1 l)) by (intros; unfold Rdiv; ring). rewrite rsum_scal, E1. field. lra.
  - unfold mass, vr. rewrite (rsum_ext m _ (fun l => / rsum m s2 * s2 l)) by (intros; unfold Rdiv; ring). rewrite rsum_scal, E2, <- Heq. field. lra.
Qed.

Lemma dir_call : exists fd gd w, emd_1d_dual_backprop (N:=RNum) rpow tsort us vs (tabv (N:=RNum) n ur) (tabv (N:=RNum) m vr) p false = Ok (fd, gd, w)
  /\ (tie_free n m ur vr -> dual_feasible n m M (fun i => fd (pos_of i pu)) (fun j => gd (pos_of j pv))).
Proof.
  destruct dir_facts as (Pu & Pv & Lu & Lv & EU & EV & Su & Sv & E1 & E2 & Pm & U1 & U2 & N1 & N2).
  pose proof (call_ok tsort Hsort us vs p) as C. change (carrier RNum) with R in *. rewrite Lu, Lv in C.
  destruct (C Hn Hm Hp Su Sv ur vr U1 U2 N1 N2) as (fd & gd & w & E & _ & _ & F).
  exists fd, gd, w. split; [exact E|]. intros TF i j Hi Hj.
  destruct (pp_right n pu Pu i Hi) as [A1 A2]. destruct (pp_right m pv Pv j Hj) as [B1 B2].
  pose proof (F TF (pos_of i pu) (pos_of j pv) A2 B2) as Q. cbn beta in Q. rewrite EU, EV in Q by auto. rewrite A1, B1 in Q. exact Q.
Qed.

Lemma dir_value : exists w es P, wasserstein_1d (N:=RNum) rpow us vs (Some (tabv (N:=RNum) n ur)) (Some (tabv (N:=RNum) m vr)) p false = Ok (w, es)
  /\ optimal_coupling n m w1 w2 M P /\ w * rsum n s1 = cost n m M P.
Proof.
  destruct dir_facts as (Pu & Pv & Lu & Lv & EU & EV & Su & Sv & E1 & E2 & Pm & U1 & U2 & N1 & N2).
  pose proof (c18 us vs (tabv (N:=RNum) n ur) (tabv (N:=RNum) m vr) p false) as W. cbv zeta in W. change (carrier RNum) with R in *. rewrite Lu, Lv in W.
  assert (X1 : forall i, (i < n)%nat -> lnth (tabv (N:=RNum) n ur) i = ur i) by (intros; apply tabv_nth; auto).
  assert (X2 : forall i, (i < m)%nat -> lnth (tabv (N:=RNum) m vr) i = vr i) by (intros; apply tabv_nth; auto).
  destruct W as (w & es & Ew & Ec & O); auto.
  { apply tabv_len. } { apply tabv_len. }
  { intros i Hi; rewrite X1 by auto; left; auto. } { intros i Hi; rewrite X2 by auto; left; auto. }
  { unfold mass. rewrite (rsum_ext n _ ur), (rsum_ext m _ vr) by auto. unfold mass in N1, N2. lra. }
  assert (O' : optimal_coupling n m ur vr (fun i j => wmetric p (lnth us i) (lnth vs j)) (dmat es)).
  { eapply optimal_ext; [| | | |exact O]; auto. }
  set (fm := rsum n s1) in *. assert (Pfm : 0 < fm) by (rewrite E1; exact Pm).
  apply (scale_optimal _ _ _ _ _ _ fm Pfm) in O'.
  pose proof (perm_list_on n pu Pu) as Sa. pose proof (perm_list_on m pv Pv) as Sb.
  exists w, es, (fun i j => dmat es (pos_of i pu) (pos_of j pv) * fm). split; [exact Ew|]. split.
  - apply (optimal_relabel n m (pfun pu) (pfun pv)); auto.
    eapply optimal_ext; [| | | |exact O'].
    + intros i Hi. unfold ur. fold fm. cbn beta. change (s1 i) with (w1 (pfun pu i)). field. lra.
    + intros i Hi. unfold vr. cbn beta. rewrite E2, <- Heq, <- E1. change (s2 i) with (w2 (pfun pv i)). field. lra.
    + intros i j Hi Hj. unfold M. rewrite EU, EV by auto. reflexivity.
    + intros i j Hi Hj. rewrite (pp_left n pu Pu), (pp_left m pv Pv) by auto. reflexivity.
  - rewrite Ec. rewrite <- (cost_relabel n m (pfun pu) (pfun pv) M) by auto.
    rewrite (Rmult_comm (cost n m _ _) fm). unfold cost. rewrite <- rsum_scal. apply rsum_ext. intros i Hi. rewrite <- rsum_scal.
    apply rsum_ext. intros j Hj. unfold M. rewrite EU, EV by auto. rewrite (pp_left n pu Pu), (pp_left m pv Pv) by auto. ring.
Qed.
End Dir.

(** ** the loop *)
Section Loop.
Variable tsort : list (R * tag) -> list (R * tag).
Hypothesis Hsort : sorter tsort.
Variables (K n m : nat) (u v : nat -> list RNum) (p : R) (a b : vec) (r1 r2 : option R).
Hypothesis HK : (0 < K)%nat.
Hypothesis Hn : (0 < n)%nat.
Hypothesis Hm : (0 < m)%nat.
Hypothesis Lu : forall q, length (u q) = n.
Hypothesis Lv : forall q, length (v q) = m.
Hypothesis Ha : pos_vec n a.
Hypothesis Hb : pos_vec m b.
Hypothesis Hp : 1 <= p.
Hypothesis H1 : pos_rm r1.
Hypothesis H2 : pos_rm r2.
Hypothesis Hbal : r1 = None -> r2 = None -> mass n a = mass m b.
Let M q i j := wmetric p (lnth (u q) i) (lnth (v q) j).
Let sl q := mk_slice (N:=RNum) (u q) (v q).

Notation transl f g := (usot_transl (N:=RNum) exp ln n m a b r1 r2 f g).
Notation an f q := (usot_an (N:=RNum) exp n sl a r1 f q).
Notation bn g q := (usot_bn (N:=RNum) exp m sl b r2 g q).

Lemma transl_props : forall f g, exists t, t = rescale_potentials (N:=RNum) exp ln n m f g a b r1 r2
  /\ transl f g = (fun i => f i + t, fun j => g j - t)
  /\ pos_vec n (rew (fun i => f i + t) a r1) /\ pos_vec m (rew (fun j => g j - t) b r2)
  /\ mass n (rew (fun i => f i + t) a r1) = mass m (rew (fun j => g j - t) b r2).
Proof.
  intros f g. eexists. split; [reflexivity|]. split; [reflexivity|]. split; [apply rew_pos; auto|]. split; [apply rew_pos; auto|].
  apply (mass_equal n m a b r1 r2 Hn Hm Ha Hb H1 H2 Hbal f g).
Qed.

(** the normalised weights of direction q, in sorted order *)
Definition nw (k : nat) (pu : list nat) (w : vec) : vec := fun l => w (nth l pu 0%nat) / rsum k (fun l => w (nth l pu 0%nat)).
Lemma an_nw : forall f q, an f q = tabv (N:=RNum) n (nw n (sl_pu (sl q)) (rew f a r1)).
Proof. intros. unfold usot_an, nw. f_equal. apply FunctionalExtensionality.functional_extensionality. intros l. rewrite nsum_R. reflexivity. Qed.
Lemma bn_nw : forall g q, bn g q = tabv (N:=RNum) m (nw m (sl_pv (sl q)) (rew g b r2)).
Proof. intros. unfold usot_bn, nw. f_equal. apply FunctionalExtensionality.functional_extensionality. intros l. rewrite nsum_R. reflexivity. Qed.

Lemma dirs : forall f g, pos_vec n (rew f a r1) -> pos_vec m (rew g b r2) -> mass n (rew f a r1) = mass m (rew g b r2) ->
  forall q, (q < K)%nat ->
  (exists fd gd w, emd_1d_dual_backprop (N:=RNum) rpow tsort (sl_us (sl q)) (sl_vs (sl q)) (an f q) (bn g q) p false = Ok (fd, gd, w)
    /\ (tie_free n m (nw n (sl_pu (sl q)) (rew f a r1)) (nw m (sl_pv (sl q)) (rew g b r2)) ->
        dual_feasible n m (M q) (fun i => fd (pos_of i (sl_pu (sl q)))) (fun j => gd (pos_of j (sl_pv (sl q))))))
  /\ (exists w es P, wasserstein_1d (N:=RNum) rpow (sl_us (sl q)) (sl_vs (sl q)) (Some (an f q)) (Some (bn g q)) p false = Ok (w, es)
    /\ optimal_coupling n m (rew f a r1) (rew g b r2) (M q) P
    /\ w * rsum n (fun l => rew f a r1 (nth l (sl_pu (sl q)) 0%nat)) = cost n m (M q) P).
Proof.
  intros f g P1 P2 E q Hq. rewrite an_nw, bn_nw.
  pose proof (dir_call tsort Hsort (u q) (v q) p (rew f a r1) (rew g b r2)) as C.
  pose proof (dir_value (u q) (v q) p (rew f a r1) (rew g b r2)) as D.
  change (carrier RNum) with R in *. rewrite Lu, Lv in C, D. split; [apply C|apply D]; auto.
Qed.

(** no direction has interior cumulative weights in common, at any iteration *)
Fixpoint usot_tie_free (k i : nat) (f g : vec) : Prop :=
  match k with
  | O => True
  | S k' =>
      let (f, g) := transl f g in
      (forall q, (q < K)%nat -> tie_free n m (nw n (sl_pu (sl q)) (rew f a r1)) (nw m (sl_pv (sl q)) (rew g b r2)))
      /\ match all_ok (map (fun q => emd_1d_dual_backprop (N:=RNum) rpow tsort (sl_us (sl q)) (sl_vs (sl q)) (an f q) (bn g q) p false) (seq 0 K)) with
         | Ok l =>
             let t := 2 / (2 + INR i) in
             usot_tie_free k' (S i)
               (fun x => f x + t * (davg K (fun q => fst (fst (nth q l ((fun _ => 0), (fun _ => 0), 0))) (pos_of x (sl_pu (sl q)))) - f x))
               (fun x => g x + t * (davg K (fun q => snd (fst (nth q l ((fun _ => 0), (fun _ => 0), 0))) (pos_of x (sl_pv (sl q)))) - g x))
         | _ => True
         end
  end.

Lemma feas_shift : forall f g t, usot_feasible K n m M f g -> usot_feasible K n m M (fun i => f i + t) (fun j => g j - t).
Proof.
  intros f g t (fq & gq & F & Ef & Eg). exists (fun q i => fq q i + t), (fun q j => gq q j + - t). split; [|split].
  - intros q Hq i j Hi Hj. pose proof (F q Hq i j Hi Hj). lra.
  - intros i Hi. rewrite (davg_plus K (fun q => fq q i) (fun _ => t)), davg_const, Ef by auto. reflexivity.
  - intros j Hj. rewrite (davg_plus K (fun q => gq q j) (fun _ => - t)), davg_const, Eg by auto. reflexivity.
Qed.
Lemma feas_step : forall f g (fd gd : nat -> vec) t, 0 <= t <= 1 -> usot_feasible K n m M f g ->
  (forall q, (q < K)%nat -> dual_feasible n m (M q) (fd q) (gd q)) ->
  usot_feasible K n m M (fun x => f x + t * (davg K (fun q => fd q x) - f x)) (fun x => g x + t * (davg K (fun q => gd q x) - g x)).
Proof.
  intros f g fd gd t Ht (fq & gq & F & Ef & Eg) D. exists (fun q i => (1 - t) * fq q i + t * fd q i), (fun q i => (1 - t) * gq q i + t * gd q i). split; [|split].
  - intros q Hq i j Hi Hj. pose proof (F q Hq i j Hi Hj). pose proof (D q Hq i j Hi Hj). nra.
  - intros i Hi. rewrite (davg_plus K (fun q => (1 - t) * fq q i) (fun q => t * fd q i)), (davg_scal K (1 - t) (fun q => fq q i)), (davg_scal K t (fun q => fd q i)), Ef by auto. ring.
  - intros i Hi. rewrite (davg_plus K (fun q => (1 - t) * gq q i) (fun q => t * gd q i)), (davg_scal K (1 - t) (fun q => gq q i)), (davg_scal K t (fun q => gd q i)), Eg by auto. ring.
Qed.

Lemma usot_loop_ok : forall k i f g, exists f' g', usot_loop (N:=RNum) rpow exp ln tsort n m K sl a b r1 r2 p k i f g = Ok (f', g')
  /\ (usot_feasible K n m M f g -> usot_tie_free k i f g -> usot_feasible K n m M f' g').
Proof.
  induction k; intros i f g; [exists f, g; split; [reflexivity|auto]|].
  cbn [usot_loop usot_tie_free]. destruct (transl_props f g) as (t & Et & E & P1 & P2 & Em).
  rewrite E. cbv beta iota zeta. set (f1 := fun x => f x + t) in *. set (g1 := fun x => g x - t) in *.
  set (dfl := ((fun _ : nat => 0), (fun _ : nat => 0), 0) : (nat -> R) * (nat -> R) * R).
  destruct (all_ok_seq ((nat -> R) * (nat -> R) * R) dfl (fun q => emd_1d_dual_backprop (N:=RNum) rpow tsort (sl_us (sl q)) (sl_vs (sl q)) (an f1 q) (bn g1 q) p false) K) as (l & El & _ & Q).
  { intros q Hq. destruct (proj1 (dirs f1 g1 P1 P2 Em q Hq)) as (fd & gd & w & X & _). exists (fd, gd, w). exact X. }
  change (carrier RNum) with R in *. rewrite El. cbn [bind].
  destruct (IHk (S i)
     (fun x => f1 x + 2 / (2 + INR i) * (davg K (fun q => fst (fst (nth q l dfl)) (pos_of x (sl_pu (sl q)))) - f1 x))
     (fun x => g1 x + 2 / (2 + INR i) * (davg K (fun q => snd (fst (nth q l dfl)) (pos_of x (sl_pv (sl q)))) - g1 x))) as (f' & g' & E' & F').
  exists f', g'. split.
  - rewrite <- E'. f_equal; apply FunctionalExtensionality.functional_extensionality; intros x; rewrite dmean_R; pose proof (step_size i) as SS; cbn in SS |- *; rewrite SS; reflexivity.
  - intros FE [TF TR]. apply F'; [|exact TR].
    assert (T : 0 <= 2 / (2 + INR i) <= 1).
    { pose proof (pos_INR i). split; [apply Rlt_le, Rdiv_lt_0_compat; lra|]. apply (Rmult_le_reg_r (2 + INR i)); [lra|].
      replace (2 / (2 + INR i) * (2 + INR i)) with 2 by (field; lra). lra. }
    apply (feas_step f1 g1 (fun q x => fst (fst (nth q l dfl)) (pos_of x (sl_pu (sl q)))) (fun q x => snd (fst (nth q l dfl)) (pos_of x (sl_pv (sl q)))) _ T).
    + apply feas_shift; exact FE.
    + intros q Hq. destruct (proj1 (dirs f1 g1 P1 P2 Em q Hq)) as (fd & gd & w & X & Y). specialize (Q q Hq).
      assert (Eq : nth q l dfl = (fd, gd, w)) by (cbv beta in Q; congruence).
      intros x y Hx Hy. rewrite Eq. cbn [fst snd]. apply Y; auto.
Qed.
End Loop.
