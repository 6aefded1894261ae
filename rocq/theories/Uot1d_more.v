(** emd_1d_dual_backprop in the caller's order, and the dual bookkeeping of uot_1d *)
From Coq Require Import Reals Lra Lia List Arith Permutation Bool Sorted.
From Verif Require Import Num Sums Spec Monge Perm Emd1d_model Emd1d_proofs Emd1d_perm_proofs Emd1d_final W1d_model W1d_proofs
  Duals_model Duals_proofs Circle_proofs Unb_proofs Uot1d_model Uot1d_proofs.
Import ListNotations.
Local Open Scope R_scope.

Lemma diff_cost_w : forall p x y, diff_cost (N:=RNum) rpow p x y = wmetric p x y.
Proof.
  intros. unfold diff_cost, wmetric. rewrite nabs_R. change (@neqb RNum p n1) with (Reqb p 1). unfold Reqb.
  destruct (Req_EM_T p 1); reflexivity.
Qed.

Lemma wmetric_monge : forall n m (x y : vec) p, 1 <= p -> sorted n x -> sorted m y -> monge n m (fun i j => wmetric p (x i) (y j)).
Proof.
  intros n m x y p Hp Hx Hy k l Hk Hl.
  assert (Hmt : w1_metric p <> MOther) by (unfold w1_metric; destruct (Reqb p 1); discriminate).
  destruct (gfun_convex (w1_metric p) p Hmt ltac:(auto)) as (h & Hc & Hh).
  rewrite <- !diff_cost_w, !diff_cost_gfun, !Hh. apply (convex_monge n m x y h); auto.
Qed.

(** ** positions in a permutation *)
Lemma pos_of_nth : forall l k, NoDup l -> (k < length l)%nat -> pos_of (nth k l 0%nat) l = k.
Proof.
  induction l as [|x l IH]; intros k ND Hk; [cbn in Hk; lia|]. inversion ND as [|? ? Hn ND']; subst. destruct k; cbn [nth pos_of].
  - rewrite Nat.eqb_refl. reflexivity.
  - destruct (Nat.eqb_spec x (nth k l 0%nat)) as [->|]; [exfalso; apply Hn; apply nth_In; cbn in Hk; lia|].
    f_equal. apply IH; auto. cbn in Hk; lia.
Qed.
Lemma nth_pos_of : forall l i, In i l -> nth (pos_of i l) l 0%nat = i /\ (pos_of i l < length l)%nat.
Proof.
  induction l as [|x l IH]; intros i H; [destruct H|]. cbn [pos_of]. destruct (Nat.eqb_spec x i) as [->|Hn].
  - split; [reflexivity|cbn; lia].
  - destruct H as [H|H]; [congruence|]. destruct (IH i H) as [A B]. split; [exact A|cbn; lia].
Qed.

Section PermPos.
Variables (k : nat) (pu : list nat).
Hypothesis Hp : Permutation pu (seq 0 k).
Lemma pp_len : length pu = k. Proof. rewrite (Permutation_length Hp), seq_length; auto. Qed.
Lemma pp_nodup : NoDup pu. Proof. eapply Permutation_NoDup; [apply Permutation_sym, Hp|apply seq_NoDup]. Qed.
Lemma pp_left : forall i, (i < k)%nat -> pos_of (pfun pu i) pu = i.
Proof. intros. apply pos_of_nth; [apply pp_nodup|rewrite pp_len; auto]. Qed.
Lemma pp_right : forall i, (i < k)%nat -> pfun pu (pos_of i pu) = i /\ (pos_of i pu < k)%nat.
Proof.
  intros i Hi. destruct (nth_pos_of pu i) as [A B].
  - eapply Permutation_in; [apply Permutation_sym, Hp|]. apply in_seq. lia.
  - rewrite pp_len in B. split; auto.
Qed.
(** a sum over the caller's order in the sorted order *)
Lemma pp_sum : forall F : nat -> nat -> R, rsum k (fun i => F i (pos_of i pu)) = rsum k (fun l => F (pfun pu l) l).
Proof.
  intros F. rewrite <- (rsum_perm k (pfun pu) (fun i => F i (pos_of i pu))) by (apply perm_list_on; auto).
  apply rsum_ext. intros i Hi. rewrite pp_left by auto. reflexivity.
Qed.
End PermPos.

Lemma pos_of_seq : forall k i, (i < k)%nat -> pos_of i (seq 0 k) = i.
Proof.
  intros k i Hi. pose proof (pos_of_nth (seq 0 k) i (seq_NoDup _ _) ltac:(rewrite seq_length; auto)) as H.
  rewrite seq_nth in H by auto. exact H.
Qed.

(** the interior cumulative weights of the two measures, taken along the given orders, never coincide *)
Definition tie_free (n m : nat) (a b : vec) : Prop :=
  forall i j, (0 < i < n)%nat -> (0 < j < m)%nat -> rsum i a <> rsum j b.

(** the sorting orders used by the code *)
Definition order (require_sort : bool) (x : list RNum) : list nat :=
  if require_sort then argsort (N:=RNum) x else seq 0 (length x).
Lemma order_sorts : forall rs x, (rs = false -> sorted (length x) (lnth x)) -> sorts x (order rs x).
Proof.
  intros rs x H. unfold order. destruct rs; [apply argsort_sorts|]. specialize (H eq_refl).
  split; auto. intros k Hk. unfold pfun. rewrite !seq_nth by lia. apply H; auto.
Qed.

Section Backprop.
Variable tsort : list (R * tag) -> list (R * tag).
Hypothesis Hsort : sorter tsort.

Lemma bp_run : forall (u v uw vw : list RNum) p (rs : bool),
  let n := length u in let m := length v in
  let a := lnth uw in let b := lnth vw in
  let M := fun i j => wmetric p (lnth u i) (lnth v j) in
  length uw = n -> length vw = m -> (0 < n)%nat -> (0 < m)%nat ->
  nonneg_vec n a -> nonneg_vec m b -> mass n a = mass m b -> 0 < mass n a -> 1 <= p ->
  (rs = false -> sorted n (lnth u) /\ sorted m (lnth v)) ->
  exists f g w P, emd_1d_dual_backprop (N:=RNum) rpow tsort u v uw vw p rs = Ok (f, g, w)
    /\ optimal_coupling n m a b M P /\ w = cost n m M P
    /\ dot n a f + dot m b g = w /\ dot n a f = dot m b g
    /\ (pos_vec n a -> pos_vec m b ->
        tie_free n m (fun k => a (pfun (order rs u) k)) (fun k => b (pfun (order rs v) k)) ->
        forall i j, (i < n)%nat -> (j < m)%nat -> f i + g j <= M i j)
    /\ (exists t, forall i j, (i < n)%nat -> (j < m)%nat ->
        let gr := grad_sorted (N:=RNum) rpow tsort (map (fun k => nth k u 0) (order rs u)) (map (fun k => nth k v 0) (order rs v))
                  (map (fun k => nth k uw 0) (order rs u)) (map (fun k => nth k vw 0) (order rs v)) p in
        f i = fst gr (pos_of i (order rs u)) + t /\ g j = snd gr (pos_of j (order rs v)) - t).
Proof.
  intros u v uw vw p rs n m a b M Lu Lv Hn Hm Ha Hb Hab Hpos Hp Hrs.
  destruct (c18 u v uw vw p rs Lu Lv Hn Hm Ha Hb Hab Hp Hrs) as (w & es & E & Ew & O). fold n m a b M in Ew, O.
  set (pu := order rs u). set (pv := order rs v).
  assert (Su : sorts u pu) by (apply order_sorts; intros; apply Hrs; auto).
  assert (Sv : sorts v pv) by (apply order_sorts; intros; apply Hrs; auto).
  destruct Su as [Pu Su]. destruct Sv as [Pv Sv]. fold n in Pu, Su. fold m in Pv, Sv.
  pose proof (perm_list_on n pu Pu) as Sa. pose proof (perm_list_on m pv Pv) as Sb.
  assert (La : length pu = n) by (apply (pp_len n pu Pu)). assert (Lb : length pv = m) by (apply (pp_len m pv Pv)).
  assert (Ia : forall k, In k pu -> (k < n)%nat) by (intros k Hk; apply (Permutation_in _ Pu), in_seq in Hk; lia).
  assert (Ib : forall k, In k pv -> (k < m)%nat) by (intros k Hk; apply (Permutation_in _ Pv), in_seq in Hk; lia).
  assert (T1 := take_ok _ (0 : RNum) u pu ltac:(intros; auto)).
  assert (T2 := take_ok _ (0 : RNum) v pv ltac:(intros; auto)).
  assert (T3 := take_ok _ (0 : RNum) uw pu ltac:(intros; rewrite Lu; auto)).
  assert (T4 := take_ok _ (0 : RNum) vw pv ltac:(intros; rewrite Lv; auto)).
  set (A := map (fun k => nth k uw 0) pu) in *. set (B := map (fun k => nth k vw 0) pv) in *.
  set (U := map (fun k => nth k u 0) pu) in *. set (V := map (fun k => nth k v 0) pv) in *.
  assert (LA : length A = n) by (unfold A; rewrite map_length; auto).
  assert (LB : length B = m) by (unfold B; rewrite map_length; auto).
  assert (LU : length U = n) by (unfold U; rewrite map_length; auto).
  assert (LV : length V = m) by (unfold V; rewrite map_length; auto).
  assert (EA : forall i, (i < n)%nat -> lnth A i = a (pfun pu i)) by (intros; apply lnth_take; lia).
  assert (EB : forall i, (i < m)%nat -> lnth B i = b (pfun pv i)) by (intros; apply lnth_take; lia).
  assert (EU : forall i, (i < n)%nat -> lnth U i = lnth u (pfun pu i)) by (intros; apply lnth_take; lia).
  assert (EV : forall j, (j < m)%nat -> lnth V j = lnth v (pfun pv j)) by (intros; apply lnth_take; lia).
  assert (Pa : nonneg_vec n (lnth A)) by (intros i Hi; rewrite EA by auto; apply Ha; apply Sa; auto).
  assert (Pb : nonneg_vec m (lnth B)) by (intros i Hi; rewrite EB by auto; apply Hb; apply Sb; auto).
  assert (MA : mass n (lnth A) = mass n a).
  { unfold mass. rewrite (rsum_ext n (lnth A) (fun i => a (pfun pu i))) by auto. apply (rsum_perm n (pfun pu)); auto. }
  assert (MB : mass m (lnth B) = mass m b).
  { unfold mass. rewrite (rsum_ext m (lnth B) (fun i => b (pfun pv i))) by auto. apply (rsum_perm m (pfun pv)); auto. }
  set (gr := grad_sorted (N:=RNum) rpow tsort U V A B p).
  set (f0 := fun i => fst gr (pos_of i pu)). set (g0 := fun j => snd gr (pos_of j pv)).
  (* value *)
  assert (Ev : dot n a f0 + dot m b g0 = w).
  { pose proof (euler tsort Hsort U V A B p ltac:(change (carrier RNum) with R in *; congruence) ltac:(change (carrier RNum) with R in *; congruence)) as EU2.
    change (carrier RNum) with R in *. rewrite LU, LV in EU2. fold gr in EU2.
    unfold dot, f0, g0. rewrite (pp_sum n pu Pu (fun i l => a i * fst gr l)), (pp_sum m pv Pv (fun i l => b i * snd gr l)).
    rewrite (rsum_ext n _ (fun i => lnth A i * fst gr i)) by (intros; rewrite EA by auto; reflexivity).
    rewrite (rsum_ext m _ (fun i => lnth B i * snd gr i)) by (intros; rewrite EB by auto; reflexivity).
    etransitivity; [exact EU2|]. rewrite (tsort_values tsort) by auto.
    clear EU2. unfold wasserstein_1d in E. change (@nleb RNum n1 p) with (Rleb 1 p) in E.
    assert (Rleb 1 p = true) as RL by (apply Rleb_true; auto). rewrite RL in E.
    assert (E' : wasserstein_1d_with_perm (N:=RNum) rpow u v uw vw p pu pv = Ok (w, es)) by (unfold pu, pv, order; destruct rs; exact E).
    unfold wasserstein_1d_with_perm in E'. change (carrier RNum) with R in *. rewrite T1, T2, T3, T4 in E'. injection E' as E1 _. exact E1. }
  set (cc := (dot m b g0 - dot n a f0) / (mass n a + mass m b)).
  exists (fun i => f0 i + cc), (fun j => g0 j - cc), w, (dmat es).
  assert (D1 : dot n a (fun i => f0 i + cc) = dot n a f0 + cc * mass n a).
  { unfold dot, mass. rewrite <- rsum_scal, <- rsum_plus. apply rsum_ext. intros; ring. }
  assert (D2 : dot m b (fun i => g0 i - cc) = dot m b g0 - cc * mass m b).
  { unfold dot, mass. rewrite <- rsum_scal, <- rsum_minus. apply rsum_ext. intros; ring. }
  split; [|split; [exact O|split; [exact Ew|split; [|split; [|split]]]]].
  - unfold emd_1d_dual_backprop. rewrite E. change (if rs then argsort u else seq 0 (length u)) with pu.
    change (if rs then argsort v else seq 0 (length v)) with pv.
    change (carrier RNum) with R in *. rewrite T1, T2, T3, T4.
    change (grad_sorted (N:=RNum) rpow tsort U V A B p) with gr. rewrite (surjective_pairing gr).
    unfold center_ot_dual. rewrite !nsum_R. reflexivity.
  - rewrite D1, D2, Hab. lra.
  - rewrite D1, D2, <- Hab. assert (X : cc * (mass n a + mass n a) = dot m b g0 - dot n a f0) by (unfold cc; rewrite <- Hab; field; lra). lra.
  - intros Pa' Pb' TF i j Hi Hj.
    destruct (pp_right n pu Pu i Hi) as [Ei Ri]. destruct (pp_right m pv Pv j Hj) as [Ej Rj].
    assert (F : fst gr (pos_of i pu) + snd gr (pos_of j pv) <= wmetric p (lnth U (pos_of i pu)) (lnth V (pos_of j pv))).
    { assert (W : forall x y, wmetric p x y = diff_cost (N:=RNum) rpow p x y) by (intros; symmetry; apply diff_cost_w). rewrite W.
      apply (feasible tsort Hsort U V A B p); change (carrier RNum) with R in *; rewrite ?LU, ?LV, ?LA, ?LB; auto.
      - congruence.
      - intros l Hl. rewrite EA by auto. apply Pa'. apply Sa; auto.
      - intros l Hl. rewrite EB by auto. apply Pb'. apply Sb; auto.
      - intros x y Hx Hy. rewrite (rsum_ext x (lnth A) (fun k => a (pfun pu k))), (rsum_ext y (lnth B) (fun k => b (pfun pv k))) by (intros; auto with *; first [apply EA|apply EB]; lia).
        apply TF; auto.
      - intros x y Hx Hy. rewrite <- !W. apply (wmetric_monge n m (lnth U) (lnth V) p); auto.
        + intros k Hk. rewrite !EU by lia. auto. + intros k Hk. rewrite !EV by lia. auto. }
    rewrite EU, EV in F by auto. rewrite Ei, Ej in F. unfold M, f0, g0. lra.
  - exists cc. intros i j Hi Hj. cbv zeta. split; reflexivity.
Qed.
End Backprop.
