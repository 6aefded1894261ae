(** ot_cost_on_circle is the cost of a coupling, for every theta; the binary search terminates *)
From Coq Require Import List Arith Bool Reals Lra Lia Permutation FunctionalExtensionality.
From Verif Require Import Num Sums Spec Monge Perm Duals_proofs Emd1d_model Emd1d_proofs Emd1d_perm_proofs W1d_model W1d_proofs Circle_model Circle_proofs Circle_more.
Import ListNotations.
Local Open Scope R_scope.

Lemma quantile_coupling : forall (ws W : list RNum) (l : list R), (0 < length ws)%nat -> (0 < length W)%nat -> nonneg_vec (length ws) (lnth ws) -> nonneg_vec (length W) (lnth W) ->
  mass (length ws) (lnth ws) = mass (length W) (lnth W) -> asc 0 l -> (forall q, In q l -> q <= rsum (length ws) (lnth ws)) ->
  (forall k, (0 < k <= length ws)%nat -> In (rsum k (lnth ws)) l) -> (forall k, (0 < k <= length W)%nat -> In (rsum k (lnth W)) l) ->
  coupling (length ws) (length W) (lnth ws) (lnth W) (dmat (quantile_plan (N:=RNum) (length ws) (length W) (cumsum ws) (cumsum W) 0 l)).
Proof.
  intros ws W l Hn Hm Ha Hb Hab As Ub Ia Ib. apply min_cum_coupling; auto.
  - intros i j _ _. apply dmat_nonneg. apply quantile_plan_nonneg; auto.
  - intros k k' Hk Hk'. rewrite cumF_dmat. destruct (Nat.eq_dec k 0) as [-> | K0].
    { rewrite esum_box_0 by auto. rewrite Rmin_left; [reflexivity|]. simpl. apply rsum_nonneg; intros; apply Hb; lia. }
    destruct (Nat.eq_dec k' 0) as [-> | K0'].
    { rewrite esum_box_0 by auto. rewrite Rmin_right; [reflexivity|]. simpl. apply rsum_nonneg; intros; apply Ha; lia. }
    pose proof (plan_box ws W Hn Hm Ha Hb Hab l 0 k k' ltac:(lia) ltac:(lia) Ub) as E.
    change (carrier RNum) with R in *. rewrite E. rewrite tele_in; [lra|auto|]. unfold Rmin. destruct (Rle_dec _ _); [apply Ia; lia|apply Ib; lia].
Qed.

Lemma searchsorted_app1 : forall (l : list R) q, q <= 1 -> searchsorted (N:=RNum) (l ++ [1]) q = searchsorted (N:=RNum) l q.
Proof.
  induction l as [|c l IH]; intros q Hq; cbn [app searchsorted nltb RNum].
  - replace (Rltb 1 q) with false by (symmetry; apply Rltb_false; auto). reflexivity.
  - rewrite IH by auto. reflexivity.
Qed.
Lemma quantile_plan_app1 : forall n m cu (cv l : list R) prev, (forall q, In q l -> q <= 1) ->
  quantile_plan (N:=RNum) n m cu (cv ++ [1]) prev l = quantile_plan (N:=RNum) n m cu cv prev l.
Proof.
  induction l as [|q l IH]; intros prev H; [reflexivity|]. cbn [quantile_plan]. rewrite IH by (intros; apply H; right; auto). f_equal. f_equal. unfold quantile_idx.
  f_equal. apply searchsorted_app1. apply H; left; auto.
Qed.

Lemma nth_skipn' : forall A s k (l : list A) d, nth k (skipn s l) d = nth (s + k) l d.
Proof. induction s; intros k l d; [reflexivity|]. destruct l; [cbn; destruct k; auto|]. cbn [skipn Nat.add nth]. apply IHs. Qed.
Lemma nth_firstn' : forall A s k (l : list A) d, (k < s)%nat -> nth k (firstn s l) d = nth k l d.
Proof. induction s; intros k l d Hk; [lia|]. destruct l; [reflexivity|]. cbn [firstn]. destruct k; [reflexivity|]. cbn [nth]. apply IHs; lia. Qed.
Definition phi (m s k : nat) : nat := if Nat.ltb (s + k) m then (s + k)%nat else (s + k - m)%nat.
Lemma rot_length : forall A s (l : list A), length (rot s l) = length l.
Proof. intros. unfold rot. rewrite app_length, Nat.add_comm, <- app_length, firstn_skipn. reflexivity. Qed.
Lemma nth_rot : forall A s k (l : list A) d, (s < length l)%nat -> (k < length l)%nat -> nth k (rot s l) d = nth (phi (length l) s k) l d.
Proof.
  intros A s k l d Hs Hk. unfold rot, phi. destruct (Nat.ltb_spec (s + k) (length l)).
  - rewrite app_nth1 by (rewrite skipn_length; lia). apply nth_skipn'.
  - rewrite app_nth2 by (rewrite skipn_length; lia). rewrite skipn_length. rewrite nth_firstn' by lia. f_equal. lia.
Qed.
Lemma nth_map2 : forall A B C (f : A -> B -> C) l l' k d d' e, length l = length l' -> (k < length l)%nat -> nth k (map2 f l l') e = f (nth k l d) (nth k l' d').
Proof. induction l; intros l' k d d' e E Hk; [cbn in Hk; lia|]. destruct l' as [|y l']; [discriminate|]. cbn [map2]. destruct k; [reflexivity|]. cbn [nth]. apply IHl; cbn in *; lia. Qed.
Lemma map2_length : forall A B C (f : A -> B -> C) l l', length l = length l' -> length (map2 f l l') = length l.
Proof. induction l; intros l' E; destruct l'; try discriminate; [reflexivity|]. cbn in *. f_equal. apply IHl. lia. Qed.

Lemma argmin_from_ext : forall k i best bv (f g : nat -> option RNum), (forall j, (i <= j < i + k)%nat -> f j = g j) -> argmin_from k i best bv f = argmin_from k i best bv g.
Proof.
  induction k; intros i best bv f g H; [reflexivity|]. cbn [argmin_from]. rewrite (H i) by lia. destruct (g i), bv; try (match goal with |- context [if ?b then _ else _] => destruct b end); apply IHk; intros; apply H; lia.
Qed.

Section Cost.
Variables (u v ws wv : list RNum) (theta p : R).
Let n := length u. Let m := length v.
Hypotheses (Lu : length ws = n) (Lv : length wv = m) (Hn : (0 < n)%nat) (Hm : (0 < m)%nat).
Hypotheses (Ha : nonneg_vec n (lnth ws)) (Hb : nonneg_vec m (lnth wv)) (Ma : mass n (lnth ws) = 1) (Mb : mass m (lnth wv) = 1) (Hp : 1 <= p).
Let fr := theta - rfloor theta.
Let cv := cumsum wv.
Let vt : list R := map (fun c => c - fr) cv.
Let B := fun i => rsum i (lnth wv).

Lemma fr_range : 0 <= fr < 1.
Proof. apply mod1_range. Qed.
Lemma cv_len : length cv = m.
Proof. unfold cv, cumsum. rewrite cumsum_from_length. exact Lv. Qed.
Lemma vt_len : length vt = m.
Proof. unfold vt. rewrite map_length. apply cv_len. Qed.
Lemma nth_vt : forall i, (i < m)%nat -> nth i vt 0 = B (S i) - fr.
Proof.
  intros i Hi. unfold vt. rewrite (nth_indep _ 0 (0 - fr)) by (rewrite map_length; pose proof cv_len as L; change (carrier RNum) with R in *; rewrite L; auto). rewrite (map_nth (fun c => c - fr)). f_equal. unfold cv. apply (cumsum_nth wv i). rewrite Lv. auto.
Qed.
Lemma B_mono : forall i j, (i <= j <= m)%nat -> B i <= B j.
Proof. intros. apply rsum_mono_n; [lia|]. intros. apply Hb. lia. Qed.

Lemma shift_index : exists s, (s < m)%nat /\ (forall i, (i < s)%nat -> nth i vt 0 < 0) /\ (forall i, (s <= i < m)%nat -> 0 <= nth i vt 0) /\
  argmin (N:=RNum) (length vt) (fun i => if nltb (n:=RNum) (nth i vt 0) 0 then None else Some (nth i vt 0)) = s.
Proof.
  destruct (first_reach (m - 1) (fun i => nth i vt 0)) as (s & Hs & A & Bs).
  { rewrite nth_vt by lia. replace (S (m - 1)) with m by lia. unfold B. unfold mass in Mb. rewrite Mb. pose proof fr_range. lra. }
  assert (Up : forall i, (s <= i < m)%nat -> nth s vt 0 <= nth i vt 0) by (intros i Hi; rewrite !nth_vt by lia; pose proof (B_mono (S s) (S i) ltac:(lia)); lra).
  exists s. split; [lia|]. split; [auto|]. split; [intros i Hi; specialize (Up i Hi); lra|]. rewrite vt_len. apply argmin_first; auto; lia.
Qed.

(** what [shifted] returns *)
Lemma shifted_spec : exists s, (s < m)%nat /\ B s - fr < 0 + (if Nat.eqb s 0 then 1 else 0) /\ 0 <= B (S s) - fr /\
  let (v2, vt2) := shifted (N:=RNum) rfloor theta v cv in
  length vt2 = m /\ length v2 = S m /\ (forall k, (k < m)%nat -> nth k vt2 0 = B (S (phi m s k)) - fr + (if Nat.ltb (s + k) m then 0 else 1)) /\
  (forall k, (k <= m)%nat -> exists z : Z, nth k v2 0 = lnth v (phi m s k) + IZR z).
Proof.
  destruct shift_index as (s & Hs & Ng & Ps & Am). exists s. split; auto. split.
  { destruct s; [cbn; unfold B; cbn [rsum]; pose proof fr_range; lra|]. specialize (Ng s ltac:(lia)). rewrite nth_vt in Ng by lia. cbn [Nat.eqb]. lra. }
  split; [specialize (Ps s ltac:(lia)); rewrite nth_vt in Ps by lia; auto|].
  unfold shifted. cbv zeta. change (map (fun c : RNum => nsub (n:=RNum) c (nsub (n:=RNum) theta (rfloor theta))) cv) with vt.
  set (neg := fun c : RNum => nltb (n:=RNum) c (n0 (n:=RNum))).
  set (v1 := map2 (fun c x : RNum => nadd (n:=RNum) x (if neg c then nadd (n:=RNum) (rfloor theta) (n1 (n:=RNum)) else rfloor theta)) vt v).
  set (vt1 := if (existsb neg vt && existsb (fun c : RNum => negb (neg c)) vt)%bool then map (fun c : RNum => if neg c then nadd (n:=RNum) c (n1 (n:=RNum)) else c) vt else vt).
  assert (Nn : forall i, (i < m)%nat -> neg (nth i vt 0) = Nat.ltb i s).
  { intros i Hi. unfold neg. cbn [nltb n0 RNum]. destruct (Nat.ltb_spec i s); [apply Rltb_true; auto|apply Rltb_false; apply Ps; lia]. }
  assert (L1 : length vt1 = m) by (unfold vt1; destruct (_ && _)%bool; rewrite ?map_length; apply vt_len).
  assert (V1 : forall i, (i < m)%nat -> nth i vt1 0 = nth i vt 0 + (if Nat.ltb i s then 1 else 0)).
  { intros i Hi. unfold vt1. destruct (existsb neg vt && existsb (fun c : RNum => negb (neg c)) vt)%bool eqn:E.
    - rewrite (nth_indep _ 0 ((fun c : RNum => if neg c then nadd (n:=RNum) c (n1 (n:=RNum)) else c) 0)) by (rewrite map_length; change (carrier RNum) with R in *; rewrite vt_len; auto). rewrite (map_nth (fun c : RNum => if neg c then nadd (n:=RNum) c (n1 (n:=RNum)) else c)). pose proof (Nn i Hi) as N1; change (carrier RNum) with R in *; rewrite N1. destruct (Nat.ltb i s); cbn [nadd n1 RNum]; lra.
    - destruct (Nat.ltb_spec i s); [exfalso|symmetry; apply Rplus_0_r]. apply andb_false_iff in E. destruct E as [E | E].
      + assert (X : existsb neg vt = true) by (apply existsb_exists; exists (nth i vt 0); split; [apply nth_In; rewrite vt_len; auto|rewrite Nn by auto; apply Nat.ltb_lt; auto]). congruence.
      + assert (X : existsb (fun c : RNum => negb (neg c)) vt = true) by (apply existsb_exists; exists (nth s vt 0); split; [apply nth_In; rewrite vt_len; auto|rewrite Nn by auto; rewrite Nat.ltb_irrefl; auto]). congruence. }
  assert (AM : argmin (N:=RNum) (length vt) (fun i => if neg (nth i vt (n0 (n:=RNum))) then None else Some (nth i vt1 (n0 (n:=RNum)))) = s).
  { rewrite <- Am. rewrite vt_len. unfold argmin. apply argmin_from_ext. intros i Hi.
    pose proof (Nn i ltac:(lia)) as N1. pose proof (V1 i ltac:(lia)) as N2. unfold neg in *. change (n0 (n:=RNum)) with 0 in *. change (carrier RNum) with R in *. rewrite N1. destruct (Nat.ltb i s); [reflexivity|]. f_equal. rewrite N2. apply Rplus_0_r. }
  match goal with |- context [argmin ?a ?f] => replace (argmin a f) with s by (symmetry; exact AM) end.
  assert (Lv1 : length v1 = m) by (unfold v1; etransitivity; [apply map2_length; etransitivity; [apply vt_len|reflexivity]|apply vt_len]).
  assert (NV : forall i, (i < m)%nat -> nth i v1 0 = lnth v i + IZR (Int_part theta + (if Nat.ltb i s then 1 else 0))).
  { intros i Hi. unfold v1. etransitivity; [apply (nth_map2 _ _ _ _ vt v i 0 0 0); [etransitivity; [apply vt_len|reflexivity]|apply (Nat.lt_le_trans _ m); [auto|apply Nat.eq_le_incl; symmetry; apply vt_len]]|]. cbv beta. pose proof (Nn i Hi) as N1. change (carrier RNum) with R in *. rewrite N1. unfold rfloor. unfold lnth. change (n0 (n:=RNum)) with 0. change (carrier RNum) with R. destruct (Nat.ltb i s); rewrite plus_IZR; cbn [nadd n1 RNum]; unfold rfloor; lra. }
  assert (PH : forall k, (k <= m)%nat -> (phi m s k < m)%nat) by (intros k Hk; unfold phi; destruct (Nat.ltb_spec (s + k) m); lia).
  assert (HD : hd1 (N:=RNum) (rot s v1) = [nth 0 (rot s v1) 0 + 1]).
  { destruct (rot s v1) eqn:E; [|reflexivity]. apply (f_equal (@length R)) in E. rewrite rot_length, Lv1 in E. cbn in E. lia. }
  change (length (rot s vt1) = m /\ length (rot s v1 ++ hd1 (N:=RNum) (rot s v1)) = S m /\ (forall k, (k < m)%nat -> nth k (rot s vt1) 0 = B (S (phi m s k)) - fr + (if Nat.ltb (s + k) m then 0 else 1)) /\
    (forall k, (k <= m)%nat -> exists z : Z, nth k (rot s v1 ++ hd1 (N:=RNum) (rot s v1)) 0 = lnth v (phi m s k) + IZR z)).
  clearbody v1 vt1. change (carrier RNum) with R in *.
  split; [rewrite rot_length; auto|]. split; [rewrite HD, app_length, rot_length, Lv1; cbn; lia|]. split.
  - intros k Hk. rewrite nth_rot by lia. rewrite L1. rewrite V1 by (apply PH; lia). rewrite nth_vt by (apply PH; lia). f_equal. unfold phi. destruct (Nat.ltb_spec (s + k) m).
    + destruct (Nat.ltb_spec (s + k) s); [lia|reflexivity].
    + destruct (Nat.ltb_spec (s + k - m) s); [reflexivity|lia].
  - intros k Hk. destruct (Nat.eq_dec k m) as [-> | Hk'].
    + rewrite app_nth2 by (rewrite rot_length; lia). rewrite rot_length, Lv1, Nat.sub_diag, HD. cbn [nth]. rewrite nth_rot by lia. rewrite Lv1. rewrite NV by (apply PH; lia).
      replace (phi m s 0) with (phi m s m) by (unfold phi; destruct (Nat.ltb_spec (s + m) m), (Nat.ltb_spec (s + 0) m); lia). eexists. rewrite Rplus_assoc, <- (plus_IZR _ 1). reflexivity.
    + rewrite app_nth1 by (rewrite rot_length; lia). rewrite nth_rot by lia. rewrite Lv1. eexists. apply NV. apply PH; lia.
Qed.

(** the cost at theta is at least the circular cost of some coupling of the two measures *)
Definition cpow (q d : R) : R := if Req_EM_T q 1 then d else rpow d q.
Lemma cpow_mono : forall q x y, 1 <= q -> 0 <= x <= y -> cpow q x <= cpow q y.
Proof.
  intros q x y Hq H. unfold cpow. destruct (Req_EM_T q 1); [lra|]. destruct (Req_EM_T x 0) as [-> | X]; [rewrite rpow_0; apply rpow_nonneg|].
  rewrite !rpow_pos_eq by lra. apply Rle_Rpower_l; lra.
Qed.
Lemma gfun_cpow : forall q x y, gfun (w1_metric q) q x y = cpow q (Rabs (x - y)).
Proof.
  intros q x y. rewrite <- diff_cost_gfun. unfold diff_cost, cpow. cbn [nabs nsub neqb n1 RNum]. cbv zeta. change (nabs (N:=RNum) (x - y)) with (nabs (N:=RNum) (nsub (n:=RNum) x y)).
  destruct (Req_EM_T q 1) as [-> | Q].
  - replace (Reqb 1 1) with true by (symmetry; apply Reqb_true; auto). apply nabs_R.
  - replace (Reqb q 1) with false by (symmetry; apply Reqb_false; auto). f_equal. apply nabs_R.
Qed.
Lemma circ_le : forall x y z (k : Z), z = y + IZR k -> circle_dist x y <= Rabs (x - z).
Proof. intros x y z k ->. destruct (circle_dist_spec x y) as [L _]. specialize (L k). replace (x - (y + IZR k)) with (x - y - IZR k) by ring. exact L. Qed.

Theorem ot_cost_upper : exists G, coupling n m (lnth ws) (lnth wv) G /\
  cost n m (fun i j => cpow p (circle_dist (lnth u i) (lnth v j))) G <= ot_cost_on_circle (N:=RNum) rfloor rpow theta u v (cumsum ws) cv p.
Proof.
  destruct shifted_spec as (s & Hs & Bs & Bs' & SP). unfold ot_cost_on_circle. destruct (shifted (N:=RNum) rfloor theta v cv) as [v2 vt2]. destruct SP as (L2 & Lv2 & C2 & V2).
  change (carrier RNum) with R in *. pose proof fr_range as FR.
  assert (Bm : B m = 1) by exact Mb. assert (B0 : B 0%nat = 0) by reflexivity.
  assert (Bn : forall i, (i <= m)%nat -> 0 <= B i) by (intros; rewrite <- B0; apply B_mono; lia).
  assert (B1 : forall i, (i <= m)%nat -> B i <= 1) by (intros; rewrite <- Bm; apply B_mono; lia).
  assert (Blt : forall i, (0 < i <= s)%nat -> B i < fr).
  { intros i Hi. pose proof (B_mono i s ltac:(lia)). destruct (Nat.eqb_spec s 0); [lia|lra]. }
  assert (Hws : (0 < length ws)%nat) by (rewrite Lu; auto).
  set (c2 := fun k => if Nat.ltb k m then nth k vt2 0 else 1).
  set (C := fun k => match k with O => 0 | S k' => c2 k' end).
  set (W := fun k => C (S k) - C k).
  assert (CE : forall k, (k < m)%nat -> C (S k) = B (S (phi m s k)) - fr + (if Nat.ltb (s + k) m then 0 else 1)).
  { intros k Hk. unfold C, c2. destruct (Nat.ltb_spec k m); [|lia]. apply C2; auto. }
  assert (Cm : C (S m) = 1) by (unfold C, c2; rewrite Nat.ltb_irrefl; reflexivity).
  assert (Wn : forall k, (k < S m)%nat -> 0 <= W k).
  { intros k Hk. unfold W. destruct k as [|k].
    - change (C 0%nat) with 0. rewrite CE by lia. unfold phi. destruct (Nat.ltb_spec (s + 0) m); [|lia]. rewrite Nat.add_0_r. lra.
    - rewrite (CE k) by lia. destruct (Nat.eq_dec (S k) m) as [E | E].
      + rewrite E, Cm. unfold phi. destruct (Nat.ltb_spec (s + k) m).
        * pose proof (B1 (S (s + k)) ltac:(lia)). lra.
        * assert (B (S (s + k - m)) < fr) by (apply Blt; lia). lra.
      + rewrite (CE (S k)) by lia. unfold phi. destruct (Nat.ltb_spec (s + k) m), (Nat.ltb_spec (s + S k) m); try lia.
        * pose proof (B_mono (S (s + k)) (S (s + S k)) ltac:(lia)). lra.
        * pose proof (Bn (S (s + S k - m)) ltac:(lia)). pose proof (B1 (S (s + k)) ltac:(lia)). lra.
        * pose proof (B_mono (S (s + k - m)) (S (s + S k - m)) ltac:(lia)). lra. }
  assert (WS : forall k, rsum k W = C k) by (induction k; [reflexivity|]; cbn [rsum]; rewrite IHk; unfold W; lra).
  set (Wl := map W (seq 0 (S m))).
  assert (LW : length Wl = S m) by (unfold Wl; rewrite map_length, seq_length; auto).
  assert (EW : forall k, (k < S m)%nat -> lnth Wl k = W k).
  { intros k Hk. unfold lnth, Wl. change (n0 (n:=RNum)) with 0. rewrite (nth_indep _ 0 (W 0%nat)) by (rewrite map_length, seq_length; auto). rewrite (map_nth W). f_equal. rewrite seq_nth; auto. }
  assert (RW : forall k, (k <= S m)%nat -> rsum k (lnth Wl) = C k) by (intros k Hk; rewrite <- WS; apply rsum_ext; intros; apply EW; lia).
  assert (CW : cumsum (N:=RNum) Wl = vt2 ++ [1]).
  { assert (LC : length (cumsum (N:=RNum) Wl) = S m) by (etransitivity; [apply cumsum_from_length|exact LW]).
    apply (nth_ext _ _ 0 0); [etransitivity; [exact LC|]; rewrite app_length, L2; cbn; lia|]. intros k Hk.
    assert (Hk' : (k < S m)%nat) by (eapply Nat.lt_le_trans; [exact Hk|apply Nat.eq_le_incl; exact LC]).
    etransitivity; [apply (cumsum_nth Wl k); eapply Nat.lt_le_trans; [exact Hk'|apply Nat.eq_le_incl; symmetry; exact LW]|]. rewrite RW by lia. unfold C, c2. destruct (Nat.ltb_spec k m).
    - rewrite app_nth1 by lia. reflexivity.
    - replace k with m by lia. rewrite app_nth2 by lia. rewrite L2, Nat.sub_diag. reflexivity. }
  set (l := vsort (N:=RNum) (cumsum (N:=RNum) ws ++ vt2)).
  assert (InL : forall q, In q l <-> In q (cumsum (N:=RNum) ws) \/ In q vt2).
  { intros q. rewrite <- in_app_iff. split; apply Permutation_in; [|apply Permutation_sym]; apply (vsort_perm (N:=RNum)). }
  assert (Rws : rsum n (lnth ws) = 1) by exact Ma.
  assert (Rq : forall q, In q l -> 0 <= q <= 1).
  { intros q Hq. apply InL in Hq. destruct Hq as [Hq | Hq].
    - apply (in_cum ws ws Hws Hws) in Hq. destruct Hq as (k & Hk & ->). change (carrier RNum) with R in Hk; rewrite Lu in Hk. split; [apply rsum_nonneg; intros; apply Ha; lia|]. rewrite <- Rws. apply rsum_mono_n; [lia|intros; apply Ha; lia].
    - apply (In_nth _ _ 0) in Hq. destruct Hq as (k & Hk & <-). rewrite L2 in Hk. replace (nth k vt2 0) with (C (S k)) by (unfold C, c2; destruct (Nat.ltb_spec k m); [reflexivity|lia]).
      rewrite <- Cm, <- !WS. split; [apply rsum_nonneg; intros; apply Wn; lia|]. apply rsum_mono_n; [lia|intros; apply Wn; lia]. }
  assert (As : asc 0 l) by (apply vsort_asc; intros x Hx; apply Rq; apply InL; apply in_app_iff; auto).
  set (es := quantile_plan (N:=RNum) n (S m) (cumsum (N:=RNum) ws) vt2 0 l).
  assert (CP : coupling n (S m) (lnth ws) W (dmat es)).
  { pose proof (quantile_coupling ws Wl l) as Q. change (carrier RNum) with R in *. rewrite LW, Lu, CW in Q. rewrite quantile_plan_app1 in Q by (intros; apply Rq; auto). fold es in Q.
    assert (Q' : coupling n (S m) (lnth ws) (lnth Wl) (dmat es)).
    { apply Q; auto; try lia.
      - intros k Hk. rewrite EW by auto. apply Wn; auto.
      - transitivity 1; [exact Ma|]. symmetry. unfold mass. rewrite RW by lia. exact Cm.
      - intros q Hq. rewrite Rws. apply Rq; auto.
      - intros k Hk. apply InL. left. apply (cum_in ws ws Hws Hws). change (carrier RNum) with R; rewrite Lu. exact Hk.
      - intros k Hk. apply InL. rewrite RW by lia. destruct (Nat.eq_dec k (S m)) as [-> | K].
        + left. rewrite Cm, <- Rws. apply (cum_in ws ws Hws Hws). change (carrier RNum) with R; rewrite Lu. lia.
        + right. destruct k as [|k]; [lia|]. unfold C, c2. destruct (Nat.ltb_spec k m); [|lia]. apply nth_In. lia. }
    destruct Q' as (Q1 & Q2 & Q3). split; [exact Q1|]. split; [exact Q2|]. intros j Hj. rewrite Q3 by auto. apply EW; auto. }
  assert (PH : forall k, (k <= m)%nat -> (phi m s k < m)%nat) by (intros k Hk; unfold phi; destruct (Nat.ltb_spec (s + k) m); lia).
  set (G' := dmat es) in *. destruct CP as (P1 & P2 & P3).
  exists (fun i j => rsum (S m) (fun k => if Nat.eqb j (phi m s k) then G' i k else 0)). split.
  - split; [|split].
    + intros i j Hi Hj. apply rsum_nonneg. intros k Hk. destruct (Nat.eqb j (phi m s k)); [apply P1; auto|lra].
    + intros i Hi. unfold row_sum. rewrite rsum_swap. rewrite <- (P2 i Hi). unfold row_sum. apply rsum_ext. intros k Hk. apply rsum_delta. apply PH; lia.
    + intros j Hj. unfold col_sum. rewrite rsum_swap.
      transitivity (rsum (S m) (fun k => if Nat.eqb j (phi m s k) then W k else 0)).
      { apply rsum_ext. intros k Hk. destruct (Nat.eqb j (phi m s k)); [apply P3; auto|apply rsum_0; auto]. }
      assert (TG : B (S j) - B j = lnth wv j) by (unfold B; cbn [rsum]; lra).
      set (psi := if Nat.leb s j then (j - s)%nat else (j + m - s)%nat).
      assert (Psi : (psi < m)%nat /\ phi m s psi = j) by (unfold psi, phi; destruct (Nat.leb_spec s j); match goal with |- context [Nat.ltb ?a ?b] => destruct (Nat.ltb_spec a b) end; lia).
      cbn [rsum]. rewrite (rsum_single m psi).
      2:{ apply Psi. }
      2:{ intros k Hk Hne. destruct (Nat.eqb_spec j (phi m s k)) as [E | E]; [exfalso|reflexivity]. apply Hne. revert E. unfold phi, psi. destruct (Nat.ltb_spec (s + k) m), (Nat.leb_spec s j); lia. }
      destruct Psi as [Pm Pj]. rewrite Pj, Nat.eqb_refl. rewrite <- TG.
      assert (Pe : phi m s m = s) by (unfold phi; destruct (Nat.ltb_spec (s + m) m); lia). rewrite Pe.
      unfold W. rewrite (CE psi Pm), Pj.
      destruct (Nat.eqb_spec j s) as [-> | Hjs].
      * assert (P0 : psi = 0%nat) by (unfold psi; destruct (Nat.leb_spec s s); lia). rewrite P0. change (C 0%nat) with 0. rewrite Cm. replace (C m) with (C (S (m - 1))) by (f_equal; lia). rewrite (CE (m - 1)%nat) by lia.
        unfold phi. destruct (Nat.ltb_spec (s + 0) m); [|lia]. destruct (Nat.ltb_spec (s + (m - 1)) m).
        -- assert (s = 0)%nat by lia. subst s. replace (S (0 + (m - 1))) with m by lia. lra.
        -- replace (S (s + (m - 1) - m)) with s by lia. lra.
      * destruct psi as [|q] eqn:Eq; [exfalso; revert Eq; unfold psi; destruct (Nat.leb_spec s j); lia|].
        rewrite (CE q) by lia. revert Eq. unfold psi, phi. destruct (Nat.leb_spec s j); intros Eq.
        -- destruct (Nat.ltb_spec (s + S q) m); [|lia]. destruct (Nat.ltb_spec (s + q) m); [|lia]. replace (S (s + q)) with j by lia. lra.
        -- destruct (Nat.ltb_spec (s + S q) m); [lia|]. destruct (Nat.ltb_spec (s + q) m).
           ++ replace (S (s + q)) with m by lia. assert (J0 : j = 0%nat) by lia. rewrite J0. lra.
           ++ replace (S (s + q - m)) with j by lia. lra.
  - assert (RG : Forall (fun e : @entry RNum => (snd (fst e) < n)%nat /\ (snd e < S m)%nat) es).
    { pose proof (quantile_plan_range ws Wl) as Q. change (carrier RNum) with R in *. rewrite LW, Lu, CW in Q. specialize (Q ltac:(auto) ltac:(lia) l 0). rewrite quantile_plan_app1 in Q by (intros; apply Rq; auto). exact Q. }
    change (n0 (n:=RNum)) with 0. fold n m l es. rewrite plan_value_esum. rewrite <- (cost_dmat _ n (S m) es RG). fold G'.
    apply Rle_trans with (cost n (S m) (fun i k => cpow p (circle_dist (lnth u i) (lnth v (phi m s k)))) G').
    + right. unfold cost. apply rsum_ext. intros i Hi.
      transitivity (rsum m (fun j => rsum (S m) (fun k => if Nat.eqb j (phi m s k) then cpow p (circle_dist (lnth u i) (lnth v j)) * G' i k else 0))).
      { apply rsum_ext. intros j Hj. rewrite <- rsum_scal. apply rsum_ext. intros k Hk. destruct (Nat.eqb j (phi m s k)); ring. }
      rewrite rsum_swap. apply rsum_ext. intros k Hk. apply (rsum_delta_mul m (phi m s k) (fun j => cpow p (circle_dist (lnth u i) (lnth v j)) * G' i k)). apply PH; lia.
    + apply rsum_le. intros i Hi. apply rsum_le. intros k Hk. apply Rmult_le_compat_r; [apply P1; auto|]. rewrite gfun_cpow. apply cpow_mono; auto.
      destruct (V2 k ltac:(lia)) as [z Ez]. split; [apply circle_dist_range|]. apply (circ_le _ _ _ z). unfold lnth at 1. change (n0 (n:=RNum)) with 0. rewrite app_nth1 by lia. exact Ez.
Qed.
End Cost.

(** the search returns after k halvings, k with tp - tm < epsL * 2^k, whatever the derivative *)
Lemma search_total : forall k fuel deriv cost epsL th tm tp, tm <= tp -> tp - tm < epsL * 2 ^ k -> (k < fuel)%nat ->
  exists t, search (N:=RNum) fuel deriv cost epsL th tm tp ((tm + tp) / (1 + 1)) = Some t.
Proof.
  induction k; intros fuel deriv cost epsL th tm tp H0 H Hf; (destruct fuel as [|fuel]; [lia|]); cbn [search].
  - destruct (deriv ((tm + tp) / (1 + 1))) as [dp dm]. cbn [nltb nsub RNum]. replace (Rltb (tp - tm) epsL) with true by (symmetry; apply Rltb_true; cbn in H; lra).
    destruct (nleb (nmul dp dm) n0); cbn [andb negb]; eexists; reflexivity.
  - destruct (deriv ((tm + tp) / (1 + 1))) as [dp dm]. destruct (nleb (nmul dp dm) n0) eqn:D; cbn [andb negb].
    + rewrite andb_false_r. eexists; reflexivity.
    + destruct (nltb (n:=RNum) (nsub (n:=RNum) tp tm) epsL); cbn [andb]; [eexists; reflexivity|]. cbn [pow] in H. cbn [nadd ndiv n1 RNum].
      destruct (nltb dp n0); apply IHk; try lia; lra.
Qed.

Lemma map_frac_nth : forall (x : list RNum) i, (i < length x)%nat -> lnth (map (mod1 (N:=RNum) rfloor) x) i = frac_part (lnth x i).
Proof.
  intros x i Hi. unfold lnth. rewrite (nth_indep _ _ (mod1 (N:=RNum) rfloor 0)) by (rewrite map_length; auto). rewrite (map_nth (mod1 (N:=RNum) rfloor)). apply mod1_frac.
Qed.

Theorem bs_upper : forall k fuel deriv (u v uw vw : list RNum) (p epsL th tm tp : R) rs,
  let n := length u in let m := length v in length uw = n -> length vw = m -> (0 < n)%nat -> (0 < m)%nat -> nonneg_vec n (lnth uw) -> nonneg_vec m (lnth vw) ->
  mass n (lnth uw) = 1 -> mass m (lnth vw) = 1 -> 1 <= p -> tm <= tp -> tp - tm < epsL * 2 ^ k -> (k < fuel)%nat ->
  exists w, binary_search_circle (N:=RNum) rfloor rpow fuel deriv u v uw vw p epsL th tm tp rs = Some w /\
    exists G, coupling n m (lnth uw) (lnth vw) G /\ cost n m (fun i j => cpow p (circle_dist (lnth u i) (lnth v j))) G <= w.
Proof.
  intros k fuel deriv u v uw vw p epsL th tm tp rs n m Lu Lv Hn Hm Ha Hb Ma Mb Hp Ht He Hf. unfold binary_search_circle. cbv zeta.
  set (um := map (mod1 (N:=RNum) rfloor) u). set (vm := map (mod1 (N:=RNum) rfloor) v).
  assert (Lum : length um = n) by (unfold um; rewrite map_length; auto). assert (Lvm : length vm = m) by (unfold vm; rewrite map_length; auto).
  set (pu := if rs then argsort um else seq 0 (length um)). set (pv := if rs then argsort vm else seq 0 (length vm)).
  assert (Pu : Permutation pu (seq 0 n)) by (unfold pu; rewrite <- Lum; destruct rs; [apply argsort_sorts|reflexivity]).
  assert (Pv : Permutation pv (seq 0 m)) by (unfold pv; rewrite <- Lvm; destruct rs; [apply argsort_sorts|reflexivity]).
  clearbody pu pv.
  pose proof (perm_list_on n pu Pu) as Sa. pose proof (perm_list_on m pv Pv) as Sb.
  assert (La : length pu = n) by (rewrite (Permutation_length Pu), seq_length; auto).
  assert (Lb : length pv = m) by (rewrite (Permutation_length Pv), seq_length; auto).
  assert (Ia : forall k, In k pu -> (k < n)%nat) by (intros k0 Hk; apply (Permutation_in _ Pu), in_seq in Hk; lia).
  assert (Ib : forall k, In k pv -> (k < m)%nat) by (intros k0 Hk; apply (Permutation_in _ Pv), in_seq in Hk; lia).
  rewrite (take_ok _ (0 : RNum) um pu), (take_ok _ (0 : RNum) vm pv), (take_ok _ (0 : RNum) uw pu), (take_ok _ (0 : RNum) vw pv)
    by (intros; rewrite ?Lu, ?Lv, ?Lum, ?Lvm; auto).
  set (A := map (fun k => nth k uw 0) pu). set (B := map (fun k => nth k vw 0) pv).
  set (U := map (fun k => nth k um 0) pu). set (V := map (fun k => nth k vm 0) pv).
  assert (LA : length A = n) by (unfold A; rewrite map_length; auto).
  assert (LB : length B = m) by (unfold B; rewrite map_length; auto).
  assert (LU : length U = n) by (unfold U; rewrite map_length; auto).
  assert (LV : length V = m) by (unfold V; rewrite map_length; auto).
  assert (EA : forall i, (i < n)%nat -> lnth A i = lnth uw (pfun pu i)) by (intros; apply lnth_take; lia).
  assert (EB : forall i, (i < m)%nat -> lnth B i = lnth vw (pfun pv i)) by (intros; apply lnth_take; lia).
  assert (EU : forall i, (i < n)%nat -> lnth U i = lnth um (pfun pu i)) by (intros; apply lnth_take; lia).
  assert (EV : forall j, (j < m)%nat -> lnth V j = lnth vm (pfun pv j)) by (intros; apply lnth_take; lia).
  match goal with |- context [search fuel ?d ?c epsL th tm tp ?t] => destruct (search_total k fuel d c epsL th tm tp Ht He Hf) as [t0 Et]; change ((tm + tp) / (1 + 1)) with t in Et; rewrite Et end.
  eexists. split; [reflexivity|].
  destruct (ot_cost_upper U V A B t0 p) as (G & CG & LG); auto; try congruence; try lia.
  - rewrite LU. intros i Hi. rewrite EA by auto. apply Ha, Sa; auto.
  - rewrite LV. intros i Hi. rewrite EB by auto. apply Hb, Sb; auto.
  - rewrite LU. unfold mass. rewrite (rsum_ext n _ _ EA), (rsum_perm n _ _ Sa). exact Ma.
  - rewrite LV. unfold mass. rewrite (rsum_ext m _ _ EB), (rsum_perm m _ _ Sb). exact Mb.
  - rewrite LU, LV in CG, LG.
    set (iu := pinv n (pfun pu)). set (iv := pinv m (pfun pv)).
    exists (fun i j => G (iu i) (iv j)).
    assert (GG : forall i j, (i < n)%nat -> (j < m)%nat -> G (iu (pfun pu i)) (iv (pfun pv j)) = G i j).
    { intros i j Hi Hj. f_equal; apply pinv_left; auto. }
    split.
    + apply (coupling_relabel n m (pfun pu) (pfun pv) (lnth uw) (lnth vw) (fun i j => G (iu i) (iv j)) Sa Sb). eapply coupling_ext; [| | |exact CG]; auto. intros; symmetry; apply GG; auto.
    + eapply Rle_trans; [right|exact LG]. rewrite <- (cost_relabel n m (pfun pu) (pfun pv) _ (fun i j => G (iu i) (iv j)) Sa Sb). apply cost_ext; auto.
      intros i j Hi Hj. f_equal. rewrite EU, EV by auto. unfold um, vm. rewrite !map_frac_nth by (apply Sa || apply Sb; auto). unfold circle_dist. rewrite !frac_idem. reflexivity.
Qed.
