(** partial_wasserstein_1d: the chain costs of the model, for p = 1 *)
From Coq Require Import Reals Lra Lia List Arith ZArith Permutation Bool.
From Verif Require Import Num Sums Spec Circle_proofs Emd1d_model Pw1d_model Pw1d_core Pw1d_loop.
Import ListNotations.
Local Open Scope nat_scope.

(** the last index before m where P holds *)
Fixpoint lastp (P : nat -> bool) (m : nat) : option nat :=
  match m with O => None | S m' => if P m' then Some m' else lastp P m' end.
Lemma lastp_some : forall P m s, lastp P m = Some s -> s < m /\ P s = true /\ forall k, s < k < m -> P k = false.
Proof.
  intros P. induction m as [|m IH]; intros s H; [discriminate|]. cbn in H. destruct (P m) eqn:E.
  - injection H as <-. repeat split; auto; intros; lia.
  - destruct (IH s H) as (H1 & H2 & H3). repeat split; auto. intros k Hk. destruct (Nat.eq_dec k m) as [->|]; [auto|apply H3; lia].
Qed.
Lemma lastp_ge : forall P m t, t < m -> P t = true -> exists s, lastp P m = Some s /\ t <= s.
Proof.
  intros P. induction m as [|m IH]; intros t Ht Pt; [lia|]. cbn. destruct (P m) eqn:E; [exists m; split; [auto|lia]|].
  apply IH; auto. destruct (Nat.eq_dec t m) as [->|]; [congruence|lia].
Qed.
Lemma lastp_upd : forall P m, lastp P (S m) = if P m then Some m else lastp P m.
Proof. reflexivity. Qed.

Section Cost.
Variables (n : nat) (q : pre (N:=RNum)) (pw : RNum -> RNum -> RNum) (p : RNum).
Let isx := pre_isx q.
Let z : nat -> R := pre_z q.
Definition HH (m : nat) : Z := DD isx (fun _ => true) m.
Definition SC (m : nat) : R := rsum m (fun i => (IZR (sgn (isx i)) * z i)%R).
Hypothesis zmono : forall i, S i < n -> (z i <= z (S i))%R.
Hypothesis Qdiff : forall e, e < n -> pre_diff q e = HH (S e).
Hypothesis Qcum : forall e, e < n -> pre_cum q e = SC (S e).
Notation len := (len n z).

Lemma HH_S : forall m, HH (S m) = (HH m + sgn (isx m))%Z.
Proof. reflexivity. Qed.
Lemma sgn_pm : forall b, sgn b = 1%Z \/ sgn b = (-1)%Z.
Proof. intros []; cbn; auto. Qed.
Lemma HH_bound : forall m, (Z.abs (HH m) <= Z.of_nat m)%Z.
Proof. induction m; [unfold HH, DD; cbn; lia|]. rewrite HH_S. destruct (sgn_pm (isx m)); lia. Qed.
Lemma HH_x : forall s, s < n -> isx s = true -> (- Z.of_nat n < HH (S s) <= Z.of_nat n)%Z.
Proof. intros s Hs E. rewrite HH_S, E. cbn [sgn]. pose proof (HH_bound s). lia. Qed.
Lemma HH_y : forall s, s < n -> isx s = false -> (- Z.of_nat n <= HH (S s) < Z.of_nat n)%Z.
Proof. intros s Hs E. rewrite HH_S, E. cbn [sgn]. pose proof (HH_bound s). lia. Qed.

Definition prevm (e : nat) : option nat :=
  if isx e then lastp (fun s => negb (isx s) && (HH (S s) =? HH e)%Z) e else lastp (fun s => isx s && (HH (S s) =? HH e)%Z) e.

Lemma prevm_some : forall e s, prevm e = Some s -> s < e /\ isx s <> isx e /\ HH (S s) = HH e /\ HH (S e) = HH s
  /\ forall k, s < k < e -> isx k <> isx e -> HH (S k) <> HH e.
Proof.
  intros e s H.
  assert (X : s < e /\ isx s <> isx e /\ HH (S s) = HH e /\ forall k, s < k < e -> isx k <> isx e -> HH (S k) <> HH e).
  { unfold prevm in H. destruct (isx e) eqn:E; apply lastp_some in H; destruct H as (H1 & H2 & H3); apply andb_true_iff in H2; destruct H2 as [H2 H4]; apply Z.eqb_eq in H4.
    - apply negb_true_iff in H2. repeat split; auto; [congruence|]. intros k Hk Ek HE. specialize (H3 k Hk). cbv beta in H3. rewrite HE, Z.eqb_refl in H3. destruct (isx k); [congruence|discriminate].
    - repeat split; auto; [congruence|]. intros k Hk Ek HE. specialize (H3 k Hk). cbv beta in H3. rewrite HE, Z.eqb_refl in H3. destruct (isx k); [discriminate|congruence]. }
  destruct X as (X1 & X2 & X3 & X4). repeat split; auto. rewrite HH_S, <- X3, HH_S. rewrite (sgn_opp (isx s) (isx e)) by auto. lia.
Qed.
Lemma prevm_ge : forall e t, t < e -> isx t <> isx e -> HH (S t) = HH e -> exists s, prevm e = Some s /\ t <= s.
Proof.
  intros e t Ht D E. unfold prevm. destruct (isx e); apply lastp_ge; auto; rewrite E, Z.eqb_refl; destruct (isx t); auto; congruence.
Qed.
Lemma prevm_adj : forall i, prevm (S i) = Some i <-> isx i <> isx (S i).
Proof.
  intros i. split; intros H; [apply prevm_some in H; tauto|].
  destruct (prevm_ge (S i) i ltac:(lia) H eq_refl) as (s & E & L). pose proof (prevm_some _ _ E) as (X & _). replace (Some i) with (Some s) by (f_equal; lia). exact E.
Qed.

(** inside a minimal chain the path stays strictly on one side *)
Lemma prevm_sign : forall e s, prevm e = Some s -> forall k, s < k <= e -> (1 <= sgn (isx s) * (HH k - HH s))%Z.
Proof.
  intros e s H. apply prevm_some in H. destruct H as (H1 & H2 & H3 & H4 & H5).
  assert (G : forall d, s < e - d -> (1 <= sgn (isx s) * (HH (e - d) - HH s))%Z).
  { induction d as [|d IH]; intros Hd.
    - rewrite Nat.sub_0_r, <- H3, HH_S. destruct (sgn_pm (isx s)) as [E|E]; rewrite E; lia.
    - specialize (IH ltac:(lia)). set (k := e - S d) in *. replace (e - d) with (S k) in IH by lia. rewrite HH_S in IH.
      destruct (Bool.bool_dec (isx k) (isx s)) as [E|E].
      + rewrite E in IH. assert (HH (S k) <> HH e) as D by (apply H5; [lia|congruence]). rewrite HH_S, E, <- H3, HH_S in D. destruct (sgn_pm (isx s)) as [F|F]; rewrite F in *; lia.
      + rewrite (sgn_opp (isx s) (isx k)) in IH by auto. destruct (sgn_pm (isx s)) as [F|F]; rewrite F in *; lia. }
  intros k Hk. specialize (G (e - k)). replace (e - (e - k)) with k in G by lia. apply G. lia.
Qed.

Lemma crossing : forall c d s, (c = 1 \/ c = -1)%Z -> (1 <= c * (HH (s + d) - HH s))%Z ->
  exists t, s <= t < s + d /\ HH t = HH s /\ sgn (isx t) = c.
Proof.
  intros c. induction d as [|d IH]; intros s Hc H; [rewrite Nat.add_0_r in H; lia|].
  destruct (Z_le_gt_dec 1 (c * (HH (s + d) - HH s))) as [L|G].
  - destruct (IH s Hc L) as (t & T1 & T2). exists t. split; [lia|auto].
  - replace (s + S d) with (S (s + d)) in H by lia. rewrite HH_S in H. exists (s + d). split; [lia|]. destruct (sgn_pm (isx (s + d))) as [F|F]; rewrite F in *; lia.
Qed.
Lemma prevm_ex : forall s e, s <= e -> HH s = HH (S e) -> exists t, prevm e = Some t /\ s <= t /\ HH t = HH s.
Proof.
  intros s e Hse HE. rewrite HH_S in HE.
  assert (s <> e) by (intros ->; destruct (sgn_pm (isx e)); lia).
  destruct (crossing (- sgn (isx e)) (e - s) s) as (t & T1 & T2 & T3); [destruct (sgn_pm (isx e)) as [F|F]; rewrite F; auto| |].
  { replace (s + (e - s)) with e by lia. destruct (sgn_pm (isx e)) as [F|F]; rewrite F in *; lia. }
  destruct (prevm_ge e t) as (u & U1 & U2); [lia| | |].
  - intros X. rewrite X in T3. destruct (sgn_pm (isx e)) as [F|F]; rewrite F in *; lia.
  - rewrite HH_S, T2, T3. lia.
  - exists u. split; [auto|]. split; [lia|]. apply prevm_some in U1. destruct U1 as (_ & _ & _ & U & _). rewrite <- U, HH_S. auto.
Qed.

(** the cost of carrying the excess of one side over a stretch *)
Definition W (s e : nat) : R := rsum n (fun g => if (s <=? g) && (g <? e) then (len g * IZR (Z.abs (HH (S g) - HH s)))%R else 0%R).
Let AB (t m : nat) : R := rsum n (fun g => if (t <=? g) && (g <? m) then (len g * IZR (HH (S g) - HH t))%R else 0%R).

Lemma abel : forall t d, t + d < n -> (SC (t + d) - SC t = z (t + d) * IZR (HH (t + d) - HH t) - AB t (t + d))%R.
Proof.
  intros t. induction d as [|d IH]; intros Hd.
  - rewrite Nat.add_0_r. replace (AB t t) with 0%R; [rewrite Z.sub_diag; ring|]. unfold AB. symmetry. rewrite (rsum_ext n _ (fun _ => 0%R)); [apply rsum_0; auto|]. intros g Hg. destruct (Nat.leb_spec t g), (Nat.ltb_spec g t); cbn; auto; lia.
  - specialize (IH ltac:(lia)). set (m := t + d) in *. replace (t + S d) with (S m) in * by lia.
    assert (E : (AB t (S m) = AB t m + (z (S m) - z m) * IZR (HH (S m) - HH t))%R).
    { unfold AB. enough (Q : (rsum n (fun g => if (t <=? g) && (g <? S m) then (len g * IZR (HH (S g) - HH t))%R else 0%R)
        - rsum n (fun g => if (t <=? g) && (g <? m) then (len g * IZR (HH (S g) - HH t))%R else 0%R) = (z (S m) - z m) * IZR (HH (S m) - HH t))%R) by lra.
      rewrite <- rsum_minus. rewrite (rsum_single n m _ ltac:(lia)).
      - rewrite (proj2 (Nat.leb_le t m)), (proj2 (Nat.ltb_lt m (S m))), (proj2 (Nat.ltb_ge m m)) by lia. cbn [andb]. unfold Pw1d_core.len. rewrite (proj2 (Nat.ltb_lt (S m) n)) by lia. ring.
      - intros g Hg D. destruct (Nat.leb_spec t g); cbn [andb]; [|ring]. destruct (Nat.ltb_spec g (S m)), (Nat.ltb_spec g m); try lia; ring. }
    rewrite E. unfold SC in *. cbn [rsum]. rewrite HH_S. rewrite !minus_IZR, plus_IZR in *. cbn in IH |- *. lra.
Qed.

Lemma minimal_cost : forall e s, e < n -> prevm e = Some s -> Rabs (SC (S e) - SC s) = W s e.
Proof.
  intros e s He H. pose proof (prevm_sign e s H) as HS. pose proof (prevm_some e s H) as (H1 & H2 & H3 & H4 & _).
  assert (E : (SC (S e) - SC s = - AB s e)%R).
  { pose proof (abel s (e - s)) as Q. replace (s + (e - s)) with e in Q by lia. specialize (Q He).
    replace (SC (S e)) with (SC e + IZR (sgn (isx e)) * z e)%R by reflexivity.
    replace (SC e + IZR (sgn (isx e)) * z e - SC s)%R with (z e * IZR (HH e - HH s + sgn (isx e)) - AB s e)%R; [|rewrite plus_IZR; lra].
    rewrite HH_S in H4. replace (HH e - HH s + sgn (isx e))%Z with 0%Z by lia. ring. }
  rewrite E, Rabs_Ropp.
  assert (F : (AB s e = IZR (sgn (isx s)) * W s e)%R).
  { unfold AB, W. rewrite <- rsum_scal. apply rsum_ext. intros g Hg. destruct (Nat.leb_spec s g), (Nat.ltb_spec g e); cbn [andb]; try ring.
    specialize (HS (S g) ltac:(lia)). replace (HH (S g) - HH s)%Z with (sgn (isx s) * Z.abs (HH (S g) - HH s))%Z at 1; [rewrite mult_IZR; ring|].
    destruct (sgn_pm (isx s)) as [Q|Q]; rewrite Q in *; lia. }
  assert (0 <= W s e)%R.
  { apply rsum_nonneg. intros g Hg. destruct ((s <=? g) && (g <? e)); [|lra]. apply Rmult_le_pos; [apply len_nn; exact zmono|apply IZR_le; lia]. }
  rewrite F. destruct (sgn_pm (isx s)) as [Q|Q]; rewrite Q; [rewrite Rmult_1_l; apply Rabs_right; lra|].
  replace (-1 * W s e)%R with (- W s e)%R by ring. rewrite Rabs_Ropp. apply Rabs_right. lra.
Qed.
Lemma W_split : forall s t e, s <= t -> S t <= e -> HH s = HH (S t) -> (W s e = W s t + W (S t) e)%R.
Proof.
  intros s t e H1 H2 HE. unfold W. rewrite <- rsum_plus. apply rsum_ext. intros g Hg.
  destruct (Nat.leb_spec s g), (Nat.ltb_spec g e), (Nat.ltb_spec g t), (Nat.leb_spec (S t) g); cbn [andb]; try lia; try ring.
  - rewrite HE. ring.
  - replace g with t by lia. rewrite HE, Z.sub_diag. cbn. ring.
Qed.

(** ** the loop of compute_costs *)
Lemma wrap_inj_x : forall r r', (- Z.of_nat n < r <= Z.of_nat n)%Z -> (- Z.of_nat n < r' <= Z.of_nat n)%Z -> wrap n r = wrap n r' -> r = r'.
Proof. intros r r' H H' E. unfold wrap in E. destruct (Z.ltb_spec r 0), (Z.ltb_spec r' 0); lia. Qed.
Lemma wrap_inj_y : forall r r', (- Z.of_nat n <= r < Z.of_nat n)%Z -> (- Z.of_nat n <= r' < Z.of_nat n)%Z -> wrap n r = wrap n r' -> r = r'.
Proof. intros r r' H H' E. unfold wrap in E. destruct (Z.ltb_spec r 0), (Z.ltb_spec r' 0); lia. Qed.

Definition cst (m : nat) : cstate (N:=RNum) := fold_left (costs_step pw n q true p) (seq 0 m) cs_init.
Lemma cst_S : forall m, cst (S m) = costs_step pw n q true p (cst m) m.
Proof. intros m. unfold cst. rewrite seq_S, fold_left_app. reflexivity. Qed.
Definition cinv (m : nat) (st : cstate (N:=RNum)) : Prop :=
  (forall r, (- Z.of_nat n < r <= Z.of_nat n)%Z -> cs_lx st (wrap n r) = lastp (fun s => isx s && (HH (S s) =? r)%Z) m)
  /\ (forall r, (- Z.of_nat n <= r < Z.of_nat n)%Z -> cs_ly st (wrap n r) = lastp (fun s => negb (isx s) && (HH (S s) =? r)%Z) m)
  /\ (forall e, e < m -> cs_idx st e = prevm e) /\ (forall e s, e < m -> prevm e = Some s -> cs_cost st e = W s e)
  /\ (forall c i j, In (c, i, j) (cs_heap st) <-> j = S i /\ j < m /\ isx i <> isx j /\ c = W i j).
Lemma upd_eq : forall (T : Type) (f : nat -> T) i v, upd f i v i = v.
Proof. intros. unfold upd. rewrite Nat.eqb_refl. reflexivity. Qed.
Lemma upd_neq : forall (T : Type) (f : nat -> T) i v k, k <> i -> upd f i v k = f k.
Proof. intros. unfold upd. rewrite (proj2 (Nat.eqb_neq k i)); auto. Qed.

Lemma cst_inv : forall m, m <= n -> cinv m (cst m).
Proof.
  induction m as [|m IH]; intros Hm.
  { split; [|split; [|split; [|split]]]; try reflexivity; try (intros; lia). intros c i j. cbn. split; [tauto|intros (_ & Q & _); lia]. }
  specialize (IH ltac:(lia)). rewrite cst_S. destruct (cst m) as [hp ix co lx ly] eqn:Ecst. destruct IH as (I1 & I2 & I3 & I4 & I5). cbn [cs_lx cs_ly cs_idx cs_cost cs_heap] in *.
  unfold costs_step. cbn [cs_lx cs_ly cs_idx cs_cost cs_heap]. change (pre_isx q) with isx. rewrite Qdiff by lia.
  assert (LX : forall r, (- Z.of_nat n < r <= Z.of_nat n)%Z -> (if isx m then upd lx (wrap n (HH (S m))) (Some m) else lx) (wrap n r) = lastp (fun s => isx s && (HH (S s) =? r)%Z) (S m)).
  { intros r Hr. rewrite lastp_upd. destruct (isx m) eqn:E; cbn [andb]; [|apply I1; auto].
    destruct (Z.eqb_spec (HH (S m)) r) as [<-|D]; [apply upd_eq|]. rewrite upd_neq; [apply I1; auto|]. intros X. apply D. symmetry. apply wrap_inj_x; auto. apply HH_x; auto; lia. }
  assert (LY : forall r, (- Z.of_nat n <= r < Z.of_nat n)%Z -> (if isx m then ly else upd ly (wrap n (HH (S m))) (Some m)) (wrap n r) = lastp (fun s => negb (isx s) && (HH (S s) =? r)%Z) (S m)).
  { intros r Hr. rewrite lastp_upd. destruct (isx m) eqn:E; cbn [andb negb]; [apply I2; auto|].
    destruct (Z.eqb_spec (HH (S m)) r) as [<-|D]; [apply upd_eq|]. rewrite upd_neq; [apply I2; auto|]. intros X. apply D. symmetry. apply wrap_inj_y; auto. apply HH_y; auto; lia. }
  assert (ST : (if isx m then ly (wrap n (HH (S m) - 1)) else lx (wrap n (HH (S m) + 1))) = prevm m).
  { pose proof (HH_bound m). unfold prevm. rewrite HH_S. destruct (isx m) eqn:E; cbn [sgn].
    - replace (HH m + 1 - 1)%Z with (HH m) by lia. apply I2. lia.
    - replace (HH m + -1 + 1)%Z with (HH m) by lia. apply I1. lia. }
  rewrite ST. destruct (prevm m) as [s|] eqn:EP.
  - assert (C : nabs (N:=RNum) (chain_cost pw q true p s m) = W s m).
    { rewrite nabs_R. rewrite <- (minimal_cost m s) by (auto; lia). cbn. unfold get_cost_w1. pose proof (prevm_some m s EP) as (X & _).
      destruct s as [|s']; [rewrite Qcum by lia; replace (SC 0) with 0%R by reflexivity; f_equal; rewrite Rminus_0_r; reflexivity|]. rewrite !Qcum by lia. reflexivity. }
    split; [exact LX|]. split; [exact LY|]. cbn [cs_idx cs_cost cs_heap]. split; [|split].
    + intros e He. destruct (Nat.eq_dec e m) as [->|D]; [rewrite upd_eq; auto|]. rewrite upd_neq by auto. apply I3. lia.
    + intros e s0 He Hs0. destruct (Nat.eq_dec e m) as [->|D]; [rewrite upd_eq; rewrite EP in Hs0; injection Hs0 as <-; exact C|]. rewrite upd_neq by auto. apply I4; auto. lia.
    + intros c i j. rewrite C. destruct (Nat.eqb_spec m (S s)) as [->|D].
      * cbn [In]. rewrite I5. apply prevm_adj in EP. split.
        -- intros [X|(X1 & X2 & X3 & X4)]; [injection X as <- <- <-; repeat split; auto; lia|repeat split; auto; lia].
        -- intros (X1 & X2 & X3 & X4). destruct (Nat.eq_dec j (S s)) as [->|]; [left; injection X1 as <-; congruence|right; repeat split; auto; lia].
      * rewrite I5. split; [intros (X1 & X2 & X3 & X4); repeat split; auto; lia|]. intros (X1 & X2 & X3 & X4). repeat split; auto.
        destruct (Nat.eq_dec j m) as [->|]; [|lia]. exfalso. subst m. apply prevm_adj in X3. congruence.
  - split; [exact LX|]. split; [exact LY|]. cbn [cs_idx cs_cost cs_heap]. split; [|split].
    + intros e He. destruct (Nat.eq_dec e m) as [->|D]; [|apply I3; lia]. rewrite EP.
      (* never written *) assert (NW : forall m', m' <= m -> cs_idx (cst m') m = None).
      { clear. induction m' as [|m' IH]; intros H; [reflexivity|]. rewrite cst_S. unfold costs_step. destruct (if pre_isx q m' then _ else _); cbn [cs_idx]; [rewrite upd_neq by lia|]; apply IH; lia. }
      specialize (NW m ltac:(lia)). rewrite Ecst in NW. exact NW.
    + intros e s0 He Hs0. destruct (Nat.eq_dec e m) as [->|D]; [congruence|]. apply I4; auto. lia.
    + intros c i j. rewrite I5. split; [intros (X1 & X2 & X3 & X4); repeat split; auto; lia|]. intros (X1 & X2 & X3 & X4). repeat split; auto.
      destruct (Nat.eq_dec j m) as [->|]; [|lia]. exfalso. subst m. apply prevm_adj in X3. congruence.
Qed.

(** ** precompute_chain_costs_cumsum *)
Let st := cst n.
Definition ccs (m : nat) : nat -> R := fold_left (cumsum_step st) (seq 0 m) (fun _ => 0%R).
Lemma ccs_S : forall m, ccs (S m) = cumsum_step st (ccs m) m.
Proof. intros m. unfold ccs. rewrite seq_S, fold_left_app. reflexivity. Qed.
Lemma ccs_stable : forall d m e, e < m -> ccs (m + d) e = ccs m e.
Proof.
  induction d as [|d IH]; intros m e H; [rewrite Nat.add_0_r; auto|]. rewrite Nat.add_succ_r, ccs_S. unfold cumsum_step.
  destruct (cs_idx st (m + d)) as [[|s']|]; [rewrite upd_neq by lia| rewrite upd_neq by lia|]; apply IH; auto.
Qed.
Lemma ccs_rec : forall e s, e < n -> prevm e = Some s -> ccs n e = (match s with O => 0 | S s' => ccs n s' end + W s e)%R.
Proof.
  intros e s He H. pose proof (cst_inv n ltac:(lia)) as (_ & _ & I3 & I4 & _).
  pose proof (prevm_some e s H) as (X & _).
  pose proof (ccs_stable (n - S e) (S e) e ltac:(lia)) as Y0. replace (S e + (n - S e)) with n in Y0 by lia. rewrite Y0. rewrite ccs_S. unfold cumsum_step. unfold st. rewrite I3, H by auto.
  destruct s as [|s']; rewrite upd_eq, (I4 e _ He H); [change (carrier RNum) with R; lra|].
  pose proof (ccs_stable (n - e) e s' ltac:(lia)) as Y. replace (e + (n - e)) with n in Y by lia. rewrite Y. reflexivity.
Qed.
Lemma cc_W : forall e s, s <= e < n -> HH s = HH (S e) -> compute_cost_for_chain (N:=RNum) (ccs n) s e = W s e.
Proof.
  intros e. induction e as [e IH] using lt_wf_ind. intros s Hs HE. destruct (prevm_ex s e ltac:(lia) HE) as (t & T1 & T2 & T3).
  pose proof (prevm_some e t T1) as (X & _). pose proof (ccs_rec e t ltac:(lia) T1) as R1.
  destruct (Nat.eq_dec s t) as [->|D].
  - unfold compute_cost_for_chain. destruct t as [|t']; [rewrite R1; apply Rplus_0_l|]. rewrite R1. cbn. ring.
  - destruct t as [|t']; [lia|]. specialize (IH t' ltac:(lia) s ltac:(lia) ltac:(auto)). rewrite (W_split s t' e) by (auto; lia).
    rewrite <- IH. unfold compute_cost_for_chain. destruct s as [|s']; rewrite R1; cbn; ring.
Qed.

(** the marginal of a neighbouring pair is the increase of the cost *)
Lemma marg_icost : forall A i j, adjc n isx A i j -> blocks n isx A -> (marg (ccs n) i j = icost n isx z (add2 A i j) - icost n isx z A)%R.
Proof.
  intros A i j (Hij & Ai & Aj & Hs & Hb) ZB. rewrite (icost_add n isx z A i j Hij Ai Aj Hs).
  assert (Zi : DD isx A i = 0%Z) by (apply ZB; auto; lia).
  assert (Zj : DD isx A j = 0%Z) by (apply ZB; auto; lia).
  assert (IN : forall d, i + d < j -> DD isx A (S (i + d)) = (HH (S (i + d)) - HH (S i))%Z).
  { induction d as [|d IH]; intros Hd.
    - rewrite Nat.add_0_r. unfold DD in *. cbn [zsum]. rewrite Zi. unfold steps. rewrite Ai. lia.
    - rewrite HH_S. replace (i + S d) with (S (i + d)) by lia. replace (DD isx A (S (S (i + d)))) with (DD isx A (S (i + d)) + steps isx A (S (i + d)))%Z by reflexivity.
      rewrite IH by lia. unfold steps. rewrite Hb by lia. lia. }
  assert (HJ : HH j = HH (S i)).
  { destruct (Nat.eq_dec j (S i)) as [->|]; auto. specialize (IN (j - 1 - i) ltac:(lia)). replace (S (i + (j - 1 - i))) with j in IN by lia. lia. }
  assert (HIJ : HH i = HH (S j)) by (rewrite HH_S, HJ, HH_S, (sgn_opp (isx i) (isx j)) by auto; lia).
  assert (E : rsum n (fun g => if (i <=? g) && (g <? j) then (len g * IZR (Z.abs (DD isx A (S g) + sgn (isx i)) - Z.abs (DD isx A (S g))))%R else 0%R) = (W i j - W (S i) (j - 1))%R).
  { unfold W. rewrite <- rsum_minus. apply rsum_ext. intros g Hg. destruct (Nat.leb_spec i g), (Nat.ltb_spec g j); cbn [andb].
    - specialize (IN (g - i) ltac:(lia)). replace (i + (g - i)) with g in IN by lia. rewrite IN, minus_IZR.
      replace (HH (S g) - HH (S i) + sgn (isx i))%Z with (HH (S g) - HH i)%Z by (rewrite (HH_S i); lia).
      destruct (Nat.leb_spec (S i) g), (Nat.ltb_spec g (j - 1)); cbn [andb]; try ring.
      + replace (S g) with j by lia. rewrite HJ, Z.sub_diag. cbn. ring.
      + replace g with i by lia. rewrite Z.sub_diag. cbn. ring.
      + replace g with i by lia. rewrite Z.sub_diag. cbn. ring.
    - destruct (Nat.leb_spec (S i) g), (Nat.ltb_spec g (j - 1)); cbn [andb]; try lia; ring.
    - destruct (Nat.leb_spec (S i) g), (Nat.ltb_spec g (j - 1)); cbn [andb]; try lia; ring.
    - destruct (Nat.leb_spec (S i) g), (Nat.ltb_spec g (j - 1)); cbn [andb]; try lia; ring. }
  rewrite E. unfold marg. destruct (Nat.eqb_spec j (S i)) as [Ej|D].
  - rewrite cc_W by (auto; lia). replace (W (S i) (j - 1)) with 0%R; [change (carrier RNum) with R; lra|]. unfold W. symmetry. rewrite (rsum_ext n _ (fun _ => 0%R)); [apply rsum_0; auto|].
    intros g Hg. destruct (Nat.leb_spec (S i) g), (Nat.ltb_spec g (j - 1)); cbn [andb]; auto; lia.
  - rewrite !cc_W; auto; try lia. replace (S (j - 1)) with j by lia. auto.
Qed.
Lemma heap_init : heap_ok n isx (ccs n) (fun _ => false) (cs_heap st).
Proof.
  pose proof (cst_inv n ltac:(lia)) as (_ & _ & _ & _ & I5). fold st in I5.
  assert (M : forall i, S i < n -> isx i <> isx (S i) -> W i (S i) = marg (ccs n) i (S i)).
  { intros i Hi D. unfold marg. rewrite Nat.eqb_refl. symmetry. apply cc_W; [lia|]. rewrite HH_S, HH_S, (sgn_opp (isx i) (isx (S i))) by auto. lia. }
  split.
  - intros c i j H. apply I5 in H. destruct H as (-> & H2 & H3 & ->). repeat split; auto; try lia.
  - intros i j (H1 & _ & _ & H2 & H3). assert (j = S i).
    { destruct (Nat.eq_dec j (S i)); auto. specialize (H3 (S i) ltac:(lia)). discriminate. }
    subst j. apply I5. repeat split; auto; [lia|]. symmetry. apply M; auto; lia.
Qed.
End Cost.
