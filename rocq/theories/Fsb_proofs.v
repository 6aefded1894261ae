(** Free-support barycenters: exact decrease of the energy. *)
From Coq Require Import Reals Lra Lia Arith Bool List.
Import ListNotations.
From Verif Require Import Num Sums Spec Duals_proofs Utils_model Utils_proofs Utils_batch Emd1d_model Optim_model Gw_model Ugw_proofs Glue_model Glue_proofs P_Glue Fsb_model.
Local Open Scope R_scope.

Definition sqeu (d : nat) (X Y : mat) : mat := fun r s => rsum d (fun t => (X r t - Y s t) ^ 2).
Lemma sq_cost_R : forall d X Y r s, sq_cost (N:=RNum) d X Y r s = sqeu d X Y r s.
Proof. intros. unfold sq_cost. apply (eucl_gen (fun x => x) d X Y true r s). Qed.
Lemma sqeu_nonneg : forall d X Y r s, 0 <= sqeu d X Y r s.
Proof. intros. apply rsum_nonneg. intros. apply pow2_ge_0. Qed.
Lemma cost_ext_M : forall n m M M' G, (forall i j, (i < n)%nat -> (j < m)%nat -> M i j = M' i j) -> cost n m M G = cost n m M' G.
Proof. intros. apply rsum_ext; intros i Hi. apply rsum_ext; intros j Hj. rewrite H; auto. Qed.
Lemma opt_ext_M : forall n m a b M M' G, (forall i j, (i < n)%nat -> (j < m)%nat -> M i j = M' i j) -> optimal_coupling n m a b M G -> optimal_coupling n m a b M' G.
Proof. intros n m a b M M' G H [C O]. split; auto. intros G' C'. rewrite <- !(cost_ext_M n m M M') by auto. auto. Qed.
Lemma cost_sqeu : forall k m d X Y T, cost k m (sqeu d X Y) T = rsum k (fun r => rsum d (fun t => rsum m (fun s => T r s * (X r t - Y s t) ^ 2))).
Proof.
  intros. unfold cost, sqeu. apply rsum_ext; intros r Hr. rewrite <- rsum_swap. apply rsum_ext; intros s Hs. rewrite <- rsum_scal_r. apply rsum_ext; intros; ring.
Qed.
Section Decr.
Variables (k d p : nat) (b : vec) (m : nat -> nat) (Y : nat -> mat) (a : nat -> vec) (w : vec) (T : nat -> mat).
Hypotheses (Hb : pos_vec k b) (Hw : rsum p w = 1) (HT : forall i, (i < p)%nat -> coupling k (m i) b (a i) (T i)).
Definition mean_map : mat := fun r t => rsum p (fun i => w i * 1 / b r * rsum (m i) (fun s => T i r s * Y i s t)).
Lemma bary_identity : forall X, rsum p (fun i => w i * cost k (m i) (sqeu d X (Y i)) (T i)) =
  rsum p (fun i => w i * cost k (m i) (sqeu d mean_map (Y i)) (T i)) + rsum k (fun r => b r * rsum d (fun t => (mean_map r t - X r t) ^ 2)).
Proof.
  intros X. assert (Q : forall Z, rsum p (fun i => w i * cost k (m i) (sqeu d Z (Y i)) (T i)) = rsum k (fun r => rsum d (fun t => rsum p (fun i => w i * rsum (m i) (fun s => T i r s * (Z r t - Y i s t) ^ 2))))).
  { intros Z. rewrite (rsum_ext p _ (fun i => rsum k (fun r => rsum d (fun t => w i * rsum (m i) (fun s => T i r s * (Z r t - Y i s t) ^ 2))))).
    - rewrite rsum_swap. apply rsum_ext; intros r Hr. rewrite rsum_swap. auto.
    - intros i Hi. rewrite cost_sqeu, <- rsum_scal. apply rsum_ext; intros r Hr. rewrite <- rsum_scal. auto. }
  rewrite !Q, <- rsum_plus. apply rsum_ext; intros r Hr. rewrite <- rsum_scal, <- rsum_plus. apply rsum_ext; intros t Ht.
  assert (E : forall z, rsum p (fun i => w i * rsum (m i) (fun s => T i r s * (z - Y i s t) ^ 2)) = z ^ 2 * b r - 2 * z * (b r * mean_map r t) + rsum p (fun i => w i * rsum (m i) (fun s => T i r s * Y i s t ^ 2))).
  { intros z. assert (E1 : b r * mean_map r t = rsum p (fun i => w i * rsum (m i) (fun s => T i r s * Y i s t))).
    { unfold mean_map. rewrite <- rsum_scal. apply rsum_ext; intros i Hi. specialize (Hb r Hr). field. lra. }
    assert (E2 : b r = rsum p (fun i => w i * rsum (m i) (T i r))).
    { rewrite (rsum_ext p _ (fun i => w i * b r)); [rewrite rsum_scal_r, Hw; lra|]. intros i Hi. destruct (HT i Hi) as (_ & R1 & _). f_equal. apply R1; auto. }
    rewrite E1. rewrite E2 at 1. rewrite <- !rsum_scal, <- rsum_minus, <- rsum_plus. apply rsum_ext; intros i Hi.
    rewrite (rsum_ext (m i) (fun s => T i r s * (z - Y i s t) ^ 2) (fun s => z ^ 2 * T i r s - 2 * z * (T i r s * Y i s t) + T i r s * Y i s t ^ 2)) by (intros; ring).
    rewrite rsum_plus, rsum_minus, !rsum_scal. ring. }
  rewrite !E. ring.
Qed.
End Decr.
Lemma fsb_step_mean : forall emd k d p b m Y a w X r t, fsb_step (N:=RNum) emd k d p b m Y a w X r t = mean_map p b m Y w (fsb_plan (N:=RNum) emd k d b m Y a X) r t.
Proof. intros. unfold fsb_step, mean_map. rewrite nsum_R. apply rsum_ext; intros i Hi. rewrite nsum_R. reflexivity. Qed.
Lemma displacement_R : forall k d X X', displacement (N:=RNum) k d X X' = rsum k (fun r => rsum d (fun t => (X' r t - X r t) ^ 2)).
Proof. intros. unfold displacement. rewrite nsum_R. apply rsum_ext; intros. rewrite nsum_R. apply rsum_ext; intros. cbn [nmul nsub RNum]. ring. Qed.

(** * The loop of free_support_barycenter *)
Section FsbLoop.
Variables (emd : nat -> nat -> vec -> vec -> mat -> mat) (k d p : nat) (b : vec) (m : nat -> nat) (Y : nat -> mat) (a : nat -> vec) (w : vec).
Hypotheses (Hb : pos_vec k b) (Hw0 : nonneg_vec p w) (Hw : rsum p w = 1).
Hypothesis Hemd : forall i M, (i < p)%nat -> optimal_coupling k (m i) b (a i) M (emd k (m i) b (a i) M).
Notation plan := (fsb_plan (N:=RNum) emd k d b m Y a).
Notation step := (fsb_step (N:=RNum) emd k d p b m Y a w).
Definition fsb_energy (X : mat) : R := rsum p (fun i => w i * cost k (m i) (sqeu d X (Y i)) (plan X i)).
Lemma plan_opt : forall X i, (i < p)%nat -> optimal_coupling k (m i) b (a i) (sqeu d X (Y i)) (plan X i).
Proof. intros. apply opt_ext_M with (M := sq_cost (N:=RNum) d X (Y i)); [intros; apply sq_cost_R|]. apply Hemd; auto. Qed.
Lemma energy_min : forall X T, (forall i, (i < p)%nat -> coupling k (m i) b (a i) (T i)) -> fsb_energy X <= rsum p (fun i => w i * cost k (m i) (sqeu d X (Y i)) (T i)).
Proof. intros X T HT. apply rsum_le. intros i Hi. apply Rmult_le_compat_l; [apply Hw0; auto|]. apply (plan_opt X i Hi). apply HT; auto. Qed.
Lemma energy_nonneg : forall X, 0 <= fsb_energy X.
Proof.
  intros X. apply rsum_nonneg. intros i Hi. apply Rmult_le_pos; [apply Hw0; auto|]. destruct (plan_opt X i Hi) as [(P & _ & _) _].
  apply rsum_nonneg; intros r Hr. apply rsum_nonneg; intros s Hs. apply Rmult_le_pos; [apply sqeu_nonneg|apply P; auto].
Qed.
Lemma fsb_step_decr_eps : forall X eps, (forall i, (i < p)%nat -> coupling k (m i) b (a i) (plan X i)) ->
  (forall i G', (i < p)%nat -> coupling k (m i) b (a i) G' -> cost k (m i) (sqeu d (step X) (Y i)) (plan (step X) i) <= cost k (m i) (sqeu d (step X) (Y i)) G' + eps) ->
  fsb_energy (step X) + rsum k (fun r => b r * rsum d (fun t => (step X r t - X r t) ^ 2)) <= fsb_energy X + eps.
Proof.
  intros X eps HC HO. unfold fsb_energy at 2. rewrite (bary_identity k d p b m Y a w (plan X) Hb Hw HC X).
  assert (E : forall r t, step X r t = mean_map p b m Y w (plan X) r t) by (intros; apply fsb_step_mean).
  assert (Q : fsb_energy (step X) <= rsum p (fun i => w i * cost k (m i) (sqeu d (mean_map p b m Y w (plan X)) (Y i)) (plan X i)) + eps).
  { replace eps with (rsum p (fun i => w i * eps)) by (rewrite rsum_scal_r, Hw; lra). rewrite <- rsum_plus. apply rsum_le. intros i Hi. rewrite <- Rmult_plus_distr_l. apply Rmult_le_compat_l; [apply Hw0; auto|].
    eapply Rle_trans; [apply (HO i (plan X i) Hi (HC i Hi))|]. apply Rplus_le_compat_r, Req_le. apply cost_ext_M. intros. apply rsum_ext; intros. rewrite E. auto. }
  rewrite (rsum_ext k (fun r => b r * rsum d (fun t => (step X r t - X r t) ^ 2)) (fun r => b r * rsum d (fun t => (mean_map p b m Y w (plan X) r t - X r t) ^ 2))) by (intros r Hr; f_equal; apply rsum_ext; intros; rewrite E; auto).
  lra.
Qed.
Lemma fsb_step_decr : forall X, fsb_energy (step X) + rsum k (fun r => b r * rsum d (fun t => (step X r t - X r t) ^ 2)) <= fsb_energy X.
Proof.
  intros X. rewrite <- (Rplus_0_r (fsb_energy X)). apply fsb_step_decr_eps; [intros i Hi; apply (proj1 (plan_opt X i Hi))|]. intros i G' Hi HG. rewrite Rplus_0_r. apply (plan_opt (step X) i Hi); auto.
Qed.
Variable (bmin : R).
Hypothesis Hbm : forall r, (r < k)%nat -> bmin <= b r.
Lemma disp_decr : forall X, fsb_energy (step X) + bmin * displacement (N:=RNum) k d X (step X) <= fsb_energy X.
Proof.
  intros X. eapply Rle_trans; [|apply fsb_step_decr]. apply Rplus_le_compat_l. rewrite displacement_R, <- rsum_scal. apply rsum_le; intros r Hr.
  apply Rmult_le_compat_r; [apply rsum_nonneg; intros; apply pow2_ge_0|auto].
Qed.
Lemma fsb_loop_decr : forall it thr disp X, let r := fsb_loop (N:=RNum) emd k d p b m Y a w it thr disp X in
  fsb_energy (fst r) + bmin * lsum (fun x => x) (snd r) <= fsb_energy X /\ (length (snd r) <= it)%nat /\
  (forall j, (S j < length (snd r))%nat -> thr < nth j (snd r) 0) /\ (thr < disp -> (length (snd r) < it)%nat -> snd r <> [] /\ last (snd r) 0 <= thr) /\ (disp <= thr -> snd r = []).
Proof.
  induction it; intros thr disp X; cbn [fsb_loop].
  - cbn [fst snd lsum length]. repeat split; try lia; auto. lra.
  - cbn [nltb RNum]. destruct (Rltb thr disp) eqn:B.
    + cbv zeta. cbn [fst snd]. apply Rltb_true in B. specialize (IHit thr (displacement (N:=RNum) k d X (step X)) (step X)). cbv zeta in IHit.
      destruct (fsb_loop (N:=RNum) emd k d p b m Y a w it thr (displacement (N:=RNum) k d X (step X)) (step X)) as [Xf l]. cbn [fst snd] in *. destruct IHit as (I1 & I2 & I3 & I4 & I5).
      pose proof (disp_decr X) as D. set (dd := displacement (N:=RNum) k d X (step X)) in *. split; [|split; [|split; [|split]]].
      * cbn [lsum]. change (carrier RNum) with R in *. lra.
      * cbn [length]. change (carrier RNum) with R in *. lia.
      * intros [|j] Hj; cbn [length nth] in *.
        -- destruct (Rle_dec dd thr) as [L|L]; [rewrite (I5 L) in Hj; cbn in Hj; lia|lra].
        -- apply I3. change (carrier RNum) with R in *. lia.
      * intros _ Hl. split; [discriminate|]. cbn [length] in Hl. destruct (Rle_dec dd thr) as [L|L].
        -- rewrite (I5 L). cbn. exact L.
        -- destruct I4 as [Ne La]; [lra|change (carrier RNum) with R in *; lia|]. destruct l; [congruence|]. exact La.
      * intros L. lra.
    + apply Rltb_false in B. cbn [fst snd lsum length]. repeat split; try lia; auto; lra.
Qed.
End FsbLoop.

(** * Generic costs *)
Lemma lsum_nth_error : forall A (g : A -> R) l, rsum (length l) (fun e => match nth_error l e with Some x => g x | None => 0 end) = lsum g l.
Proof. induction l as [|x l IH]; [reflexivity|]. cbn [length]. rewrite rsum_first. cbn [nth_error lsum]. rewrite IH. auto. Qed.
Lemma at_nth : forall (e : list nat * R) k j, (k < length (fst e))%nat -> at_ k j e = if Nat.eqb (nth k (fst e) 0%nat) j then snd e else 0.
Proof. intros. unfold at_. rewrite (nth_error_nth' _ 0%nat) by auto. reflexivity. Qed.
Lemma pair1 : forall (y : list (list nat * R)) k nk g, (forall e, In e y -> (k < length (fst e))%nat /\ (nth k (fst e) 0 < nk)%nat) ->
  lsum (fun e => g (nth k (fst e) 0%nat) * snd e) y = rsum nk (fun j => g j * lsum (at_ k j) y).
Proof.
  intros y k nk g H. rewrite (rsum_ext nk _ (fun j => lsum (fun e => g j * at_ k j e) y)) by (intros; rewrite lsum_scal; auto).
  rewrite <- lsum_rsum. apply lsum_ext. intros e He. destruct (H e He) as [L B]. rewrite (rsum_single nk (nth k (fst e) 0%nat)); auto.
  - rewrite at_nth by auto. rewrite Nat.eqb_refl. auto.
  - intros j Hj Nj. rewrite at_nth by auto. destruct (Nat.eqb_spec (nth k (fst e) 0%nat) j); [congruence|lra].
Qed.
Section Generic.
Variables (emd : nat -> nat -> vec -> vec -> mat -> mat) (Pt : Type) (x0 : Pt) (K : nat) (m : nat -> nat) (w : nat -> vec) (c : nat -> Pt -> nat -> R) (gb : list nat -> Pt) (ms : R).
Hypothesis HK : (1 <= K)%nat.
Definition good_measure (mu : measure (N:=RNum) Pt) : Prop := nonneg_vec (ms_n _ mu) (ms_a _ mu) /\ rsum (ms_n _ mu) (ms_a _ mu) = ms.
Hypothesis Hemd : forall k n a M, (k < K)%nat -> nonneg_vec n a -> rsum n a = ms -> optimal_coupling n (m k) a (w k) M (emd n (m k) a (w k) M).
Hypothesis Hgb : forall J x, rsum K (fun k => c k (gb J) (nth k J 0%nat)) <= rsum K (fun k => c k x (nth k J 0%nat)).
Notation energy mu := (ot_barycenter_energy (N:=RNum) emd Pt K m w c (ms_n _ mu) (ms_X _ mu) (ms_a _ mu)).
Lemma energy_R : forall mu : measure (N:=RNum) Pt, energy mu = rsum K (fun k => cost (ms_n _ mu) (m k) (fun i j => c k (ms_X _ mu i) j) (emd (ms_n _ mu) (m k) (ms_a _ mu) (w k) (fun i j => c k (ms_X _ mu i) j))).
Proof. intros. unfold ot_barycenter_energy, cost. rewrite nsum_R. apply rsum_ext; intros. rewrite nsum_R. apply rsum_ext; intros. rewrite nsum_R. reflexivity. Qed.
Lemma plans_nth : forall n X a k p, nth_error (gen_plans (N:=RNum) emd Pt K m w c n X a) k = Some p -> (k < K)%nat /\ p = (m k, emd n (m k) a (w k) (fun i j => c k (X i) j)).
Proof.
  intros n X a k p E. assert (Hk : (k < K)%nat). { assert (L : length (gen_plans (N:=RNum) emd Pt K m w c n X a) = K) by (unfold gen_plans; rewrite map_length, seq_length; auto). rewrite <- L. apply nth_error_Some. congruence. }
  split; auto. assert (S1 : nth_error (seq 0 K) k = Some k) by (rewrite (nth_error_nth' _ 0%nat) by (rewrite seq_length; auto); rewrite seq_nth; auto).
  pose proof (eq_trans (eq_sym E) (map_nth_error (fun k => (m k, emd n (m k) a (w k) (fun i j => c k (X i) j))) k (seq 0 K) S1)) as Q. injection Q as ->. reflexivity.
Qed.
Lemma plans_some : forall n X a k, (k < K)%nat -> nth_error (gen_plans (N:=RNum) emd Pt K m w c n X a) k = Some (m k, emd n (m k) a (w k) (fun i j => c k (X i) j)).
Proof. intros n X a k Hk. assert (S1 : nth_error (seq 0 K) k = Some k) by (rewrite (nth_error_nth' _ 0%nat) by (rewrite seq_length; auto); rewrite seq_nth; auto). exact (map_nth_error _ _ _ S1). Qed.
Definition glued (dct : list (list nat * R)) : measure (N:=RNum) Pt :=
  mkM (N:=RNum) Pt (length dct) (fun e => match nth_error dct e with Some en => gb (fst en) | None => x0 end) (fun e => match nth_error dct e with Some en => snd en | None => 0 end).
Lemma fps_eq : forall (mu : measure (N:=RNum) Pt) dct rows, NorthWestMMGluing (N:=RNum) (ms_n _ mu) (gen_plans (N:=RNum) emd Pt K m w c (ms_n _ mu) (ms_X _ mu) (ms_a _ mu)) None = Some (dct, rows) -> fixed_point_step (N:=RNum) emd Pt x0 K m w c gb mu = Some (glued dct).
Proof. intros mu dct rows E. unfold fixed_point_step. rewrite E. reflexivity. Qed.
Lemma fixed_point_decr : forall mu, good_measure mu -> exists nu, fixed_point_step (N:=RNum) emd Pt x0 K m w c gb mu = Some nu /\ good_measure nu /\ pos_vec (ms_n _ nu) (ms_a _ nu) /\ energy nu <= energy mu.
Proof.
  intros mu [A0 As]. set (n := ms_n _ mu) in *. set (a := ms_a _ mu) in *. set (X := ms_X _ mu) in *.
  assert (HP : plans_of n a (gen_plans (N:=RNum) emd Pt K m w c n X a)).
  { split; [unfold gen_plans; destruct K; [lia|discriminate]|]. intros q Hq. apply In_nth_error in Hq. destruct Hq as (k & Ek). destruct (plans_nth n X a k q Ek) as [Hk ->]. cbn [fst snd].
    destruct (Hemd k n a (fun i j => c k (X i) j) Hk A0 As) as [(P & R1 & _) _]. split; auto. }
  destruct (C57_north_west_gluing n a (gen_plans (N:=RNum) emd Pt K m w c n X a) None HP I) as (dct & f & E & F & Phi & Mg & ND & Pk & Tot & _). change (carrier RNum) with R in *.
  exists (glued dct). split; [exact (fps_eq mu dct _ E)|]. set (nu := glued dct).
  assert (LK : length (gen_plans (N:=RNum) emd Pt K m w c n X a) = K) by (unfold gen_plans; rewrite map_length, seq_length; auto).
  assert (Pos : pos_vec (ms_n _ nu) (ms_a _ nu)). { intros e He. unfold nu, glued in *. cbn [ms_a ms_n] in *. destruct (nth_error dct e) as [en|] eqn:En; [|apply nth_error_None in En; exact (False_ind _ (Nat.lt_irrefl _ (Nat.lt_le_trans _ _ _ He En)))]. apply (Pk en (nth_error_In _ _ En)). }
  assert (Tn : rsum (ms_n _ nu) (ms_a _ nu) = ms). { unfold nu, glued. cbn [ms_a ms_n]. rewrite <- As, <- Tot. exact (lsum_nth_error _ snd dct). }
  assert (G : good_measure nu) by (split; [intros e He; left; apply Pos; auto|exact Tn]).
  split; [exact G|]. split; [exact Pos|]. rewrite (energy_R nu). pose proof (energy_R mu) as EM. fold n a X in EM. refine (Rle_trans _ _ _ _ (Req_le _ _ (eq_sym EM))). clear EM.
  set (G_ := fun k e j => match nth_error dct e with Some en => if Nat.eqb (nth k (fst en) 0%nat) j then snd en else 0 | None => 0 end).
  assert (Cg : forall k, (k < K)%nat -> coupling (length dct) (m k) (ms_a _ nu) (w k) (G_ k)).
  { intros k Hk. pose proof (plans_some n X a k Hk) as Ek. repeat split.
    - intros e j He Hj. unfold G_. destruct (nth_error dct e) as [en|] eqn:En; [|lra]. destruct (Nat.eqb (nth k (fst en) 0%nat) j); [|lra]. left. apply (Pk en (nth_error_In _ _ En)).
    - intros e He. unfold row_sum, G_. unfold nu, glued. cbn [ms_a]. destruct (nth_error dct e) as [en|] eqn:En; [|apply nth_error_None in En; exact (False_ind _ (Nat.lt_irrefl _ (Nat.lt_le_trans _ _ _ He En)))]. destruct (Pk en (nth_error_In _ _ En)) as (_ & _ & B). specialize (B k _ Ek). cbn [fst] in B.
      rewrite (rsum_single _ (nth k (fst en) 0%nat)); auto; [rewrite Nat.eqb_refl; auto|]. intros j Hj Nj. destruct (Nat.eqb_spec (nth k (fst en) 0%nat) j); [congruence|auto].
    - intros j Hj. unfold col_sum, G_. destruct (Hemd k n a (fun i j => c k (X i) j) Hk A0 As) as [(_ & _ & C1) _]. rewrite <- (C1 j Hj). specialize (Mg k _ Ek j Hj). cbn [snd] in Mg. rewrite <- Mg.
      refine (eq_trans (lsum_nth_error _ (fun en : list nat * R => if Nat.eqb (nth k (fst en) 0%nat) j then snd en else 0) dct) _). apply lsum_ext. intros en Hen. symmetry. apply at_nth. destruct (Pk en Hen) as (_ & L & _). exact (eq_ind_r (fun z => (k < z)%nat) Hk (eq_trans L LK)). }
  apply Rle_trans with (rsum K (fun k => cost (length dct) (m k) (fun e j => c k (ms_X _ nu e) j) (G_ k))).
  { apply rsum_le. intros k Hk. apply (Hemd k (length dct) (ms_a _ nu) _ Hk (fun e He => Rlt_le _ _ (Pos e He)) Tn). apply Cg; auto. }
  assert (S1 : rsum K (fun k => cost (length dct) (m k) (fun e j => c k (ms_X _ nu e) j) (G_ k)) = lsum (fun e : list nat * R => rsum K (fun k => c k (gb (fst e)) (nth k (fst e) 0%nat)) * snd e) dct).
  { rewrite (lsum_ext _ _ (fun e : list nat * R => rsum K (fun k => c k (gb (fst e)) (nth k (fst e) 0%nat) * snd e))) by (intros; rewrite rsum_scal_r; auto).
    rewrite lsum_rsum. apply rsum_ext. intros k Hk. pose proof (plans_some n X a k Hk) as Ek. unfold cost. refine (eq_trans _ (lsum_nth_error _ (fun e : list nat * R => c k (gb (fst e)) (nth k (fst e) 0%nat) * snd e) dct)).
    apply rsum_ext. intros e He. unfold G_. unfold nu, glued. cbn [ms_X]. destruct (nth_error dct e) as [en|] eqn:En; [|apply nth_error_None in En; exact (False_ind _ (Nat.lt_irrefl _ (Nat.lt_le_trans _ _ _ He En)))]. destruct (Pk en (nth_error_In _ _ En)) as (_ & _ & B). specialize (B k _ Ek). cbn [fst] in B.
    rewrite (rsum_single _ (nth k (fst en) 0%nat)); auto; [rewrite Nat.eqb_refl; auto|]. intros j Hj Nj. destruct (Nat.eqb_spec (nth k (fst en) 0%nat) j); [congruence|ring]. }
  rewrite S1. pose proof (Phi (fun J => rsum K (fun k => c k (gb J) (nth k J 0%nat)))) as S2. cbn beta in S2. refine (Rle_trans _ _ _ (Req_le _ _ S2) _).
  apply Rle_trans with (rsum n (fun i => lsum (fun e : list nat * R => rsum K (fun k => c k (X i) (nth k (fst e) 0%nat)) * snd e) (f i))).
  { apply rsum_le. intros i Hi. destruct (F i Hi) as (_ & Fp & _). clear - Fp Hgb. induction (f i) as [|e l IH]; cbn [lsum]; [lra|]. apply Rplus_le_compat; [|apply IH; intros; apply Fp; right; auto].
    apply Rmult_le_compat_r; [left; apply (Fp e); left; auto|]. apply Hgb. }
  apply Req_le. unfold cost. symmetry. etransitivity; [apply rsum_swap|]. symmetry. apply rsum_ext. intros i Hi. destruct (F i Hi) as (_ & Fp & Fm).
  rewrite (lsum_ext _ _ (fun e : list nat * R => rsum K (fun k => c k (X i) (nth k (fst e) 0%nat) * snd e))) by (intros; rewrite rsum_scal_r; auto).
  rewrite lsum_rsum. apply rsum_ext. intros k Hk. pose proof (plans_some n X a k Hk) as Ek. rewrite (pair1 (f i) k (m k) (c k (X i))).
  - apply rsum_ext. intros j Hj. f_equal. specialize (Fm k _ Ek j Hj). cbn [snd] in Fm. exact Fm.
  - intros e He. destruct (Fp e He) as (_ & L & B). split; [exact (eq_ind_r (fun z => (k < z)%nat) Hk (eq_trans L LK))|]. specialize (B k _ Ek). exact B.
Qed.
End Generic.
