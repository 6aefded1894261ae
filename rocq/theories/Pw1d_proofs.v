(** partial_wasserstein_1d at p = 1: the returned indices and costs solve all partial problems *)
From Coq Require Import Reals Lra Lia List Arith ZArith Permutation Bool.
From Verif Require Import Num Sums Spec Perm Emd1d_model Emd1d_proofs Emd1d_perm_proofs Pw1d_model Pw1d_core Pw1d_loop Pw1d_cost Pw1d_prep Pw1d_frac.
Import ListNotations.
Local Open Scope nat_scope.

(** a matching of k pairs of indices, and its cost *)
Definition matching (nx ny k : nat) (M : list (nat * nat)) : Prop :=
  length M = k /\ NoDup (map fst M) /\ NoDup (map snd M) /\ forall a b, In (a, b) M -> a < nx /\ b < ny.
Definition mcost (x y : list R) (M : list (nat * nat)) : R :=
  fold_right Rplus 0%R (map (fun ab => Rabs (nth (fst ab) x 0%R - nth (snd ab) y 0%R)) M).

(** a partial plan moving mass k, and its cost *)
Definition pplan (nx ny k : nat) (G : nat -> nat -> R) : Prop :=
  (forall i j, i < nx -> j < ny -> (0 <= G i j)%R) /\ (forall i, i < nx -> (rsum ny (fun j => G i j) <= 1)%R)
  /\ (forall j, j < ny -> (rsum nx (fun i => G i j) <= 1)%R) /\ rsum nx (fun i => rsum ny (fun j => G i j)) = INR k.
Definition pcost (x y : list R) (G : nat -> nat -> R) : R :=
  rsum (length x) (fun i => rsum (length y) (fun j => (G i j * Rabs (nth i x 0 - nth j y 0))%R)).

Lemma firstn_S : forall (T : Type) (o : list T) l, l < length o -> exists r, nth_error o l = Some r /\ firstn (S l) o = firstn l o ++ [r].
Proof.
  induction o as [|a o IH]; intros l Hl; [cbn in Hl; lia|]. destruct l as [|l]; [exists a; split; reflexivity|].
  destruct (IH l) as (r & E1 & E2); [cbn in Hl; lia|]. exists r. split; [exact E1|]. cbn [firstn app]. f_equal. exact E2.
Qed.
Lemma rl_app : forall l l', rl (l ++ l') = (rl l + rl l')%R.
Proof. induction l as [|a l IH]; intros l'; [unfold rl at 2; cbn; symmetry; apply Rplus_0_l|]. change (rl ((a :: l) ++ l')) with (a + rl (l ++ l'))%R. change (rl (a :: l)) with (a + rl l)%R. rewrite IH. ring. Qed.
Lemma zsum_le : forall m f g, (forall i, i < m -> (f i <= g i)%Z) -> (zsum m f <= zsum m g)%Z.
Proof. induction m; intros f g H; [cbn; lia|]. cbn. pose proof (IHm f g ltac:(intros; apply H; lia)). pose proof (H m ltac:(lia)). lia. Qed.
Lemma zsum_ct : forall (f : nat -> bool) m, zsum m (fun i => if f i then 1%Z else 0%Z) = Z.of_nat (ct f m).
Proof. induction m; [reflexivity|]. cbn. rewrite IHm. destruct (f m); lia. Qed.
Lemma find_or : forall (f : nat -> bool) m, (exists i, i < m /\ f i = true) \/ (forall i, i < m -> f i = false).
Proof.
  induction m as [|m IH]; [right; lia|]. destruct IH as [(i & I1 & I2)|H]; [left; exists i; split; [lia|auto]|].
  destruct (f m) eqn:E; [left; exists m; auto|right; intros i Hi; destruct (Nat.eq_dec i m) as [->|]; [auto|apply H; lia]].
Qed.

Definition b2r (b : bool) : R := if b then 1%R else 0%R.
Lemma rsum_last : forall m f, 0 < m -> rsum m f = Rplus (rsum (m - 1) f) (f (m - 1)).
Proof. intros m f H. destruct m as [|m]; [lia|]. replace (S m - 1) with m by lia. reflexivity. Qed.
Lemma rsum_from : forall m u f, u <= m -> rsum m (fun g => (f g * b2r (u <=? g))%R) = (rsum m f - rsum u f)%R.
Proof.
  intros m u f H. induction H as [|m H IH].
  - rewrite Rminus_diag_eq by reflexivity. apply rsum_0. intros g Hg. rewrite (proj2 (Nat.leb_gt u g)) by lia. cbn. ring.
  - cbn [rsum]. rewrite IH, (proj2 (Nat.leb_le u m)) by lia. cbn. ring.
Qed.
Lemma rsum_upto : forall m g f, g < m -> rsum m (fun u => (b2r (u <=? g) * f u)%R) = rsum (S g) f.
Proof.
  intros m g f H. induction H as [|m H IH].
  - apply rsum_ext. intros u Hu. rewrite (proj2 (Nat.leb_le u g)) by lia. cbn. ring.
  - change (rsum m (fun u => (b2r (u <=? g) * f u)%R) + b2r (m <=? g) * f m = rsum (S g) f)%R. rewrite IH, (proj2 (Nat.leb_gt m g)) by lia. cbn [b2r]. ring.
Qed.

Section Run.
Variables (x y : list RNum) (pw : RNum -> RNum -> RNum) (p : RNum).
Let nx := length x.
Let ny := length y.
Let n := nx + ny.
Let q := preprocess (N:=RNum) x y.
Let isx := pre_isx q.
Let z : nat -> R := pre_z q.
Let cs := ccs n q pw p n.
Notation cand := (carrier RNum * nat * nat)%type.
Let zmono : forall i, S i < n -> (z i <= z (S i))%R := proj2 (proj2 (at_spec x y)).
Let xof (r : cand) : nat := if isx (snd r) then snd r else snd (fst r).
Let yof (r : cand) : nat := if isx (snd r) then snd (fst r) else snd r.
Let cost (r : cand) : R := fst (fst r).

Lemma loop_run : forall k, exists o, gen_loop (N:=RNum) (S (length (cs_heap (costs_loop pw n q true p)) + k)) n isx (chain_costs_cumsum n (costs_loop pw n q true p)) k
    (cs_heap (costs_loop pw n q true p)) (fun _ => false) (fun _ => None, fun _ => None) [] = Ok o
  /\ grd n isx cs o /\ (length o = k \/ (length o <= k /\ forall i j, ~ adjc n isx (act o) i j)).
Proof.
  intros k. apply (gen_loop_ok n isx cs); auto.
  - intros h H. discriminate.
  - apply rep_none.
  - exact (heap_init n q pw p zmono (diff_ok x y) (cum_ok x y)).
  - intros l c i j H. destruct l; discriminate.
Qed.

Section Out.
Variable o : list cand.
Hypothesis G : grd n isx cs o.
Notation A l := (act (firstn l o)).

Lemma prefix_ok : forall l, l <= length o -> opt n isx z (Z.of_nat l) (A l) /\ blocks n isx (A l) /\ icost n isx z (A l) = rl (map cost (firstn l o))
  /\ NoDup (map xof (firstn l o)) /\ NoDup (map yof (firstn l o))
  /\ (forall r, In r (firstn l o) -> xof r < n /\ isx (xof r) = true /\ yof r < n /\ isx (yof r) = false)
  /\ (forall h, A l h = true <-> In h (map xof (firstn l o)) \/ In h (map yof (firstn l o))).
Proof.
  induction l as [|l IH]; intros Hl.
  { cbn [firstn map]. destruct (opt_nil n isx z zmono) as [O1 O2]. split; [exact O1|]. split; [exact O2|]. split; [|repeat split; try constructor; cbn in *; try tauto; intros; try discriminate; tauto].
    change (icost n isx z (fun _ => false) = 0%R). unfold icost. apply rsum_0. intros g _.
    assert (Z0 : forall m, DD isx (fun _ => false) m = 0%Z) by (induction m; [reflexivity|unfold DD in *; cbn [zsum]; rewrite IHm; reflexivity]). rewrite Z0. apply Rmult_0_r. }
  destruct (IH ltac:(lia)) as (I1 & I2 & I3 & I4 & I5 & I6 & I7). destruct (firstn_S _ o l ltac:(lia)) as ([[c i] j] & E1 & E2).
  destruct (G l c i j E1) as (HA & Hc & HM). pose proof HA as (Hij & Ai & Aj & Hs & Hb).
  pose proof (fun i' j' (Q : adjc n isx (A l) i' j') => marg_icost n q pw p zmono (diff_ok x y) (cum_ok x y) (A l) i' j' Q I2) as MI.
  rewrite E2, act_snoc, !map_app. cbn [map].
  assert (XY : (xof (c, i, j) = i /\ yof (c, i, j) = j /\ isx i = true /\ isx j = false) \/ (xof (c, i, j) = j /\ yof (c, i, j) = i /\ isx i = false /\ isx j = true)).
  { unfold xof, yof. cbn [fst snd]. destruct (isx j) eqn:Ej, (isx i) eqn:Ei; try congruence; [right|left]; auto. }
  assert (FX : ~ In (xof (c, i, j)) (map xof (firstn l o))).
  { intros Q. assert (A l (xof (c, i, j)) = true) by (apply I7; auto). destruct XY as [(E & _)|(E & _)]; rewrite E in *; congruence. }
  assert (FY : ~ In (yof (c, i, j)) (map yof (firstn l o))).
  { intros Q. assert (A l (yof (c, i, j)) = true) by (apply I7; auto). destruct XY as [(_ & E & _)|(_ & E & _)]; rewrite E in *; congruence. }
  split.
  { rewrite Nat2Z.inj_succ. replace (Z.succ (Z.of_nat l)) with (Z.of_nat l + 1)%Z by lia. apply (opt_add n isx z zmono); auto. intros i' j' Q.
    specialize (HM i' j' Q). rewrite Hc in HM. pose proof (MI i j HA) as M1. pose proof (MI i' j' Q) as M2. fold isx z cs in M1, M2. 
    change (marg cs i j <= marg cs i' j')%R in HM. lra. }
  split; [apply blocks_add; auto|]. split.
  { rewrite rl_app, <- I3. pose proof (MI i j HA) as M1. fold isx z cs in M1. change (rl (cost (c, i, j) :: nil)) with ((c : R) + 0)%R. rewrite Hc. change (marg cs i j) with (marg cs i j : R) in *. lra. }
  split; [apply (Permutation_NoDup (Permutation_cons_append _ _)); constructor; auto|].
  split; [apply (Permutation_NoDup (Permutation_cons_append _ _)); constructor; auto|].
  split.
  - intros r Hr. apply in_app_or in Hr. destruct Hr as [Hr|[<-|[]]]; [apply I6; auto|]. destruct XY as [(-> & -> & Q1 & Q2)|(-> & -> & Q1 & Q2)]; repeat split; auto; lia.
  - intros h. rewrite !in_app_iff. cbn [In]. unfold add2, upd. destruct XY as [(-> & -> & Q1 & Q2)|(-> & -> & Q1 & Q2)];
    (destruct (Nat.eqb_spec h j); [subst; split; auto|]; destruct (Nat.eqb_spec h i); [subst; split; auto|]; rewrite I7; intuition congruence).
Qed.

(** the matching of the first l rows *)
Lemma upper : forall l, l <= length o -> exists M, matching nx ny l M /\ Permutation (map fst M) (map (fun r => ux x y (xof r)) (firstn l o))
  /\ Permutation (map snd M) (map (fun r => uy x y (yof r)) (firstn l o)) /\ mcost x y M = rl (map cost (firstn l o)).
Proof.
  intros l Hl. destruct (prefix_ok l Hl) as ([[DA CA] _] & _ & I3 & I4 & I5 & I6 & I7).
  destruct (match_sel n isx z zmono (A l) DA) as (L & L1 & L2 & L3).
  set (px := fun uv : nat * nat => if isx (fst uv) then fst uv else snd uv). set (py := fun uv : nat * nat => if isx (fst uv) then snd uv else fst uv).
  assert (PX : Permutation (filter isx (flat_map (fun uv : nat * nat => [fst uv; snd uv]) L)) (map px L)
            /\ Permutation (filter (fun i => negb (isx i)) (flat_map (fun uv : nat * nat => [fst uv; snd uv]) L)) (map py L)).
  { clear L2 L3. induction L as [|[u v] L IH]; [split; constructor|]. destruct IH as [IH1 IH2]; [intros; apply L1; right; auto|].
    destruct (L1 u v (or_introl eq_refl)) as [_ D]. cbn [flat_map fst snd app filter map]. unfold px at 1, py at 1. cbn [fst snd].
    destruct (isx u), (isx v); try congruence; cbn [negb]; split; constructor; auto. }
  assert (FP : forall (T : Type) (f : T -> bool) (a b : list T), Permutation a b -> Permutation (filter f a) (filter f b)).
  { intros T f a b P. induction P; cbn; auto; [destruct (f x0); auto| |etransitivity; eauto]. destruct (f x0), (f y0); auto. constructor. }
  assert (QX : Permutation (map px L) (map xof (firstn l o))).
  { rewrite <- (proj1 PX), <- (FP _ isx _ _ L2). apply NoDup_Permutation; [apply NoDup_filter, NoDup_filter, seq_NoDup|auto|].
    intros h. rewrite !filter_In, in_seq, I7. split.
    - intros [[_ [Q|Q]] E]; auto. apply in_map_iff in Q. destruct Q as (r & <- & Q). apply I6 in Q. destruct Q as (_ & _ & _ & Q). congruence.
    - intros Q. pose proof Q as Q'. apply in_map_iff in Q'. destruct Q' as (r & <- & Q'). apply I6 in Q'. destruct Q' as (Q1 & Q2 & _). repeat split; auto; lia. }
  assert (QY : Permutation (map py L) (map yof (firstn l o))).
  { rewrite <- (proj2 PX), <- (FP _ (fun i => negb (isx i)) _ _ L2). apply NoDup_Permutation; [apply NoDup_filter, NoDup_filter, seq_NoDup|auto|].
    intros h. rewrite !filter_In, in_seq, I7. split.
    - intros [[_ [Q|Q]] E]; auto. apply in_map_iff in Q. destruct Q as (r & <- & Q). apply I6 in Q. destruct Q as (_ & Q & _). rewrite Q in E. discriminate.
    - intros Q. pose proof Q as Q'. apply in_map_iff in Q'. destruct Q' as (r & <- & Q'). apply I6 in Q'. destruct Q' as (_ & _ & Q1 & Q2). rewrite Q2. repeat split; auto; lia. }
  set (M := map (fun uv => (ux x y (px uv), uy x y (py uv))) L).
  assert (MF : map fst M = map (ux x y) (map px L)) by (unfold M; rewrite !map_map; reflexivity).
  assert (MS : map snd M = map (uy x y) (map py L)) by (unfold M; rewrite !map_map; reflexivity).
  assert (P1 : Permutation (map fst M) (map (fun r => ux x y (xof r)) (firstn l o))) by (rewrite MF, <- (map_map xof (ux x y)); apply Permutation_map; auto).
  assert (P2 : Permutation (map snd M) (map (fun r => uy x y (yof r)) (firstn l o))) by (rewrite MS, <- (map_map yof (uy x y)); apply Permutation_map; auto).
  assert (IJ : forall (f : nat -> nat) (m : list nat), NoDup m -> (forall a b, In a m -> In b m -> f a = f b -> a = b) -> NoDup (map f m)).
  { intros f m ND HI. induction ND as [|a m Ha ND IH]; [constructor|]. cbn. constructor; [|apply IH; intros; apply HI; try right; auto].
    intros Q. apply in_map_iff in Q. destruct Q as (b & E & Hb). apply Ha. rewrite (HI a b); auto; [left; auto|right; auto]. }
  assert (SX : forall h, In h (map xof (firstn l o)) -> h < n /\ isx h = true) by (intros h Q; apply in_map_iff in Q; destruct Q as (r & <- & Q); apply I6 in Q; tauto).
  assert (SY : forall h, In h (map yof (firstn l o)) -> h < n /\ isx h = false) by (intros h Q; apply in_map_iff in Q; destruct Q as (r & <- & Q); apply I6 in Q; tauto).
  exists M. split; [split; [|split; [|split]]|split; [exact P1|split; [exact P2|]]].
  - pose proof (Permutation_length P1) as Q. rewrite !map_length in Q. rewrite Q, firstn_length. lia.
  - apply (Permutation_NoDup (Permutation_sym P1)). rewrite <- (map_map xof (ux x y)). apply IJ; auto.
    intros a b Ha Hb E. apply SX in Ha, Hb. apply (ux_inj x y); tauto.
  - apply (Permutation_NoDup (Permutation_sym P2)). rewrite <- (map_map yof (uy x y)). apply IJ; auto.
    intros a b Ha Hb E. apply SY in Ha, Hb. apply (uy_inj x y); tauto.
  - intros a b Q. split.
    + assert (Q' : In a (map fst M)) by (apply (in_map fst) in Q; exact Q). apply (Permutation_in _ P1) in Q'. apply in_map_iff in Q'. destruct Q' as (r & <- & Q'). apply I6 in Q'. apply (ux_z x y); tauto.
    + assert (Q' : In b (map snd M)) by (apply (in_map snd) in Q; exact Q). apply (Permutation_in _ P2) in Q'. apply in_map_iff in Q'. destruct Q' as (r & <- & Q'). apply I6 in Q'. apply (uy_z x y); tauto.
  - rewrite <- I3, L3. unfold mcost, M, rl. rewrite map_map. f_equal. apply map_ext_in. intros [u v] Q. destruct (L1 u v Q) as [H1 H2]. unfold px, py. cbn [fst snd].
    destruct (isx u) eqn:Eu.
    + pose proof (proj2 (ux_z x y u ltac:(lia) Eu)) as X1. assert (Ev : isx v = false) by (destruct (isx v); congruence). pose proof (proj2 (uy_z x y v ltac:(lia) Ev)) as X2.
      change (Rabs (nth (ux x y u) x (n0 (n:=RNum)) - nth (uy x y v) y (n0 (n:=RNum))) = Rabs (z u - z v)). rewrite X1, X2. reflexivity.
    + assert (Ev : isx v = true) by (destruct (isx v); congruence). pose proof (proj2 (ux_z x y v ltac:(lia) Ev)) as X1. pose proof (proj2 (uy_z x y u ltac:(lia) Eu)) as X2.
      change (Rabs (nth (ux x y v) x (n0 (n:=RNum)) - nth (uy x y u) y (n0 (n:=RNum))) = Rabs (z u - z v)). rewrite X1, X2. apply Rabs_minus_sym.
Qed.

(** no matching of l pairs is cheaper *)
Lemma lower : forall l M, l <= length o -> matching nx ny l M -> (rl (map cost (firstn l o)) <= mcost x y M)%R.
Proof.
  intros l M Hl (LM & N1 & N2 & HB). destruct (prefix_ok l Hl) as ([_ OA] & _ & I3 & _).
  assert (EX : exists l', M = map (fun ij => (ux x y (fst ij), uy x y (snd ij))) l' /\ forall i j, In (i, j) l' -> i < n /\ j < n /\ isx i = true /\ isx j = false).
  { clear LM N1 N2. induction M as [|[a b] M IH]; [exists []; split; [reflexivity|intros i j []]|].
    destruct IH as (l' & E & F); [intros; apply HB; right; auto|]. destruct (HB a b (or_introl eq_refl)) as [Ha Hb].
    destruct (ux_onto x y a Ha) as (i & A1 & A2 & A3). destruct (uy_onto x y b Hb) as (j & B1 & B2 & B3).
    exists ((i, j) :: l'). split; [cbn [map fst snd]; rewrite E, A3, B3; reflexivity|]. intros i' j' [Q|Q]; [injection Q as <- <-; repeat split; auto|auto]. }
  destruct EX as (l' & E & F). rewrite E in N1, N2. rewrite !map_map in N1, N2. cbn [fst snd] in N1, N2.
  rewrite <- (map_map fst (ux x y)) in N1. rewrite <- (map_map snd (uy x y)) in N2. apply NoDup_map_inv in N1. apply NoDup_map_inv in N2.
  destruct (match_lower n isx z zmono l' F N1 N2) as [SL CL].
  assert (LL : length l' = l) by (rewrite <- LM, E, map_length; reflexivity). rewrite LL in SL. specialize (OA _ SL).
  rewrite <- I3. apply Rle_trans with (1 := OA). apply Rle_trans with (1 := CL). apply Req_le. unfold mcost, rl. rewrite E, map_map. f_equal. apply map_ext_in. intros [i j] Q.
  destruct (F i j Q) as (F1 & F2 & F3 & F4). cbn [fst snd]. pose proof (proj2 (ux_z x y i F1 F3)) as X1. pose proof (proj2 (uy_z x y j F2 F4)) as X2.
  symmetry. change (Rabs (nth (ux x y i) x (n0 (n:=RNum)) - nth (uy x y j) y (n0 (n:=RNum))) = Rabs (z i - z j)). rewrite X1, X2. reflexivity.
Qed.

(** sums over the positions of one side *)
Lemma sum_x : forall f : nat -> R, rsum n (fun g => if isx g then f (ux x y g) else 0%R) = rsum nx f.
Proof.
  intros f. assert (E : forall h : nat -> R, forall m, rsum m (fun g => if isx g then h (ct isx g) else 0%R) = rsum (ct isx m) h).
  { intros h. induction m as [|m IH]; [reflexivity|]. cbn [rsum ct]. rewrite IH. destruct (isx m); [rewrite Nat.add_1_r; reflexivity|rewrite Nat.add_0_r; lra]. }
  destruct (argsort_sorts x) as [P _]. rewrite <- (rsum_perm nx (pfun (argsort x)) f) by (apply perm_list_on; exact P).
  pose proof (proj1 (ct_x x y)) as T1. fold nx ny n q isx in T1. rewrite <- T1, <- E. apply rsum_ext. intros g Hg. destruct (isx g) eqn:Eg; [|reflexivity].
  unfold ux. rewrite (proj1 (rank_x x y g Hg Eg)). reflexivity.
Qed.
Lemma sum_y : forall f : nat -> R, rsum n (fun g => if isx g then 0%R else f (uy x y g)) = rsum ny f.
Proof.
  intros f. set (nis := fun i => negb (isx i)). assert (E : forall h : nat -> R, forall m, rsum m (fun g => if isx g then 0%R else h (ct nis g)) = rsum (ct nis m) h).
  { intros h. induction m as [|m IH]; [reflexivity|]. cbn [rsum ct]. rewrite IH. unfold nis at 4. destruct (isx m); cbn [negb]; [rewrite Nat.add_0_r; lra|rewrite Nat.add_1_r; reflexivity]. }
  destruct (argsort_sorts y) as [P _]. rewrite <- (rsum_perm ny (pfun (argsort y)) f) by (apply perm_list_on; exact P).
  pose proof (proj2 (ct_x x y)) as T1. fold nx ny n q isx in T1. fold nis in T1. rewrite <- T1, <- E. apply rsum_ext. intros g Hg. destruct (isx g) eqn:Eg; [reflexivity|].
  unfold uy. rewrite (proj1 (rank_y x y g Hg Eg)). reflexivity.
Qed.

(** nor is a fractional plan *)
Lemma dist_len : forall u v, u < n -> v < n -> Rabs (z u - z v) = rsum n (fun g => (len n z g * Rabs (b2r (u <=? g) - b2r (v <=? g)))%R).
Proof.
  assert (T : forall u, u < n -> rsum n (fun g => (len n z g * b2r (u <=? g))%R) = Rminus (z (n - 1)) (z u)).
  { intros u Hu. pose proof (zeta_z n z u Hu) as Z1. pose proof (zeta_z n z (n - 1) ltac:(lia)) as Z2. unfold zeta in *.
    pose proof (rsum_last n (len n z) ltac:(lia)) as Z3. replace (len n z (n - 1)) with 0%R in Z3 by (unfold len; rewrite (proj2 (Nat.ltb_ge (S (n - 1)) n)) by lia; reflexivity).
    rewrite rsum_from by lia. lra. }
  assert (W : forall u v, u <= v -> v < n -> (z v - z u)%R = rsum n (fun g => (len n z g * Rabs (b2r (u <=? g) - b2r (v <=? g)))%R)).
  { intros u v Huv Hv. rewrite (rsum_ext n _ (fun g => (len n z g * b2r (u <=? g) - len n z g * b2r (v <=? g))%R)); [rewrite rsum_minus, !T by lia; ring|].
    intros g Hg. rewrite <- Rmult_minus_distr_l. f_equal. apply Rabs_right. unfold b2r. destruct (Nat.leb_spec u g), (Nat.leb_spec v g); try lra; lia. }
  intros u v Hu Hv. destruct (Nat.le_ge_cases u v) as [L|L].
  - rewrite <- W by auto. rewrite Rabs_minus_sym. apply Rabs_right. pose proof (z_le n z zmono u v ltac:(lia)). lra.
  - rewrite (rsum_ext n _ (fun g => (len n z g * Rabs (b2r (v <=? g) - b2r (u <=? g)))%R)) by (intros; rewrite Rabs_minus_sym; reflexivity).
    rewrite <- W by auto. apply Rabs_right. pose proof (z_le n z zmono v u ltac:(lia)). lra.
Qed.
Lemma lower_frac : forall l P, l <= length o -> pplan nx ny l P -> (rl (map cost (firstn l o)) <= pcost x y P)%R.
Proof.
  intros l P Hl (Pn & Pr & Pc & Pt). destruct (prefix_ok l Hl) as (OA & _ & I3 & _).
  set (Q := fun u v => if isx u then (if isx v then 0%R else P (ux x y u) (uy x y v)) else 0%R).
  assert (Qn : forall u v, u < n -> v < n -> (0 <= Q u v)%R).
  { intros u v Hu Hv. unfold Q. destruct (isx u) eqn:Eu; [|lra]. destruct (isx v) eqn:Ev; [lra|]. apply Pn; [apply (ux_z x y); auto|apply (uy_z x y); auto]. }
  assert (RS : forall u, u < n -> rsum n (fun v => Q u v) = if isx u then rsum ny (fun j => P (ux x y u) j) else 0%R).
  { intros u Hu. unfold Q. destruct (isx u); [|apply rsum_0; auto]. apply (sum_y (fun j => P (ux x y u) j)). }
  assert (CS : forall v, v < n -> rsum n (fun u => Q u v) = if isx v then 0%R else rsum nx (fun i => P i (uy x y v))).
  { intros v Hv. unfold Q. destruct (isx v); [apply rsum_0; intros u _; destruct (isx u); auto|]. apply (sum_x (fun i => P i (uy x y v))). }
  set (w := fun u => (rsum n (fun v => Q u v) + rsum n (fun v => Q v u))%R).
  assert (Ww : forall u, u < n -> w u = if isx u then rsum ny (fun j => P (ux x y u) j) else rsum nx (fun i => P i (uy x y u))).
  { intros u Hu. unfold w. rewrite RS, CS by auto. destruct (isx u); ring. }
  assert (W01 : forall u, u < n -> (0 <= w u <= 1)%R).
  { intros u Hu. split; [unfold w; apply Rplus_le_le_0_compat; apply rsum_nonneg; intros; apply Qn; auto|]. rewrite Ww by auto. destruct (isx u) eqn:Eu; [apply Pr, (ux_z x y); auto|apply Pc, (uy_z x y); auto]. }
  assert (TOT : forall b, rsum n (fun u => if Bool.eqb (isx u) b then w u else 0%R) = INR l).
  { intros []; rewrite <- Pt.
    - rewrite <- (sum_x (fun i => rsum ny (fun j => P i j))). apply rsum_ext. intros u Hu. rewrite Ww by auto. destruct (isx u); reflexivity.
    - rewrite rsum_swap, <- (sum_y (fun j => rsum nx (fun i => P i j))). apply rsum_ext. intros u Hu. rewrite Ww by auto. destruct (isx u); reflexivity. }
  rewrite <- I3. apply Rle_trans with (1 := frac_lower n isx z w l (A l) zmono W01 TOT OA).
  assert (DW : forall g, g < n -> Dw isx w (S g) = rsum n (fun u => rsum n (fun v => (Q u v * (b2r (u <=? g) - b2r (v <=? g)))%R))).
  { intros g Hg. unfold Dw.
    transitivity (rsum n (fun u => (b2r (u <=? g) * (rsum n (fun v => Q u v) - rsum n (fun v => Q v u)))%R)).
    - rewrite (rsum_upto n g (fun u => (rsum n (fun v => Q u v) - rsum n (fun v => Q v u))%R)) by auto. apply rsum_ext. intros u Hu.
      unfold w. rewrite !RS, !CS by lia. destruct (isx u); ring.
    - rewrite (rsum_ext n _ (fun u => (rsum n (fun v => b2r (u <=? g) * Q u v) - rsum n (fun v => b2r (u <=? g) * Q v u))%R)) by (intros u Hu; rewrite (rsum_scal n (b2r (u <=? g)) (fun v => Q u v)), (rsum_scal n (b2r (u <=? g)) (fun v => Q v u)); ring).
      rewrite rsum_minus. rewrite (rsum_swap n n (fun u v => (b2r (u <=? g) * Q v u)%R)). rewrite <- rsum_minus. apply rsum_ext. intros u Hu. rewrite <- rsum_minus. apply rsum_ext. intros v Hv. ring. }
  apply Rle_trans with (rsum n (fun g => rsum n (fun u => rsum n (fun v => (Q u v * (len n z g * Rabs (b2r (u <=? g) - b2r (v <=? g))))%R)))).
  { apply rsum_le. intros g Hg. rewrite DW by auto.
    apply Rle_trans with (len n z g * rsum n (fun u => rsum n (fun v => (Q u v * Rabs (b2r (u <=? g) - b2r (v <=? g)))%R)))%R.
    - apply Rmult_le_compat_l; [apply len_nn; exact zmono|]. apply Rle_trans with (1 := rsum_abs n _). apply rsum_le. intros u Hu. apply Rle_trans with (1 := rsum_abs n _). apply rsum_le. intros v Hv.
      rewrite Rabs_mult, (Rabs_right (Q u v)) by (apply Rle_ge, Qn; auto). lra.
    - apply Req_le. rewrite <- rsum_scal. apply rsum_ext. intros u Hu. rewrite <- rsum_scal. apply rsum_ext. intros v Hv. ring. }
  rewrite rsum_swap. rewrite (rsum_ext n _ (fun u => rsum n (fun v => (Q u v * Rabs (z u - z v))%R))).
  2:{ intros u Hu. rewrite rsum_swap. apply rsum_ext. intros v Hv. rewrite rsum_scal, <- dist_len by auto. reflexivity. }
  apply Req_le. unfold pcost. fold nx ny. etransitivity; [|exact (sum_x (fun i => rsum ny (fun j => (P i j * Rabs (nth i (x : list R) 0 - nth j (y : list R) 0))%R)))]. apply rsum_ext. intros u Hu. unfold Q. destruct (isx u) eqn:Eu; [|apply rsum_0; intros; ring].
  etransitivity; [|exact (sum_y (fun j => (P (ux x y u) j * Rabs (nth (ux x y u) (x : list R) 0 - nth j (y : list R) 0))%R))]. apply rsum_ext. intros v Hv. destruct (isx v) eqn:Ev; [ring|]. f_equal.
  pose proof (proj2 (ux_z x y u Hu Eu)) as X1. pose proof (proj2 (uy_z x y v Hv Ev)) as X2.
  symmetry. change (Rabs (nth (ux x y u) x (n0 (n:=RNum)) - nth (uy x y v) y (n0 (n:=RNum))) = Rabs (z u - z v)). rewrite X1, X2. reflexivity.
Qed.

(** the marginal costs are non-decreasing *)
Lemma marg_mono : forall l r r', nth_error o l = Some r -> nth_error o (S l) = Some r' -> (cost r <= cost r')%R.
Proof.
  intros l r r' E E'. assert (L2 : S l < length o) by (apply nth_error_Some; congruence).
  destruct (firstn_S _ o l ltac:(lia)) as (r0 & F1 & F2). destruct (firstn_S _ o (S l) ltac:(lia)) as (r1 & F3 & F4).
  rewrite E in F1. injection F1 as <-. rewrite E' in F3. injection F3 as <-.
  destruct (prefix_ok l ltac:(lia)) as (O0 & _ & C0 & _). destruct (prefix_ok (S l) ltac:(lia)) as (O1 & _ & C1 & _). destruct (prefix_ok (S (S l)) ltac:(lia)) as (O2 & _ & C2 & _).
  rewrite Nat2Z.inj_succ in O1. rewrite !Nat2Z.inj_succ in O2.
  pose proof (opt_convex n isx z zmono (Z.of_nat l) _ _ _ O0 ltac:(rewrite <- Z.add_1_r in O1; exact O1) ltac:(replace (Z.of_nat l + 2)%Z with (Z.succ (Z.succ (Z.of_nat l))) by lia; exact O2)) as Q.
  rewrite C0, C1, C2, F4, map_app, rl_app, F2, map_app, rl_app in Q. cbn in Q. lra.
Qed.

(** the number of rows *)
Lemma count : length o <= Nat.min nx ny /\ (length o < Nat.min nx ny -> exists i j, adjc n isx (act o) i j).
Proof.
  destruct (prefix_ok (length o) ltac:(lia)) as ([[DA CA] _] & _). rewrite firstn_all in DA, CA. set (B := act o) in *.
  set (ax := zsum n (fun i => if B i && isx i then 1%Z else 0%Z)). set (ay := zsum n (fun i => if B i && negb (isx i) then 1%Z else 0%Z)).
  assert (E1 : (ax - ay = 0)%Z) by (rewrite <- DA; unfold ax, ay, DD; rewrite <- zsum_minus; apply zsum_ext; intros i Hi; unfold steps; destruct (B i), (isx i); reflexivity).
  assert (E2 : (ax + ay = 2 * Z.of_nat (length o))%Z) by (rewrite <- CA; unfold ax, ay, cnt; rewrite <- zsum_plus; apply zsum_ext; intros i Hi; destruct (B i), (isx i); reflexivity).
  pose proof (proj1 (ct_x x y)) as T1. pose proof (proj2 (ct_x x y)) as T2. fold nx ny n q isx in T1, T2.
  pose proof (zsum_ct isx n) as S1. pose proof (zsum_ct (fun i => negb (isx i)) n) as S2. rewrite T1 in S1. rewrite T2 in S2.
  assert (B1 : (ax <= Z.of_nat nx)%Z) by (rewrite <- S1; apply zsum_le; intros i Hi; destruct (B i), (isx i); cbn; lia).
  assert (B2 : (ay <= Z.of_nat ny)%Z) by (rewrite <- S2; apply zsum_le; intros i Hi; destruct (B i), (isx i); cbn; lia).
  split; [lia|]. intros Hlt.
  assert (FX : exists u, u < n /\ B u = false /\ isx u = true).
  { destruct (find_or (fun i => negb (B i) && isx i) n) as [(i & I1 & I2)|Q]; [apply andb_true_iff in I2; destruct I2 as [I2 I3]; apply negb_true_iff in I2; exists i; auto|].
    assert (ax = Z.of_nat nx); [|lia]. rewrite <- S1. apply zsum_ext. intros i Hi. specialize (Q i Hi). cbv beta in Q. destruct (B i), (isx i); try discriminate; reflexivity. }
  assert (FY : exists v, v < n /\ B v = false /\ isx v = false).
  { destruct (find_or (fun i => negb (B i) && negb (isx i)) n) as [(i & I1 & I2)|Q]; [apply andb_true_iff in I2; destruct I2 as [I2 I3]; apply negb_true_iff in I2, I3; exists i; auto|].
    assert (ay = Z.of_nat ny); [|lia]. rewrite <- S2. apply zsum_ext. intros i Hi. specialize (Q i Hi). cbv beta in Q. destruct (B i), (isx i); try discriminate; reflexivity. }
  destruct FX as (u & U1 & U2 & U3), FY as (v & V1 & V2 & V3).
  destruct (Nat.lt_trichotomy u v) as [C|[C|C]]; [|congruence|].
  - destruct (find_adj n isx B u v ltac:(lia) U2 V2 ltac:(congruence)) as (i & j & Q & _). exists i, j. exact Q.
  - destruct (find_adj n isx B v u ltac:(lia) V2 U2 ltac:(congruence)) as (i & j & Q & _). exists i, j. exact Q.
Qed.
End Out.

(** the result of partial_wasserstein_1d_cy *)
Lemma run_ok : forall k, exists ix iy mc, partial_wasserstein_1d_cy pw x y k true p = Ok (ix, iy, mc)
  /\ length ix = k /\ length iy = k /\ length mc = k
  /\ (forall l, l <= k -> l <= Nat.min nx ny -> exists M, matching nx ny l M /\ Permutation (map fst M) (firstn l ix) /\ Permutation (map snd M) (firstn l iy)
        /\ mcost x y M = rl (firstn l mc) /\ (forall M', matching nx ny l M' -> (rl (firstn l mc) <= mcost x y M')%R)
        /\ (forall P, pplan nx ny l P -> (rl (firstn l mc) <= pcost x y P)%R))
  /\ (forall t, S t < k -> S t < Nat.min nx ny -> (nth t mc 0 <= nth (S t) mc 0)%R)
  /\ (forall t, Nat.min nx ny <= t < k -> nth t mc 0%R = 0%R).
Proof.
  intros k. destruct (loop_run k) as (o & E & G & LO). destruct (count o G) as [C1 C2].
  assert (LEN : length o = Nat.min k (Nat.min nx ny)).
  { destruct LO as [LO|[LO NA]]; [lia|]. destruct (Nat.lt_ge_cases (length o) (Nat.min nx ny)) as [Q|Q]; [|lia]. destruct (C2 Q) as (i & j & Q'). destruct (NA i j Q'). }
  set (rows := o ++ repeat (n0 (n:=RNum), 0, 0) (k - length o)).
  assert (LR : length rows = k) by (unfold rows; rewrite app_length, repeat_length; lia).
  exists (map (fun r => back (pre_sx q) (pick q true r)) rows), (map (fun r => back (pre_sy q) (pick q false r)) rows), (map (fun r => fst (fst r)) rows).
  split.
  { unfold partial_wasserstein_1d_cy. fold nx ny n q. change (pre_isx q) with isx.
    match goal with |- match ?X with _ => _ end = _ => replace X with (Ok (A:=list cand) o) by (symmetry; exact E) end. reflexivity. }
  rewrite !map_length. split; [exact LR|]. split; [exact LR|]. split; [exact LR|].
  assert (FR : forall l, l <= length o -> firstn l rows = firstn l o).
  { intros l Hl. unfold rows. rewrite firstn_app. replace (l - length o) with 0 by lia. cbn [firstn]. apply app_nil_r. }
  split; [|split].
  - intros l Hk Hm. assert (Hl : l <= length o) by lia. destruct (upper o G l Hl) as (M & U1 & U2 & U3 & U4).
    assert (PX : forall r, In r (firstn l o) -> back (pre_sx q) (pick q true r) = ux x y (xof r) /\ back (pre_sy q) (pick q false r) = uy x y (yof r)).
    { intros r Hr. destruct (prefix_ok o G l Hl) as (_ & _ & _ & _ & _ & I6 & _). specialize (I6 r Hr). unfold xof, yof in *. destruct r as [[c i] j]. cbn [fst snd] in *. unfold pick. fold isx.
      destruct I6 as (I1 & I2 & I3 & I4). destruct (isx j) eqn:Ej; cbn [Bool.eqb]; rewrite ?I2, ?I4; cbn [Bool.eqb back]; split; reflexivity. }
    exists M. split; [exact U1|]. rewrite !firstn_map, FR by auto. split; [|split; [|split; [|split]]].
    + rewrite U2. apply Permutation_refl'. symmetry. apply map_ext_in. intros r Hr. apply PX; auto.
    + rewrite U3. apply Permutation_refl'. symmetry. apply map_ext_in. intros r Hr. apply PX; auto.
    + exact U4.
    + intros M' HM. apply (lower o G l M' Hl HM).
    + intros P HP. apply (lower_frac o G l P Hl HP).
  - intros t Hk Hm. assert (Ht : S t < length o) by lia.
    assert (NE : forall u, u < length o -> exists r, nth_error o u = Some r /\ nth u (map (fun r : cand => fst (fst r)) rows) 0%R = cost r).
    { intros u Hu. destruct (nth_error o u) as [r|] eqn:Er; [|apply nth_error_None in Er; lia]. exists r. split; [auto|]. apply nth_error_nth. rewrite nth_error_map. unfold rows. rewrite nth_error_app1 by auto. rewrite Er. reflexivity. }
    destruct (NE t ltac:(lia)) as (r & R1 & R2). destruct (NE (S t) ltac:(lia)) as (r' & R3 & R4). rewrite R2, R4. apply (marg_mono o G t); auto.
  - intros t Ht. unfold rows. rewrite map_app, app_nth2 by (rewrite map_length; lia). rewrite map_length.
    destruct (nth_in_or_default (t - length o) (map (fun r : cand => fst (fst r)) (repeat (n0 (n:=RNum), 0, 0) (k - length o))) 0%R) as [Q|Q]; [|exact Q].
    apply in_map_iff in Q. destruct Q as (r & Q1 & Q2). apply repeat_spec in Q2. rewrite <- Q1, Q2. reflexivity.
Qed.
End Run.
