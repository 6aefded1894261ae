(** Lemmas about the one-dimensional solver model. *)
From Coq Require Import List Arith Bool Reals Lra Lia Permutation Sorted.
From Verif Require Import Num Sums Spec Monge Emd1d_model.
Import ListNotations.

(** ** Any arithmetic: the loop is total, stays in bounds and walks a staircase *)
Section AnyNum.
Context {N : NumOps}.
Variable powf : N -> N -> N.

(** specification of a monotone lattice path starting at (i,j) and ending in row n-1 *)
Fixpoint staircase (n m i j : nat) (es : list (@entry N)) : Prop :=
  match es with
  | [] => False
  | (w, i', j') :: es' =>
      i' = i /\ j' = j /\ i < n /\ j < m /\
      (match es' with
       | [] => S i = n
       | _ => staircase n m (S i) j es' \/ staircase n m i (S j) es'
       end)
  end.

Lemma ground_some : forall mt p x y, mt <> MOther -> exists g, ground powf mt p x y = Some g.
Proof. intros [] p x y H; simpl; eauto; congruence. Qed.

Lemma loop_total : forall fuel uw vw u v mt p i wi j wj cur cst acc,
  length u = length uw -> length v = length vw -> mt <> MOther ->
  i < length uw -> j < length vw -> cur = i + j ->
  length uw + length vw - 1 - (i + j) <= fuel ->
  exists es c, loop powf fuel uw vw u v mt p i wi j wj cur cst acc = Ok (acc ++ es, c)
    /\ staircase (length uw) (length vw) i j es
    /\ length es <= length uw + length vw - 1 - (i + j).
Proof.
  induction fuel; intros uw vw u v mt p i wi j wj cur cst acc Hu Hv Hmt Hi Hj Hcur Hf; [lia|].
  cbn [loop].
  destruct (nth_error u i) as [ui|] eqn:Eu; [|apply nth_error_None in Eu; lia].
  destruct (nth_error v j) as [vj|] eqn:Ev; [|apply nth_error_None in Ev; lia].
  destruct (ground_some mt p ui vj Hmt) as [g Eg]. rewrite Eg.
  destruct (Nat.leb_spec (length uw + length vw - 1) cur) as [Hc|Hc]; [lia|].
  destruct (nltb wi wj || Nat.eqb (S j) (length vw))%bool eqn:Eb.
  - destruct (Nat.eqb_spec (S i) (length uw)) as [Hn|Hn].
    + exists [(wi, i, j)]; eexists; split; [reflexivity|]. simpl; repeat split; auto; lia.
    + destruct (nth_error uw (S i)) as [wi'|] eqn:Ew; [|apply nth_error_None in Ew; lia].
      destruct (IHfuel uw vw u v mt p (S i) wi' j (nsub wj wi) (S cur)
         (nadd cst (nmul g wi)) (acc ++ [(wi, i, j)])) as (es & c & E1 & E2 & E3); auto; try lia.
      exists ((wi, i, j) :: es), c. rewrite E1, <- app_assoc. split; [reflexivity|].
      split; [|cbn [length]; lia].
      cbn [staircase]. repeat split; auto. destruct es; [destruct E2|]. left; exact E2.
  - apply orb_false_iff in Eb; destruct Eb as [_ Eb]. rewrite Eb.
    apply Nat.eqb_neq in Eb.
    destruct (nth_error vw (S j)) as [wj'|] eqn:Ew; [|apply nth_error_None in Ew; lia].
    destruct (IHfuel uw vw u v mt p i (nsub wi wj) (S j) wj' (S cur)
       (nadd cst (nmul g wj)) (acc ++ [(wj, i, j)])) as (es & c & E1 & E2 & E3); auto; try lia.
    exists ((wj, i, j) :: es), c. rewrite E1, <- app_assoc. split; [reflexivity|].
    split; [|cbn [length]; lia].
    cbn [staircase]. repeat split; auto. destruct es; [destruct E2|]. right; exact E2.
Qed.

Lemma staircase_range : forall es n m i j, staircase n m i j es ->
  Forall (fun e => i <= snd (fst e) < n /\ j <= snd e < m) es.
Proof.
  induction es as [|[[w i'] j'] es IH]; intros n m i j H; [destruct H|].
  cbn [staircase] in H. destruct H as (-> & -> & Hi & Hj & H). constructor; [simpl; lia|].
  destruct es; [constructor|]. destruct H as [H|H]; apply IH in H; eapply Forall_impl; try exact H;
  simpl; intros; lia.
Qed.

Lemma staircase_nodup : forall es n m i j, staircase n m i j es ->
  NoDup (map (fun e => (snd (fst e), snd e)) es).
Proof.
  induction es as [|[[w i'] j'] es IH]; intros n m i j H; [destruct H|].
  pose proof H as H0. cbn [staircase] in H. destruct H as (-> & -> & Hi & Hj & H).
  cbn [map]. constructor.
  - intros Hin. apply in_map_iff in Hin. destruct Hin as (e & He & Hin).
    destruct es as [|e0 es]; [destruct Hin|].
    destruct H as [H|H]; apply staircase_range in H;
    rewrite Forall_forall in H; specialize (H _ Hin); simpl in He; injection He; intros; lia.
  - destruct es; [constructor|]. destruct H as [H|H]; eapply IH; exact H.
Qed.

Lemma staircase_ends : forall es n m i j, staircase n m i j es ->
  exists w es', es = (w, i, j) :: es' /\ forall d, exists wl jl, last es d = (wl, n - 1, jl).
Proof.
  induction es as [|[[w i'] j'] es IH]; intros n m i j H; [destruct H|].
  cbn [staircase] in H. destruct H as (-> & -> & Hi & Hj & H).
  exists w, es; split; auto. intros d.
  destruct es as [|e es].
  - exists w, j. simpl. f_equal. f_equal. lia.
  - destruct H as [H|H]; apply IH in H; destruct H as (w' & es' & E & L);
    destruct (L d) as (wl & jl & L'); exists wl, jl; rewrite <- L'; reflexivity.
Qed.

Lemma emd_1d_sorted_total : forall uw vw u v mt p,
  length u = length uw -> length v = length vw -> mt <> MOther ->
  0 < length uw -> 0 < length vw ->
  exists es c, emd_1d_sorted powf uw vw u v mt p = Ok (es, c)
    /\ staircase (length uw) (length vw) 0 0 es
    /\ length es <= length uw + length vw - 1.
Proof.
  intros uw vw u v mt p Hu Hv Hmt Hn Hm. unfold emd_1d_sorted.
  destruct uw as [|w0 uw]; [simpl in Hn; lia|]. destruct vw as [|w1 vw]; [simpl in Hm; lia|].
  destruct (loop_total (length (w0 :: uw) + length (w1 :: vw)) (w0::uw) (w1::vw) u v mt p 0 w0 0 w1 0 n0 [])
    as (es & c & E1 & E2 & E3); auto; try lia.
  exists es, c; rewrite E1; auto. rewrite Nat.add_0_r, Nat.sub_0_r in E3. auto.
Qed.
End AnyNum.

(** ** Exact reals *)
Local Open Scope R_scope.

Definition lnth (l : list RNum) (i : nat) : R := @nth RNum i l 0.

(** sum over a list of entries *)
Fixpoint esum (f : nat -> nat -> R) (es : list (@entry RNum)) : R :=
  match es with [] => 0 | (w, i, j) :: es' => f i j * w + esum f es' end.

Definition ind (b : bool) : R := if b then 1 else 0.

Definition box (k l : nat) (i j : nat) : R := ind ((i <? k) && (j <? l))%nat.

Definition cum (a : vec) (k : nat) : R := rsum k a.

Lemma cum_mono : forall n a k k', nonneg_vec n a -> (k <= k' <= n)%nat -> cum a k <= cum a k'.
Proof. intros n a k k' H Hk. apply rsum_mono_n; [lia|]. intros; apply H; lia. Qed.

Definition gfun (mt : metric) (p x y : R) : R :=
  match @ground RNum rpow mt p x y with Some g => g | None => 0 end.

Lemma nth_error_lnth : forall (l : list RNum) i, (i < length l)%nat -> @nth_error RNum l i = Some (lnth l i).
Proof. intros; apply nth_error_nth'; auto. Qed.

Lemma loop_R : forall fuel (uw vw u v : list RNum) mt (p : R) i (wi : R) j (wj : R) cur (cst : R) acc,
  let n := length uw in let m := length vw in
  let a := lnth uw in let b := lnth vw in
  nonneg_vec n a -> nonneg_vec m b -> cum a n = cum b m ->
  length u = n -> length v = m -> mt <> MOther ->
  (i < n)%nat -> (j < m)%nat -> cur = (i + j)%nat ->
  (n + m - 1 - (i + j) <= fuel)%nat ->
  0 <= wi <= a i -> 0 <= wj <= b j ->
  cum a (S i) - wi = cum b (S j) - wj ->
  exists es, loop (N:=RNum) rpow fuel uw vw u v mt p i wi j wj cur cst acc
               = Ok (acc ++ es, cst + esum (fun i j => gfun mt p (lnth u i) (lnth v j)) es)
    /\ Forall (fun e => 0 <= fst (fst e)) es
    /\ (forall k l, (k <= n)%nat -> (l <= m)%nat ->
         esum (box k l) es = Rmax 0 (Rmin (cum a k) (cum b l) - (cum a (S i) - wi))).
Proof.
  induction fuel; intros uw vw u v mt p i wi j wj cur cst acc n m a b Ha Hb Hab Hu Hv Hmt Hi Hj Hcur Hf Hwi Hwj Ht;
   [unfold n, m in *; lia|].
  cbn [loop].
  rewrite (nth_error_lnth u i), (nth_error_lnth v j) by (unfold n, m in *; lia).
  destruct (ground_some (N:=RNum) rpow mt p (lnth u i) (lnth v j) Hmt) as [g Eg]. rewrite Eg.
  assert (Eg' : g = gfun mt p (lnth u i) (lnth v j)) by (unfold gfun; rewrite Eg; auto).
  destruct (Nat.leb_spec (length uw + length vw - 1) cur) as [Hc|Hc]; [unfold n, m in *; lia|].
  change (@nltb RNum) with Rltb.
  assert (Tm : forall k, (k <= n)%nat -> cum a k <= cum a n) by (intros; apply (cum_mono n); auto; lia).
  assert (Sa : cum a (S i) = cum a i + a i) by reflexivity.
  assert (Sb : cum b (S j) = cum b j + b j) by reflexivity.
  destruct (Rltb wi wj || Nat.eqb (S j) (length vw))%bool eqn:Eb.
  - assert (Hle : wi <= wj).
    { apply orb_true_iff in Eb; destruct Eb as [Eb|Eb]; [apply Rltb_true in Eb; lra|].
      apply Nat.eqb_eq in Eb. fold m in Eb. rewrite Eb in Ht.
      assert (cum a (S i) <= cum a n) by (apply Tm; lia). lra. }
    destruct (Nat.eqb_spec (S i) (length uw)) as [Hn|Hn].
    + exists [(wi, i, j)]. split; [|split].
      * cbn [esum]. rewrite <- Eg'. do 2 f_equal. cbn. ring.
      * constructor; [simpl; lra|constructor].
      * intros k l Hk Hl. cbn [esum]. unfold box, ind. fold n in Hn.
        destruct (Nat.ltb_spec i k) as [Hik|Hik]; destruct (Nat.ltb_spec j l) as [Hjl|Hjl]; cbn [andb].
        -- replace k with n by lia. rewrite Hn in *.
           assert (cum b (S j) <= cum b l) by (apply (cum_mono m); auto; lia).
           rewrite Rmin_left by lra. rewrite Rmax_right by lra. lra.
        -- assert (cum b l <= cum b j) by (apply (cum_mono m); auto; lia).
           pose proof (Rmin_r (cum a k) (cum b l)). rewrite Rmax_left by lra; lra.
        -- assert (cum a k <= cum a i) by (apply (cum_mono n); auto; lia).
           pose proof (Rmin_l (cum a k) (cum b l)). rewrite Rmax_left by lra; lra.
        -- assert (cum a k <= cum a i) by (apply (cum_mono n); auto; lia).
           pose proof (Rmin_l (cum a k) (cum b l)). rewrite Rmax_left by lra; lra.
    + assert (Hi' : (S i < n)%nat) by (unfold n in *; lia).
      rewrite (nth_error_lnth uw (S i)) by auto.
      destruct (IHfuel uw vw u v mt p (S i) (lnth uw (S i)) j (wj - wi) (S cur)
         (cst + g * wi) (acc ++ [(wi, i, j)])) as (es & E1 & E2 & E3); auto; try (fold n; fold m; lia).
      { fold a. split; [apply Ha; auto|lra]. }
      { fold b. lra. }
      { fold a b. cbn [cum rsum] in *. unfold cum in *. cbn [rsum] in *. lra. }
      exists ((wi, i, j) :: es). split; [|split].
      * change (@nadd RNum) with Rplus. change (@nmul RNum) with Rmult. change (@nsub RNum) with Rminus.
        
        etransitivity; [exact E1|]. rewrite <- app_assoc. cbn [app esum]. rewrite <- Eg'.
        do 2 f_equal. cbn. ring.
      * constructor; [simpl; lra|auto].
      * intros k l Hk Hl. cbn [esum]. rewrite E3 by auto. fold a b.
        assert (Sa' : cum a (S (S i)) = cum a (S i) + a (S i)) by reflexivity.
        change (lnth uw (S i)) with (a (S i)).
        unfold box, ind.
        destruct (Nat.ltb_spec i k) as [Hik|Hik]; destruct (Nat.ltb_spec j l) as [Hjl|Hjl]; cbn [andb].
        -- assert (cum b (S j) <= cum b l) by (apply (cum_mono m); auto; lia).
           assert (cum a (S i) <= cum a k) by (apply (cum_mono n); auto; lia).
           assert (cum a (S i) <= Rmin (cum a k) (cum b l)) by (apply Rmin_glb; lra).
           rewrite !Rmax_right by lra. lra.
        -- assert (cum b l <= cum b j) by (apply (cum_mono m); auto; lia).
           pose proof (Rmin_r (cum a k) (cum b l)). rewrite !Rmax_left by lra; lra.
        -- assert (cum a k <= cum a i) by (apply (cum_mono n); auto; lia).
           pose proof (Rmin_l (cum a k) (cum b l)). rewrite !Rmax_left by lra; lra.
        -- assert (cum a k <= cum a i) by (apply (cum_mono n); auto; lia).
           pose proof (Rmin_l (cum a k) (cum b l)). rewrite !Rmax_left by lra; lra.
  - apply orb_false_iff in Eb; destruct Eb as [Ew Eb]. rewrite Eb.
    apply Rltb_false in Ew. apply Nat.eqb_neq in Eb.
    assert (Hj' : (S j < m)%nat) by (unfold m in *; lia).
    rewrite (nth_error_lnth vw (S j)) by auto.
    destruct (IHfuel uw vw u v mt p i (wi - wj) (S j) (lnth vw (S j)) (S cur)
       (cst + g * wj) (acc ++ [(wj, i, j)])) as (es & E1 & E2 & E3); auto; try (fold n; fold m; lia).
    { fold a. lra. }
    { fold b. split; [apply Hb; auto|lra]. }
    { fold a b. unfold cum in *. cbn [rsum] in *. lra. }
    exists ((wj, i, j) :: es). split; [|split].
    * change (@nadd RNum) with Rplus. change (@nmul RNum) with Rmult. change (@nsub RNum) with Rminus.
      
      etransitivity; [exact E1|]. rewrite <- app_assoc. cbn [app esum]. rewrite <- Eg'.
      do 2 f_equal. cbn. ring.
    * constructor; [simpl; lra|auto].
    * intros k l Hk Hl. cbn [esum]. rewrite E3 by auto. fold a b.
      unfold box, ind.
      destruct (Nat.ltb_spec i k) as [Hik|Hik]; destruct (Nat.ltb_spec j l) as [Hjl|Hjl]; cbn [andb].
      -- assert (cum b (S j) <= cum b l) by (apply (cum_mono m); auto; lia).
         assert (cum a (S i) <= cum a k) by (apply (cum_mono n); auto; lia).
         assert (cum b (S j) <= Rmin (cum a k) (cum b l)) by (apply Rmin_glb; lra).
         rewrite !Rmax_right by lra. lra.
      -- assert (cum b l <= cum b j) by (apply (cum_mono m); auto; lia).
         pose proof (Rmin_r (cum a k) (cum b l)). rewrite !Rmax_left by lra; lra.
      -- assert (cum a k <= cum a i) by (apply (cum_mono n); auto; lia).
         pose proof (Rmin_l (cum a k) (cum b l)). rewrite !Rmax_left by lra; lra.
      -- assert (cum a k <= cum a i) by (apply (cum_mono n); auto; lia).
         pose proof (Rmin_l (cum a k) (cum b l)). rewrite !Rmax_left by lra; lra.
Qed.

Lemma gfun_convex : forall mt p, mt <> MOther -> (mt = Minkowski -> 1 <= p) ->
  exists h, convex h /\ forall x y, gfun mt p x y = h (x - y).
Proof.
  intros mt p H Hp.
  assert (Ab : forall x y, @nabs RNum (x - y) = Rabs (x - y)).
  { intros; unfold nabs, nopp; cbn. destruct (Rltb (x - y) 0) eqn:E.
    - apply Rltb_true in E. rewrite Rabs_left; lra.
    - apply Rltb_false in E. rewrite Rabs_right; lra. }
  destruct mt; unfold gfun; cbn [ground].
  - exists (fun t => t * t). split; [apply convex_sq|reflexivity].
  - exists Rabs. split; [apply convex_abs|apply Ab].
  - exists Rabs. split; [apply convex_abs|apply Ab].
  - exists (fun t => rpow (Rabs t) p). split; [apply convex_rpow_abs; auto|].
    intros; f_equal; apply Ab.
  - congruence.
Qed.

(** plan as a matrix *)
Definition dmat (es : list (@entry RNum)) : mat := fun i j => @dense RNum es i j.

Lemma dmat_cons : forall w i0 j0 es i j,
  dmat ((w, i0, j0) :: es) i j = ind ((i0 =? i) && (j0 =? j))%nat * w + dmat es i j.
Proof. intros; unfold dmat, ind; cbn [dense]; destruct ((i0 =? i) && (j0 =? j))%nat; cbn; lra. Qed.

Lemma rsum_ind : forall k i, rsum k (fun x => ind (i =? x)%nat) = ind (i <? k)%nat.
Proof.
  intros k i. unfold ind. destruct (Nat.ltb_spec i k).
  - rewrite (rsum_ext k _ (fun x => if Nat.eqb x i then 1 else 0)).
    + apply rsum_delta; auto.
    + intros; rewrite Nat.eqb_sym; auto.
  - apply rsum_0. intros x Hx. destruct (Nat.eqb_spec i x); auto; lia.
Qed.

Lemma ind_and : forall x y, ind (x && y) = ind x * ind y.
Proof. intros [] []; unfold ind; simpl; lra. Qed.

Lemma cumF_dmat : forall es k l, cumF (dmat es) k l = esum (box k l) es.
Proof.
  induction es as [|[[w i0] j0] es IH]; intros k l.
  - unfold cumF; cbn. apply rsum_0; intros. apply rsum_0; auto.
  - cbn [esum]. rewrite <- IH. unfold cumF.
    rewrite (rsum_ext k _ (fun i => ind (i0 =? i)%nat * (ind (j0 <? l)%nat * w) + rsum l (fun j => dmat es i j))).
    + rewrite rsum_plus, rsum_scal_r, rsum_ind. unfold box. rewrite ind_and. ring.
    + intros i Hi. rewrite <- rsum_ind.
      rewrite <- (rsum_scal_r l w), <- rsum_scal, <- rsum_plus. apply rsum_ext; intros j Hj.
      rewrite dmat_cons, ind_and. ring.
Qed.

Lemma cost_dmat : forall c n m es,
  Forall (fun e : @entry RNum => (snd (fst e) < n)%nat /\ (snd e < m)%nat) es ->
  cost n m c (dmat es) = esum c es.
Proof.
  intros c n m es H; induction H as [|[[w i0] j0] es [Hi Hj] H IH].
  - unfold cost; apply rsum_0; intros; apply rsum_0; intros; apply Rmult_0_r.
  - cbn [esum]. rewrite <- IH. unfold cost. simpl in Hi, Hj.
    rewrite (rsum_ext n _ (fun i => (if Nat.eqb i i0 then c i0 j0 * w else 0) + rsum m (fun j => c i j * dmat es i j))).
    + rewrite rsum_plus, rsum_delta by auto. reflexivity.
    + intros i Hin. destruct (Nat.eqb_spec i i0) as [->|Hne].
      * rewrite (rsum_ext m _ (fun j => (if Nat.eqb j j0 then c i0 j0 * w else 0) + c i0 j * dmat es i0 j)).
        { rewrite rsum_plus, rsum_delta by auto; reflexivity. }
        intros j Hjm. rewrite dmat_cons, Nat.eqb_refl. cbn [andb]. unfold ind.
        rewrite (Nat.eqb_sym j0 j). destruct (Nat.eqb_spec j j0) as [->|]; ring.
      * rewrite <- (Rplus_0_l (rsum m (fun j => c i j * dmat es i j))) at 1. rewrite Rplus_0_l.
        rewrite Rplus_0_l. apply rsum_ext; intros j Hjm. rewrite dmat_cons.
        rewrite (Nat.eqb_sym i0 i). destruct (Nat.eqb_spec i i0); [contradiction|]. cbn [andb]; unfold ind; ring.
Qed.

Lemma dmat_nonneg : forall es, Forall (fun e : @entry RNum => 0 <= fst (fst e)) es -> forall i j, 0 <= dmat es i j.
Proof.
  intros es H i j; induction H as [|[[w i0] j0] es Hw H IH]; [unfold dmat; cbn; lra|].
  rewrite dmat_cons. simpl in Hw. unfold ind. destruct (_ && _)%bool; lra.
Qed.

Lemma min_cum_coupling : forall n m a b G,
  nonneg_vec n a -> nonneg_vec m b -> mass n a = mass m b ->
  nonneg_mat n m G ->
  (forall k l, (k <= n)%nat -> (l <= m)%nat -> cumF G k l = Rmin (rsum k a) (rsum l b)) ->
  coupling n m a b G.
Proof.
  intros n m a b G Ha Hb Hm HG HF. split; auto. split.
  - intros i Hi. unfold row_sum.
    assert (E : cumF G (S i) m - cumF G i m = rsum m (fun j => G i j)) by (unfold cumF; cbn [rsum]; lra).
    rewrite <- E, !HF by lia. unfold mass in Hm. rewrite <- Hm.
    pose proof (fun k => cum_mono n a k n Ha) as CM; unfold cum in CM.
    rewrite !Rmin_left by (apply CM; lia). cbn [rsum]; lra.
  - intros j Hj. unfold col_sum.
    assert (E : cumF G n (S j) - cumF G n j = rsum n (fun i => G i j)).
    { unfold cumF. rewrite <- rsum_minus. apply rsum_ext; intros; cbn [rsum]; lra. }
    rewrite <- E, !HF by lia. unfold mass in Hm. rewrite Hm.
    pose proof (fun k => cum_mono m b k m Hb) as CM; unfold cum in CM.
    rewrite !Rmin_right by (apply CM; lia). cbn [rsum]; lra.
Qed.

Lemma sorted_run : forall (uw vw u v : list RNum) mt (p : R),
  let n := length uw in let m := length vw in
  let a := lnth uw in let b := lnth vw in
  nonneg_vec n a -> nonneg_vec m b -> mass n a = mass m b ->
  length u = n -> length v = m -> mt <> MOther -> (0 < n)%nat -> (0 < m)%nat ->
  exists es, emd_1d_sorted (N:=RNum) rpow uw vw u v mt p
      = Ok (es, cost n m (fun i j => gfun mt p (lnth u i) (lnth v j)) (dmat es))
    /\ Forall (fun e : @entry RNum => (snd (fst e) < n)%nat /\ (snd e < m)%nat) es
    /\ coupling n m a b (dmat es)
    /\ (forall k l, (k <= n)%nat -> (l <= m)%nat -> cumF (dmat es) k l = Rmin (rsum k a) (rsum l b)).
Proof.
  intros uw vw u v mt p n m a b Ha Hb Hab Hu Hv Hmt Hn Hm.
  destruct (emd_1d_sorted_total (N:=RNum) rpow uw vw u v mt p Hu Hv Hmt Hn Hm) as (es & c & E & Hs & _).
  assert (R : Forall (fun e : @entry RNum => (snd (fst e) < n)%nat /\ (snd e < m)%nat) es).
  { apply staircase_range in Hs. eapply Forall_impl; [|exact Hs]. intros e [[_ H1] [_ H2]]; split; assumption. }
  pose proof E as E'. unfold emd_1d_sorted in E'.
  destruct uw as [|w0 uw']; [exact (False_ind _ (Nat.lt_irrefl 0 Hn))|].
  destruct vw as [|w1 vw']; [exact (False_ind _ (Nat.lt_irrefl 0 Hm))|].
  assert (Ha0 : 0 <= w0) by (apply (Ha 0%nat); auto).
  assert (Hb0 : 0 <= w1) by (apply (Hb 0%nat); auto).
  destruct (loop_R (length (w0 :: uw') + length (w1 :: vw')) (w0::uw') (w1::vw') u v mt p 0 w0 0 w1 0 0 [])
   as (es' & E1 & E2 & E3); auto; try (simpl; lia).
  { unfold lnth; simpl; lra. } { unfold lnth; simpl; lra. }
  { unfold cum, lnth; simpl; lra. }
  cbn [app] in E1. pose proof (eq_trans (eq_sym E1) E') as E''. injection E''; intros Ec Ee. subst es'.
  assert (HF : forall k l, (k <= n)%nat -> (l <= m)%nat -> cumF (dmat es) k l = Rmin (rsum k a) (rsum l b)).
  { intros k l Hk Hl. rewrite cumF_dmat, E3 by auto. fold a b.
    replace (cum a 1 - w0) with 0 by (unfold cum, a, lnth; simpl; lra).
    rewrite Rminus_0_r. apply Rmax_right. unfold cum. apply Rmin_glb; apply rsum_nonneg; intros.
    - apply Ha; lia. - apply Hb; lia. }
  exists es. split; [|split; [auto|split; auto]].
  - rewrite E, cost_dmat by auto. rewrite <- Ec. f_equal. f_equal. apply Rplus_0_l.
  - apply min_cum_coupling; auto. intros i j _ _; apply dmat_nonneg; auto.
Qed.

Lemma sorted_optimal : forall (uw vw u v : list RNum) mt (p : R),
  let n := length uw in let m := length vw in
  let a := lnth uw in let b := lnth vw in
  nonneg_vec n a -> nonneg_vec m b -> mass n a = mass m b ->
  length u = n -> length v = m -> mt <> MOther -> (0 < n)%nat -> (0 < m)%nat ->
  sorted n (lnth u) -> sorted m (lnth v) -> (mt = Minkowski -> 1 <= p) ->
  exists es, emd_1d_sorted (N:=RNum) rpow uw vw u v mt p
      = Ok (es, cost n m (fun i j => gfun mt p (lnth u i) (lnth v j)) (dmat es))
    /\ Forall (fun e : @entry RNum => (snd (fst e) < n)%nat /\ (snd e < m)%nat) es
    /\ optimal_coupling n m a b (fun i j => gfun mt p (lnth u i) (lnth v j)) (dmat es).
Proof.
  intros uw vw u v mt p n m a b Ha Hb Hab Hu Hv Hmt Hn Hm Su Sv Hp.
  destruct (sorted_run uw vw u v mt p) as (es & E & R & C & F); auto.
  exists es. split; auto. split; auto. apply monge_min_optimal; auto.
  destruct (gfun_convex mt p Hmt Hp) as (h & Hc & Hh).
  intros k l Hk Hl. rewrite !Hh. apply (convex_monge n m (lnth u) (lnth v) h); auto.
Qed.

(** ** Statement vocabulary *)
(** ground cost between two points, in mathematical notation *)
Definition metric_cost (mt : metric) (p x y : R) : R :=
  match mt with
  | SqEuclidean => (x - y) ^ 2
  | CityBlock | Euclidean => Rabs (x - y)
  | Minkowski => rpow (Rabs (x - y)) p
  | MOther => 0
  end.

Lemma gfun_metric : forall mt p x y, gfun mt p x y = metric_cost mt p x y.
Proof.
  intros mt p x y.
  assert (Ab : @nabs RNum (x - y) = Rabs (x - y)).
  { unfold nabs, nopp; cbn. destruct (Rltb (x - y) 0) eqn:E.
    - apply Rltb_true in E. rewrite Rabs_left; lra.
    - apply Rltb_false in E. rewrite Rabs_right; lra. }
  destruct mt; unfold gfun, metric_cost; cbn [ground].
  - cbn; ring.
  - apply Ab. - apply Ab. - f_equal; apply Ab. - reflexivity.
Qed.
