(** C146: sliced unbalanced transport *)
From Coq Require Import Reals Lra Lia List Arith Permutation Bool Sorted.
From Verif Require Import Num Sums Spec Monge Perm Emd1d_model Emd1d_proofs Emd1d_perm_proofs Emd1d_final W1d_model W1d_proofs
  Duals_model Duals_proofs Circle_proofs Unb_proofs Utils_model Circle_model Sliced_model Uot1d_model Uot1d_proofs Uot1d_more Uot1d_uot P_Uot1d
  Usot_model Usot_proofs.
Import ListNotations.
Local Open Scope R_scope.

(** the default weights *)
Definition wt (n : nat) (w : option vec) : vec := match w with Some w => w | None => fun _ => 1 / INR n end.
(** cost of direction q: |<X_i, th_q> - <Y_j, th_q>|^p *)
Definition dirM (d : nat) (X Y th : mat) (p : R) (q i j : nat) : R :=
  wmetric p (rsum d (fun t => X i t * th t q)) (rsum d (fun t => Y j t * th t q)).
(** the admissible inputs *)
Definition usot_input (K n m : nat) (a b : option vec) (r1 r2 : option R) (p : R) : Prop :=
  (0 < K)%nat /\ (0 < n)%nat /\ (0 < m)%nat /\ pos_vec n (wt n a) /\ pos_vec m (wt m b) /\ pos_rm r1 /\ pos_rm r2 /\ 1 <= p
  /\ (r1 = None -> r2 = None -> mass n (wt n a) = mass m (wt m b)).
(** no ties at any iteration *)
Definition usot_no_ties (tsort : list (R * tag) -> list (R * tag)) (n m d K : nat) (X Y th : mat) (a b : option vec) (r1 r2 : option R) (p : R) (k : nat) : Prop :=
  usot_tie_free tsort K n m (project (N:=RNum) n d X th) (project (N:=RNum) m d Y th) p (wt n a) (wt m b) r1 r2 k 0 (fun _ => 0) (fun _ => 0).

Lemma weights_R : forall n w, weights_or (N:=RNum) n w = wt n w.
Proof. intros n [w|]; [reflexivity|]. unfold weights_or, wt. rewrite nofnat_INR. reflexivity. Qed.
Lemma proj_len : forall n d X th q, length (project (N:=RNum) n d X th q) = n.
Proof. intros. unfold project. rewrite map_length, seq_length. reflexivity. Qed.
Lemma proj_nth : forall n d (X th : mat) q i, (i < n)%nat -> lnth (project (N:=RNum) n d X th q) i = rsum d (fun t => X i t * th t q).
Proof.
  intros n d X th q i Hi. unfold project. change (map (fun i0 => nsum (N:=RNum) d (fun t => nmul (n:=RNum) (X i0 t) (th t q))) (seq 0 n)) with (tabv (N:=RNum) n (fun i0 => nsum (N:=RNum) d (fun t => nmul (n:=RNum) (X i0 t) (th t q)))).
  rewrite tabv_nth by auto. rewrite nsum_R. reflexivity.
Qed.
Lemma dirM_eq : forall n m d X Y th p q i j, (i < n)%nat -> (j < m)%nat ->
  wmetric p (lnth (project (N:=RNum) n d X th q) i) (lnth (project (N:=RNum) m d Y th q) j) = dirM d X Y th p q i j.
Proof. intros. unfold dirM. rewrite !proj_nth by auto. reflexivity. Qed.
Lemma rew_form : forall f a r i, rew f a r i = match r with Some r => a i * exp (- f i / r) | None => a i end.
Proof. intros f a [r|] i; [|reflexivity]. unfold rew. cbn. unfold nopp. cbn. replace (0 - f i) with (- f i) by ring. reflexivity. Qed.
Lemma feas_ext : forall K n m (M M' : nat -> mat) f g, (forall q i j, (i < n)%nat -> (j < m)%nat -> M q i j = M' q i j) ->
  usot_feasible K n m M f g -> usot_feasible K n m M' f g.
Proof. intros K n m M M' f g E (fq & gq & F & A & B). exists fq, gq. split; [|auto]. intros q Hq i j Hi Hj. rewrite <- E by auto. apply F; auto. Qed.

(** ** unbalanced_sliced_ot *)
(** The returned marginals are a exp(-f/r1) and b exp(-g/r2) (a or b when the parameter is infinite) for some
    potentials f, g and carry the same mass.  For every direction the logged 1-D loss times the logged mass is the
    optimal cost between them, and the returned value is the unbalanced sliced objective of these marginals: an
    upper bound of the optimum.  No translation of f, g has a larger dual value, the distance to the dual value is
    sot_loss - <f, a'> - <g, b'>, and without ties the dual value bounds every admissible objective from below. *)
Theorem C146_usot : forall tsort, sorter tsort -> forall n m d K X Y th a b r1 r2 p k,
  usot_input K n m a b r1 r2 p ->
  let M := dirM d X Y th p in
  exists out f g, unbalanced_sliced_ot (N:=RNum) rpow exp ln tsort n m d d K X Y th a b r1 r2 p k = Ok out
  /\ (forall i, us_a out i = match r1 with Some r => wt n a i * exp (- f i / r) | None => wt n a i end)
  /\ (forall j, us_b out j = match r2 with Some r => wt m b j * exp (- g j / r) | None => wt m b j end)
  /\ mass n (us_a out) = mass m (us_b out) /\ (forall q, (q < K)%nat -> us_mass out q = mass n (us_a out))
  /\ (exists P, (forall q, (q < K)%nat -> optimal_coupling n m (us_a out) (us_b out) (M q) (P q) /\ us_1d out q * us_mass out q = cost n m (M q) (P q))
      /\ us_sot out = davg K (fun q => cost n m (M q) (P q))
      /\ usot_plan K n m (wt n a) (wt m b) r1 r2 (us_a out) (us_b out) P
      /\ us_loss out = usot_obj K n m M (wt n a) (wt m b) r1 r2 (us_a out) (us_b out) P)
  /\ (forall s, udual n m (wt n a) (wt m b) r1 r2 (fun i => f i + s) (fun j => g j - s) <= udual n m (wt n a) (wt m b) r1 r2 f g)
  /\ us_loss out - udual n m (wt n a) (wt m b) r1 r2 f g = us_sot out - dot n f (us_a out) - dot m g (us_b out)
  /\ (usot_no_ties tsort n m d K X Y th a b r1 r2 p k ->
      forall a' b' P, usot_plan K n m (wt n a) (wt m b) r1 r2 a' b' P ->
        udual n m (wt n a) (wt m b) r1 r2 f g <= usot_obj K n m M (wt n a) (wt m b) r1 r2 a' b' P).
Proof.
  intros tsort Hs n m d K X Y th ao bo r1 r2 p k (HK & Hn & Hm & Ha & Hb & H1 & H2 & Hp & Hbal) M.
  set (a := wt n ao) in *. set (b := wt m bo) in *.
  set (u := project (N:=RNum) n d X th). set (v := project (N:=RNum) m d Y th).
  assert (Lu : forall q, length (u q) = n) by (intros; apply proj_len).
  assert (Lv : forall q, length (v q) = m) by (intros; apply proj_len).
  set (M0 := fun q i j => wmetric p (lnth (u q) i) (lnth (v q) j)).
  assert (EM : forall q i j, (i < n)%nat -> (j < m)%nat -> M0 q i j = M q i j) by (intros; apply dirM_eq; auto).
  destruct (usot_loop_ok tsort Hs K n m u v p a b r1 r2 HK Hn Hm Lu Lv Ha Hb Hp H1 H2 Hbal k 0%nat (fun _ => 0) (fun _ => 0)) as (f0 & g0 & E0 & F0).
  fold M0 in F0.
  destruct (transl_props n m a b r1 r2 Hn Hm Ha Hb H1 H2 Hbal f0 g0) as (t & Et & E & P1 & P2 & Em).
  set (f := fun i => f0 i + t) in *. set (g := fun j => g0 j - t) in *.
  pose proof (dirs tsort Hs K n m u v p a b r1 r2 Hn Hm Lu Lv Hp f g P1 P2 Em) as D.
  set (sl := fun q => mk_slice (N:=RNum) (u q) (v q)) in *.
  set (F := fun q => wasserstein_1d (N:=RNum) rpow (sl_us (sl q)) (sl_vs (sl q)) (Some (usot_an (N:=RNum) exp n sl a r1 f q)) (Some (usot_bn (N:=RNum) exp m sl b r2 g q)) p false).
  destruct (all_ok_seq (R * list (@entry RNum)) (0, []) F K) as (l & El & Ll & Q).
  { intros q Hq. destruct (proj2 (D q Hq)) as (w & es & P & W & _). exists (w, es). exact W. }
  assert (EP : exists P : nat -> mat, forall q, (q < K)%nat -> optimal_coupling n m (rew f a r1) (rew g b r2) (M0 q) (P q)
     /\ fst (nth q l (0, [])) * rsum n (fun x => rew f a r1 (nth x (sl_pu (sl q)) 0%nat)) = cost n m (M0 q) (P q)).
  { clear - D Q. assert (Z : forall k, (k <= K)%nat -> exists P : nat -> mat, forall q, (q < k)%nat -> optimal_coupling n m (rew f a r1) (rew g b r2) (M0 q) (P q)
     /\ fst (nth q l (0, [])) * rsum n (fun x => rew f a r1 (nth x (sl_pu (sl q)) 0%nat)) = cost n m (M0 q) (P q)).
    { induction k; intros Hk; [exists (fun _ _ _ => 0); intros; lia|]. destruct IHk as (P & HP); [lia|].
      destruct (proj2 (D k ltac:(lia))) as (w & es & P' & W & O & C). specialize (Q k ltac:(lia)). unfold F in Q. 
      assert (Eq : nth k l (0, []) = (w, es)) by (pose proof (eq_trans (eq_sym Q) W) as QW; congruence).
      exists (fun q => if q =? k then P' else P q). intros q Hq. destruct (Nat.eqb_spec q k) as [->|]; [|apply HP; lia].
      rewrite Eq. cbn [fst]. auto. }
    apply (Z K). lia. }
  destruct EP as (P & HP).
  assert (Em1 : forall q, (q < K)%nat -> rsum n (fun x => rew f a r1 (nth x (sl_pu (sl q)) 0%nat)) = mass n (rew f a r1)).
  { intros q Hq. apply (rsum_perm n (pfun (sl_pu (sl q))) (rew f a r1)). apply perm_list_on. unfold sl; cbn [mk_slice sl_pu].
    destruct (argsort_sorts (u q)) as [Pu _]. change (carrier RNum) with R in *. rewrite Lu in Pu. exact Pu. }
  set (out := UsotOut (N:=RNum) (rew f a r1) (rew g b r2)
     (davg K (fun q => cost n m (M0 q) (P q)) + match r1 with Some r => r * kl_mass (N:=RNum) ln n (rew f a r1) a | None => 0 end
        + match r2 with Some r => r * kl_mass (N:=RNum) ln m (rew g b r2) b | None => 0 end)
     (davg K (fun q => cost n m (M0 q) (P q)))
     (fun q => nth q (map fst l) 0) (usot_mass (N:=RNum) exp n sl a r1 f)).
  assert (MQ : forall q, usot_mass (N:=RNum) exp n sl a r1 f q = rsum n (fun x => rew f a r1 (nth x (sl_pu (sl q)) 0%nat))) by (intros; unfold usot_mass; rewrite nsum_R; reflexivity).
  assert (NQ : forall q, (q < K)%nat -> nth q (map fst l) 0 = fst (nth q l (0, []))) by (intros; apply (map_nth fst l (0, []) q)).
  assert (CO : forall q, (q < K)%nat -> cost n m (M0 q) (P q) = cost n m (M q) (P q)) by (intros; apply cost_ext; auto).
  exists out, f, g. unfold out; cbn [us_a us_b us_loss us_sot us_1d us_mass]. split; [|split; [|split; [|split; [|split; [|split; [|split; [|split]]]]]]].
  - unfold unbalanced_sliced_ot. rewrite Nat.eqb_refl. cbn [negb]. cbv zeta. rewrite !weights_R. fold a b.
    match goal with |- bind ?Z _ = _ => replace Z with (Ok (f0, g0) : res (vec * vec)) by (symmetry; exact E0) end.
    cbn [bind fst snd]. rewrite E.
    match goal with |- bind ?Z _ = _ => replace Z with (Ok l : res (list (R * list (@entry RNum)))) by (symmetry; exact El) end.
    cbn [bind]. f_equal.
    assert (S0 : dmean (N:=RNum) K (fun q => nmul (n:=RNum) (nth q (map fst l) 0) (usot_mass (N:=RNum) exp n sl a r1 f q)) = davg K (fun q => cost n m (M0 q) (P q))).
    { rewrite dmean_R. apply davg_ext. intros q Hq. rewrite MQ. cbn [nmul RNum]. rewrite NQ by auto. apply HP; auto. }
    fold u v. fold sl. f_equal; [|exact S0].
    match goal with |- ?x = ?y => change (@eq R x y) end.
    transitivity (match r1 with
       | None => match r2 with None => davg K (fun q => cost n m (M0 q) (P q)) | Some r2 => davg K (fun q => cost n m (M0 q) (P q)) + r2 * kl_mass (N:=RNum) ln m (rew g b (Some r2)) b end
       | Some r1 => match r2 with None => davg K (fun q => cost n m (M0 q) (P q)) + r1 * kl_mass (N:=RNum) ln n (rew f a (Some r1)) a
            | Some r2 => davg K (fun q => cost n m (M0 q) (P q)) + r1 * kl_mass (N:=RNum) ln n (rew f a (Some r1)) a + r2 * kl_mass (N:=RNum) ln m (rew g b (Some r2)) b end end).
    + rewrite <- S0. destruct r1, r2; reflexivity.
    + destruct r1, r2; change (carrier RNum) with R; lra.
  - intros i. apply rew_form.
  - intros j. apply rew_form.
  - exact Em.
  - intros q Hq. rewrite MQ. apply Em1; auto.
  - exists P. split; [|split; [|split]].
    + intros q Hq. destruct (HP q Hq) as [O C]. split; [eapply optimal_ext; [| | | |exact O]; auto|]. rewrite MQ. change (carrier RNum) with R. rewrite NQ, <- CO by auto. exact C.
    + apply davg_ext. exact CO.
    + split; [intros q Hq; apply (HP q Hq)|]. split; [intros i Hi; left; apply P1; auto|]. split; [intros i Hi; left; apply P2; auto|].
      split; [destruct r1; cbn; auto; intros; reflexivity|destruct r2; cbn; auto; intros; reflexivity].
    + unfold usot_obj. rewrite (davg_ext K (fun q => cost n m (M q) (P q)) (fun q => cost n m (M0 q) (P q))) by (intros; symmetry; apply CO; auto).
      f_equal; [f_equal|]; (destruct r1 as [x|], r2 as [y|]; try reflexivity; apply kl_pen; auto).
  - intros s. pose proof (translation_best n m a b r1 r2 Hn Hm Ha Hb H1 H2 Hbal f0 g0 (t + s)) as T. cbv zeta in T. rewrite <- Et in T.
    unfold f, g.
    replace (fun l => f0 l + t + s) with (fun l => f0 l + (t + s)) by (apply FunctionalExtensionality.functional_extensionality; intros; ring).
    replace (fun l => g0 l - t - s) with (fun l => g0 l - (t + s)) by (apply FunctionalExtensionality.functional_extensionality; intros; ring).
    exact T.
  - unfold udual.
    assert (X1 : forall k0 x h r, pos_rm r -> pos_vec k0 x -> match r with Some r => r * kl_mass (N:=RNum) ln k0 (rew h x (Some r)) x | None => 0 end = dterm k0 x h r - dot k0 h (rew h x r)).
    { intros k0 x h [r|] Hr Hx; cbn [pos_rm] in Hr; unfold dot; [apply kl_rew; auto|]. cbn [dterm].
      rewrite (rsum_ext k0 (fun i => h i * rew h x None i) (fun i => x i * h i)); [ring|]. intros; cbn; ring. }
    pose proof (X1 n a f r1 H1 Ha) as Y1. pose proof (X1 m b g r2 H2 Hb) as Y2. clear X1. change (carrier RNum) with R in *.
    assert (Z1 : match r1 with Some r => r * kl_mass (N:=RNum) ln n (rew f a r1) a | None => 0 end = match r1 with Some r => r * kl_mass (N:=RNum) ln n (rew f a (Some r)) a | None => 0 end) by (destruct r1; reflexivity).
    assert (Z2 : match r2 with Some r => r * kl_mass (N:=RNum) ln m (rew g b r2) b | None => 0 end = match r2 with Some r => r * kl_mass (N:=RNum) ln m (rew g b (Some r)) b | None => 0 end) by (destruct r2; reflexivity).
    change (carrier RNum) with R in *. rewrite Z1, Z2, Y1, Y2. ring.
  - intros NT a' b' P' HP'. apply (usot_weak K n m M a b r1 r2 f g a' b' P' HK H1 H2 Ha Hb); [|exact HP'].
    apply (feas_ext K n m M0 M); [exact EM|].
    apply (feas_shift K n m u v p HK). apply F0; [|exact NT].
    exists (fun _ _ => 0), (fun _ _ => 0). split; [|split; intros; rewrite davg_const; auto].
    intros q Hq x y Hx Hy. unfold M0, wmetric. destruct (Req_EM_T p 1); [pose proof (Rabs_pos (lnth (u q) x - lnth (v q) y)); lra|].
    pose proof (rpow_nonneg (Rabs (lnth (u q) x - lnth (v q) y)) p). lra.
Qed.
Print Assumptions C146_usot.

(** ** sliced_unbalanced_ot *)
Lemma suot_input : forall K n m d X Y th a b r1 r2 p, usot_input K n m a b r1 r2 p ->
  uot_input K (project (N:=RNum) n d X th) (project (N:=RNum) m d Y th) n m (wt n a) (wt m b) r1 r2 p.
Proof.
  intros K n m d X Y th a b r1 r2 p (HK & Hn & Hm & Ha & Hb & H1 & H2 & Hp & Hbal).
  repeat (split; [first [assumption | intros; split; apply proj_len]|]). exact Hbal.
Qed.
Lemma uobj_ext : forall n m M M' a b r1 r2 P, (forall i j, (i < n)%nat -> (j < m)%nat -> M i j = M' i j) ->
  uobj n m M a b r1 r2 P = uobj n m M' a b r1 r2 P.
Proof. intros. unfold uobj. f_equal. f_equal. apply cost_ext; auto. Qed.

(** the ties met by the runs of the K directions *)
Definition suot_no_ties (tsort : list (R * tag) -> list (R * tag)) (n m d K : nat) (X Y th : mat) (a b : option vec) (r1 r2 : option R) (p : R) (k : nat) : Prop :=
  forall q, (q < K)%nat -> col_tie_free tsort (project (N:=RNum) n d X th q) (project (N:=RNum) m d Y th q) (wt n a) (wt m b) r1 r2 p k.

(** The value is the average over the directions of the unbalanced objective of an admissible plan (both parameters
    finite, both infinite, or one direction); without ties the average of the dual values bounds from below every
    average of 1-D unbalanced objectives, and every objective of unbalanced_sliced_ot. *)
Theorem C146_suot : forall tsort, sorter tsort -> forall n m d K X Y th a b r1 r2 p k,
  usot_input K n m a b r1 r2 p -> let M := dirM d X Y th p in
  exists v cols tot, sliced_unbalanced_ot (N:=RNum) rpow exp ln tsort n m d d K X Y th a b r1 r2 p k = SuOk v cols tot
  /\ v = davg K tot
  /\ (axis_ok K r1 r2 -> exists P, v = davg K (fun q => uobj n m (M q) (wt n a) (wt m b) r1 r2 (P q))
      /\ forall q, (q < K)%nat -> uot_plan n m (wt n a) (wt m b) r1 r2 (P q) /\ tot q = uobj n m (M q) (wt n a) (wt m b) r1 r2 (P q))
  /\ (suot_no_ties tsort n m d K X Y th a b r1 r2 p k ->
      let lower := davg K (fun q => udual n m (wt n a) (wt m b) r1 r2 (uo_f (cols q)) (uo_g (cols q))) in
      (forall P, (forall q, (q < K)%nat -> uot_plan n m (wt n a) (wt m b) r1 r2 (P q)) ->
         lower <= davg K (fun q => uobj n m (M q) (wt n a) (wt m b) r1 r2 (P q)))
      /\ (forall a' b' P, usot_plan K n m (wt n a) (wt m b) r1 r2 a' b' P -> lower <= usot_obj K n m M (wt n a) (wt m b) r1 r2 a' b' P)).
Proof.
  intros tsort Hs n m d K X Y th ao bo r1 r2 p k HI M. pose proof (suot_input K n m d X Y th ao bo r1 r2 p HI) as HU.
  destruct HI as (HK & Hn & Hm & Ha & Hb & H1 & H2 & Hp & Hbal).
  set (a := wt n ao) in *. set (b := wt m bo) in *.
  destruct (C142_bracket tsort Hs K _ _ n m a b r1 r2 p k HU) as (cols & tot & E & C).
  exists (davg K tot), cols, tot. split.
  { unfold sliced_unbalanced_ot. rewrite Nat.eqb_refl. cbn [negb]. rewrite !weights_R. fold a b. rewrite E. rewrite dmean_R. reflexivity. }
  split; [reflexivity|]. split.
  - intros HA. destruct (C142_certificate tsort Hs K _ _ n m a b r1 r2 p k HU HA) as (cols' & tot' & E' & C').
    assert (Q : UotOk cols tot = UotOk cols' tot') by (rewrite <- E, <- E'; reflexivity). injection Q as <- <-.
    assert (EP : forall k0, (k0 <= K)%nat -> exists P : nat -> mat, forall q, (q < k0)%nat -> uot_plan n m a b r1 r2 (P q) /\ tot q = uobj n m (M q) a b r1 r2 (P q)).
    { induction k0; intros Hk; [exists (fun _ _ _ => 0); intros; lia|]. destruct IHk0 as (P & HP); [lia|].
      destruct (C' k0 ltac:(lia)) as [(P' & U & T & _) _].
      exists (fun q => if q =? k0 then P' else P q). intros q Hq. destruct (Nat.eqb_spec q k0) as [->|]; [|apply HP; lia].
      split; [exact U|]. rewrite T. apply uobj_ext. intros; apply dirM_eq; auto. }
    destruct (EP K ltac:(lia)) as (P & HP). exists P. split; [|exact HP]. apply davg_ext. intros q Hq. apply HP; auto.
  - intros NT lower.
    assert (W : forall P, (forall q, (q < K)%nat -> uot_plan n m a b r1 r2 (P q)) -> lower <= davg K (fun q => uobj n m (M q) a b r1 r2 (P q))).
    { intros P HP. apply davg_le. intros q Hq. destruct (C q Hq) as [F G].
      pose proof (G (F (NT q Hq)) (P q) (HP q Hq)) as B. eapply Rle_trans; [exact B|]. right. apply uobj_ext. intros; apply dirM_eq; auto. }
    split; [exact W|]. intros a' b' P (HP & Na & Nb & Hh1 & Hh2).
    eapply Rle_trans; [apply (W P)|].
    + intros q Hq. destruct (HP q Hq) as (Pn & Pr & Pc). split; [exact Pn|]. split.
      * destruct r1; cbn in *; auto. intros i Hi. rewrite Pr by auto. auto.
      * destruct r2; cbn in *; auto. intros i Hi. rewrite Pc by auto. auto.
    + right. unfold usot_obj. rewrite (davg_ext K _ (fun q => cost n m (M q) (P q) + (penalty r1 n a' a + penalty r2 m b' b))).
      2:{ intros q Hq. destruct (HP q Hq) as (Pn & Pr & Pc). unfold uobj.
          assert (A1 : penalty r1 n (row_sum m (P q)) a = penalty r1 n a' a) by (destruct r1; cbn; auto; f_equal; apply rsum_ext; intros; rewrite Pr by auto; reflexivity).
          assert (A2 : penalty r2 m (col_sum n (P q)) b = penalty r2 m b' b) by (destruct r2; cbn; auto; f_equal; apply rsum_ext; intros; rewrite Pc by auto; reflexivity).
          rewrite A1, A2. ring. }
      rewrite (davg_plus K (fun q => cost n m (M q) (P q)) (fun _ => penalty r1 n a' a + penalty r2 m b' b)), davg_const by auto. ring.
Qed.
Print Assumptions C146_suot.

(** with both parameters infinite the two functions return the same value, the average optimal 1-D cost between the given weights *)
Theorem C146_balanced : forall tsort, sorter tsort -> forall n m d K X Y th a b p k k',
  usot_input K n m a b None None p -> let M := dirM d X Y th p in
  exists out v cols tot P, unbalanced_sliced_ot (N:=RNum) rpow exp ln tsort n m d d K X Y th a b None None p k = Ok out
  /\ sliced_unbalanced_ot (N:=RNum) rpow exp ln tsort n m d d K X Y th a b None None p k' = SuOk v cols tot
  /\ us_a out = wt n a /\ us_b out = wt m b
  /\ (forall q, (q < K)%nat -> optimal_coupling n m (wt n a) (wt m b) (M q) (P q))
  /\ us_loss out = davg K (fun q => cost n m (M q) (P q)) /\ v = us_loss out.
Proof.
  intros tsort Hs n m d K X Y th a b p k k' HI M.
  destruct (C146_usot tsort Hs n m d K X Y th a b None None p k HI) as (out & f & g & E & A & B & _ & _ & (P & HP & _ & _ & L) & _).
  assert (Ea : us_a out = wt n a) by (apply FunctionalExtensionality.functional_extensionality; exact A).
  assert (Eb : us_b out = wt m b) by (apply FunctionalExtensionality.functional_extensionality; exact B).
  rewrite Ea, Eb in *. unfold usot_obj in L. cbn [penalty] in L.
  destruct (cols_run tsort Hs K _ _ n m (wt n a) (wt m b) None None p k' Total ltac:(discriminate) (suot_input K n m d X Y th a b None None p HI)) as (cols & Ec & C).
  exists out, (davg K (fun q => uo_lin (cols q))), cols, (fun q => uo_lin (cols q)), P.
  split; [exact E|]. split.
  { unfold sliced_unbalanced_ot. rewrite Nat.eqb_refl. cbn [negb]. rewrite !weights_R.
    match goal with |- match ?Z with _ => _ end = _ => replace Z with (UotOk cols (fun q => uo_lin (cols q))) by (symmetry; exact Ec) end.
    rewrite dmean_R. reflexivity. }
  split; [auto|]. split; [auto|]. split; [intros q Hq; apply (HP q Hq)|].
  assert (L' : us_loss out = davg K (fun q => cost n m (M q) (P q))) by (rewrite L; fold M; change (carrier RNum) with R; lra).
  split; [exact L'|]. rewrite L'. apply davg_ext. intros q Hq.
  destruct (C q Hq) as (CA & CB & _ & (Q & O & EL) & _). rewrite EL.
  assert (O' : optimal_coupling n m (wt n a) (wt m b) (M q) Q).
  { eapply optimal_ext; [| | | |exact O]; intros; cbn beta.
    - first [apply CA; auto | rewrite CA by auto; reflexivity]. - first [apply CB; auto | rewrite CB by auto; reflexivity].
    - first [apply dirM_eq; auto | symmetry; apply dirM_eq; auto]. - reflexivity. }
  rewrite (cost_ext n m _ (M q) Q Q) by (intros; auto; apply dirM_eq; auto).
  destruct (HP q Hq) as [[HC HO] _]. destruct O' as [HC' HO']. apply Rle_antisym; auto.
Qed.
Print Assumptions C146_balanced.

(** different dimensions are refused, before anything else *)
Theorem C146_dims : forall {N : NumOps} (powf : N -> N -> N) ex lg tsort n m d_s d_t K X Y th a b r1 r2 p k, d_s <> d_t ->
  unbalanced_sliced_ot powf ex lg tsort n m d_s d_t K X Y th a b r1 r2 p k = ValueError
  /\ sliced_unbalanced_ot powf ex lg tsort n m d_s d_t K X Y th a b r1 r2 p k = SuValueError.
Proof. intros. unfold unbalanced_sliced_ot, sliced_unbalanced_ot. rewrite (proj2 (Nat.eqb_neq d_s d_t)) by auto. split; reflexivity. Qed.
Print Assumptions C146_dims.

(** one parameter infinite: sliced_unbalanced_ot depends on how often a direction is repeated (the divergence of
    uot_1d is summed over the directions, and then averaged of K equal sums) *)
Theorem C146_axis_refuted : exists X Y th a b r1 p, usot_input 1 1 1 a b (Some r1) None p /\ (forall t, th t 1%nat = th t 0%nat) /\
  forall tsort k, sorter tsort -> exists v1 c1 t1 v2 c2 t2,
    sliced_unbalanced_ot (N:=RNum) rpow exp ln tsort 1 1 1 1 1 X Y th a b (Some r1) None p k = SuOk v1 c1 t1
    /\ sliced_unbalanced_ot (N:=RNum) rpow exp ln tsort 1 1 1 1 2 X Y th a b (Some r1) None p k = SuOk v2 c2 t2
    /\ v2 = 2 * v1 /\ 0 < v1.
Proof.
  exists (fun _ _ => 0), (fun _ _ => 0), (fun _ _ => 1), (Some (fun _ => 2)), (Some (fun _ => 1)), 1, 2.
  assert (HI : forall K, (0 < K)%nat -> usot_input K 1 1 (Some (fun _ => 2)) (Some (fun _ => 1)) (Some 1) None 2).
  { intros K HK. repeat (split; [first [exact HK | lia | intros i Hi; cbn; lra | cbn; lra | exact I | lra]|]). discriminate. }
  split; [apply HI; lia|]. split; [reflexivity|]. intros tsort k Hs.
  assert (RR : forall K, (0 < K)%nat -> exists cols, sliced_unbalanced_ot (N:=RNum) rpow exp ln tsort 1 1 1 1 K (fun _ _ => 0) (fun _ _ => 0) (fun _ _ => 1) (Some (fun _ => 2)) (Some (fun _ => 1)) (Some 1) None 2 k
      = SuOk (N:=RNum) (davg K (uot_total (N:=RNum) ln 1 1 K (fun _ => 2) (fun _ => 1) (Some 1) None cols)) cols (uot_total (N:=RNum) ln 1 1 K (fun _ => 2) (fun _ => 1) (Some 1) None cols)
      /\ forall q, (q < K)%nat -> uo_u (cols q) 0%nat = 1 /\ uo_lin (cols q) = 0).
  { intros K HK. pose proof (suot_input K 1 1 1 (fun _ _ => 0) (fun _ _ => 0) (fun _ _ => 1) _ _ _ _ _ (HI K HK)) as HU. cbn [wt] in HU.
    destruct (cols_run tsort Hs K _ _ 1 1 (fun _ => 2) (fun _ => 1) (Some 1) None 2 k Total ltac:(discriminate) HU) as (cols & E & C).
    exists cols. split.
    { unfold sliced_unbalanced_ot. cbn [Nat.eqb negb]. rewrite !weights_R. cbn [wt].
      match goal with |- match ?Z with _ => _ end = _ => replace Z with (UotOk cols (uot_total (N:=RNum) ln 1 1 K (fun _ => 2) (fun _ => 1) (Some 1) None cols)) by (symmetry; exact E) end.
      rewrite dmean_R. reflexivity. }
    intros q Hq. destruct (C q Hq) as (_ & B & D & (P & _ & L) & _).
    specialize (B 0%nat ltac:(lia)). unfold mass in D. cbn in D, B. rewrite B in D. split; [lra|]. rewrite L.
    unfold cost. cbn [rsum]. rewrite (dirM_eq 1 1) by lia. unfold dirM. cbn [rsum]. unfold wmetric.
    destruct (Req_EM_T 2 1); [lra|]. replace (0 + 0 * 1 - (0 + 0 * 1)) with 0 by ring. rewrite Rabs_R0.
    rewrite rpow_0. lra. }
  destruct (RR 1%nat ltac:(lia)) as (c1 & E1 & C1). destruct (RR 2%nat ltac:(lia)) as (c2 & E2 & C2).
  do 6 eexists. split; [exact E1|]. split; [exact E2|].
  assert (KL : forall c : @uot_col RNum, uo_u c 0%nat = 1 -> kl_mass (N:=RNum) ln 1 (uo_u c) (fun _ => 2) = 1 - ln 2).
  { intros c Hc. unfold kl_mass. rewrite !nsum_R. cbn. rewrite Hc. replace (1 / 2) with (/ 2) by lra. rewrite ln_Rinv by lra. ring. }
  destruct (C1 0%nat ltac:(lia)) as [A1 L1]. destruct (C2 0%nat ltac:(lia)) as [A2 L2]. destruct (C2 1%nat ltac:(lia)) as [A3 L3].
  unfold davg, uot_total. rewrite !nsum_R. cbn [rsum nadd nmul RNum]. rewrite !KL by auto. rewrite L1, L2, L3. cbn [INR].
  assert (ln 2 < 1) by (pose proof ln_lt_2; apply exp_lt_inv; rewrite exp_ln by lra; pose proof exp_ineq1 1 ltac:(lra); lra).
  split; [match goal with |- ?x = ?y => change (@eq R x y) end; field|lra].
Qed.
Print Assumptions C146_axis_refuted.

(** ** one direction: the two functions run the same iterations *)
Section One.
Variable tsort : list (R * tag) -> list (R * tag).
Hypothesis Hsort : sorter tsort.
Variables (n m : nat) (u v : nat -> list RNum) (p : R) (a b : vec) (r1 r2 : option R).
Hypothesis Hn : (0 < n)%nat.
Hypothesis Hm : (0 < m)%nat.
Hypothesis Lu : forall q, length (u q) = n.
Hypothesis Lv : forall q, length (v q) = m.
Hypothesis Ha : pos_vec n a.
Hypothesis Hb : pos_vec m b.
Hypothesis Hp : 1 <= p.
Hypothesis H1 : pos_rm r1.
Hypothesis H2 : pos_rm r2.
Hypothesis Hbal : r1 = None -> r2 = None -> mass n a = mass m b.
Let sl q := mk_slice (N:=RNum) (u q) (v q).
Let pu := argsort (N:=RNum) (u 0%nat).
Let pv := argsort (N:=RNum) (v 0%nat).
Let us := sl_us (sl 0%nat).
Let vs := sl_vs (sl 0%nat).
Let sa : vec := fun l => a (nth l pu 0%nat).
Let sb : vec := fun l => b (nth l pv 0%nat).

(** potentials in sorted order against potentials in the given order *)
Definition rel (fs f : vec) (k : nat) (pq : list nat) : Prop := forall l, (l < k)%nat -> fs l = f (nth l pq 0%nat).

Lemma permu : Permutation pu (seq 0 n).
Proof. destruct (argsort_sorts (u 0%nat)) as [Pu _]. change (carrier RNum) with R in *. rewrite Lu in Pu. exact Pu. Qed.
Lemma permv : Permutation pv (seq 0 m).
Proof. destruct (argsort_sorts (v 0%nat)) as [Pv _]. change (carrier RNum) with R in *. rewrite Lv in Pv. exact Pv. Qed.

Lemma davg1 : forall x : R, (0 + x) / 1 = x. Proof. intros. field. Qed.
Lemma resc_ext : forall (f g f' g' x y x' y' : vec), (forall i, (i < n)%nat -> f i = f' i) -> (forall i, (i < n)%nat -> x i = x' i) ->
  (forall j, (j < m)%nat -> g j = g' j) -> (forall j, (j < m)%nat -> y j = y' j) ->
  rescale_potentials (N:=RNum) exp ln n m f g x y r1 r2 = rescale_potentials (N:=RNum) exp ln n m f' g' x' y' r1 r2.
Proof.
  intros f g f' g' x y x' y' A B C D. unfold rescale_potentials.
  assert (S1 : forall r, rsum n (fun i => exp (nadd (n:=RNum) (ndiv (n:=RNum) (nopp (N:=RNum) (f i)) r) (ln (x i)))) = rsum n (fun i => exp (nadd (n:=RNum) (ndiv (n:=RNum) (nopp (N:=RNum) (f' i)) r) (ln (x' i))))) by (intros; apply rsum_ext; intros; rewrite A, B by auto; reflexivity).
  assert (S2 : forall r, rsum m (fun i => exp (nadd (n:=RNum) (ndiv (n:=RNum) (nopp (N:=RNum) (g i)) r) (ln (y i)))) = rsum m (fun i => exp (nadd (n:=RNum) (ndiv (n:=RNum) (nopp (N:=RNum) (g' i)) r) (ln (y' i))))) by (intros; apply rsum_ext; intros; rewrite C, D by auto; reflexivity).
  assert (S3 : rsum n x = rsum n x') by (apply rsum_ext; auto). assert (S4 : rsum m y = rsum m y') by (apply rsum_ext; auto).
  destruct r1 as [x1|], r2 as [x2|]; auto.
  - f_equal. f_equal; unfold logsumexp1; rewrite ?nsum_R; f_equal; [apply S1|apply S2].
  - f_equal. f_equal; unfold logsumexp1; rewrite ?nsum_R; f_equal; [apply S1|apply S4].
  - f_equal. f_equal; unfold logsumexp1; rewrite ?nsum_R; f_equal; [apply S3|apply S2].
Qed.
Lemma resc_perm : forall f g, rescale_potentials (N:=RNum) exp ln n m (fun l => f (nth l pu 0%nat)) (fun l => g (nth l pv 0%nat)) sa sb r1 r2
  = rescale_potentials (N:=RNum) exp ln n m f g a b r1 r2.
Proof.
  intros f g. unfold rescale_potentials.
  pose proof (perm_list_on n pu permu) as Su. pose proof (perm_list_on m pv permv) as Sv.
  assert (S1 : forall h : vec, rsum n (fun l => h (nth l pu 0%nat)) = rsum n h) by (intros h; apply (rsum_perm n (pfun pu) h); auto).
  assert (S2 : forall h : vec, rsum m (fun l => h (nth l pv 0%nat)) = rsum m h) by (intros h; apply (rsum_perm m (pfun pv) h); auto).
  unfold sa, sb. destruct r1 as [x1|], r2 as [x2|]; auto.
  - f_equal. f_equal; unfold logsumexp1; rewrite ?nsum_R; f_equal; [apply (S1 (fun i => exp (nadd (n:=RNum) (ndiv (n:=RNum) (nopp (N:=RNum) (f i)) x1) (ln (a i)))))|apply (S2 (fun i => exp (nadd (n:=RNum) (ndiv (n:=RNum) (nopp (N:=RNum) (g i)) x2) (ln (b i)))))].
  - f_equal. f_equal; unfold logsumexp1; rewrite ?nsum_R; f_equal; [apply (S1 (fun i => exp (nadd (n:=RNum) (ndiv (n:=RNum) (nopp (N:=RNum) (f i)) x1) (ln (a i)))))|apply (S2 b)].
  - f_equal. f_equal; unfold logsumexp1; rewrite ?nsum_R; f_equal; [apply (S1 a)|apply (S2 (fun i => exp (nadd (n:=RNum) (ndiv (n:=RNum) (nopp (N:=RNum) (g i)) x2) (ln (b i)))))].
Qed.

(** the reweighted marginals agree *)
Lemma rw_same : forall fs gs f g f1 g1 ur vr fm, rel fs f n pu -> rel gs g m pv ->
  get_reweighted (N:=RNum) exp ln n m fs gs sa sb r1 r2 = (f1, g1, ur, vr, fm) ->
  let t := rescale_potentials (N:=RNum) exp ln n m f g a b r1 r2 in
  rel f1 (fun i => f i + t) n pu /\ rel g1 (fun j => g j - t) m pv
  /\ tabv (N:=RNum) n ur = usot_an (N:=RNum) exp n sl a r1 (fun i => f i + t) 0%nat
  /\ tabv (N:=RNum) m vr = usot_bn (N:=RNum) exp m sl b r2 (fun j => g j - t) 0%nat
  /\ fm = usot_mass (N:=RNum) exp n sl a r1 (fun i => f i + t) 0%nat.
Proof.
  intros fs gs f g f1 g1 ur vr fm Rf Rg E t. unfold get_reweighted in E. cbv zeta in E.
  assert (Et : rescale_potentials (N:=RNum) exp ln n m fs gs sa sb r1 r2 = t).
  { unfold t. rewrite <- resc_perm. apply resc_ext; auto. }
  rewrite Et in E. injection E as <- <- <- <- <-.
  assert (A1 : rel (fun i => fs i + t) (fun i => f i + t) n pu) by (intros l Hl; rewrite Rf by auto; reflexivity).
  assert (A2 : rel (fun i => gs i - t) (fun i => g i - t) m pv) by (intros l Hl; rewrite Rg by auto; reflexivity).
  assert (W1 : forall l, (l < n)%nat -> reweight (N:=RNum) exp (fun i => fs i + t) sa r1 l = usot_a (N:=RNum) exp sl a r1 (fun i => f i + t) 0%nat l).
  { intros l Hl. unfold usot_a. cbn [sl mk_slice sl_pu]. fold pu. destruct r1 as [r|]; cbn [reweight]; [|reflexivity]. rewrite A1 by auto. reflexivity. }
  assert (W2 : forall l, (l < m)%nat -> reweight (N:=RNum) exp (fun i => gs i - t) sb r2 l = usot_b (N:=RNum) exp sl b r2 (fun i => g i - t) 0%nat l).
  { intros l Hl. unfold usot_b. cbn [sl mk_slice sl_pv]. fold pv. destruct r2 as [r|]; cbn [reweight]; [|reflexivity]. rewrite A2 by auto. reflexivity. }
  assert (V1 : nsum (N:=RNum) n (reweight (N:=RNum) exp (fun i => fs i + t) sa r1) = nsum (N:=RNum) n (usot_a (N:=RNum) exp sl a r1 (fun i => f i + t) 0%nat)) by (rewrite !nsum_R; apply rsum_ext; auto).
  assert (V2 : nsum (N:=RNum) m (reweight (N:=RNum) exp (fun i => gs i - t) sb r2) = nsum (N:=RNum) m (usot_b (N:=RNum) exp sl b r2 (fun i => g i - t) 0%nat)) by (rewrite !nsum_R; apply rsum_ext; auto).
  split; [exact A1|]. split; [exact A2|].
  assert (T : forall k (x y : vec), (forall l, (l < k)%nat -> x l = y l) -> tabv (N:=RNum) k x = tabv (N:=RNum) k y) by (intros k x y H; unfold tabv; apply map_ext_in; intros l Hl; apply in_seq in Hl; apply H; lia).
  split; [|split].
  - unfold usot_an. apply T. intros l Hl. change (reweight (N:=RNum) exp (fun i => fs i + t) sa r1 l / nsum (N:=RNum) n (reweight (N:=RNum) exp (fun i => fs i + t) sa r1) = usot_a (N:=RNum) exp sl a r1 (fun i => f i + t) 0%nat l / nsum (N:=RNum) n (usot_a (N:=RNum) exp sl a r1 (fun i => f i + t) 0%nat)).
    rewrite V1, W1 by auto. reflexivity.
  - unfold usot_bn. apply T. intros l Hl. change (reweight (N:=RNum) exp (fun i => gs i - t) sb r2 l / nsum (N:=RNum) m (reweight (N:=RNum) exp (fun i => gs i - t) sb r2) = usot_b (N:=RNum) exp sl b r2 (fun i => g i - t) 0%nat l / nsum (N:=RNum) m (usot_b (N:=RNum) exp sl b r2 (fun i => g i - t) 0%nat)).
    rewrite V2, W2 by auto. reflexivity.
  - exact V1.
Qed.

Lemma loop_same : forall k i fs gs f g, rel fs f n pu -> rel gs g m pv ->
  exists fs' gs' f' g', fw_loop (N:=RNum) rpow exp ln tsort n m us vs sa sb r1 r2 p k i fs gs = Ok (fs', gs')
  /\ usot_loop (N:=RNum) rpow exp ln tsort n m 1 sl a b r1 r2 p k i f g = Ok (f', g') /\ rel fs' f' n pu /\ rel gs' g' m pv.
Proof.
  induction k; intros i fs gs f g Rf Rg; [exists fs, gs, f, g; auto|].
  cbn [fw_loop usot_loop]. destruct (get_reweighted (N:=RNum) exp ln n m fs gs sa sb r1 r2) as [[[[f1 g1] ur] vr] fm] eqn:G.
  destruct (rw_same fs gs f g f1 g1 ur vr fm Rf Rg G) as (A1 & A2 & T1 & T2 & _).
  destruct (transl_props n m a b r1 r2 Hn Hm Ha Hb H1 H2 Hbal f g) as (t & Et & E & P1 & P2 & Em). rewrite <- Et in A1, A2, T1, T2.
  rewrite E. cbn [seq map all_ok].
  destruct (proj1 (dirs tsort Hsort 1 n m u v p a b r1 r2 Hn Hm Lu Lv Hp _ _ P1 P2 Em 0%nat ltac:(lia))) as (fd & gd & w & X & _).
  change (fun q : nat => mk_slice (N:=RNum) (u q) (v q)) with sl in X. rewrite T1, T2. fold us vs in X.
  match goal with |- context[match ?Z with Ok _ => _ | ValueError => _ | AssertionError => _ | IndexError => _ | OutOfBounds => _ | OutOfFuel => _ end = _] => replace Z with (Ok (fd, gd, w) : res (vec * vec * R)) by (symmetry; exact X) end.
  match goal with |- context[bind match ?Z with _ => _ end] => replace Z with (Ok (fd, gd, w) : res (vec * vec * R)) by (symmetry; exact X) end.
  cbn [bind nth fst snd].
  apply IHk.
  - intros l Hl.
    rewrite A1 by auto. rewrite dmean_R. unfold davg. cbn [rsum INR]. cbn [sl mk_slice sl_pu]. fold pu.
    change (nth l pu 0%nat) with (pfun pu l). rewrite (pp_left n pu permu l Hl). match goal with |- ?x = ?y => change (@eq R x y) end. cbn [nadd nmul nsub RNum]. f_equal. f_equal. f_equal. symmetry. apply davg1.
  - intros l Hl. 
    rewrite A2 by auto. rewrite dmean_R. unfold davg. cbn [rsum INR]. cbn [sl mk_slice sl_pv]. fold pv.
    change (nth l pv 0%nat) with (pfun pv l). rewrite (pp_left m pv permv l Hl). match goal with |- ?x = ?y => change (@eq R x y) end. cbn [nadd nmul nsub RNum]. f_equal. f_equal. f_equal. symmetry. apply davg1.
Qed.
End One.

(** With one direction the two functions return the same value and the same marginals, whatever the parameters. *)
Theorem C146_one_direction : forall tsort, sorter tsort -> forall n m d X Y th a b r1 r2 p k,
  usot_input 1 n m a b r1 r2 p ->
  exists out v cols tot, unbalanced_sliced_ot (N:=RNum) rpow exp ln tsort n m d d 1 X Y th a b r1 r2 p k = Ok out
  /\ sliced_unbalanced_ot (N:=RNum) rpow exp ln tsort n m d d 1 X Y th a b r1 r2 p k = SuOk v cols tot
  /\ v = us_loss out /\ (forall i, (i < n)%nat -> uo_u (cols 0%nat) i = us_a out i) /\ (forall j, (j < m)%nat -> uo_v (cols 0%nat) j = us_b out j).
Proof.
  intros tsort Hs n m d X Y th ao bo r1 r2 p k HI.
  destruct (C146_usot tsort Hs n m d 1 X Y th ao bo r1 r2 p k HI) as (out & f & g & E & A & B & Em & Emass & (P & HP & ES & _ & L) & _).
  pose proof (suot_input 1 n m d X Y th ao bo r1 r2 p HI) as HU.
  destruct HI as (HK & Hn & Hm & Ha & Hb & H1 & H2 & Hp & Hbal).
  set (a := wt n ao) in *. set (b := wt m bo) in *.
  set (u := project (N:=RNum) n d X th). set (v := project (N:=RNum) m d Y th). fold u v in HU.
  assert (Lu : forall q, length (u q) = n) by (intros; apply proj_len).
  assert (Lv : forall q, length (v q) = m) by (intros; apply proj_len).
  destruct (C142_certificate tsort Hs 1 u v n m a b r1 r2 p k HU (or_introl eq_refl)) as (cols & tot & Ec & C).
  destruct (C 0%nat ltac:(lia)) as [(Q & UQ & TQ & RQ & CQ) _]. clear C.
  destruct (cols_run tsort Hs 1 u v n m a b r1 r2 p k Total ltac:(discriminate) HU) as (cols' & Ec' & C').
  assert (EC : UotOk cols tot = UotOk cols' (uot_total (N:=RNum) ln n m 1 a b r1 r2 cols')) by (rewrite <- Ec; exact Ec'). injection EC as <- ->. clear Ec'.
  destruct (C' 0%nat ltac:(lia)) as (_ & _ & _ & (P' & O' & EL') & _). clear C'.
  (* the marginals *)
  destruct (loop_same tsort Hs n m u v p a b r1 r2 Hn Hm Lu Lv Ha Hb Hp H1 H2 Hbal k 0%nat (fun _ => 0) (fun _ => 0) (fun _ => 0) (fun _ => 0) ltac:(intros l Hl; reflexivity) ltac:(intros l Hl; reflexivity)) as (fs & gs & f' & g' & W1 & W2 & Rf & Rg).
  assert (Mg : (forall i, (i < n)%nat -> uo_u (cols 0%nat) i = us_a out i) /\ (forall j, (j < m)%nat -> uo_v (cols 0%nat) j = us_b out j)).
  { unfold uot_1d in Ec. cbn [negb all_cols] in Ec.
    destruct (get_reweighted (N:=RNum) exp ln n m fs gs (fun l => a (nth l (argsort (N:=RNum) (u 0%nat)) 0%nat)) (fun l => b (nth l (argsort (N:=RNum) (v 0%nat)) 0%nat)) r1 r2) as [[[[f1 g1] ur] vr] fm] eqn:G.
    destruct (rw_same n m u v a b r1 r2 Hn Hm Lu Lv H1 H2 Hbal fs gs f' g' f1 g1 ur vr fm Rf Rg G) as (A1 & A2 & T1 & T2 & Tm). 
    destruct (transl_props n m a b r1 r2 Hn Hm Ha Hb H1 H2 Hbal f' g') as (t & Et & Etr & P1 & P2 & Em'). rewrite <- Et in A1, A2, T1, T2, Tm.
    unfold unbalanced_sliced_ot in E. rewrite Nat.eqb_refl in E. cbn [negb] in E. cbv zeta in E. rewrite !weights_R in E. fold a b u v in E.
    match type of E with bind ?Z _ = _ => replace Z with (Ok (f', g') : res (vec * vec)) in E by (symmetry; exact W2) end.
    cbn [bind fst snd] in E. rewrite Etr in E.
    match type of E with bind ?Z _ = _ => destruct Z as [l| | | | |]; try discriminate end. cbn [bind] in E.
    assert (Ea : us_a out = rew (fun i => f' i + t) a r1) by (injection E as <-; reflexivity).
    assert (Eb : us_b out = rew (fun j => g' j - t) b r2) by (injection E as <-; reflexivity).
    rewrite Ea, Eb. clear E A B Em Emass HP ES L Ea Eb.
    assert (UC : exists w, uot_column (N:=RNum) rpow exp ln tsort n m (u 0%nat) (v 0%nat) a b r1 r2 p k = Ok (UotCol (N:=RNum) (fun i => f1 (pos_of i (argsort (N:=RNum) (u 0%nat)))) (fun j => g1 (pos_of j (argsort (N:=RNum) (v 0%nat))))
        (fun i => nmul (n:=RNum) (ur (pos_of i (argsort (N:=RNum) (u 0%nat)))) fm) (fun j => nmul (n:=RNum) (vr (pos_of j (argsort (N:=RNum) (v 0%nat)))) fm) (nmul (n:=RNum) w fm))).
    { destruct (uot_column (N:=RNum) rpow exp ln tsort n m (u 0%nat) (v 0%nat) a b r1 r2 p k) as [c| | | | |] eqn:UC; try discriminate Ec. clear Ec.
      unfold uot_column in UC. cbv zeta in UC.
      match type of UC with match ?Z with _ => _ end = _ => replace Z with (Ok (fs, gs) : res (vec * vec)) in UC by (symmetry; exact W1) end.
      match type of UC with match ?Z with _ => _ end = _ => replace Z with (f1, g1, ur, vr, fm) in UC by (symmetry; exact G) end.
      match type of UC with match ?Z with _ => _ end = _ => destruct Z as [[w es]| | | | |]; try discriminate end.
      exists w. symmetry. exact UC. }
    destruct UC as (w & UC).
    match type of Ec with context[match ?Z with Ok _ => _ | ValueError => _ | AssertionError => _ | IndexError => _ | OutOfBounds => _ | OutOfFuel => _ end] => replace Z with (uot_column (N:=RNum) rpow exp ln tsort n m (u 0%nat) (v 0%nat) a b r1 r2 p k) in Ec by reflexivity end.
    rewrite UC in Ec.
    assert (Ec0 : cols 0%nat = UotCol (N:=RNum) (fun i => f1 (pos_of i (argsort (N:=RNum) (u 0%nat)))) (fun j => g1 (pos_of j (argsort (N:=RNum) (v 0%nat))))
        (fun i => nmul (n:=RNum) (ur (pos_of i (argsort (N:=RNum) (u 0%nat)))) fm) (fun j => nmul (n:=RNum) (vr (pos_of j (argsort (N:=RNum) (v 0%nat)))) fm) (nmul (n:=RNum) w fm)) by (injection Ec as <- _; reflexivity).
    rewrite Ec0. cbn [uo_u uo_v]. clear Ec Ec0 UC.
    pose proof (permu n u Lu) as Pu. pose proof (permv m v Lv) as Pv.
    pose proof (rw_props (u 0%nat) (v 0%nat) (fun l => a (nth l (argsort (N:=RNum) (u 0%nat)) 0%nat)) (fun l => b (nth l (argsort (N:=RNum) (v 0%nat)) 0%nat)) r1 r2) as RP.
    change (carrier RNum) with R in *. rewrite Lu, Lv in RP.
    pose proof (perm_list_on n _ Pu) as Sa. pose proof (perm_list_on m _ Pv) as Sb.
    assert (Q1 : pos_vec n (fun l => a (nth l (argsort (N:=RNum) (u 0%nat)) 0%nat))) by (intros i Hi; apply Ha; apply Sa; auto).
    assert (Q2 : pos_vec m (fun l => b (nth l (argsort (N:=RNum) (v 0%nat)) 0%nat))) by (intros i Hi; apply Hb; apply Sb; auto).
    assert (Q3 : r1 = None -> r2 = None -> mass n (fun l => a (nth l (argsort (N:=RNum) (u 0%nat)) 0%nat)) = mass m (fun l => b (nth l (argsort (N:=RNum) (v 0%nat)) 0%nat))).
    { intros Z1 Z2. pose proof (rsum_perm n (pfun (argsort (N:=RNum) (u 0%nat))) a Sa) as V1. pose proof (rsum_perm m (pfun (argsort (N:=RNum) (v 0%nat))) b Sb) as V2.
      unfold pfun in V1, V2. unfold mass. rewrite V1, V2. apply Hbal; auto. }
    destruct (RP Hn Hm Q1 Q2 H1 H2 Q3 fs gs f1 g1 ur vr fm G) as (_ & _ & _ & _ & _ & Eu & Ev & _).
    split; intros i Hi.
    - destruct (pp_right n _ Pu i Hi) as [Y1 Y2]. etransitivity; [apply Eu; exact Y2|]. pose proof (A1 _ Y2) as Z. unfold pfun in Y1. rewrite Y1 in Z.
      destruct r1; cbn; [rewrite Z, Y1; reflexivity|rewrite Y1; reflexivity].
    - destruct (pp_right m _ Pv i Hi) as [Y1 Y2]. etransitivity; [apply Ev; exact Y2|]. pose proof (A2 _ Y2) as Z. unfold pfun in Y1. rewrite Y1 in Z.
      destruct r2; cbn; [rewrite Z, Y1; reflexivity|rewrite Y1; reflexivity]. }
  destruct Mg as [M1 M2].
  exists out, (davg 1 (uot_total (N:=RNum) ln n m 1 a b r1 r2 cols)), cols, (uot_total (N:=RNum) ln n m 1 a b r1 r2 cols).
  split; [exact E|]. split.
  { unfold sliced_unbalanced_ot. rewrite Nat.eqb_refl. cbn [negb]. rewrite !weights_R. fold a b u v. rewrite Ec. rewrite dmean_R. reflexivity. }
  split; [|split; [exact M1|exact M2]].
  assert (KL : forall k0 (x y z : vec), (forall i, (i < k0)%nat -> x i = y i) -> kl_mass (N:=RNum) ln k0 x z = kl_mass (N:=RNum) ln k0 y z).
  { intros k0 x y z Hxy. unfold kl_mass. rewrite !nsum_R. cbn [nadd RNum]. f_equal; apply rsum_ext; intros; rewrite Hxy by auto; reflexivity. }
  assert (EL : uo_lin (cols 0%nat) = cost n m (dirM d X Y th p 0) (P 0%nat)).
  { rewrite EL'. rewrite (cost_ext n m _ (dirM d X Y th p 0) P' P') by (intros; auto; apply dirM_eq; auto).
    assert (O2 : optimal_coupling n m (us_a out) (us_b out) (dirM d X Y th p 0) P').
    { eapply optimal_ext; [| | | |exact O']; auto. intros; apply dirM_eq; auto. }
    destruct (HP 0%nat ltac:(lia)) as [[HC HO] _]. destruct O2 as [HC2 HO2]. apply Rle_antisym; auto. }
  assert (D1 : forall x, davg 1 x = x 0%nat) by (intros x; unfold davg; cbn [rsum INR]; field).
  rewrite L. unfold usot_obj. rewrite !D1, <- EL.
  assert (T1 : penalty r1 n (us_a out) a = match r1 with Some r => r * kl_mass (N:=RNum) ln n (uo_u (cols 0%nat)) a | None => 0 end).
  { destruct r1 as [r|]; [|reflexivity]. rewrite <- kl_pen by auto. rewrite (KL n _ _ a M1). reflexivity. }
  assert (T2 : penalty r2 m (us_b out) b = match r2 with Some r => r * kl_mass (N:=RNum) ln m (uo_v (cols 0%nat)) b | None => 0 end).
  { destruct r2 as [r|]; [|reflexivity]. rewrite <- kl_pen by auto. rewrite (KL m _ _ b M2). reflexivity. }
  change (carrier RNum) with R in *. rewrite T1, T2. unfold uot_total. destruct r1, r2; rewrite ?nsum_R; cbn [rsum nadd nmul RNum]; change (carrier RNum) with R; lra.
Qed.
Print Assumptions C146_one_direction.

(** ** a concrete case: three planar points against one, two directions, masses 3 and 2, both parameters finite;
    one target point meets no ties *)
Lemma usot_tf_1 : forall tsort K n u v p a b r1 r2 k i f g, usot_tie_free tsort K n 1 u v p a b r1 r2 k i f g.
Proof.
  intros tsort K n u v p a b r1 r2 k. induction k; intros i f g; [exact I|]. cbn [usot_tie_free].
  destruct (usot_transl (N:=RNum) exp ln n 1 a b r1 r2 f g) as [f1 g1]. split; [intros q Hq x y Hx Hy; lia|].
  match goal with |- match ?Z with _ => _ end => destruct Z; auto end.
Qed.
Example C146_ex : usot_input 2 3 1 (Some (fun _ => 1)) (Some (fun _ => 2)) (Some 1) (Some 5) 2
  /\ forall tsort X Y th k, usot_no_ties tsort 3 1 2 2 X Y th (Some (fun _ => 1)) (Some (fun _ => 2)) (Some 1) (Some 5) 2 k
       /\ suot_no_ties tsort 3 1 2 2 X Y th (Some (fun _ => 1)) (Some (fun _ => 2)) (Some 1) (Some 5) 2 k.
Proof.
  split.
  - repeat (split; [first [lia | intros i Hi; cbn; lra | cbn; lra | lra]|]). discriminate.
  - intros. split; [apply usot_tf_1|]. intros q Hq. apply tie_free_run_1. rewrite map_length.
    destruct (argsort_sorts (project (N:=RNum) 1 2 Y th q)) as [Pv _]. apply Permutation_length in Pv. rewrite seq_length in Pv. exact Pv.
Qed.
