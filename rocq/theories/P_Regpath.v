(** C65, C66, C97: ot/regpath.py.
    [penalized n m a b C g T] = g <C,T> + 1/2 (|T 1 - a|^2 + |T' 1 - b|^2) is the problem of fully_relaxed_path,
    [uot lam] = <C,T> + lam (|T 1 - a|^2 + |T' 1 - b|^2) the one of its docstring.  Plans are matrices; [unflat m t]
    reads the flattened vector returned by the code. *)
From Coq Require Import List Arith Bool Reals Lra Lia QArith.
From Verif Require Import Num Sums Spec NS_dense Duals_proofs Emd1d_model Sinkhorn_model Sinkhorn_more Regpath_model Regpath_proofs.
Import ListNotations.
Local Open Scope R_scope.

Definition sq_sum (k : nat) (x y : vec) : R := rsum k (fun i => (x i - y i) * (x i - y i)).
Definition penalized (n m : nat) (a b : vec) (C : mat) (g : R) (T : mat) : R := g * cost n m C T + / 2 * (sq_sum n (row_sum m T) a + sq_sum m (col_sum n T) b).
Definition uot (n m : nat) (a b : vec) (C : mat) (lam : R) (T : mat) : R := cost n m C T + lam * (sq_sum n (row_sum m T) a + sq_sum m (col_sum n T) b).
Definition unflat (m : nat) (t : vec) : mat := fun i j => t (i * m + j)%nat.
Definition nonneg_plan (n m : nat) (T : mat) : Prop := forall i j, (i < n)%nat -> (j < m)%nat -> 0 <= T i j.
(** reduced cost of a cell: derivative of [penalized] with respect to T i j *)
Definition reduced (n m : nat) (a b : vec) (C : mat) (g : R) (T : mat) (i j : nat) : R := g * C i j + (row_sum m T i - a i) + (col_sum n T j - b j).

(** ** C65 *)
Theorem C65_complement_schur_add : forall k (Mc G : mat) (b : vec) d pop, (0 < k)%nat -> inverse k Mc G -> sym k Mc ->
  d - rsum k (fun j => b j * rsum k (fun l => Mc j l * b l)) <> 0 ->
  let M' := complement_schur (N:=RNum) k Mc (Some b) d pop in inverse (S k) M' (border k G b d) /\ sym (S k) M'.
Proof. intros k Mc G b d pop Hk HI HS Hs. cbn [complement_schur]. apply schur_add_inverse; auto. Qed.
Theorem C65_complement_schur_remove : forall k (Mc G : mat) d p, (p <= k)%nat -> inverse (S k) Mc G -> sym (S k) Mc -> Mc p p <> 0 ->
  let M' := complement_schur (N:=RNum) (S k) Mc None d p in inverse k M' (minor p G) /\ sym k M'.
Proof. intros k Mc G d p Hp HI HS Hm. cbn [complement_schur]. apply schur_remove_inverse; auto. Qed.
(** from an empty matrix the result is the constant 0.5: the inverse of [[d]] exactly when d = 2 *)
Theorem C65_first_block : forall (Mc : mat) (b : vec) d pop G, inverse 1 (complement_schur (N:=RNum) 0 Mc (Some b) d pop) (border 0 G b d) <-> d = 2.
Proof.
  intros Mc b d pop G. cbn [complement_schur schur_add]. unfold inverse, border. split.
  - intros HI. specialize (HI 0%nat 0%nat ltac:(lia) ltac:(lia)). cbn in HI. unfold half_const in HI. cbn in HI. lra.
  - intros -> p q Hp Hq. replace p with 0%nat by lia. replace q with 0%nat by lia. cbn. unfold half_const. cbn. lra.
Qed.
(** a concrete bordered matrix: [[2]] extended by b = 1, d = 2, and back *)
Example C65_case : let M1 := schur_add (N:=RNum) 1 (fun _ _ => / 2) (fun _ => 1) 2 in inverse 2 M1 (border 1 (fun _ _ => 2) (fun _ => 1) 2) /\ inverse 1 (schur_remove (N:=RNum) M1 1) (minor 1 (border 1 (fun _ _ => 2) (fun _ => 1) 2)).
Proof.
  assert (HI : inverse 1 (fun _ _ => / 2) (fun _ _ => 2)) by (intros p q Hp Hq; replace p with 0%nat by lia; replace q with 0%nat by lia; cbn; lra).
  destruct (schur_add_inverse 1 (fun _ _ => / 2) (fun _ _ => 2) (fun _ => 1) 2) as [I1 I2]; auto; [intros p q _ _; reflexivity|cbn; lra|].
  split; [exact I1|]. apply schur_remove_inverse; auto. rewrite schur_add_R by lia. cbn. lra.
Qed.

(** ** C66 *)
Lemma plan_conv : forall (ga gb g : R) (ta tb : vec), gb < ga -> gb <= g <= ga -> exists th, 0 <= th <= 1 /\ forall i, lerpR ga ta gb tb g i = (1 - th) * ta i + th * tb i.
Proof.
  intros ga gb g ta tb Hlt Hg. exists ((g - ga) / (gb - ga)). split.
  - assert (E : (g - ga) / (gb - ga) = (ga - g) / (ga - gb)) by (field; lra). rewrite E. split; [apply Rmult_le_pos; [lra|left; apply Rinv_0_lt_compat; lra]|]. apply Rmult_le_reg_r with (ga - gb); [lra|]. unfold Rdiv. rewrite Rmult_assoc, Rinv_l by lra. lra.
  - intros i. rewrite lerpR_eq. field. lra.
Qed.
Lemma dec_pairs : forall p : list (R * vec), decreasing (map fst p) -> forall x z, In (x, z) (pairs p) -> fst z < fst x.
Proof.
  induction p as [|[g1 t1] p IH]; intros D x z Hin; [destruct Hin|]. destruct p as [|[g2 t2] p]; [destruct Hin|]. rewrite pairs_cons in Hin. destruct D as [D1 D2].
  destruct Hin as [E|Hin]; [injection E as <- <-; exact D1|]. apply IH; auto.
Qed.
Lemma pairs_in : forall X (p : list X) x z, In (x, z) (pairs p) -> In x p /\ In z p.
Proof.
  intros X p. induction p as [|a p IH]; intros x z Hin; [destruct Hin|]. destruct p as [|b p]; [destruct Hin|]. rewrite pairs_cons in Hin. destruct Hin as [E|Hin]; [injection E as <- <-; cbn; auto|].
  destruct (IH x z Hin). cbn [In] in *. tauto.
Qed.
Lemma nth_error_in' : forall X (l : list X) k x, nth_error l k = Some x -> In x l.
Proof. intros. eapply nth_error_In; eauto. Qed.
(** value of compute_transport_plan on a path with decreasing parameters *)
Lemma ctp_cases : forall (p : list (R * vec)) g0 t0 g, decreasing (map fst ((g0, t0) :: p)) ->
  (g0 <= g /\ compute_transport_plan (N:=RNum) g ((g0, t0) :: p) = Some t0) \/
  (exists gl tl', In (gl, tl') ((g0, t0) :: p) /\ (forall x, In x ((g0, t0) :: p) -> gl <= fst x) /\ g <= gl /\ compute_transport_plan (N:=RNum) g ((g0, t0) :: p) = Some tl') \/
  (exists ga ta gb tb, In ((ga, ta), (gb, tb)) (pairs ((g0, t0) :: p)) /\ gb < g <= ga /\ compute_transport_plan (N:=RNum) g ((g0, t0) :: p) = Some (lerpR ga ta gb tb g)).
Proof.
  intros p g0 t0 g D. unfold compute_transport_plan. cbn [nleb RNum]. destruct (Rleb g0 g) eqn:E0; [left; apply Rleb_true in E0; auto|]. apply Rleb_false in E0. right.
  rewrite last_cons'. destruct (last p (g0, t0)) as [gl tl'] eqn:El.
  assert (Hin : In (gl, tl') ((g0, t0) :: p)). { rewrite <- El. clear. revert g0 t0. induction p as [|[g1 t1] p IH]; intros; [left; reflexivity|]. rewrite last_cons'. right. apply IH. }
  assert (Hmin : forall x, In x ((g0, t0) :: p) -> gl <= fst x).
  { clear E0 Hin. revert g0 t0 D El. induction p as [|[g1 t1] p IH]; intros g0 t0 D El x Hx.
    - destruct Hx as [<-|[]]. cbn in El. injection El as <- <-. cbn. lra.
    - rewrite last_cons' in El. destruct D as [D1 D2]. destruct Hx as [<-|Hx]; [|apply (IH g1 t1 D2 El); auto]. pose proof (IH g1 t1 D2 El (g1, t1) (or_introl eq_refl)). cbn [fst] in *. lra. }
  destruct (Rleb g gl) eqn:E1; [left; apply Rleb_true in E1; exists gl, tl'; auto|]. apply Rleb_false in E1. right.
  destruct (last_le_spec p g g0 t0 0 None D ltac:(lra)) as (k & ga & ta & gb & tb & F1 & F2 & F3 & F4); [rewrite El; cbn [fst]; lra|].
  rewrite Nat.add_0_l in F1. exists ga, ta, gb, tb. split; [apply (pairs_nth _ _ k); auto|]. split; [auto|].
  match goal with |- context [last_le ?x ?l ?i ?b] => assert (F1' : last_le (N:=RNum) x l i b = Some k) by exact F1; rewrite F1' end.
  match goal with |- context [@nth_error ?T ?l k] => assert (F2' : @nth_error T l k = Some (ga, ta)) by exact F2; rewrite F2' end.
  match goal with |- context [@nth_error ?T ?l (S k)] => assert (F3' : @nth_error T l (S k) = Some (gb, tb)) by exact F3; rewrite F3' end.
  reflexivity.
Qed.
Lemma dec_inj : forall (p : list (R * vec)) g t t', decreasing (map fst p) -> In (g, t) p -> In (g, t') p -> t = t'.
Proof.
  induction p as [|[g1 t1] p IH]; intros g t t' D H1 H2; [destruct H1|].
  assert (Dt : decreasing (map fst p)) by (destruct p as [|[? ?] ?]; [exact I|]; apply D).
  assert (Lt : forall g t, In (g, t) p -> g < g1) by (intros g' t2 Hin; apply (decreasing_lt (map fst p) g1 g' D); apply (in_map fst p (g', t2)); auto).
  destruct H1 as [E1|H1], H2 as [E2|H2].
  - congruence.
  - injection E1 as -> ->. specialize (Lt _ _ H2). lra.
  - injection E2 as -> ->. specialize (Lt _ _ H1). lra.
  - apply (IH g); auto.
Qed.
Theorem C66_compute_transport_plan : forall p : list (R * vec), p <> [] -> decreasing (map fst p) ->
  (* defined everywhere, a convex combination of two stored plans: in particular non-negative when they are *)
  (forall g, exists (t : vec) (ga : R) (ta : vec) (gb : R) (tb : vec) (th : R), compute_transport_plan (N:=RNum) g p = Some t /\ In (ga, ta) p /\ In (gb, tb) p /\ 0 <= th <= 1 /\ forall i, t i = (1 - th) * ta i + th * tb i) /\
  (forall i, (forall g t, In (g, t) p -> 0 <= t i) -> forall g (t : vec), compute_transport_plan (N:=RNum) g p = Some t -> 0 <= t i) /\
  (* exact at the breakpoints *)
  (forall g t, In (g, t) p -> exists t' : vec, compute_transport_plan (N:=RNum) g p = Some t' /\ forall i, t' i = t i) /\
  (* affine in gamma between two consecutive breakpoints *)
  (forall g1 t1 g2 t2 th, In ((g1, t1), (g2, t2)) (pairs p) -> 0 <= th <= 1 -> exists t' : vec, compute_transport_plan (N:=RNum) ((1 - th) * g1 + th * g2) p = Some t' /\ forall i, t' i = (1 - th) * t1 i + th * t2 i).
Proof.
  intros p Hp D. destruct p as [|[g0 t0] p]; [congruence|].
  assert (Max : forall x, In x ((g0, t0) :: p) -> fst x <= g0).
  { intros x [<-|Hx]; [cbn; lra|]. left. apply (decreasing_lt (map fst p) g0 (fst x) D). apply in_map; auto. }
  assert (P1 : forall g, exists (t : vec) (ga : R) (ta : vec) (gb : R) (tb : vec) (th : R), compute_transport_plan (N:=RNum) g ((g0, t0) :: p) = Some t /\ In (ga, ta) ((g0, t0) :: p) /\ In (gb, tb) ((g0, t0) :: p) /\ 0 <= th <= 1 /\ forall i, t i = (1 - th) * ta i + th * tb i).
  { intros g. destruct (ctp_cases p g0 t0 g D) as [[H1 E]|[(gl & tl' & Hin & Hmin & H1 & E)|(ga & ta & gb & tb & Hin & H1 & E)]].
    - exists t0, g0, t0, g0, t0, 0. split; [exact E|]. split; [left; reflexivity|]. split; [left; reflexivity|]. split; [lra|]. intros; ring.
    - exists tl', gl, tl', gl, tl', 0. split; [exact E|]. split; [auto|]. split; [auto|]. split; [lra|]. intros; ring.
    - pose proof (dec_pairs _ D _ _ Hin) as Hlt. cbn [fst] in Hlt. destruct (plan_conv ga gb g ta tb Hlt ltac:(lra)) as (th & Hth & Et). destruct (pairs_in _ _ _ _ Hin) as [I1 I2].
      exists (lerpR ga ta gb tb g), ga, ta, gb, tb, th. auto 7. }
  assert (P4 : forall g1 t1 g2 t2 th, In ((g1, t1), (g2, t2)) (pairs ((g0, t0) :: p)) -> 0 <= th <= 1 -> exists t' : vec, compute_transport_plan (N:=RNum) ((1 - th) * g1 + th * g2) ((g0, t0) :: p) = Some t' /\ forall i, t' i = (1 - th) * t1 i + th * t2 i).
  { intros g1 t1 g2 t2 th Hin Hth. pose proof (dec_pairs _ D _ _ Hin) as Hlt. cbn [fst] in Hlt. destruct (pairs_in _ _ _ _ Hin) as [I1 I2]. set (g := (1 - th) * g1 + th * g2).
    assert (Hg : g2 <= g <= g1) by (unfold g; nra).
    (* every other pair lies entirely above or below *)
    assert (Uniq : forall (q : list (R * vec)) a ta b tb, decreasing (map fst q) -> In ((a, ta), (b, tb)) (pairs q) -> In ((g1, t1), (g2, t2)) (pairs q) -> b < g <= a -> g2 < g -> (a, ta) = (g1, t1) /\ (b, tb) = (g2, t2)).
    { clear - Hlt Hg. induction q as [|[x tx] q IH]; intros a ta b tb Dq H1 H2 Hab Hs; [destruct H1|]. destruct q as [|[z tz] q]; [destruct H1|]. rewrite pairs_cons in H1, H2. destruct Dq as [Dq1 Dq2].
      assert (Below : forall u v, In (u, v) (pairs ((z, tz) :: q)) -> fst u <= z).
      { intros u v Huv. destruct (pairs_in _ _ _ _ Huv) as [[<-|Hu] _]; [cbn; lra|]. left. apply (decreasing_lt (map fst q) z (fst u) Dq2). apply in_map; auto. }
      destruct H1 as [E1|H1], H2 as [E2|H2].
      - injection E1 as -> -> -> ->. injection E2 as -> -> -> ->. auto.
      - injection E1 as -> -> -> ->. specialize (Below _ _ H2). cbn [fst] in Below. lra.
      - injection E2 as -> -> -> ->. specialize (Below _ _ H1). cbn [fst] in Below. lra.
      - apply IH; auto. }
    assert (Fin : forall t' : vec, compute_transport_plan (N:=RNum) g ((g0, t0) :: p) = Some t' -> (forall i, t' i = (1 - th) * t1 i + th * t2 i) -> exists t' : vec, compute_transport_plan (N:=RNum) g ((g0, t0) :: p) = Some t' /\ forall i, t' i = (1 - th) * t1 i + th * t2 i) by eauto.
    destruct (ctp_cases p g0 t0 g D) as [[H1 E]|[(gl & tl' & Hl & Hmin & H1 & E)|(ga & ta & gb & tb & Hp2 & H1 & E)]].
    - pose proof (Max _ I1) as M1. cbn [fst] in M1. assert (th = 0) by (unfold g in *; nra). assert (Eg : g1 = g0) by lra.
      apply (Fin t0 E). subst g1. rewrite <- (dec_inj ((g0, t0) :: p) g0 t1 t0 D I1 (or_introl eq_refl)). intros i. subst th. ring.
    - pose proof (Hmin _ I2) as M1. cbn [fst] in M1. assert (th = 1) by (unfold g in *; nra). assert (Eg : g2 = gl) by lra.
      apply (Fin tl' E). subst g2. rewrite <- (dec_inj ((g0, t0) :: p) gl t2 tl' D I2 Hl). intros i. subst th. ring.
    - destruct (Req_dec g g2) as [Eg|Eg].
      + (* g is the parameter of the lower breakpoint, which starts the pair found by the code *)
        assert (th = 1) by (unfold g in *; nra). destruct (pairs_in _ _ _ _ Hp2) as [J1 J2].
        assert (Ega : ga = g2).
        { (* g2 is a breakpoint in (gb, ga], hence ga *)
          clear - D Hp2 I2 H1 Eg. rewrite Eg in H1. clear Eg g. revert D Hp2 I2. generalize ((g0, t0) :: p) as q. induction q as [|[x tx] q IH]; intros D Hp2 I2; [destruct I2|]. destruct q as [|[z tz] q]; [destruct Hp2|]. rewrite pairs_cons in Hp2. destruct D as [D1 D2].
          destruct Hp2 as [E|Hp2].
          - injection E as -> -> -> ->. destruct I2 as [E|I2]; [injection E; auto|]. assert (g2 <= gb).
            { destruct I2 as [E|I2]; [injection E as -> _; lra|]. left. apply (decreasing_lt (map fst q) gb g2 D2). apply (in_map fst q (g2, t2)); auto. }
            lra.
          - destruct I2 as [E|I2]; [injection E as -> ->|apply IH; auto]. destruct (pairs_in _ _ _ _ Hp2) as [K1 _]. assert (ga <= z).
            { destruct K1 as [E|K1]; [injection E as -> _; lra|]. left. apply (decreasing_lt (map fst q) z ga D2). apply (in_map fst q (ga, ta)); auto. }
            cbn [fst] in D1. lra. }
        subst ga. apply (Fin _ E). intros i. rewrite Eg, lerp_start, (dec_inj _ g2 ta t2 D J1 I2). rewrite H. ring.
      + destruct (Uniq ((g0, t0) :: p) ga ta gb tb D Hp2 Hin H1 ltac:(lra)) as [E1 E2]. injection E1 as -> ->. injection E2 as -> ->.
        apply (Fin _ E). intros i. rewrite lerpR_eq. unfold g. field. lra. }
  split; [exact P1|]. split; [|split; [|exact P4]].
  - intros i Hn g t E. destruct (P1 g) as (t' & ga & ta & gb & tb & th & E' & I1 & I2 & Hth & Et). rewrite E in E'. injection E' as <-. rewrite Et. pose proof (Hn _ _ I1). pose proof (Hn _ _ I2).
    assert (0 <= (1 - th) * ta i) by (apply Rmult_le_pos; lra). assert (0 <= th * tb i) by (apply Rmult_le_pos; lra). lra.
  - intros g t Hin. destruct (ctp_cases p g0 t0 g D) as [[H1 E]|_].
    + exists t0. split; auto. pose proof (Max _ Hin) as M1. cbn [fst] in M1. replace g with g0 in Hin by lra. intros i. rewrite (dec_inj _ g0 t t0 D Hin (or_introl eq_refl)). reflexivity.
    + destruct Hin as [E0|Hin].
      * injection E0 as <- <-. exists t0. unfold compute_transport_plan. cbn [nleb RNum]. rewrite (proj2 (Rleb_true g0 g0)) by lra. auto.
      * (* a later breakpoint is the lower end of a pair *)
        assert (Hpr : exists x, In (x, (g, t)) (pairs ((g0, t0) :: p))).
        { clear - Hin. revert g0 t0. induction p as [|z p IH]; intros; [destruct Hin|]. rewrite pairs_cons. destruct Hin as [->|Hin]; [eexists; left; reflexivity|]. destruct z as [gz tz]. destruct (IH Hin gz tz) as (x & Hx). exists x. right. exact Hx. }
        destruct Hpr as ([gx tx] & Hx). destruct (P4 gx tx g t 1 Hx ltac:(lra)) as (t' & E' & Et). exists t'. replace ((1 - 1) * gx + 1 * g) with g in E' by ring. split; auto. intros i. rewrite Et. ring.
Qed.

(** ** C97: the path of fully_relaxed_path consists of minimisers *)
Lemma HmatR : forall n m r k, Hmat (N:=RNum) n m r k = if Nat.ltb r n then (if Nat.eqb (k / m) r then 1 else 0) else (if Nat.eqb (k mod m + n) r then 1 else 0).
Proof. reflexivity. Qed.
Lemma cell_div : forall m i j, (j < m)%nat -> ((i * m + j) / m = i)%nat /\ ((i * m + j) mod m = j)%nat.
Proof.
  intros m i j Hj. split.
  - rewrite Nat.add_comm, Nat.div_add by lia. rewrite Nat.div_small by auto. reflexivity.
  - rewrite Nat.add_comm, Nat.mod_add by lia. apply Nat.mod_small; auto.
Qed.
Lemma cell_lt : forall n m i j, (i < n)%nat -> (j < m)%nat -> (i * m + j < n * m)%nat.
Proof. intros. nia. Qed.
Lemma H_col : forall n m k (f : nat -> R), (0 < m)%nat -> (k < n * m)%nat -> rsum (n + m) (fun r => Hmat (N:=RNum) n m r k * f r) = f (k / m)%nat + f (n + k mod m)%nat.
Proof.
  intros n m k f Hm Hk. rewrite rsum_split. f_equal.
  - rewrite (rsum_ext n _ (fun r => if Nat.eqb r (k / m) then f r else 0)); [apply rsum_delta_mul; apply Nat.div_lt_upper_bound; lia|].
    intros r Hr. rewrite HmatR, (ltb_t r n Hr), Nat.eqb_sym. destruct (Nat.eqb r (k / m)); ring.
  - rewrite (rsum_ext m _ (fun j => if Nat.eqb j (k mod m) then f (n + j)%nat else 0)); [apply (rsum_delta_mul m (k mod m) (fun j => f (n + j)%nat)); apply Nat.mod_upper_bound; lia|].
    intros j Hj. rewrite HmatR. replace (n + j <? n)%nat with false by (symmetry; apply Nat.ltb_ge; lia).
    replace (k mod m + n =? n + j)%nat with (j =? k mod m)%nat by (destruct (Nat.eqb_spec j (k mod m)), (Nat.eqb_spec (k mod m + n) (n + j)); auto; lia). destruct (Nat.eqb j (k mod m)); ring.
Qed.
Lemma img_row : forall n m t r, (r < n)%nat -> img (n * m) (Hmat (N:=RNum) n m) t r = row_sum m (unflat m t) r.
Proof.
  intros n m t r Hr. unfold img. rewrite rsum_grid. rewrite (rsum_single n r); auto.
  - apply rsum_ext. intros j Hj. rewrite HmatR, (ltb_t r n Hr), (proj1 (cell_div m r j Hj)), Nat.eqb_refl. unfold unflat. ring.
  - intros i Hi Hne. apply rsum_0. intros j Hj. rewrite HmatR, (ltb_t r n Hr), (proj1 (cell_div m i j Hj)), (proj2 (Nat.eqb_neq i r) Hne). ring.
Qed.
Lemma img_col : forall n m t j, (j < m)%nat -> img (n * m) (Hmat (N:=RNum) n m) t (n + j)%nat = col_sum n (unflat m t) j.
Proof.
  intros n m t j Hj. unfold img. rewrite rsum_grid. apply rsum_ext. intros i Hi. rewrite (rsum_single m j); auto.
  - rewrite HmatR, (proj2 (cell_div m i j Hj)). replace (n + j <? n)%nat with false by (symmetry; apply Nat.ltb_ge; lia). replace (j + n =? n + j)%nat with true by (symmetry; apply Nat.eqb_eq; lia). unfold unflat. ring.
  - intros l Hl Hne. rewrite HmatR, (proj2 (cell_div m i l Hl)). replace (n + j <? n)%nat with false by (symmetry; apply Nat.ltb_ge; lia). replace (l + n =? n + j)%nat with false by (symmetry; apply Nat.eqb_neq; lia). ring.
Qed.
Lemma gram2 : forall n m k, (0 < m)%nat -> (k < n * m)%nat -> gram (n + m) (Hmat (N:=RNum) n m) k k = 2.
Proof.
  intros n m k Hm Hk. unfold gram. rewrite H_col by auto. rewrite !HmatR. assert (k / m < n)%nat by (apply Nat.div_lt_upper_bound; lia). rewrite ltb_t, Nat.eqb_refl by auto.
  replace (n + k mod m <? n)%nat with false by (symmetry; apply Nat.ltb_ge; lia). replace (k mod m + n =? n + k mod m)%nat with true by (symmetry; apply Nat.eqb_eq; lia). ring.
Qed.
Lemma slack_red : forall n m (a b : vec) (C : mat) g t i j, (i < n)%nat -> (j < m)%nat ->
  slack (n + m) (n * m) (Hmat (N:=RNum) n m) (yvec (N:=RNum) n a b) (cvec (N:=RNum) m C) g t (i * m + j)%nat = reduced n m a b C g (unflat m t) i j.
Proof.
  intros n m a b C g t i j Hi Hj. assert (Hm : (0 < m)%nat) by lia. assert (Hk := cell_lt n m i j Hi Hj). destruct (cell_div m i j Hj) as [E1 E2].
  unfold slack, lin. rewrite Gv_img, !H_col by auto. rewrite E1, E2, img_row, img_col by auto. unfold yvec, cvec. rewrite E1, E2, ltb_t by auto.
  replace (n + j <? n)%nat with false by (symmetry; apply Nat.ltb_ge; lia). replace (n + j - n)%nat with j by lia. unfold reduced. ring.
Qed.
Lemma obj_pen : forall n m (a b : vec) (C : mat) g t, (0 < m)%nat -> objJ (n + m) (n * m) (Hmat (N:=RNum) n m) (yvec (N:=RNum) n a b) (cvec (N:=RNum) m C) g t = penalized n m a b C g (unflat m t).
Proof.
  intros n m a b C g t Hm. unfold objJ, penalized. f_equal.
  - f_equal. rewrite rsum_grid. apply rsum_ext. intros i _. apply rsum_ext. intros j Hj. destruct (cell_div m i j Hj) as [E1 E2]. unfold cvec. rewrite E1, E2. reflexivity.
  - f_equal. rewrite rsum_split. f_equal; apply rsum_ext; intros i Hi.
    + rewrite img_row by auto. unfold yvec. rewrite ltb_t by auto. reflexivity.
    + rewrite img_col by auto. unfold yvec. replace (n + i <? n)%nat with false by (symmetry; apply Nat.ltb_ge; lia). replace (n + i - n)%nat with i by lia. reflexivity.
Qed.
Lemma cell_of : forall n m k, (k < n * m)%nat -> exists i j, (i < n)%nat /\ (j < m)%nat /\ k = (i * m + j)%nat.
Proof. intros n m k Hk. exists (k / m)%nat, (k mod m)%nat. assert (m <> 0)%nat by lia. split; [apply Nat.div_lt_upper_bound; lia|]. split; [apply Nat.mod_upper_bound; auto|]. rewrite Nat.mul_comm. apply Nat.div_mod; auto. Qed.
Definition flat (m : nat) (T : mat) : vec := fun k => T (k / m)%nat (k mod m)%nat.
Lemma pen_ext : forall n m a b C g T T', (forall i j, (i < n)%nat -> (j < m)%nat -> T i j = T' i j) -> penalized n m a b C g T = penalized n m a b C g T'.
Proof.
  intros n m a b C g T T' E. unfold penalized, cost, sq_sum, row_sum, col_sum. f_equal; [|f_equal; f_equal].
  - f_equal. apply rsum_ext. intros i Hi. apply rsum_ext. intros j Hj. rewrite E; auto.
  - apply rsum_ext. intros i Hi. rewrite (rsum_ext m (fun j => T i j) (fun j => T' i j)) by (intros; apply E; auto). reflexivity.
  - apply rsum_ext. intros j Hj. rewrite (rsum_ext n (fun i => T i j) (fun i => T' i j)) by (intros; apply E; auto). reflexivity.
Qed.
Lemma unflat_flat : forall n m T i j, (i < n)%nat -> (j < m)%nat -> unflat m (flat m T) i j = T i j.
Proof. intros n m T i j Hi Hj. unfold unflat, flat. destruct (cell_div m i j Hj) as [-> ->]. reflexivity. Qed.
Definition optimal (n m : nat) (a b : vec) (C : mat) (g : R) (T : mat) : Prop := nonneg_plan n m T /\ forall U, nonneg_plan n m U -> penalized n m a b C g T <= penalized n m a b C g U.
Lemma kkt_optimal : forall n m a b C g t, (0 < m)%nat -> kkt (n + m) (n * m) (Hmat (N:=RNum) n m) (yvec (N:=RNum) n a b) (cvec (N:=RNum) m C) g t -> optimal n m a b C g (unflat m t).
Proof.
  intros n m a b C g t Hm K. split.
  - intros i j Hi Hj. apply (K (i * m + j)%nat). apply cell_lt; auto.
  - intros U HU. rewrite <- obj_pen by auto. rewrite (pen_ext n m a b C g U (unflat m (flat m U))) by (intros; symmetry; apply (unflat_flat n); auto). rewrite <- obj_pen by auto.
    apply kkt_min; auto. intros k Hk. destruct (cell_of n m k Hk) as (i & j & Hi & Hj & ->). change (flat m U (i * m + j)%nat) with (unflat m (flat m U) i j). rewrite (unflat_flat n) by auto. apply HU; auto.
Qed.
Lemma optimal_uot : forall n m a b C g T, 0 < g -> optimal n m a b C g T -> forall U, nonneg_plan n m U -> uot n m a b C (/ (2 * g)) T <= uot n m a b C (/ (2 * g)) U.
Proof.
  intros n m a b C g T Hg [_ HO] U HU. specialize (HO U HU). assert (E : forall V, uot n m a b C (/ (2 * g)) V = / g * penalized n m a b C g V) by (intros; unfold uot, penalized; field; lra).
  rewrite !E. apply Rmult_le_compat_l; auto. left. apply Rinv_0_lt_compat; auto.
Qed.
(** What is asked of the returned lists: [strict_events]: at every returned breakpoint but the last at most one cell has both
    a zero entry and a zero reduced cost; [separated_events]: within a relative distance tau below a breakpoint no positive
    entry and no positive reduced cost of the interpolated plan has changed sign. *)
Definition strict_events (n m : nat) (a b : vec) (C : mat) (p : list (R * vec)) : Prop := forall g t, In (g, t) (removelast p) -> let T := unflat m t in
  forall i j i' j', (i < n)%nat -> (j < m)%nat -> (i' < n)%nat -> (j' < m)%nat -> T i j = 0 -> reduced n m a b C g T i j = 0 -> T i' j' = 0 -> reduced n m a b C g T i' j' = 0 -> i = i' /\ j = j'.
Definition segment (g1 : R) (t1 : vec) (g2 : R) (t2 : vec) (g : R) : vec := fun k => t1 k + (t2 k - t1 k) * (g - g1) / (g2 - g1).
Definition separated_events (n m : nat) (a b : vec) (C : mat) (tau : R) (p : list (R * vec)) : Prop := forall g1 t1 g2 t2, In ((g1, t1), (g2, t2)) (combine p (tl p)) ->
  forall i j g, (i < n)%nat -> (j < m)%nat -> g2 <= g <= g1 -> (1 - tau) * g1 <= g -> let T := unflat m (segment g1 t1 g2 t2 g) in
  (0 < unflat m t1 i j -> 0 <= T i j) /\ (0 < reduced n m a b C g1 (unflat m t1) i j -> 0 <= reduced n m a b C g T i j).
Theorem C97_fully_relaxed_path : forall n m (a b : vec) (C : mat) tol_add tol_rem tau reg itmax, (0 < n)%nat -> (0 < m)%nat -> (forall i j, (i < n)%nat -> (j < m)%nat -> 0 < C i j) ->
  0 < tol_add < tau -> 0 < tol_rem < tau -> tau < 1 -> 0 <= reg ->
  let p := fully_relaxed_path (N:=RNum) n m a b C 0 tol_add tol_rem reg itmax in (length p < itmax)%nat -> strict_events n m a b C p -> separated_events n m a b C tau p ->
  decreasing (map fst p) /\ (forall d, fst (last p d) = reg) /\
  (forall g t, In (g, t) (tl p) -> optimal n m a b C g (unflat m t)) /\
  (forall g, reg <= g -> exists t, compute_transport_plan (N:=RNum) g p = Some t /\ optimal n m a b C g (unflat m t) /\ (0 < g -> forall U, nonneg_plan n m U -> uot n m a b C (/ (2 * g)) (unflat m t) <= uot n m a b C (/ (2 * g)) U)).
Proof.
  intros n m a b C tol_add tol_rem tau reg itmax Hn Hm HC Ha Hr Ht Hreg p Hlen SE Sep. set (H := Hmat (N:=RNum) n m). set (y := yvec (N:=RNum) n a b). set (c := cvec (N:=RNum) m C).
  destruct (path_exact (n + m) (n * m) H y c tol_add tol_rem tau reg) with (itmax := itmax) as (S & (g0 & Hd) & Last & Plan); auto.
  - nia.
  - intros k Hk. apply gram2; auto.
  - intros k Hk. destruct (cell_of n m k Hk) as (i & j & Hi & Hj & ->). destruct (cell_div m i j Hj) as [E1 E2]. unfold c, cvec. rewrite E1, E2. apply HC; auto.
  - intros g t Hin k l Hk Hl. destruct (cell_of n m k Hk) as (i & j & Hi & Hj & ->). destruct (cell_of n m l Hl) as (i' & j' & Hi' & Hj' & ->). unfold y, c, H. rewrite !slack_red by auto. intros Z1 Z2 Z3 Z4.
    destruct (SE g t Hin i j i' j' Hi Hj Hi' Hj' Z1 Z2 Z3 Z4) as [-> ->]. reflexivity.
  - intros g1 t1 g2 t2 Hin k g Hk Hg Hb. destruct (cell_of n m k Hk) as (i & j & Hi & Hj & ->). unfold y, c, H. rewrite !slack_red by auto. apply (Sep g1 t1 g2 t2 Hin i j g Hi Hj Hg Hb).
  - change (path (n + m) (n * m) H y c tol_add tol_rem reg itmax) with p in *. split; [apply (segs_decreasing _ _ _ _ _ p S)|]. split; [exact Last|]. split.
    + intros g t Hin. apply kkt_optimal; auto. destruct p as [|x p']; [destruct Hin|]. cbn [tl] in Hin.
      assert (Hpr : exists z, In (z, (g, t)) (pairs (x :: p'))).
      { clear - Hin. revert x. induction p' as [|w p' IH]; intros; [destruct Hin|]. rewrite pairs_cons. destruct Hin as [->|Hin]; [eexists; left; reflexivity|]. destruct (IH Hin w) as (z & Hz). exists z. right. exact Hz. }
      destruct Hpr as ([gz tz] & Hz). destruct (S _ _ _ _ Hz) as [Hlt HK]. apply (kkt_ext _ _ _ _ _ g (lerpR gz tz g t g)); [intros; apply lerp_end; lra|]. apply HK. lra.
    + intros g Hg. destruct (Plan g Hg) as (t & E & K). exists t. split; auto. assert (O : optimal n m a b C g (unflat m t)) by (apply kkt_optimal; auto). split; auto. intros Hp. apply optimal_uot; auto.
Qed.

(** the hypotheses hold on a = (1), b = (1/2, 1/2), C = (1, 2), reg = 1/4: breakpoints 3/2 (first cell enters), 1/2 (second cell enters), 1/4 *)
Section Case.
Let a1 : vec := fun _ => 1.
Let b1 : vec := fun _ => / 2.
Let C1 : mat := fun _ j => match j with O => 1 | _ => 2 end.
Let H1 := Hmat (N:=RNum) 1 2.
Let y1 := yvec (N:=RNum) 1 a1 b1.
Let c1 := cvec (N:=RNum) 2 C1.
Let t2 (x y : R) : vec := fun k => match k with O => x | 1%nat => y | _ => 0 end.
Lemma case_gram : gram 3 H1 0%nat 0%nat = 2 /\ gram 3 H1 0%nat 1%nat = 1 /\ gram 3 H1 1%nat 0%nat = 1 /\ gram 3 H1 1%nat 1%nat = 2.
Proof. unfold gram. cbn [rsum]. unfold H1. rewrite !HmatR. cbn. lra. Qed.
Lemma case_lin : lin 3 H1 y1 0%nat = 3 / 2 /\ lin 3 H1 y1 1%nat = 3 / 2.
Proof. unfold lin. cbn [rsum]. unfold H1, y1, yvec, a1, b1. rewrite !HmatR. cbn. lra. Qed.
Lemma case_c : c1 0%nat = 1 /\ c1 1%nat = 2.
Proof. unfold c1, cvec, C1. cbn. auto. Qed.
Let path1 := fully_relaxed_path (N:=RNum) 1 2 a1 b1 C1 0 (/ 10) (/ 10) (/ 4) 5.
Lemma case_path : exists u v w, path1 = [(3 / 2, u); (/ 2, v); (/ 4, w)] /\ (forall k, u k = 0) /\ (forall k, v k = t2 (/ 2) 0 k) /\ (forall k, w k = t2 (/ 2) (/ 4) k).
Proof.
  destruct case_gram as (G00 & G01 & G10 & G11). destruct case_lin as (L0 & L1). destruct case_c as (K0 & K1).
  assert (Dg : forall i, (i < 2)%nat -> gram 3 H1 i i = 2) by (intros [|[|i]] Hi; auto; lia).
  assert (Ei : argmaxk (N:=RNum) 1 (fun i => ndiv (n:=RNum) (Hty (N:=RNum) 3 H1 y1 i) (c1 i)) = 0%nat).
  { cbn [argmaxk]. rewrite !Hty_R, L0, L1, K0, K1. cbn. destruct (Rltb _ _) eqn:E; auto. apply Rltb_true in E. lra. }
  assert (Eg : ndiv (n:=RNum) (Hty (N:=RNum) 3 H1 y1 0) (c1 0%nat) = 3 / 2) by (rewrite Hty_R, L0, K0; cbn; lra).
  set (Hi := complement_schur (N:=RNum) 0 (fun _ _ => 0) (Some (fun _ => 0)) (1 + 1) 0).
  assert (EHi : forall p q, Hi p q = / 2) by (intros; unfold Hi; cbn; unfold half_const; cbn; lra).
  assert (P0 : phiR 3 H1 y1 [0%nat] Hi 0%nat = 3 / 4) by (rewrite phiR_eq; cbn [length rsum]; unfold at_; cbn [nth]; rewrite EHi, L0; lra).
  assert (D0 : deltaR c1 [0%nat] Hi 0%nat = / 2) by (rewrite deltaR_eq; cbn [length rsum]; unfold at_; cbn [nth]; rewrite EHi, K0; lra).
  destruct (path_step_cases 3 2 H1 y1 c1 (/ 10) (/ 10) (/ 5) ltac:(lia) ltac:(lra) ltac:(lra) [0%nat] Hi (3 / 2)) as (g' & A' & add' & pop' & Es & C1' & C2' & Hg' & Cs); [lra|intros i [<-|[]]; lia|cbn; lia|].
  assert (cA1 : cA 3 H1 y1 c1 (/ 10) [0%nat] Hi (3 / 2) 1 = / 2).
  { rewrite cA_eq. cbn [inl existsb Nat.eqb orb]. unfold alA, beA. cbn [length rsum]. unfold at_. cbn [nth]. rewrite P0, D0, G10, L1, K1. replace ((0 + 1 * (3 / 4) - 3 / 2) / (0 + 1 * / 2 - 2)) with (/ 2) by lra. destruct (Rltb _ _) eqn:E; auto. apply Rltb_true in E. lra. }
  assert (cA0 : cA 3 H1 y1 c1 (/ 10) [0%nat] Hi (3 / 2) 0 = 0) by (apply cA_in; [lra|left; auto]).
  assert (cR0 : cR 3 H1 y1 c1 (/ 10) [0%nat] Hi (3 / 2) 0 = 0).
  { rewrite cR_eq. cbv zeta. rewrite P0, D0. destruct (Rleb _ _) eqn:E; auto. apply Rleb_false in E. lra. }
  pose proof (C1' 1%nat ltac:(lia)) as B1. rewrite cA1 in B1.
  destruct Cs as [(i & Hi0 & Eg' & -> & ->)|(_ & Hp & Eg' & _)]; [|cbn [length] in Hp; replace pop' with 0%nat in Eg' by lia; rewrite cR0 in Eg'; lra].
  destruct i as [|i]; [rewrite cA0 in Eg'; lra|]. assert (i = 0%nat) by lia. subst i. rewrite cA1 in Eg'. subst g'. cbn [app] in Es.
  (* second iteration *)
  set (Hi2 := complement_schur (N:=RNum) 1 Hi (Some (fun l => HtH (N:=RNum) 3 H1 (at_ [0%nat] l) 1)) (1 + 1) pop').
  assert (E2 : Hi2 0%nat 0%nat = 2 / 3 /\ Hi2 0%nat 1%nat = - / 3 /\ Hi2 1%nat 0%nat = - / 3 /\ Hi2 1%nat 1%nat = 2 / 3).
  { unfold Hi2. cbn [complement_schur]. rewrite !schur_add_R by lia. cbn [rsum Nat.ltb Nat.leb]. rewrite !HtH_R. unfold at_. cbn [nth]. rewrite !EHi, G01. lra. }
  destruct E2 as (M00 & M01 & M10 & M11).
  assert (Ph0 : phiR 3 H1 y1 [0%nat; 1%nat] Hi2 0%nat = / 2) by (rewrite phiR_eq; cbn [length rsum]; unfold at_; cbn [nth]; rewrite M00, M01, L0, L1; lra).
  assert (Ph1 : phiR 3 H1 y1 [0%nat; 1%nat] Hi2 1%nat = / 2) by (rewrite phiR_eq; cbn [length rsum]; unfold at_; cbn [nth]; rewrite M10, M11, L0, L1; lra).
  assert (De0 : deltaR c1 [0%nat; 1%nat] Hi2 0%nat = 0) by (rewrite deltaR_eq; cbn [length rsum]; unfold at_; cbn [nth]; rewrite M00, M01, K0, K1; lra).
  assert (De1 : deltaR c1 [0%nat; 1%nat] Hi2 1%nat = 1) by (rewrite deltaR_eq; cbn [length rsum]; unfold at_; cbn [nth]; rewrite M10, M11, K0, K1; lra).
  destruct (path_step_cases 3 2 H1 y1 c1 (/ 10) (/ 10) (/ 5) ltac:(lia) ltac:(lra) ltac:(lra) [0%nat; 1%nat] Hi2 (/ 2)) as (g2 & A2 & add2 & pop2 & Es2 & C3 & C4 & Hg2 & Cs2); [lra|intros i [<-|[<-|[]]]; lia|cbn; lia|].
  assert (cRs : forall l, (l < 2)%nat -> cR 3 H1 y1 c1 (/ 10) [0%nat; 1%nat] Hi2 (/ 2) l = 0).
  { intros l Hl. rewrite cR_eq. cbv zeta. destruct l as [|l]; [rewrite Ph0, De0|replace l with 0%nat by lia; rewrite Ph1, De1].
    - unfold Rdiv. rewrite Rinv_0, Rmult_0_r. destruct (Rleb _ _); auto.
    - destruct (Rleb _ _) eqn:E; auto. apply Rleb_false in E. lra. }
  assert (G2 : g2 = 0).
  { destruct Cs2 as [(i & Hi9 & -> & _)|(Hpos & Hp & Eg2 & _)]; [apply cA_in; [lra|destruct i as [|[|i]]; cbn; auto; lia]|]. cbn [length] in Hp. rewrite cRs in Eg2 by auto. auto. }
  subst g2.
  assert (Ep : path1 = corr (/ 4) [(3 / 2, fun _ => 0); (/ 2, tg 3 H1 y1 c1 [0%nat] Hi (/ 2)); (0, tg 3 H1 y1 c1 [0%nat; 1%nat] Hi2 0)]).
  { unfold path1, fully_relaxed_path, relaxed_path, raw_path. cbv zeta. change (1 + 2)%nat with 3%nat. change (1 * 2 - 1)%nat with 1%nat. change (1 * 2)%nat with 2%nat. fold H1 y1 c1. change (cvec (N:=RNum) 2 C1) with c1. rewrite !Ei. cbv beta. rewrite !Eg. unfold corr. f_equal. f_equal.
    change (5 - 1)%nat with 4%nat. cbn [path_loop]. cbn [nltb RNum]. rewrite (proj2 (Rltb_true (/ 4) (3 / 2))) by lra.
    change (complement_schur (N:=RNum) 0 (fun _ _ : nat => n0) (Some (fun _ : nat => n0)) (nadd n1 n1) 0) with Hi. rewrite Es. f_equal.
    rewrite (proj2 (Rltb_true (/ 4) (/ 2))) by lra. cbn [length]. change (complement_schur (N:=RNum) 1 Hi _ (nadd n1 n1) pop') with Hi2. rewrite Es2. f_equal.
    destruct (Rltb (/ 4) 0) eqn:E; auto. apply Rltb_true in E. lra. }
  rewrite corr3, corr2 in Ep. exists (fun _ => 0), (tg 3 H1 y1 c1 [0%nat] Hi (/ 2)), (lerpR (/ 2) (tg 3 H1 y1 c1 [0%nat] Hi (/ 2)) 0 (tg 3 H1 y1 c1 [0%nat; 1%nat] Hi2 0) (/ 4)).
  assert (T1 : forall k, tg 3 H1 y1 c1 [0%nat] Hi (/ 2) k = t2 (/ 2) 0 k).
  { intros k. unfold tg, scat. cbn [scatter]. destruct k as [|[|k]]; cbn [Nat.eqb t2]; [rewrite P0, D0; lra|reflexivity|reflexivity]. }
  assert (T2 : forall k, tg 3 H1 y1 c1 [0%nat; 1%nat] Hi2 0 k = t2 (/ 2) (/ 2) k).
  { intros k. unfold tg, scat. cbn [scatter]. destruct k as [|[|k]]; cbn [Nat.eqb t2]; [rewrite Ph0, De0; lra|rewrite Ph1, De1; lra|reflexivity]. }
  split; [exact Ep|]. split; [auto|]. split; [exact T1|]. intros k. rewrite lerpR_eq, T1, T2. destruct k as [|[|k]]; cbn [t2]; lra.
Qed.
Example C97_case : (length path1 < 5)%nat /\ strict_events 1 2 a1 b1 C1 path1 /\ separated_events 1 2 a1 b1 C1 (/ 5) path1.
Proof.
  destruct case_path as (u & v & w & -> & Eu & Ev & Ew). split; [cbn; lia|]. split.
  - intros g t Hin T i j i' j' Hi Hj Hi' Hj'. assert (i = 0%nat) by lia. assert (i' = 0%nat) by lia. subst i i'.
    cbn [removelast In] in Hin. unfold T, reduced, unflat, row_sum, col_sum. cbn [rsum Nat.mul Nat.add]. unfold a1, b1, C1.
    destruct Hin as [E|[E|[]]]; injection E as <- <-; rewrite ?Eu, ?Ev; destruct j as [|[|j]]; try lia; destruct j' as [|[|j']]; try lia; cbn [t2]; intros; try (split; reflexivity); exfalso; lra.
  - intros g1 t1 g2 t3 Hin i j g Hi Hj Hg Hb T. assert (i = 0%nat) by lia. subst i. unfold T, reduced, unflat, row_sum, col_sum, segment. cbn [rsum Nat.mul Nat.add]. unfold a1, b1, C1.
    cbn [combine tl In] in Hin. destruct Hin as [E|[E|[]]]; injection E as <- <- <- <-; rewrite ?Eu, ?Ev, ?Ew; destruct j as [|[|j]]; try lia; cbn [t2]; split; intros; lra.
Qed.
End Case.

(** ** where the hypotheses fail *)
Definition penQ (n m : nat) (a b : nat -> Q) (C : nat -> nat -> Q) (g : Q) (T : nat -> nat -> Q) : Q :=
  let row := fun i => nsum (N:=QNum) m (fun j => T i j) in let col := fun j => nsum (N:=QNum) n (fun i => T i j) in
  (g * nsum (N:=QNum) n (fun i => nsum (N:=QNum) m (fun j => C i j * T i j)) + (1 # 2) * (nsum (N:=QNum) n (fun i => (row i - a i) * (row i - a i)) + nsum (N:=QNum) m (fun j => (col j - b j) * (col j - b j))))%Q.
Definition unflatQ (m : nat) (t : nat -> Q) : nat -> nat -> Q := fun i j => t (i * m + j)%nat.
Definition lastQ (p : list (Q * (nat -> Q))) : nat -> Q := snd (last p (0%Q, fun _ => 0%Q)).
(** Two cells entering together: with the constants 1e-16, 1e-10, 1e-8 of the code, equal costs and equal target weights, the
    second cell's event sits at the current gamma, is discarded by the 1e-10 filter and never comes back.  The path stops normally
    and its plan (3/4 - reg/2, 0) has a larger objective than (1/2, 1/2). *)
Theorem C97_ties_refuted : exists (a b : nat -> Q) (C : nat -> nat -> Q) (reg : Q) itmax, (forall i j, 0 < C i j)%Q /\ (0 < reg)%Q /\
  let p := fully_relaxed_path (N:=QNum) 1 2 a b C (1 # 10000000000000000) (1 # 10000000000) (1 # 100000000) reg itmax in
  (length p < itmax)%nat /\ exists U : nat -> nat -> Q, (forall i j, 0 <= U i j)%Q /\ (penQ 1 2 a b C reg U < penQ 1 2 a b C reg (unflatQ 2 (lastQ p)))%Q.
Proof.
  exists (fun _ => 1%Q), (fun _ => (1 # 2)%Q), (fun _ _ => 1%Q), (1 # 10000)%Q, 9%nat. split; [reflexivity|]. split; [reflexivity|]. split; [vm_compute; lia|].
  exists (fun _ _ => (1 # 2)%Q). split; [intros; discriminate|]. vm_compute. reflexivity.
Qed.
(** Iteration budget exhausted: the last segment is extrapolated to reg past the missed event *)
Theorem C97_itmax_refuted : exists (a b : nat -> Q) (C : nat -> nat -> Q) (reg : Q) itmax, (forall i j, 0 < C i j)%Q /\ (0 < reg)%Q /\ (1 < itmax)%nat /\
  let p := fully_relaxed_path (N:=QNum) 1 2 a b C 0%Q (1 # 10000000000) (1 # 100000000) reg itmax in
  length p = itmax /\ fst (last p (0%Q, fun _ => 0%Q)) = reg /\ exists U : nat -> nat -> Q, (forall i j, 0 <= U i j)%Q /\ (penQ 1 2 a b C reg U < penQ 1 2 a b C reg (unflatQ 2 (lastQ p)))%Q.
Proof.
  exists (fun _ => 1%Q), (fun _ => (1 # 2)%Q), (fun _ j => match j with O => 1 | _ => 2 end)%Q, (1 # 100)%Q, 2%nat. split; [intros i [|j]; reflexivity|]. split; [reflexivity|]. split; [lia|]. split; [reflexivity|]. split; [reflexivity|].
  exists (fun _ j => match j with O => (1 # 2) | _ => (49 # 100) end)%Q. split; [intros i [|j]; discriminate|]. vm_compute. reflexivity.
Qed.

Print Assumptions C65_complement_schur_add.
Print Assumptions C65_complement_schur_remove.
Print Assumptions C65_first_block.
Print Assumptions C66_compute_transport_plan.
Print Assumptions C97_fully_relaxed_path.
Print Assumptions C97_ties_refuted.
Print Assumptions C97_itmax_refuted.
