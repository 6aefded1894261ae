(** C141-C142: dual potentials of the one-dimensional solver, and uot_1d *)
From Coq Require Import Reals Lra Lia List Arith Permutation Bool Sorted.
From Verif Require Import Num Sums Spec Monge Perm Emd1d_model Emd1d_proofs Emd1d_perm_proofs Emd1d_final W1d_model W1d_proofs
  Duals_model Duals_proofs Circle_proofs Unb_proofs Uot1d_model Uot1d_proofs Uot1d_more Uot1d_uot.
Import ListNotations.
Local Open Scope R_scope.

(** ** C141: emd_1d_dual_backprop *)

(** Whatever order the backend gives to equal cumulative weights: the value is the optimal cost,
    the two potentials add up to it, they are balanced, and they are feasible (hence optimal)
    as soon as no interior cumulative weight of one measure equals one of the other. *)
Theorem C141_duals : forall tsort, sorter tsort -> forall (u v uw vw : list RNum) p (require_sort : bool),
  let n := length u in let m := length v in
  let a := lnth uw in let b := lnth vw in
  let M := fun i j => wmetric p (lnth u i) (lnth v j) in
  length uw = n -> length vw = m -> (0 < n)%nat -> (0 < m)%nat ->
  nonneg_vec n a -> nonneg_vec m b -> mass n a = mass m b -> 0 < mass n a -> 1 <= p ->
  (require_sort = false -> sorted n (lnth u) /\ sorted m (lnth v)) ->
  exists f g w P, emd_1d_dual_backprop (N:=RNum) rpow tsort u v uw vw p require_sort = Ok (f, g, w)
    /\ optimal_coupling n m a b M P /\ w = cost n m M P
    /\ dual_obj n m a b f g = w /\ dot n a f = dot m b g
    /\ (pos_vec n a -> pos_vec m b ->
        tie_free n m (fun k => a (pfun (order require_sort u) k)) (fun k => b (pfun (order require_sort v) k)) ->
        dual_feasible n m M f g).
Proof.
  intros tsort Hs u v uw vw p rs n m a b M Lu Lv Hn Hm Ha Hb Hab Hpos Hp Hrs.
  destruct (bp_run tsort Hs u v uw vw p rs Lu Lv Hn Hm Ha Hb Hab Hpos Hp Hrs) as (f & g & w & P & E & O & Ew & D & B & F & _).
  exists f, g, w, P. split; [exact E|]. split; [exact O|]. split; [exact Ew|]. split; [|split; [exact B|exact F]].
  rewrite <- D. unfold dual_obj, dot. f_equal; apply rsum_ext; intros; apply Rmult_comm.
Qed.
Print Assumptions C141_duals.

(** a sorter: insertion by value *)
Fixpoint tins (x : R * tag) (l : list (R * tag)) : list (R * tag) :=
  match l with [] => [x] | y :: l' => if Rle_dec (fst x) (fst y) then x :: y :: l' else y :: tins x l' end.
Fixpoint tisort (l : list (R * tag)) : list (R * tag) := match l with [] => [] | x :: l' => tins x (tisort l') end.
Lemma tins_perm : forall x l, Permutation (tins x l) (x :: l).
Proof.
  induction l as [|y l IH]; [reflexivity|]. cbn. destruct (Rle_dec (fst x) (fst y)); [reflexivity|].
  eapply perm_trans; [apply perm_skip; exact IH|]. apply perm_swap.
Qed.
Example sorter_ex : sorter tisort.
Proof.
  intros l. induction l as [|x l [P S0]]; [split; [reflexivity|constructor]|]. cbn. split.
  - eapply perm_trans; [apply tins_perm|]. apply perm_skip; auto.
  - clear P. induction S0 as [|y l' S1 IH F]; cbn; [repeat constructor|].
    destruct (Rle_dec (fst x) (fst y)) as [Le|Nle].
    + constructor; [constructor; auto|]. constructor; auto. eapply Forall_impl; [|exact F]. cbn. intros; lra.
    + constructor; auto. apply Forall_forall. intros z Hz. apply (Permutation_in _ (tins_perm _ _)) in Hz. destruct Hz as [<-|Hz]; [lra|].
      rewrite Forall_forall in F. apply F; auto.
Qed.

(** two points against three, uniform weights: no interior ties *)
Example C141_tie_free_ex : tie_free 2 3 (fun _ => 1 / 2) (fun _ => 1 / 3).
Proof.
  intros i j [Hi Hi'] [Hj Hj']. assert (i = 1)%nat by lia. subst. assert (j = 1 \/ j = 2)%nat as [-> | ->] by lia; cbn; lra.
Qed.

(** With ties the potentials need not be feasible: two points against two points with equal weights.
    Source 0, 10 and target 9, 20: the potentials of source 10 and target 9 add up to at least 9,
    their cost is 1 -- for every order of the tied entries. *)
Lemma tie_bound : forall tsort, sorter tsort ->
  let u := [0; 10] in let v := [9; 20] in let w := [1 / 2; 1 / 2] in
  9 <= fst (grad_sorted (N:=RNum) rpow tsort u v w w 1) 1%nat + snd (grad_sorted (N:=RNum) rpow tsort u v w w 1) 0%nat.
Proof.
  intros tsort Hs u v w.
  set (cw := cumsum (N:=RNum) w). set (ts := tsort (tagged (N:=RNum) cw cw)). set (C := qfun 2 2 cw cw u v 1).
  assert (Cw : cw = [1 / 2; 1]) by (unfold cw, cumsum; cbn; f_equal; [lra|f_equal; lra]).
  assert (TI : forall q t, In (q, t) ts -> q = 1 / 2 \/ q = 1).
  { intros q t H. apply (ts_in tsort Hs u v w w eq_refl eq_refl) in H. destruct H as [(k & Hk & _ & E)|(k & Hk & _ & E)]; cbn [length u v] in Hk;
      (assert (k = 0 \/ k = 1)%nat as [-> | ->] by lia); [left|right|left|right]; rewrite E; unfold lnth, w; cbn; lra. }
  assert (C1 : C (1 / 2) = 9).
  { unfold C, qfun, quantile_idx. rewrite Cw. cbn [searchsorted]. change (@nltb RNum) with Rltb.
    rewrite !(proj2 (Rltb_false (1/2) (1/2))) by lra. cbn [Nat.min lnth nth u v]. rewrite diff_cost_w. unfold wmetric, lnth, u, v. cbn.
    destruct (Req_EM_T 1 1); [|lra]. rewrite Rabs_left; lra. }
  assert (C2 : C 1 = 10).
  { unfold C, qfun, quantile_idx. rewrite Cw. cbn [searchsorted]. change (@nltb RNum) with Rltb.
    rewrite !(proj2 (Rltb_true (1/2) 1)) by lra. rewrite !(proj2 (Rltb_false 1 1)) by lra. cbn. rewrite diff_cost_w. unfold wmetric, lnth, u, v. cbn.
    destruct (Req_EM_T 1 1); [|lra]. rewrite Rabs_left; lra. }
  assert (I0 : In (1 / 2, (true, 0%nat)) ts).
  { apply (ts_in tsort Hs u v w w eq_refl eq_refl). left. exists 0%nat. repeat split; [cbn; lia|unfold lnth, w; cbn; lra]. }
  pose proof (pick_val tsort Hs u v w w 1 eq_refl eq_refl ltac:(cbn; lia) ltac:(cbn; lia) true 0 (1 / 2) I0 ltac:(unfold lnth, w; cbn; lra)) as (q' & E & (t' & Hq' & _) & _ & _).
  change (length u) with 2%nat in E. change (length v) with 2%nat in E. fold cw in E, Hq'. fold ts in E, Hq'. fold C in E.
  rewrite (f_wsum tsort u v w w 1 1), (g_wsum tsort u v w w 1 0).
  change (length u) with 2%nat. change (length v) with 2%nat. fold cw. fold ts. fold C.
  set (ds := dsteps (N:=RNum) (map C (map fst ts))) in *.
  assert (All : wsum (fun _ _ => 1) ts ds = 9).
  { rewrite <- C1. rewrite <- (wsum_from C (1 / 2) ts (ts_sorted tsort Hs w w)) by (apply in_map_iff; exists (1 / 2, (true, 0%nat)); auto).
    apply wsum_ext. intros q t Ht. destruct (Rle_dec (1 / 2) q); auto. destruct (TI q t Ht); lra. }
  assert (Sp : wsum (fun _ t => ind (Bool.eqb (fst t) true && (1 <=? snd t))%nat) ts ds
      + wsum (fun _ t => ind (Bool.eqb (fst t) false && (0 <=? snd t))%nat) ts ds
      = wsum (fun _ _ => 1) ts ds - wsum (fun _ t => ind (Bool.eqb (fst t) true && (snd t =? 0))%nat) ts ds).
  { rewrite <- wsum_plus, <- wsum_minus. apply wsum_ext. intros q [s k] _. cbn [fst snd]. unfold ind.
    destruct s; cbn [Bool.eqb andb]; [|cbn; lra]. destruct k; cbn; lra. }
  rewrite All, E in Sp. assert (C q' <= 10 /\ 9 <= C q') by (destruct (TI q' t' Hq') as [-> | ->]; rewrite ?C1, ?C2; lra).
  eapply Rle_trans; [|right; symmetry; exact Sp]. rewrite C1. lra.
Qed.

Theorem C141_ties_refuted : exists (u v w : list RNum), forall tsort, sorter tsort ->
  exists f g c, emd_1d_dual_backprop (N:=RNum) rpow tsort u v w w 1 true = Ok (f, g, c)
    /\ f 1%nat + g 0%nat > Rabs (lnth u 1 - lnth v 0).
Proof.
  exists [0; 10], [9; 20], [1 / 2; 1 / 2]. intros tsort Hs.
  assert (NN : nonneg_vec 2 (lnth [1 / 2; 1 / 2])) by (intros i Hi; assert (i = 0 \/ i = 1)%nat as [-> | ->] by lia; unfold lnth; cbn; lra).
  destruct (bp_run tsort Hs [0; 10] [9; 20] [1 / 2; 1 / 2] [1 / 2; 1 / 2] 1 true) as (f & g & c & P & E & _ & _ & _ & _ & _ & t & T);
    try reflexivity; try (cbn; lia); try (cbn; lra); auto; try discriminate.
  exists f, g, c. split; [exact E|]. destruct (T 1%nat 0%nat ltac:(cbn; lia) ltac:(cbn; lia)) as [-> ->]. cbv zeta.
  assert (O : forall x y : R, x <= y -> order true [x; y] = [0%nat; 1%nat]).
  { intros x y H. unfold order, argsort. cbn. change (@nltb RNum) with Rltb. rewrite (proj2 (Rltb_false y x)) by lra. reflexivity. }
  rewrite (O 0 10), (O 9 20) by lra. cbn [map nth pos_of Nat.eqb].
  pose proof (tie_bound tsort Hs) as B. cbv zeta in B. unfold lnth. cbn [nth]. rewrite Rabs_right by lra.
  change (carrier RNum) with R in *. lra.
Qed.
Print Assumptions C141_ties_refuted.

(** ** C142: uot_1d *)

(** the admissible inputs *)
Definition uot_input (K : nat) (us vs : nat -> list RNum) (n m : nat) (a b : vec) (r1 r2 : option R) (p : R) : Prop :=
  (0 < n)%nat /\ (0 < m)%nat /\ (forall q, (q < K)%nat -> length (us q) = n /\ length (vs q) = m)
  /\ pos_vec n a /\ pos_vec m b /\ pos_rm r1 /\ pos_rm r2 /\ 1 <= p
  /\ (r1 = None -> r2 = None -> mass n a = mass m b).

(** the ties met by the loop on column q *)
Definition col_tie_free (tsort : list (R * tag) -> list (R * tag)) (u v : list RNum) (a b : vec) (r1 r2 : option R) (p : R) (k : nat) : Prop :=
  tie_free_run tsort (map (fun l => nth l u 0) (argsort (N:=RNum) u)) (map (fun l => nth l v 0) (argsort (N:=RNum) v)) p
    (fun l => a (pfun (argsort (N:=RNum) u) l)) (fun l => b (pfun (argsort (N:=RNum) v) l)) r1 r2 k 0 (fun _ => 0) (fun _ => 0).

Lemma cols_run : forall tsort, sorter tsort -> forall K us vs n m a b r1 r2 p k rc, rc <> OtherCost ->
  uot_input K us vs n m a b r1 r2 p ->
  exists cols, uot_1d (N:=RNum) rpow exp ln tsort n m K us vs a b r1 r2 p true k rc
      = UotOk cols (match rc with Linear => fun q => uo_lin (cols q) | _ => uot_total (N:=RNum) ln n m K a b r1 r2 cols end)
  /\ forall q, (q < K)%nat -> let M := fun i j => wmetric p (lnth (us q) i) (lnth (vs q) j) in let col := cols q in
     (forall i, (i < n)%nat -> uo_u col i = rew (uo_f col) a r1 i)
  /\ (forall j, (j < m)%nat -> uo_v col j = rew (uo_g col) b r2 j)
  /\ mass n (uo_u col) = mass m (uo_v col)
  /\ (exists P, optimal_coupling n m (uo_u col) (uo_v col) M P /\ uo_lin col = cost n m M P)
  /\ (forall s, udual n m a b r1 r2 (fun i => uo_f col i + s) (fun j => uo_g col j - s) <= udual n m a b r1 r2 (uo_f col) (uo_g col))
  /\ (col_tie_free tsort (us q) (vs q) a b r1 r2 p k -> dual_feasible n m M (uo_f col) (uo_g col)).
Proof.
  intros tsort Hs K us vs n m a b r1 r2 p k rc Hrc (Hn & Hm & HL & Ha & Hb & H1 & H2 & Hp & Hbal).
  assert (R : forall q, (q < K)%nat -> exists col, uot_column (N:=RNum) rpow exp ln tsort n m (us q) (vs q) a b r1 r2 p k = Ok col
    /\ let M := fun i j => wmetric p (lnth (us q) i) (lnth (vs q) j) in
     (forall i, (i < n)%nat -> uo_u col i = rew (uo_f col) a r1 i)
  /\ (forall j, (j < m)%nat -> uo_v col j = rew (uo_g col) b r2 j)
  /\ mass n (uo_u col) = mass m (uo_v col)
  /\ (exists P, optimal_coupling n m (uo_u col) (uo_v col) M P /\ uo_lin col = cost n m M P)
  /\ (forall s, udual n m a b r1 r2 (fun i => uo_f col i + s) (fun j => uo_g col j - s) <= udual n m a b r1 r2 (uo_f col) (uo_g col))
  /\ (col_tie_free tsort (us q) (vs q) a b r1 r2 p k -> dual_feasible n m M (uo_f col) (uo_g col))).
  { intros q Hq. destruct (HL q Hq) as [E1 E2]. rewrite <- E1, <- E2 in *.
    destruct (col_run tsort Hs (us q) (vs q) p a b r1 r2 Hn Hm Ha Hb Hp H1 H2 Hbal k) as (col & E & Rest). exists col. split; [exact E|exact Rest]. }
  destruct (all_cols_ok K (fun q => uot_column (N:=RNum) rpow exp ln tsort n m (us q) (vs q) a b r1 r2 p k)) as (cols & E & C).
  { intros q Hq. destruct (R q Hq) as (c & Ec & _). exists c. exact Ec. }
  exists cols. split.
  - unfold uot_1d. cbn [negb]. rewrite E. destruct rc; [reflexivity|reflexivity|congruence].
  - intros q Hq. destruct (R q Hq) as (c & Ec & Rest). cbn beta in C. rewrite (C q Hq) in Ec. injection Ec as ->. exact Rest.
Qed.

(** Marginals, linear cost, translation: the two reweighted marginals are a exp(-f/r1) and
    b exp(-g/r2) (a or b itself when the parameter is infinite), carry the same mass, the linear
    cost is the optimal transport cost between them, and no translation of the potentials has a
    larger dual value. *)
Theorem C142_marginals : forall tsort, sorter tsort -> forall K us vs n m a b r1 r2 p k,
  uot_input K us vs n m a b r1 r2 p ->
  exists cols lin, uot_1d (N:=RNum) rpow exp ln tsort n m K us vs a b r1 r2 p true k Linear = UotOk cols lin
  /\ forall q, (q < K)%nat -> let M := fun i j => wmetric p (lnth (us q) i) (lnth (vs q) j) in let col := cols q in
     (forall i, (i < n)%nat -> uo_u col i = match r1 with Some r => a i * exp (- uo_f col i / r) | None => a i end)
  /\ (forall j, (j < m)%nat -> uo_v col j = match r2 with Some r => b j * exp (- uo_g col j / r) | None => b j end)
  /\ mass n (uo_u col) = mass m (uo_v col)
  /\ (exists P, optimal_coupling n m (uo_u col) (uo_v col) M P /\ lin q = cost n m M P)
  /\ (forall s, udual n m a b r1 r2 (fun i => uo_f col i + s) (fun j => uo_g col j - s) <= udual n m a b r1 r2 (uo_f col) (uo_g col)).
Proof.
  intros tsort Hs K us vs n m a b r1 r2 p k HI.
  destruct (cols_run tsort Hs K us vs n m a b r1 r2 p k Linear ltac:(discriminate) HI) as (cols & E & C).
  exists cols, (fun q => uo_lin (cols q)). split; [exact E|]. intros q Hq. destruct (C q Hq) as (A & B & D & F & G & _). cbv zeta.
  split; [|split; [|split; [exact D|split; [exact F|exact G]]]].
  - intros i Hi. rewrite A by auto. destruct r1; [|reflexivity]. cbn. unfold nopp; cbn. replace (0 - uo_f (cols q) i) with (- uo_f (cols q) i) by ring. reflexivity.
  - intros i Hi. rewrite B by auto. destruct r2; [|reflexivity]. cbn. unfold nopp; cbn. replace (0 - uo_g (cols q) i) with (- uo_g (cols q) i) by ring. reflexivity.
Qed.
Print Assumptions C142_marginals.

(** one column, or no mixture of a finite and an infinite parameter *)
Definition axis_ok (K : nat) (r1 r2 : option R) : Prop :=
  K = 1%nat \/ match r1, r2 with Some _, None => False | None, Some _ => False | _, _ => True end.

(** The total cost is the unbalanced objective of an admissible plan, and its distance to the
    dual value of the returned potentials is the Frank-Wolfe gap
    linear - <f, marginal> - <g, marginal>. *)
Theorem C142_certificate : forall tsort, sorter tsort -> forall K us vs n m a b r1 r2 p k,
  uot_input K us vs n m a b r1 r2 p -> axis_ok K r1 r2 ->
  exists cols tot, uot_1d (N:=RNum) rpow exp ln tsort n m K us vs a b r1 r2 p true k Total = UotOk cols tot
  /\ forall q, (q < K)%nat -> let M := fun i j => wmetric p (lnth (us q) i) (lnth (vs q) j) in let col := cols q in
     (exists P, uot_plan n m a b r1 r2 P /\ tot q = uobj n m M a b r1 r2 P
        /\ (forall i, (i < n)%nat -> row_sum m P i = uo_u col i) /\ (forall j, (j < m)%nat -> col_sum n P j = uo_v col j))
  /\ tot q - udual n m a b r1 r2 (uo_f col) (uo_g col) = uo_lin col - dot n (uo_f col) (uo_u col) - dot m (uo_g col) (uo_v col).
Proof.
  intros tsort Hs K us vs n m a b r1 r2 p k HI HK.
  destruct (cols_run tsort Hs K us vs n m a b r1 r2 p k Total ltac:(discriminate) HI) as (cols & E & C).
  destruct HI as (Hn & Hm & HL & Ha & Hb & H1 & H2 & Hp & Hbal).
  exists cols, (uot_total (N:=RNum) ln n m K a b r1 r2 cols). split; [exact E|]. intros q Hq.
  destruct (C q Hq) as (A & B & D & (P & O & L) & G & _). cbv zeta.
  assert (KL1 : forall r x y z, (forall i, (i < n)%nat -> x i = y i) -> r * kl_mass (N:=RNum) ln n x z = r * kl_mass (N:=RNum) ln n y z).
  { intros r x y z Hxy. unfold kl_mass. rewrite !nsum_R. f_equal. cbn [nadd RNum]. f_equal; apply rsum_ext; intros; rewrite Hxy by auto; reflexivity. }
  assert (KL2 : forall r x y z, (forall i, (i < m)%nat -> x i = y i) -> r * kl_mass (N:=RNum) ln m x z = r * kl_mass (N:=RNum) ln m y z).
  { intros r x y z Hxy. unfold kl_mass. rewrite !nsum_R. f_equal. cbn [nadd RNum]. f_equal; apply rsum_ext; intros; rewrite Hxy by auto; reflexivity. }
  assert (T : uot_total (N:=RNum) ln n m K a b r1 r2 cols q = uo_lin (cols q)
     + match r1 with Some r => r * kl_mass (N:=RNum) ln n (uo_u (cols q)) a | None => 0 end
     + match r2 with Some r => r * kl_mass (N:=RNum) ln m (uo_v (cols q)) b | None => 0 end).
  { unfold uot_total. destruct r1 as [x|], r2 as [y|]; cbn [axis_ok] in HK.
    - reflexivity.
    - destruct HK as [->|[]]. assert (q = 0)%nat by lia. subst. rewrite nsum_R. cbn [rsum nadd nmul RNum]. change (carrier RNum) with R in *. lra.
    - destruct HK as [->|[]]. assert (q = 0)%nat by lia. subst. rewrite nsum_R. cbn [rsum nadd nmul RNum]. change (carrier RNum) with R in *. lra.
    - change (carrier RNum) with R in *. lra. }
  destruct O as [(Pn & Pr & Pc) _].
  split.
  - exists P. split; [|split; [|split; [exact Pr|exact Pc]]].
    + split; [exact Pn|]. split; [destruct r1; cbn; auto; intros i Hi; rewrite Pr, A by auto; reflexivity|].
      destruct r2; cbn; auto; intros i Hi; rewrite Pc, B by auto; reflexivity.
    + rewrite T, L. unfold uobj. f_equal; [f_equal|].
      * destruct r1 as [x|]; [|reflexivity]. rewrite <- kl_pen by auto. apply KL1. intros; symmetry; apply Pr; auto.
      * destruct r2 as [x|]; [|reflexivity]. rewrite <- kl_pen by auto. apply KL2. intros; symmetry; apply Pc; auto.
  - rewrite T. unfold udual.
    assert (X1 : match r1 with Some r => r * kl_mass (N:=RNum) ln n (uo_u (cols q)) a | None => 0 end = dterm n a (uo_f (cols q)) r1 - dot n (uo_f (cols q)) (uo_u (cols q))).
    { unfold dot. rewrite (rsum_ext n (fun i => uo_f (cols q) i * uo_u (cols q) i) (fun i => uo_f (cols q) i * rew (uo_f (cols q)) a r1 i)) by (intros; rewrite A by auto; reflexivity).
      destruct r1 as [x|]; cbn [pos_rm] in H1.
      - rewrite (KL1 x _ (rew (uo_f (cols q)) a (Some x)) a) by auto. apply kl_rew; auto.
      - cbn [dterm]. rewrite (rsum_ext n (fun i => uo_f (cols q) i * rew (uo_f (cols q)) a None i) (fun i => a i * uo_f (cols q) i)); [ring|]. intros; cbn; ring. }
    assert (X2 : match r2 with Some r => r * kl_mass (N:=RNum) ln m (uo_v (cols q)) b | None => 0 end = dterm m b (uo_g (cols q)) r2 - dot m (uo_g (cols q)) (uo_v (cols q))).
    { unfold dot. rewrite (rsum_ext m (fun i => uo_g (cols q) i * uo_v (cols q) i) (fun i => uo_g (cols q) i * rew (uo_g (cols q)) b r2 i)) by (intros; rewrite B by auto; reflexivity).
      destruct r2 as [x|]; cbn [pos_rm] in H2.
      - rewrite (KL2 x _ (rew (uo_g (cols q)) b (Some x)) b) by auto. apply kl_rew; auto.
      - cbn [dterm]. rewrite (rsum_ext m (fun i => uo_g (cols q) i * rew (uo_g (cols q)) b None i) (fun i => b i * uo_g (cols q) i)); [ring|]. intros; cbn; ring. }
    rewrite X1, X2. change (carrier RNum) with R in *. ring.
Qed.
Print Assumptions C142_certificate.

(** Feasible potentials bound the optimum from below; a run without ties returns feasible ones. *)
Theorem C142_bracket : forall tsort, sorter tsort -> forall K us vs n m a b r1 r2 p k,
  uot_input K us vs n m a b r1 r2 p ->
  exists cols tot, uot_1d (N:=RNum) rpow exp ln tsort n m K us vs a b r1 r2 p true k Total = UotOk cols tot
  /\ forall q, (q < K)%nat -> let M := fun i j => wmetric p (lnth (us q) i) (lnth (vs q) j) in let col := cols q in
     (col_tie_free tsort (us q) (vs q) a b r1 r2 p k -> dual_feasible n m M (uo_f col) (uo_g col))
  /\ (dual_feasible n m M (uo_f col) (uo_g col) ->
      forall P, uot_plan n m a b r1 r2 P -> udual n m a b r1 r2 (uo_f col) (uo_g col) <= uobj n m M a b r1 r2 P).
Proof.
  intros tsort Hs K us vs n m a b r1 r2 p k HI.
  destruct (cols_run tsort Hs K us vs n m a b r1 r2 p k Total ltac:(discriminate) HI) as (cols & E & C).
  destruct HI as (Hn & Hm & HL & Ha & Hb & H1 & H2 & Hp & Hbal).
  exists cols, (uot_total (N:=RNum) ln n m K a b r1 r2 cols). split; [exact E|]. intros q Hq.
  destruct (C q Hq) as (_ & _ & _ & _ & _ & F). cbv zeta. split; [exact F|].
  intros DF P HP. apply uot_weak; auto.
Qed.
Print Assumptions C142_bracket.

(** a single target point meets no ties, whatever the number of iterations *)
Lemma tie_free_run_1 : forall tsort us vs p a b r1 r2 k i f g, length vs = 1%nat ->
  tie_free_run tsort us vs p a b r1 r2 k i f g.
Proof.
  intros tsort us vs p a b r1 r2 k. induction k; intros i f g L; [exact I|]. cbn [tie_free_run].
  destruct (get_reweighted (N:=RNum) exp ln (length us) (length vs) f g a b r1 r2) as [[[[f1 g1] ur] vr] fm].
  split.
  - intros x y Hx Hy. change (carrier RNum) with R in *. rewrite L in Hy. lia.
  - match goal with |- match ?X with _ => _ end => destruct X as [[[fd gd] w]| | | | |] end; auto.
Qed.
Example C142_ex : uot_input 1 (fun _ => [3; 0; 1]) (fun _ => [2]) 3 1 (fun _ => 1) (fun _ => 2) (Some 1) (Some 5) 2
  /\ axis_ok 1 (Some 1) (Some 5)
  /\ col_tie_free tisort [3; 0; 1] [2] (fun _ => 1) (fun _ => 2) (Some 1) (Some 5) 2 10.
Proof.
  split; [|split; [left; reflexivity|]].
  - split; [lia|]. split; [lia|]. split; [intros; split; reflexivity|]. split; [intros i Hi; lra|]. split; [intros i Hi; lra|].
    split; [cbn; lra|]. split; [cbn; lra|]. split; [lra|]. discriminate.
  - apply tie_free_run_1. reflexivity.
Qed.

(** require_sort=False raises: the sorted arrays are never assigned *)
Theorem C142_unsorted_refuted : forall {N : NumOps} (powf : N -> N -> N) ex lg tsort n m K us vs a b r1 r2 p k rc,
  uot_1d powf ex lg tsort n m K us vs a b r1 r2 p false k rc = UotNameError.
Proof. reflexivity. Qed.
Print Assumptions C142_unsorted_refuted.

(** With one finite and one infinite parameter and several columns, each column's total cost
    contains the divergences of all columns: one column twice has a different total. *)
Theorem C142_axis_refuted : exists us vs a b r1 p, uot_input 2 us vs 1 1 a b (Some r1) None p /\
  forall tsort k, sorter tsort ->
  exists cols1 tot1 cols2 tot2,
    uot_1d (N:=RNum) rpow exp ln tsort 1 1 1 us vs a b (Some r1) None p true k Total = UotOk cols1 tot1
    /\ uot_1d (N:=RNum) rpow exp ln tsort 1 1 2 us vs a b (Some r1) None p true k Total = UotOk cols2 tot2
    /\ us 0%nat = us 1%nat /\ vs 0%nat = vs 1%nat /\ tot2 0%nat = 2 * tot1 0%nat /\ 0 < tot1 0%nat.
Proof.
  exists (fun _ => [0]), (fun _ => [0]), (fun _ => 2), (fun _ => 1), 1, 2.
  assert (HI : forall K, uot_input K (fun _ => [0]) (fun _ => [0]) 1 1 (fun _ => 2) (fun _ => 1) (Some 1) None 2).
  { intros K. split; [lia|]. split; [lia|]. split; [intros; split; reflexivity|]. split; [intros i Hi; lra|]. split; [intros i Hi; lra|].
    split; [cbn; lra|]. split; [exact I|]. split; [lra|]. discriminate. }
  split; [apply HI|]. intros tsort k Hs.
  assert (R : forall K, exists cols, uot_1d (N:=RNum) rpow exp ln tsort 1 1 K (fun _ => [0]) (fun _ => [0]) (fun _ => 2) (fun _ => 1) (Some 1) None 2 true k Total
      = UotOk cols (uot_total (N:=RNum) ln 1 1 K (fun _ => 2) (fun _ => 1) (Some 1) None cols)
      /\ forall q, (q < K)%nat -> uo_u (cols q) 0%nat = 1 /\ uo_lin (cols q) = 0).
  { intros K. destruct (cols_run tsort Hs K (fun _ => [0]) (fun _ => [0]) 1 1 (fun _ => 2) (fun _ => 1) (Some 1) None 2 k Total ltac:(discriminate) (HI K)) as (cols & E & C).
    exists cols. split; [exact E|]. intros q Hq. destruct (C q Hq) as (_ & B & D & (P & _ & L) & _).
    specialize (B 0%nat ltac:(lia)). unfold mass in D. cbn in D, B. rewrite B in D. split; [lra|]. rewrite L.
    unfold cost. cbn [rsum]. unfold wmetric, lnth. cbn. destruct (Req_EM_T 2 1); [lra|]. replace (0 - 0) with 0 by ring. rewrite Rabs_R0.
    rewrite rpow_0. lra. }
  destruct (R 1%nat) as (c1 & E1 & C1). destruct (R 2%nat) as (c2 & E2 & C2).
  exists c1, (uot_total (N:=RNum) ln 1 1 1 (fun _ => 2) (fun _ => 1) (Some 1) None c1), c2, (uot_total (N:=RNum) ln 1 1 2 (fun _ => 2) (fun _ => 1) (Some 1) None c2).
  split; [exact E1|]. split; [exact E2|]. split; [reflexivity|]. split; [reflexivity|].
  assert (KL : forall c : @uot_col RNum, uo_u c 0%nat = 1 -> kl_mass (N:=RNum) ln 1 (uo_u c) (fun _ => 2) = 1 - ln 2).
  { intros c Hc. unfold kl_mass. rewrite !nsum_R. cbn. rewrite Hc. replace (1 / 2) with (/ 2) by lra. rewrite ln_Rinv by lra. ring. }
  destruct (C1 0%nat ltac:(lia)) as [A1 L1]. destruct (C2 0%nat ltac:(lia)) as [A2 L2]. destruct (C2 1%nat ltac:(lia)) as [A3 L3].
  unfold uot_total. rewrite !nsum_R. cbn [rsum nadd nmul RNum]. rewrite !KL by auto. rewrite L1, L2.
  assert (ln 2 < 1) by (pose proof ln_lt_2; apply exp_lt_inv; rewrite exp_ln by lra; pose proof exp_ineq1 1 ltac:(lra); lra).
  split; lra.
Qed.
Print Assumptions C142_axis_refuted.

(** Ties are met at the first iteration for equal uniform weights: after one iteration the
    returned potentials violate a dual constraint. *)
Theorem C142_ties_refuted : exists us vs a b r p, uot_input 1 us vs 2 2 a b (Some r) (Some r) p /\
  forall tsort, sorter tsort ->
  exists cols tot, uot_1d (N:=RNum) rpow exp ln tsort 2 2 1 us vs a b (Some r) (Some r) p true 1 Total = UotOk cols tot
  /\ ~ dual_feasible 2 2 (fun i j => wmetric p (lnth (us 0%nat) i) (lnth (vs 0%nat) j)) (uo_f (cols 0%nat)) (uo_g (cols 0%nat)).
Proof.
  exists (fun _ => [0; 10]), (fun _ => [9; 20]), (fun _ => 1 / 2), (fun _ => 1 / 2), 1, 1. split.
  { split; [lia|]. split; [lia|]. split; [intros; split; reflexivity|]. split; [intros i Hi; lra|]. split; [intros i Hi; lra|].
    split; [cbn; lra|]. split; [cbn; lra|]. split; [lra|]. discriminate. }
  intros tsort Hs.
  set (h := fun _ : nat => 1 / 2). set (z := fun _ : nat => 0).
  assert (O : forall x y : R, x <= y -> argsort (N:=RNum) [x; y] = [0%nat; 1%nat]).
  { intros x y H. unfold argsort. cbn. change (@nltb RNum) with Rltb. rewrite (proj2 (Rltb_false y x)) by lra. reflexivity. }
  assert (NN : nonneg_vec 2 (lnth [1 / 2; 1 / 2])) by (intros i Hi; assert (i = 0 \/ i = 1)%nat as [-> | ->] by lia; unfold lnth; cbn; lra).
  destruct (bp_run tsort Hs [0; 10] [9; 20] [1 / 2; 1 / 2] [1 / 2; 1 / 2] 1 false) as (fd & gd & c & P & E & _ & _ & _ & _ & _ & t & T);
    try reflexivity; try (cbn; lia); try (cbn; lra); auto.
  { intros _. split; intros i Hi; (assert (i = 0)%nat by (cbn in Hi; lia)); subst; unfold lnth; cbn; lra. }
  destruct (T 1%nat 0%nat ltac:(cbn; lia) ltac:(cbn; lia)) as [F1 G0]. clear T.
  cbv zeta in F1, G0. change (order false [0; 10]) with [0%nat; 1%nat] in *. change (order false [9; 20]) with [0%nat; 1%nat] in *.
  cbn [map nth pos_of Nat.eqb] in F1, G0.
  pose proof (tie_bound tsort Hs) as B. cbv zeta in B.
  assert (Bd : 9 <= fd 1%nat + gd 0%nat) by (rewrite F1, G0; change (carrier RNum) with R in *; lra). clear F1 G0 B.
  (* the first reweighting is the uniform one *)
  assert (W : rescale_potentials (N:=RNum) exp ln 2 2 z z h h (Some 1) (Some 1) = 0).
  { unfold rescale_potentials. cbn [nmul nsub RNum]. match goal with |- _ * (?A - ?A') = 0 => replace A with A' by reflexivity; rewrite Rminus_diag_eq by reflexivity end. apply Rmult_0_r. }
  destruct (get_reweighted (N:=RNum) exp ln 2 2 z z h h (Some 1) (Some 1)) as [[[[f1 g1] ur] vr] fm] eqn:G.
  assert (U : f1 = (fun i => z i + 0) /\ g1 = (fun i => z i - 0) /\ (forall i, ur i = 1 / 2) /\ (forall i, vr i = 1 / 2)).
  { unfold get_reweighted in G. rewrite W in G. injection G as <- <- <- <- _. split; [reflexivity|]. split; [reflexivity|].
    assert (X : forall s, (s = 0 - 0 \/ s = 0 + 0) -> exp ((0 - s) / 1) = 1).
    { intros s Hs0. replace ((0 - s) / 1) with 0 by (destruct Hs0 as [-> | ->]; field). apply exp_0. }
    split; intros i; change (carrier RNum) with R; unfold h, z; cbn; unfold nopp; cbn; rewrite ?(X (0 + 0)), ?(X (0 - 0)) by auto; field. }
  destruct U as (-> & -> & Eu & Ev).
  assert (Tu : tabv (N:=RNum) 2 ur = [1 / 2; 1 / 2]) by (unfold tabv; cbn; rewrite !Eu; reflexivity).
  assert (Tv : tabv (N:=RNum) 2 vr = [1 / 2; 1 / 2]) by (unfold tabv; cbn; rewrite !Ev; reflexivity).
  destruct (col_run tsort Hs [0; 10] [9; 20] 1 h h (Some 1) (Some 1) ltac:(cbn; lia) ltac:(cbn; lia) ltac:(intros i Hi; unfold h; lra) ltac:(intros i Hi; unfold h; lra)
     ltac:(lra) ltac:(cbn; lra) ltac:(cbn; lra) ltac:(discriminate) 1) as (col & Ec & _).
  pose proof Ec as Ec0.
  assert (S : exists s, uo_f col 1%nat = fd 1%nat + s /\ uo_g col 0%nat = gd 0%nat - s).
  { change (length [0; 10]) with 2%nat in Ec. change (length [9; 20]) with 2%nat in Ec.
    unfold uot_column in Ec. rewrite (O 0 10), (O 9 20) in Ec by lra. cbv zeta in Ec. cbn [fw_loop] in Ec.
    match type of Ec with context [get_reweighted exp ln 2 2 ?f0 ?g0 ?a0 ?b0 _ _] =>
      change (get_reweighted (N:=RNum) exp ln 2 2 f0 g0 a0 b0 (Some 1) (Some 1)) with (get_reweighted (N:=RNum) exp ln 2 2 z z h h (Some 1) (Some 1)) in Ec end.
    rewrite G in Ec. cbn [map nth] in Ec. rewrite Tu, Tv in Ec. change (carrier RNum) with R in *.
    match type of Ec with match match ?X with _ => _ end with _ => _ end = _ => replace X with (Ok (fd, gd, c)) in Ec by (symmetry; exact E) end.
    match type of Ec with match ?X with _ => _ end = _ => destruct X as [[[[f2 g2] ur2] vr2] fm2] eqn:G2 end.
    match type of Ec with match ?X with _ => _ end = _ => destruct X as [[w2 es2]| | | | |] end; try discriminate.
    injection Ec as <-. cbn [uo_f uo_g pos_of Nat.eqb].
    unfold get_reweighted in G2. injection G2 as <- <- _ _ _.
    match goal with |- exists s, _ + ?t2 = _ /\ _ => exists t2 end.
    cbn. unfold z. split; field. }
  destruct S as (s & Sf & Sg).
  destruct (all_cols_ok 1 (fun q => uot_column (N:=RNum) rpow exp ln tsort 2 2 [0; 10] [9; 20] h h (Some 1) (Some 1) 1 1)) as (cols & Ea & Hc).
  { intros q Hq. exists col. exact Ec0. }
  exists cols, (uot_total (N:=RNum) ln 2 2 1 h h (Some 1) (Some 1) cols). split.
  { unfold uot_1d. cbn [negb]. match goal with |- match ?X with _ => _ end = _ => replace X with (Some cols) by (symmetry; exact Ea) end. reflexivity. }
  specialize (Hc 0%nat ltac:(lia)). cbn beta in Hc. pose proof (eq_trans (eq_sym Hc) Ec0) as EE. injection EE as EE. rewrite EE.
  intros DF. specialize (DF 1%nat 0%nat ltac:(lia) ltac:(lia)). rewrite Sf, Sg in DF.
  unfold wmetric, lnth in DF. cbn in DF. destruct (Req_EM_T 1 1) as [_|N]; [|apply N; reflexivity].
  replace (10 - 9) with 1 in DF by ring. rewrite Rabs_R1 in DF. change (carrier RNum) with R in *. lra.
Qed.
Print Assumptions C142_ties_refuted.
