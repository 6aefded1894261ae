(** C156: what solve_gromov solves, reports and refuses, for arbitrary solvers behind it. *)
From Coq Require Import Reals Lra Lia String ZArith Bool Classical ClassicalChoice.
From Verif Require Import Num Sums Spec Entropy Lbfgs_model Sgromov_model Gw_proofs P_Sinkexist Duals_proofs Sgromov_proofs.
Local Open Scope R_scope.
Local Open Scope string_scope.

(** if the called solvers report the numbers of the plan they return, then solve_gromov returns a
    plan of the documented kind, the value is the documented objective of that plan (the logarithm
    evaluated with the small constant), and the linear and quadratic parts are right when given *)
Theorem C156_reports : forall lg tiny tol9 tol7 n m L run Ca Cb M a0 b0 loss symm alpha reg rty unb uty method max_iter init tol r,
  truthful n m L run ->
  sg lg tiny tol9 tol7 n m run Ca Cb M a0 b0 loss symm alpha reg rty unb uty method max_iter init tol = GOk r ->
  let a := some_or (uniform n) a0 in let b := some_or (uniform m) b0 in
  let al := some_or (/ 2) alpha in
  let lin := lin_part n m (doc_wl M al) (some_or zeroM M) (r_plan r) in
  let quad := quad_part n m (doc_wq M al) (L (doc_loss loss)) Ca Cb (r_plan r) in
  exists k, doc_kind unb uty = Some k /\
    ((exists T, feasible n m a b k T) ->
     feasible n m a b k (r_plan r) /\ r_value r = Some (lin + quad + doc_reg reg * entl lg tiny n m (r_plan r)) /\
     opt_is (r_lin r) lin /\ opt_is (r_quad r) quad).
Proof.
  intros lg tiny tol9 tol7 n m L run Ca Cb M a0 b0 loss symm alpha reg rty unb uty method max_iter init tol r HT E a b al lin quad.
  destruct (dispatch lg tiny tol9 tol7 n m L _ _ _ _ _ _ _ _ _ _ _ _ _ _ _ _ _ r E) as (s & g & k & DK & HP & HF & HL & HQ & HE & HV).
  exists k. split; [exact DK|]. intros (T & FT).
  assert (TR : sv_truthful n m L s g (run s g)) by (apply HT; exists T; apply HF; exact FT).
  destruct (HV TR) as (V1 & V2 & V3). destruct TR as (F & _). rewrite HF in F. rewrite <- HP in F. auto.
Qed.
Print Assumptions C156_reports.

(** if moreover the called solvers find minimisers, the plan minimises the documented problem, in
    every branch except the regularised fused ones *)
Theorem C156_solves : forall lg tiny tol9 tol7 n m L run Ca Cb M a0 b0 loss symm alpha reg rty unb uty method max_iter init tol r,
  exact_solvers n m L run -> lower rty = "entropy" -> ~ fused_reg M alpha reg unb uty ->
  sg lg tiny tol9 tol7 n m run Ca Cb M a0 b0 loss symm alpha reg rty unb uty method max_iter init tol = GOk r ->
  let a := some_or (uniform n) a0 in let b := some_or (uniform m) b0 in
  let al := some_or (/ 2) alpha in
  let f := fused_obj n m (doc_wl M al) (doc_wq M al) (some_or zeroM M) (L (doc_loss loss)) Ca Cb (doc_reg reg) in
  exists k, doc_kind unb uty = Some k /\
    ((exists T, minimiser (feasible n m a b k) f T) -> minimiser (feasible n m a b k) f (r_plan r)).
Proof.
  intros lg tiny tol9 tol7 n m L run Ca Cb M a0 b0 loss symm alpha reg rty unb uty method max_iter init tol r HX RT NF E a b al f.
  destruct (dispatch lg tiny tol9 tol7 n m L _ _ _ _ _ _ _ _ _ _ _ _ _ _ _ _ _ r E) as (s & g & k & DK & HP & HF & HL & HQ & HE & HV).
  exists k. split; [exact DK|]. specialize (HE RT NF).
  assert (EF : forall T, sv_obj n m L s g T = f T).
  { intros T. change (sv_lin n m s g T + sv_quad n m L s g T + sv_eps s g * ent n m T = f T). rewrite HL, HQ, HE. reflexivity. }
  intros (T & FT & MT).
  assert (O : sv_optimal n m L s g (run s g)).
  { apply HX. exists T. split; [apply HF; exact FT|]. intros S HS. rewrite !EF. apply MT, HF, HS. }
  destruct O as (O1 & O2). rewrite HP. split; [apply HF; exact O1|]. intros S HS. rewrite <- !EF. apply O2, HF, HS.
Qed.
Print Assumptions C156_solves.

(** solvers as required by the two theorems exist *)
Theorem C156_solvers_exist : forall n m L, exists run, truthful n m L run /\ exact_solvers n m L run.
Proof.
  intros n m L.
  destruct (choice (fun (q : gsolver * gargs (N:=RNum)) (T : mat) => let (s, g) := q in
     ((exists S, sv_feasible n m s g S) -> sv_feasible n m s g T) /\
     ((exists S, minimiser (sv_feasible n m s g) (sv_obj n m L s g) S) -> minimiser (sv_feasible n m s g) (sv_obj n m L s g) T))) as (pl & Hpl).
  { intros (s & g). destruct (classic (exists S, minimiser (sv_feasible n m s g) (sv_obj n m L s g) S)) as [(S & HS)|N1].
    - exists S. split; [intros _; apply HS|auto].
    - destruct (classic (exists S, sv_feasible n m s g S)) as [(S & HS)|N2].
      + exists S. split; [auto|intros X; contradiction].
      + exists zeroM. split; intros X; contradiction. }
  exists (fun s g => let T := pl (s, g) in mkO (N:=RNum) (sv_lin n m s g T + sv_quad n m L s g T) T (sv_lin n m s g T) (sv_quad n m L s g T) (fun _ => 0) (fun _ => 0) None).
  split.
  - intros s g H. destruct (Hpl (s, g)) as (H1 & _). unfold sv_truthful. cbn [o_plan o_val o_lin o_quad]. auto.
  - intros s g H. destruct (Hpl (s, g)) as (_ & H2). unfold sv_optimal. cbn [o_plan]. auto.
Qed.
Print Assumptions C156_solvers_exist.

(** ** the regularised fused branches *)
Lemma value_shift : forall v e x y : R, Some (v + y * e) = Some (v + x * e + (y - x) * e).
Proof. intros. f_equal. ring. Qed.
(** the solver is called without the regularisation weight: the plan and its two parts do not depend
    on reg, and the value is affine in reg *)
Theorem C156_fused_plan_ignores_reg : forall lg tiny tol9 tol7 n m run Ca Cb M a0 b0 loss symm alpha reg reg' rty unb uty method max_iter init tol r,
  fused_reg M alpha (Some reg) unb uty -> reg' <> 0 ->
  sg lg tiny tol9 tol7 n m run Ca Cb M a0 b0 loss symm alpha (Some reg) rty unb uty method max_iter init tol = GOk r ->
  exists r' v, sg lg tiny tol9 tol7 n m run Ca Cb M a0 b0 loss symm alpha (Some reg') rty unb uty method max_iter init tol = GOk r' /\
    r_plan r' = r_plan r /\ r_lin r' = r_lin r /\ r_quad r' = r_quad r /\
    r_value r = Some v /\ r_value r' = Some (v + (reg' - reg) * entl lg tiny n m (r_plan r)).
Proof.
  intros lg tiny tol9 tol7 n m run Ca Cb M a0 b0 loss symm alpha reg reg' rty unb uty method max_iter init tol r (HM & HR & HA & HK) HR'.
  unfold doc_reg in HR. cbn [some_or] in HR.
  assert (X1 : is_exact (N:=RNum) (Some reg) = false) by (apply Reqb_false; exact HR).
  assert (X2 : is_exact (N:=RNum) (Some reg') = false) by (apply Reqb_false; exact HR').
  assert (NL : no_lin (N:=RNum) M alpha = false).
  { unfold no_lin. destruct M; [|congruence]. destruct (is_alpha (N:=RNum) alpha n1) eqn:E; auto. apply isa in E. contradiction. }
  unfold sg, solve_gromov. destruct (sg_loss loss) as [l|]; [|discriminate]. rewrite X1, X2.
  unfold doc_kind in HK. destruct (String.eqb (lower uty) "semirelaxed").
  - unfold sg_reg_semi. rewrite NL, andb_false_r. unfold with_lin. destruct M as [mm|]; [|congruence]. destruct alpha as [x|]; [|discriminate].
    intros E; match type of E with GOk ?y = GOk _ => assert (R1 : r = y) by congruence end; clear E; subst r. eexists; eexists. split; [reflexivity|]. cbn [r_plan r_lin r_quad r_value]. rewrite !sg_ent_R.
    repeat (split; [reflexivity|]). apply value_shift.
  - destruct unb as [u|]; [destruct HK as [E|(E & _)]; destruct (String.eqb (lower uty) "partial"); discriminate|].
    destruct HK as [E|(_ & A0)]; [discriminate|].
    unfold sg_reg. destruct (entropy_type rty); cbn [andb]; [|discriminate]. rewrite NL.
    destruct (is_alpha (N:=RNum) alpha n0) eqn:E0; [apply isa in E0; contradiction|].
    unfold with_lin. destruct M as [mm|]; [|congruence]. destruct alpha as [x|]; [|discriminate].
    intros E; match type of E with GOk ?y = GOk _ => assert (R1 : r = y) by congruence end; clear E; subst r. eexists; eexists. split; [reflexivity|]. cbn [r_plan r_lin r_quad r_value]. rewrite !sg_ent_R.
    repeat (split; [reflexivity|]). apply value_shift.
Qed.
Print Assumptions C156_fused_plan_ignores_reg.

Lemma gw_zero : forall n m C1 C2 T, (forall i k j l, (i < n)%nat -> (k < n)%nat -> (j < m)%nat -> (l < m)%nat -> C1 i k = C2 j l) -> gw_obj n m sq_loss C1 C2 T = 0.
Proof.
  intros n m C1 C2 T H. unfold gw_obj, gw_bil. apply rsum_0; intros i Hi. apply rsum_0; intros j Hj. apply rsum_0; intros k Hk. apply rsum_0; intros l Hl.
  rewrite (H i k j l) by auto. unfold sq_loss. ring.
Qed.
Lemma cost_scal : forall n m c M T, cost n m (fun i j => c * M i j) T = c * cost n m M T.
Proof. intros. unfold cost. rewrite <- rsum_scal. apply rsum_ext; intros. rewrite <- rsum_scal. apply rsum_ext; intros. ring. Qed.
Lemma ln_scaled : forall u e v, 0 < u -> 0 < v -> ln (u * exp e * v) = ln u + e + ln v.
Proof. intros u e v Hu Hv. assert (0 < exp e) by apply exp_pos. rewrite !ln_mult, ln_exp; auto. apply Rmult_lt_0_compat; auto. Qed.
Lemma entobj_ext : forall n m M e P Q, (forall i j, (i < n)%nat -> (j < m)%nat -> P i j = Q i j) -> ent_obj n m M e P = ent_obj n m M e Q.
Proof. intros n m M e P Q H. unfold ent_obj, cost, ent. f_equal; [|f_equal]; apply rsum_ext; intros; apply rsum_ext; intros; rewrite H by auto; auto. Qed.

(** even with perfect solvers, the plan of the balanced regularised fused problem is not a solution:
    here for any two constant structure matrices, positive weights of equal mass, and any linear cost
    with a non-zero cross difference, for every reg other than 1/10 *)
Theorem C156_fused_reg_refuted : forall lg tiny tol9 tol7 n m (L : gloss -> R -> R -> R) run Ca Cb M a b symm x reg uty method max_iter init tol i i' j j',
  L SquareLoss = sq_loss -> exact_solvers n m L run ->
  pos_vec n a -> pos_vec m b -> mass n a = mass m b ->
  (forall i k j l, (i < n)%nat -> (k < n)%nat -> (j < m)%nat -> (l < m)%nat -> Ca i k = Cb j l) ->
  x <> 0 -> x <> 1 -> 0 < reg -> reg <> / 10 -> lower uty <> "semirelaxed" ->
  (i < n)%nat -> (i' < n)%nat -> (j < m)%nat -> (j' < m)%nat -> M i j + M i' j' <> M i j' + M i' j ->
  exists r T, sg lg tiny tol9 tol7 n m run Ca Cb (Some M) (Some a) (Some b) "L2" symm (Some x) (Some reg) "entropy" None uty method max_iter init tol = GOk r /\
    coupling n m a b T /\
    fused_obj n m (1 - x) x M sq_loss Ca Cb reg T < fused_obj n m (1 - x) x M sq_loss Ca Cb reg (r_plan r).
Proof.
  intros lg tiny tol9 tol7 n m L run Ca Cb M a b symm x reg uty method max_iter init tol i i' j j' HL HX Ha Hb HE HC X0 X1 Hr Hr1 HU Hi Hi' Hj Hj' HD.
  set (M' := fun i j => (1 - x) * M i j).
  assert (FO : forall e T, fused_obj n m (1 - x) x M sq_loss Ca Cb e T = ent_obj n m M' e T).
  { intros e T. unfold fused_obj, lin_part, quad_part, ent_obj, M'. rewrite gw_zero, cost_scal by auto. ring. }
  assert (Hn : (0 < n)%nat) by lia. assert (Hm : (0 < m)%nat) by lia.
  destruct (C127_exists_unique n m a b M' (/ 10) Hn Hm Ha Hb HE ltac:(lra)) as (P & (CP & u & v & Hu & Hv & SP) & _ & MP).
  destruct (C127_exists_unique n m a b M' reg Hn Hm Ha Hb HE Hr) as (P' & (CP' & u' & v' & Hu' & Hv' & SP') & _ & MP').
  set (g := mkG (N:=RNum) (Some M) (Some (Ca, Cb)) a (Some b) (Some SquareLoss) None (Some x) None symm (method_or method "PGD") (iter_or max_iter 1000) (tol_or (N:=RNum) tol tol9) init).
  assert (GO : forall T, sv_obj n m L EFGW2 g T = ent_obj n m M' (/ 10) T).
  { intros T. rewrite <- FO. unfold sv_obj, g. cbn [sv_wl sv_wq sv_eps g_M g_C g_loss g_alpha g_eps some_or fst snd]. rewrite HL. reflexivity. }
  assert (O : sv_optimal n m L EFGW2 g (run EFGW2 g)).
  { apply HX. exists P. split; [exact CP|]. intros S HS. rewrite !GO. apply MP. exact HS. }
  destruct O as (O1 & O2). set (Q := o_plan (run EFGW2 g)) in *.
  assert (EQ : forall i j, (i < n)%nat -> (j < m)%nat -> Q i j = P i j).
  { apply MP; [exact O1|]. rewrite <- !GO. apply O2. exact CP. }
  eexists; exists P'. split; [|split; [exact CP'|]].
  - unfold sg, solve_gromov. change (sg_loss "L2") with (Some SquareLoss). cbv iota.
    destruct (String.eqb (lower uty) "semirelaxed") eqn:EU; [apply String.eqb_eq in EU; contradiction|].
    assert (X : is_exact (N:=RNum) (Some reg) = false) by (apply Reqb_false; cbn; lra). rewrite X.
    unfold sg_reg. change (entropy_type "entropy") with true. cbn [andb].
    assert (Y1 : no_lin (N:=RNum) (Some M) (Some x) = false) by (apply Reqb_false; exact X1).
    assert (Y0 : is_alpha (N:=RNum) (Some x) n0 = false) by (apply Reqb_false; exact X0).
    rewrite Y1, Y0. unfold with_lin. reflexivity.
  - cbn [r_plan]. fold g. fold Q. rewrite !FO. apply Rnot_le_lt. intros LE.
    destruct (MP' Q O1) as (_ & U). specialize (U LE).
    assert (LN : forall i j, (i < n)%nat -> (j < m)%nat -> ln (u i) + - M' i j / / 10 + ln (v j) = ln (u' i) + - M' i j / reg + ln (v' j)).
    { intros p q Hp Hq. rewrite <- !ln_scaled; auto. rewrite <- SP, <- SP' by auto. rewrite <- EQ, <- U by auto. reflexivity. }
    assert (A1 := LN i j Hi Hj). assert (A2 := LN i' j' Hi' Hj'). assert (A3 := LN i j' Hi Hj'). assert (A4 := LN i' j Hi' Hj).
    assert (Z : (M' i j + M' i' j' - M' i j' - M' i' j) * (10 - / reg) = 0) by (unfold Rdiv in *; rewrite Rinv_inv in *; lra).
    apply Rmult_integral in Z. destruct Z as [Z|Z].
    + unfold M' in Z. assert (Z' : (1 - x) * (M i j + M i' j' - M i j' - M i' j) = 0) by lra. apply Rmult_integral in Z'. destruct Z'; [apply X1|apply HD]; lra.
    + apply Hr1. replace (/ 10) with (/ / reg) by (f_equal; lra). rewrite Rinv_inv. reflexivity.
Qed.
Print Assumptions C156_fused_reg_refuted.

(** the row-wise softmax is the only solution of the linear semi-relaxed entropic problem *)
Lemma semi_softmax : forall n m a M e, 0 < e -> (0 < m)%nat -> pos_vec n a ->
  let Z i := rsum m (fun j => exp (- M i j / e)) in
  let K i j := a i / Z i * exp (- M i j / e) * 1 in
  feasible n m a (fun _ => 0) SemiRelaxed K /\
  (forall i, (i < n)%nat -> 0 < a i / Z i) /\
  forall T, feasible n m a (fun _ => 0) SemiRelaxed T ->
    ent_obj n m M e K <= ent_obj n m M e T /\ (ent_obj n m M e T <= ent_obj n m M e K -> forall i j, (i < n)%nat -> (j < m)%nat -> T i j = K i j).
Proof.
  intros n m a M e He Hm Ha Z K.
  assert (ZP : forall i, 0 < Z i) by (intros i; unfold Z; apply rsum_pos; auto; intros; apply exp_pos).
  assert (UP : forall i, (i < n)%nat -> 0 < a i / Z i) by (intros i Hi; apply Rdiv_lt_0_compat; auto).
  assert (KP : forall i j, (i < n)%nat -> (j < m)%nat -> 0 < K i j)
    by (intros i j Hi Hj; unfold K; rewrite Rmult_1_r; apply Rmult_lt_0_compat; [auto|apply exp_pos]).
  assert (KR : forall i, (i < n)%nat -> row_sum m K i = a i).
  { intros i Hi. unfold row_sum, K. rewrite (rsum_ext m _ (fun j => a i / Z i * exp (- M i j / e))) by (intros; ring). rewrite rsum_scal. fold (Z i).
    specialize (ZP i). field. lra. }
  split; [split; [intros i j Hi Hj; left; auto|exact KR]|]. split; [exact UP|].
  intros T (T0 & TR).
  assert (HE : forall i j, (i < n)%nat -> (j < m)%nat -> M i j + e * ln (K i j) = e * ln (a i / Z i) + 0 + 0).
  { intros i j Hi Hj. unfold K. rewrite ln_scaled by (auto; lra). rewrite ln_1. field. lra. }
  assert (G0 : rsum n (fun i => e * ln (a i / Z i) * (row_sum m T i - row_sum m K i)) + rsum m (fun j => 0 * (col_sum n T j - col_sum n K j))
    + (0 + e) * (total n m T - total n m K) = 0).
  { rewrite (rsum_0 n) by (intros i Hi; rewrite TR, KR by auto; ring). rewrite (rsum_0 m) by (intros; ring).
    replace (total n m T) with (total n m K); [ring|]. apply rsum_ext. intros i Hi. change (row_sum m K i = row_sum m T i). rewrite TR, KR; auto. }
  split.
  - assert (G := ent_gap n m M e T K (fun i => e * ln (a i / Z i)) (fun _ => 0) 0 ltac:(lra) T0 KP HE). cbv beta in G. lra.
  - intros LE i j Hi Hj. destruct (Req_dec (T i j) (K i j)) as [|NE]; auto. exfalso.
    assert (G := ent_gap_strict n m M e T K (fun i => e * ln (a i / Z i)) (fun _ => 0) 0 i j He T0 KP HE Hi Hj NE). cbv beta in G. lra.
Qed.
(** the same for the semi-relaxed problem, as soon as one row of the linear cost is not constant *)
Theorem C156_semirelaxed_reg_refuted : forall lg tiny tol9 tol7 n m (L : gloss -> R -> R -> R) run Ca Cb M a b0 symm x reg unb method max_iter init tol i j j',
  L SquareLoss = sq_loss -> exact_solvers n m L run -> pos_vec n a ->
  (forall i k j l, (i < n)%nat -> (k < n)%nat -> (j < m)%nat -> (l < m)%nat -> Ca i k = Cb j l) ->
  x <> 1 -> 0 < reg -> reg <> / 10 ->
  (i < n)%nat -> (j < m)%nat -> (j' < m)%nat -> M i j <> M i j' ->
  exists r T, sg lg tiny tol9 tol7 n m run Ca Cb (Some M) (Some a) b0 "L2" symm (Some x) (Some reg) "entropy" unb "semirelaxed" method max_iter init tol = GOk r /\
    nonneg_mat n m T /\ (forall i, (i < n)%nat -> row_sum m T i = a i) /\
    fused_obj n m (1 - x) x M sq_loss Ca Cb reg T < fused_obj n m (1 - x) x M sq_loss Ca Cb reg (r_plan r).
Proof.
  intros lg tiny tol9 tol7 n m L run Ca Cb M a b0 symm x reg unb method max_iter init tol i j j' HL HX Ha HC X1 Hr Hr1 Hi Hj Hj' HD.
  set (M' := fun i j => (1 - x) * M i j).
  assert (FO : forall e T, fused_obj n m (1 - x) x M sq_loss Ca Cb e T = ent_obj n m M' e T).
  { intros e T. unfold fused_obj, lin_part, quad_part, ent_obj, M'. rewrite gw_zero, cost_scal by auto. ring. }
  assert (Hm : (0 < m)%nat) by lia.
  destruct (semi_softmax n m a M' (/ 10) ltac:(lra) Hm Ha) as (CP & UP & MP).
  destruct (semi_softmax n m a M' reg Hr Hm Ha) as (CP' & UP' & MP').
  set (P := fun i j => a i / rsum m (fun j => exp (- M' i j / / 10)) * exp (- M' i j / / 10) * 1) in *.
  set (P' := fun i j => a i / rsum m (fun j => exp (- M' i j / reg)) * exp (- M' i j / reg) * 1) in *.
  set (g := mkG (N:=RNum) (Some M) (Some (Ca, Cb)) a None (Some SquareLoss) None (Some x) None symm None (iter_or max_iter 1000) (tol_or (N:=RNum) tol tol9) init).
  assert (GO : forall T, sv_obj n m L ESRFGW2 g T = ent_obj n m M' (/ 10) T).
  { intros T. rewrite <- FO. unfold sv_obj, g. cbn [sv_wl sv_wq sv_eps g_M g_C g_loss g_alpha g_eps some_or fst snd]. rewrite HL. reflexivity. }
  assert (O : sv_optimal n m L ESRFGW2 g (run ESRFGW2 g)).
  { apply HX. exists P. split; [exact CP|]. intros S HS. rewrite !GO. apply MP. exact HS. }
  destruct O as (O1 & O2). set (Q := o_plan (run ESRFGW2 g)) in *.
  assert (EQ : forall i j, (i < n)%nat -> (j < m)%nat -> Q i j = P i j).
  { apply MP; [exact O1|]. rewrite <- !GO. apply O2. exact CP. }
  eexists; exists P'. split; [|split; [exact (proj1 CP')|split; [exact (proj2 CP')|]]].
  - unfold sg, solve_gromov. change (sg_loss "L2") with (Some SquareLoss). cbv iota.
    change (String.eqb (lower "semirelaxed") "semirelaxed") with true. cbv iota zeta.
    assert (X : is_exact (N:=RNum) (Some reg) = false) by (apply Reqb_false; cbn; lra). rewrite X.
    unfold sg_reg_semi.
    assert (Y1 : no_lin (N:=RNum) (Some M) (Some x) = false) by (apply Reqb_false; exact X1).
    rewrite Y1, andb_false_r. unfold with_lin. reflexivity.
  - cbn [r_plan]. fold g. fold Q. rewrite !FO. apply Rnot_le_lt. intros LE.
    destruct (MP' Q O1) as (_ & U). specialize (U LE).
    assert (E1 : forall q, ln (P i q) = ln (a i / rsum m (fun j => exp (- M' i j / / 10))) + - M' i q / / 10 + ln 1) by (intros q; unfold P; apply ln_scaled; [apply UP; auto|lra]).
    assert (E2 : forall q, ln (P' i q) = ln (a i / rsum m (fun j => exp (- M' i j / reg))) + - M' i q / reg + ln 1) by (intros q; unfold P'; apply ln_scaled; [apply UP'; auto|lra]).
    assert (A1 := E1 j). assert (A2 := E1 j'). assert (B1 := E2 j). assert (B2 := E2 j').
    assert (Q1 := EQ i j Hi Hj). assert (Q2 := EQ i j' Hi Hj'). assert (U1 := U i j Hi Hj). assert (U2 := U i j' Hi Hj').
    change (Q i j = P i j) in Q1. change (Q i j' = P i j') in Q2. change (Q i j = P' i j) in U1. change (Q i j' = P' i j') in U2.
    rewrite <- Q1 in A1. rewrite <- Q2 in A2. rewrite <- U1 in B1. rewrite <- U2 in B2.
    assert (Z : (M' i j - M' i j') * (10 - / reg) = 0) by (unfold Rdiv in *; rewrite Rinv_inv in *; lra).
    apply Rmult_integral in Z. destruct Z as [Z|Z].
    + unfold M' in Z. assert (Z' : (1 - x) * (M i j - M i j') = 0) by lra. apply Rmult_integral in Z'. destruct Z'; [apply X1|apply HD]; lra.
    + apply Hr1. replace (/ 10) with (/ / reg) by (f_equal; lra). rewrite Rinv_inv. reflexivity.
Qed.
Print Assumptions C156_semirelaxed_reg_refuted.

(** ** what is refused, and what is ignored *)
Section Refused.
Variables (n m : nat) (M : option mat) (a0 b0 : option vec) (loss : string) (alpha reg : option R) (rty : string) (unb : option R) (uty : string).
Let semi : Prop := lower uty = "semirelaxed".
(** not implemented: unknown loss, a penalty other than semirelaxed or partial, a regularisation of
    the balanced problem other than entropy *)
Definition not_implemented : Prop :=
  (lower loss <> "l2" /\ lower loss <> "kl") \/ (~ semi /\ unb <> None /\ lower uty <> "partial") \/
  (~ semi /\ unb = None /\ doc_reg reg <> 0 /\ lower rty <> "entropy").
(** more mass asked for than there is *)
Definition mass_too_large : Prop :=
  ~ semi /\ exists u, unb = Some u /\ (mass n (some_or (uniform n) a0) < u \/ mass m (some_or (uniform m) b0) < u).
(** alpha = None with a linear cost, although documented; and the semi-relaxed problem without linear
    cost under another regularisation *)
Definition type_error : Prop :=
  (M <> None /\ alpha = None) \/ (M = None /\ semi /\ doc_reg reg <> 0 /\ lower rty <> "entropy").
End Refused.
Theorem C156_refusals : forall lg tiny tol9 tol7 n m run Ca Cb M a0 b0 loss symm alpha reg rty unb uty method max_iter init tol,
  let res := sg lg tiny tol9 tol7 n m run Ca Cb M a0 b0 loss symm alpha reg rty unb uty method max_iter init tol in
  let N := not_implemented loss reg rty unb uty in let V := mass_too_large n m a0 b0 unb uty in let T := type_error M alpha reg rty uty in
  (N -> res = GExn GNotImplemented) /\ (~ N -> V -> res = GExn GValueError) /\ (~ N -> ~ V -> T -> res = GExn GTypeError) /\
  (~ N -> ~ V -> ~ T -> exists r, res = GOk r).
Proof.
  intros lg tiny tol9 tol7 n m run Ca Cb M a0 b0 loss symm alpha reg rty unb uty method max_iter init tol res N V T.
  assert (EN : sg_loss loss = None <-> lower loss <> "l2" /\ lower loss <> "kl").
  { unfold sg_loss. destruct (String.eqb_spec (lower loss) "l2"); [split; [discriminate|intros (X & _); contradiction]|].
    destruct (String.eqb_spec (lower loss) "kl"); [split; [discriminate|intros (_ & X); contradiction]|]. tauto. }
  assert (ER : is_exact (N:=RNum) reg = true <-> doc_reg reg = 0).
  { unfold is_exact, doc_reg. destruct reg as [r|]; cbn [some_or]; [apply Reqb_true|tauto]. }
  assert (RS : is_exact (N:=RNum) reg = false -> exists r, reg = Some r) by (unfold is_exact; destruct reg; [eauto|discriminate]).
  assert (NL : no_lin (N:=RNum) M alpha = true -> M = None \/ alpha = Some 1) by apply nolin.
  assert (NLM : M = None -> no_lin (N:=RNum) M alpha = true) by (intros ->; auto).
  assert (NLA : alpha = None -> M <> None -> no_lin (N:=RNum) M alpha = false) by (intros -> H; destruct M; [auto|congruence]).
  assert (TM : forall u, too_much (N:=RNum) INR n m a0 b0 u = true <-> mass n (some_or (uniform n) a0) < u \/ mass m (some_or (uniform m) b0) < u).
  { intros u. unfold too_much, vsum. rewrite sga, sgb, !nsum_R. rewrite orb_true_iff. cbn [nltb RNum]. rewrite !Rltb_true. tauto. }
  unfold res, sg, solve_gromov, N, V, T, not_implemented, mass_too_large, type_error. clear res N V T.
  destruct (sg_loss loss) as [l|]; [|].
  2:{ assert (Y : lower loss <> "l2" /\ lower loss <> "kl") by (apply EN; auto). split; [auto|]. split; [tauto|]. split; tauto. }
  assert (LE : ~ (lower loss <> "l2" /\ lower loss <> "kl")) by (intros Y; apply EN in Y; discriminate). clear EN.
  destruct (String.eqb_spec (lower uty) "semirelaxed") as [S|S].
  - split; [intros [Y|[(Y & _)|(Y & _)]]; contradiction|]. split; [intros _ (Y & _); contradiction|].
    destruct (is_exact (N:=RNum) reg) eqn:EX.
    + assert (D0 : doc_reg reg = 0) by (apply ER; auto). unfold sg_semi, with_lin.
      destruct (no_lin (N:=RNum) M alpha) eqn:NE.
      * split; [|intros; eexists; reflexivity]. intros _ _ [(Y1 & Y2)|(_ & _ & Y & _)]; [assert (Z := NLA Y2 Y1); congruence|contradiction].
      * destruct M as [mm|]; [|specialize (NLM eq_refl); congruence]. destruct alpha as [x|].
        { split; [|intros; eexists; reflexivity]. intros _ _ [(_ & Y)|(Y & _)]; discriminate. }
        { split; [reflexivity|]. intros _ _ Y. exfalso. apply Y. left. split; [discriminate|auto]. }
    + assert (D0 : doc_reg reg <> 0) by (intros Y; apply ER in Y; congruence). destruct (RS eq_refl) as (r0 & RE). rewrite RE. unfold sg_reg_semi, with_lin, entropy_type.
      rewrite <- RE. destruct (String.eqb_spec (lower rty) "entropy") as [ET|ET]; cbn [andb].
      * destruct (no_lin (N:=RNum) M alpha) eqn:NE.
        { split; [|intros; eexists; reflexivity]. intros _ _ [(Y1 & Y2)|(_ & _ & _ & Y)]; [assert (Z := NLA Y2 Y1); congruence|contradiction]. }
        destruct M as [mm|]; [|specialize (NLM eq_refl); congruence]. destruct alpha as [x|].
        { split; [|intros; eexists; reflexivity]. intros _ _ [(_ & Y)|(Y & _)]; discriminate. }
        { split; [reflexivity|]. intros _ _ Y. exfalso. apply Y. left. split; [discriminate|auto]. }
      * destruct M as [mm|]; [destruct alpha as [x|]|].
        { split; [|intros; eexists; reflexivity]. intros _ _ [(_ & Y)|(Y & _)]; discriminate. }
        { split; [reflexivity|]. intros _ _ Y. exfalso. apply Y. left. split; [discriminate|auto]. }
        { split; [reflexivity|]. intros _ _ Y. exfalso. apply Y. right. auto. }
  - assert (TT : forall k : mat -> R -> gans (N:=RNum), no_lin (N:=RNum) M alpha = false -> (forall mm x, exists r, k mm x = GOk r) ->
      ((M <> None /\ alpha = None) \/ (M = None /\ lower uty = "semirelaxed" /\ doc_reg reg <> 0 /\ lower rty <> "entropy") -> with_lin (N:=RNum) M alpha k = GExn GTypeError) /\
      (~ ((M <> None /\ alpha = None) \/ (M = None /\ lower uty = "semirelaxed" /\ doc_reg reg <> 0 /\ lower rty <> "entropy")) -> exists r, with_lin (N:=RNum) M alpha k = GOk r)).
    { intros k NE HK. unfold with_lin. destruct M as [mm|]; [|specialize (NLM eq_refl); congruence]. destruct alpha as [x|].
      - split; [intros [(_ & Y)|(Y & _)]; discriminate|auto].
      - split; [auto|]. intros Y. exfalso. apply Y. left. split; [discriminate|auto]. }
    assert (TQ : no_lin (N:=RNum) M alpha = true -> ~ ((M <> None /\ alpha = None) \/ (M = None /\ lower uty = "semirelaxed" /\ doc_reg reg <> 0 /\ lower rty <> "entropy"))).
    { intros NE [(Y1 & Y2)|(_ & Y & _)]; [assert (Z := NLA Y2 Y1); congruence|contradiction]. }
    destruct unb as [u|].
    + destruct (String.eqb_spec (lower uty) "partial") as [PT|PT].
      2:{ assert (Y : (lower loss <> "l2" /\ lower loss <> "kl") \/ (lower uty <> "semirelaxed" /\ Some u <> None /\ lower uty <> "partial") \/
            (lower uty <> "semirelaxed" /\ Some u = None /\ doc_reg reg <> 0 /\ lower rty <> "entropy")) by (right; left; repeat split; auto; discriminate).
          split; [auto|]. split; [intros Z; contradiction|]. split; intros Z; contradiction. }
      split; [intros [Y|[(_ & _ & Y)|(_ & Y & _)]]; [contradiction|contradiction|discriminate]|].
      unfold sg_partial, sg_reg_partial. destruct (too_much (N:=RNum) INR n m a0 b0 u) eqn:TE.
      * apply TM in TE.
        assert (Y : ~ lower uty = "semirelaxed" /\ (exists u0, Some u = Some u0 /\ (mass n (some_or (uniform n) a0) < u0 \/ mass m (some_or (uniform m) b0) < u0))) by (split; [auto|exists u; auto]).
        split; [intros _ _; destruct (is_exact (N:=RNum) reg) eqn:EX; [reflexivity|destruct (RS eq_refl) as (r0 & ->); reflexivity]|]. split; intros _ Z; contradiction.
      * assert (TE' : ~ (mass n (some_or (uniform n) a0) < u \/ mass m (some_or (uniform m) b0) < u)) by (intros Y; apply TM in Y; congruence).
        split; [intros _ (_ & u0 & Y & Z); inversion Y; subst u0; contradiction|].
        destruct (is_exact (N:=RNum) reg) eqn:EX.
        { destruct (no_lin (N:=RNum) M alpha) eqn:NE; [split; [intros _ _ Y; exfalso; apply (TQ eq_refl Y)|intros; eexists; reflexivity]|].
          match goal with |- context [with_lin (N:=RNum) M alpha ?k] => destruct (TT k eq_refl ltac:(intros; eexists; reflexivity)) as (U1 & U2) end; split; [intros _ _; exact U1|intros _ _; exact U2]. }
        { destruct (RS eq_refl) as (r0 & RE). rewrite RE. rewrite <- RE.
          destruct (no_lin (N:=RNum) M alpha) eqn:NE; [split; [intros _ _ Y; exfalso; apply (TQ eq_refl Y)|intros; eexists; reflexivity]|].
          match goal with |- context [with_lin (N:=RNum) M alpha ?k] => destruct (TT k eq_refl ltac:(intros; eexists; reflexivity)) as (U1 & U2) end; split; [intros _ _; exact U1|intros _ _; exact U2]. }
    + destruct (is_exact (N:=RNum) reg) eqn:EX.
      * assert (D0 : doc_reg reg = 0) by (apply ER; auto).
        split; [intros [Y|[(_ & Y & _)|(_ & _ & Y & _)]]; [contradiction|congruence|contradiction]|]. split; [intros _ (_ & u & Y & _); discriminate|].
        unfold sg_exact.
        destruct (no_lin (N:=RNum) M alpha) eqn:NE; [split; [intros _ _ Y; exfalso; apply (TQ eq_refl Y)|intros; eexists; reflexivity]|].
        destruct (is_alpha (N:=RNum) alpha n0) eqn:A0.
        { apply isa in A0. destruct M as [mm|]; [|specialize (NLM eq_refl); congruence].
          split; [|intros; eexists; reflexivity]. intros _ _ [(_ & Y)|(Y & _)]; [congruence|discriminate]. }
        match goal with |- context [with_lin (N:=RNum) M alpha ?k] => destruct (TT k eq_refl ltac:(intros; eexists; reflexivity)) as (U1 & U2) end; split; [intros _ _; exact U1|intros _ _; exact U2].
      * assert (D0 : doc_reg reg <> 0) by (intros Y; apply ER in Y; congruence). destruct (RS eq_refl) as (r0 & RE). rewrite RE. unfold sg_reg, entropy_type. rewrite <- RE.
        destruct (String.eqb_spec (lower rty) "entropy") as [ET|ET]; cbn [andb].
        2:{ assert (Y : (lower loss <> "l2" /\ lower loss <> "kl") \/ (lower uty <> "semirelaxed" /\ @None R <> None /\ lower uty <> "partial") \/
              (lower uty <> "semirelaxed" /\ @None R = None /\ doc_reg reg <> 0 /\ lower rty <> "entropy")) by (right; right; repeat split; auto).
            split; [auto|]. split; [intros Z; contradiction|]. split; intros Z; contradiction. }
        split; [intros [Y|[(_ & Y & _)|(_ & _ & _ & Y)]]; [contradiction|congruence|contradiction]|]. split; [intros _ (_ & u & Y & _); discriminate|].
        destruct (no_lin (N:=RNum) M alpha) eqn:NE; [split; [intros _ _ Y; exfalso; apply (TQ eq_refl Y)|intros; eexists; reflexivity]|].
        destruct (is_alpha (N:=RNum) alpha n0) eqn:A0.
        { apply isa in A0. destruct M as [mm|]; [|specialize (NLM eq_refl); congruence].
          split; [|intros; eexists; reflexivity]. intros _ _ [(_ & Y)|(Y & _)]; [congruence|discriminate]. }
        match goal with |- context [with_lin (N:=RNum) M alpha ?k] => destruct (TT k eq_refl ltac:(intros; eexists; reflexivity)) as (U1 & U2) end; split; [intros _ _; exact U1|intros _ _; exact U2].
Qed.
Print Assumptions C156_refusals.

(** reg_type is not read by the partial problems, nor by the semi-relaxed fused one: any
    regularisation asked for is silently replaced by the entropy *)
Theorem C156_reg_type_ignored : forall lg tiny tol9 tol7 n m run Ca Cb M a0 b0 loss symm alpha reg rty rty' unb uty method max_iter init tol,
  (exists u, doc_kind unb uty = Some (PartialMass u)) \/ (doc_kind unb uty = Some SemiRelaxed /\ M <> None /\ alpha <> Some 1) ->
  sg lg tiny tol9 tol7 n m run Ca Cb M a0 b0 loss symm alpha reg rty unb uty method max_iter init tol =
  sg lg tiny tol9 tol7 n m run Ca Cb M a0 b0 loss symm alpha reg rty' unb uty method max_iter init tol.
Proof.
  intros lg tiny tol9 tol7 n m run Ca Cb M a0 b0 loss symm alpha reg rty rty' unb uty method max_iter init tol H.
  unfold sg, solve_gromov. destruct (sg_loss loss) as [l|]; auto. unfold doc_kind in H.
  destruct (String.eqb (lower uty) "semirelaxed").
  - destruct H as [(u & H)|(_ & HM & HA)]; [discriminate|].
    assert (NL : no_lin (N:=RNum) M alpha = false).
    { unfold no_lin. destruct M; [|congruence]. destruct (is_alpha (N:=RNum) alpha n1) eqn:E; auto. apply isa in E. contradiction. }
    unfold sg_reg_semi. rewrite NL, !andb_false_r. reflexivity.
  - destruct unb as [u|]; [|destruct H as [(u & H)|(H & _)]; discriminate]. destruct (String.eqb (lower uty) "partial"); reflexivity.
Qed.
Print Assumptions C156_reg_type_ignored.
(** missing weights are uniform weights, and the case of the option names does not matter *)
Theorem C156_options : forall lg tiny tol9 tol7 n m run Ca Cb M a0 b0 loss symm alpha reg rty unb uty loss' rty' uty' method max_iter init tol,
  lower loss = lower loss' -> lower rty = lower rty' -> lower uty = lower uty' ->
  sg lg tiny tol9 tol7 n m run Ca Cb M a0 b0 loss symm alpha reg rty unb uty method max_iter init tol =
  sg lg tiny tol9 tol7 n m run Ca Cb M (Some (some_or (uniform n) a0)) (Some (some_or (uniform m) b0)) loss' symm alpha reg rty' unb uty' method max_iter init tol.
Proof.
  intros lg tiny tol9 tol7 n m run Ca Cb M a0 b0 loss symm alpha reg rty unb uty loss' rty' uty' method max_iter init tol E1 E2 E3.
  unfold sg, solve_gromov, sg_loss, sg_exact, sg_semi, sg_partial, sg_reg, sg_reg_semi, sg_reg_partial, too_much, entropy_type.
  rewrite E1, E2, E3. unfold sg_a, sg_b, uniform. destruct a0, b0; reflexivity.
Qed.
Print Assumptions C156_options.

(** the hypotheses are met: two points, uniform weights, equal structures, linear cost 0/1, reg = 1 *)
Definition two_losses : gloss -> R -> R -> R := fun l => match l with SquareLoss => sq_loss | KlLoss => kl_loss ln 0 end.
Example C156_case : exists run, truthful 2 2 two_losses run /\ exact_solvers 2 2 two_losses run /\
  exists r T, sg ln 0 0 0 2 2 run zeroM zeroM (Some (fun i j => if Nat.eqb i j then 0 else 1)) (Some (fun _ => / 2)) (Some (fun _ => / 2)) "L2" None (Some (/ 2)) (Some 1) "entropy" None "KL" None None None None = GOk r /\
    coupling 2 2 (fun _ => / 2) (fun _ => / 2) T /\
    fused_obj 2 2 (1 - / 2) (/ 2) (fun i j => if Nat.eqb i j then 0 else 1) sq_loss zeroM zeroM 1 T < fused_obj 2 2 (1 - / 2) (/ 2) (fun i j => if Nat.eqb i j then 0 else 1) sq_loss zeroM zeroM 1 (r_plan r).
Proof.
  destruct (C156_solvers_exist 2 2 two_losses) as (run & H1 & H2). exists run. split; [exact H1|]. split; [exact H2|].
  apply (C156_fused_reg_refuted ln 0 0 0 2 2 two_losses run zeroM zeroM (fun i j => if Nat.eqb i j then 0 else 1) (fun _ => / 2) (fun _ => / 2) None (/ 2) 1 "KL" None None None None 0 1 0 1);
    auto; try lra; try lia; try (intros i Hi; lra); try discriminate. cbn. lra.
Qed.
