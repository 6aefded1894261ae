(** C157: what ot.solve solves, reports, ignores and refuses, for arbitrary solvers behind it. *)
From Coq Require Import Reals Lra Lia String ZArith Bool Classical ClassicalChoice.
From Verif Require Import Num Sums Spec Entropy Lbfgs_model Solve_model Sgromov_proofs P_Sinkexist Duals_proofs Solve_proofs.
Local Open Scope R_scope.
Local Open Scope string_scope.

(** if the called solvers report the numbers of the plans they return: value_linear is the linear cost
    of the returned plan in every branch and every gradient mode, value is [reported] of that plan
    (which spells out the formula of each branch), and the plan has the prescribed marginals when
    balanced and is nonnegative otherwise (the marginals of grad='last_step' are C29) *)
Theorem C157_reports : forall ex lg tiny tol9 tol12 n m run M a0 b0 reg0 c0 rt unb uty method max_iter G0 warm tol grad r,
  s_truthful lg tiny n m run -> 0 <= doc_reg reg0 ->
  (unb = None -> exists T, coupling n m (wa n a0) (wb m b0) T) ->
  sol ex lg tiny tol9 tol12 n m run M a0 b0 reg0 c0 rt unb uty method max_iter G0 warm tol grad = SOk r ->
  sr_lin r = cost n m M (sr_plan r) /\
  sr_value r = reported lg tiny n m M a0 b0 reg0 c0 rt unb uty (sr_plan r) /\
  (grad <> GLast -> match unb with None => coupling n m (wa n a0) (wb m b0) (sr_plan r) | Some _ => nonneg_mat n m (sr_plan r) end).
Proof. intros. eapply reports; eauto. Qed.
Print Assumptions C157_reports.

Lemma min_const : forall (P : mat -> Prop) (f g : mat -> R) k T, (forall S, P S -> f S = g S + k) -> (minimiser P f T <-> minimiser P g T).
Proof.
  intros P f g k T H. unfold minimiser. split; intros (H1 & H2); split; auto; intros S HS; specialize (H2 S HS);
  [rewrite (H T H1), (H S HS) in H2|rewrite (H T H1), (H S HS)]; lra.
Qed.
Lemma coup_total : forall n m a b T, coupling n m a b T -> total n m T = mass n a.
Proof. intros n m a b T (_ & H & _). unfold total, mass. apply rsum_ext. intros i Hi. apply H; auto. Qed.
(** on couplings, the Kullback-Leibler divergence to a b^T is the entropy up to a constant *)
Lemma mkl_const : forall n m a b, pos_vec n a -> pos_vec m b -> exists k, forall T, coupling n m a b T ->
  mkl1 ln 0 n m T (fun i j => a i * b j) = ment ln 0 n m T + k.
Proof.
  intros n m a b Ha Hb. exists (- rsum n (fun i => ln (a i) * a i) - rsum m (fun j => ln (b j) * b j) + (total n m (fun i j => a i * b j) - mass n a)).
  intros T C. rewrite <- (coup_total n m a b T C). destruct C as (C0 & C1 & C2).
  rewrite (rsum_ext n (fun i => ln (a i) * a i) (fun i => ln (a i) * row_sum m T i)) by (intros; rewrite C1; auto).
  rewrite (rsum_ext m (fun i => ln (b i) * b i) (fun i => ln (b i) * col_sum n T i)) by (intros; rewrite C2; auto).
  rewrite <- dsum_row, <- dsum_col. change (total n m T) with (dsum n m T). change (total n m (fun i j => a i * b j)) with (dsum n m (fun i j => a i * b j)). unfold mkl1, kl1, kl0, ment.
  rewrite rsum_plus. fold (dsum n m (fun i j => T i j * ln (T i j / (a i * b j) + 0))). fold (dsum n m (fun i j => a i * b j - T i j)).
  fold (dsum n m (fun i j => T i j * ln (T i j + 0))). rewrite dsum_minus.
  rewrite (dsum_ext n m (fun i j => T i j * ln (T i j / (a i * b j) + 0)) (fun i j => T i j * ln (T i j + 0) - (ln (a i) * T i j + ln (b j) * T i j))).
  2:{ intros i j Hi Hj. rewrite !Rplus_0_r. rewrite xlnx_split by (auto; apply Rmult_lt_0_compat; auto). unfold xlnx. rewrite ln_mult by auto. ring. }
  rewrite dsum_minus, dsum_plus. change (dsum n m T) with (dsum n m (fun i j => T i j)). ring.
Qed.

Lemma unb_reg0 : forall lg tiny n m a b c M rt rt' l name T, unb_obj lg tiny n m a b c M 0 rt l name T = unb_obj lg tiny n m a b c M 0 rt' l name T.
Proof. intros. unfold unb_obj. ring. Qed.
(** the documented problem *)
Definition s_feasible (n m : nat) (a b : vec) (unb : option (R * R)) (T : mat) : Prop :=
  match unb with None => coupling n m a b T | Some _ => nonneg_mat n m T end.
Definition s_obj (n m : nat) (a b : vec) (c M : mat) (reg : R) (rt : rtype (N:=RNum)) (unb : option (R * R)) (uty : string) (T : mat) : R :=
  match unb with
  | None => cost n m M T + reg * Rdoc ln 0 n m rt c T
  | Some l => unb_obj ln 0 n m a b c M reg rt l uty T
  end.
(** the balanced branches whose plan is a solution: no regularisation, a user-defined one, the
    entropy, or the Kullback-Leibler divergence without reference measure and with positive weights *)
Definition covered (n m : nat) (a b : vec) (reg : R) (c0 : option mat) (rt : rtype (N:=RNum)) : Prop :=
  reg = 0 \/ match rt with RPair _ _ => True | RName s => lower s = "entropy" \/ (lower s = "kl" /\ c0 = None /\ pos_vec n a /\ pos_vec m b) end.
Theorem C157_solves : forall ex lg tiny tol9 tol12 n m run M a0 b0 reg0 c0 rt unb uty method max_iter G0 warm tol grad r,
  s_exact n m run -> 0 <= doc_reg reg0 -> grad <> GLast ->
  (unb = None -> covered n m (wa n a0) (wb m b0) (doc_reg reg0) c0 rt) ->
  sol ex lg tiny tol9 tol12 n m run M a0 b0 reg0 c0 rt unb uty method max_iter G0 warm tol grad = SOk r ->
  let P := s_feasible n m (wa n a0) (wb m b0) unb in
  let f := s_obj n m (wa n a0) (wb m b0) (wc n m a0 b0 c0) M (doc_reg reg0) rt unb uty in
  (exists T, minimiser P f T) -> minimiser P f (sr_plan r).
Proof.
  intros ex lg tiny tol9 tol12 n m run M a0 b0 reg0 c0 rt unb uty method max_iter G0 warm tol grad r HX Hr NG HC E P f HM.
  assert (K : exists s (g : sargs (N:=RNum)) k, 0 <= some_or 0 (s_reg g : option R) /\ sr_plan r = so_plan (run s g) /\ (forall T, ss_feasible n m s g T <-> P T) /\ (forall T, P T -> f T = ss_obj ln 0 n m s g T + k)).
  2:{ destruct K as (s & g & k & G0' & KP & KF & KO).
      assert (Q : forall T, minimiser (ss_feasible n m s g) (ss_obj ln 0 n m s g) T <-> minimiser P f T).
      { intros T. rewrite (min_const P f (ss_obj ln 0 n m s g) k T KO). unfold minimiser. rewrite KF. split; intros (H1 & H2); split; auto; intros S HS; apply H2, KF, HS. }
      rewrite KP. apply Q. apply HX; [exact G0'|]. destruct HM as (T & HT). exists T. apply Q. exact HT. }
  clear HM HX. unfold sol, solve in E. rewrite neqb_doc in E. unfold f, P, s_feasible, s_obj. clear f P. destruct (Reqb (doc_reg reg0) 0) eqn:R0.
  - apply Reqb_true in R0. destruct unb as [u|].
    + destruct (uname uty "kl" || uname uty "l2")%bool eqn:UN.
      * unfold sv_mm in E. rewrite soa, sob, soc, soreg in E.
        match type of E with SOk (mkSR _ _ _ (so_plan (run ?s ?g)) _) = SOk _ => exists s, g, 0; assert (X : sr_plan r = so_plan (run s g)) by (injection E; intros; subst; reflexivity) end.
        split; [exact Hr|]. split; [exact X|]. split; [reflexivity|]. intros T HT.
        cbn [ss_total ss_obj s_a s_b s_c s_M s_reg s_regm s_div some_or]. rewrite R0. symmetry. etransitivity; [apply Rplus_0_r|apply unb_reg0].
      * destruct (uname uty "tv"); [|discriminate]. unfold sv_lbfgs in E. rewrite soa, sob, soc, soreg in E.
        match type of E with SOk (mkSR _ _ _ (so_plan (run ?s ?g)) _) = SOk _ => exists s, g, 0; assert (X : sr_plan r = so_plan (run s g)) by (injection E; intros; subst; reflexivity) end.
        split; [exact Hr|]. split; [exact X|]. split; [reflexivity|]. intros T HT.
        cbn [ss_total ss_obj s_a s_b s_c s_M s_reg s_regm s_div s_rt some_or]. rewrite R0. symmetry. etransitivity; [apply Rplus_0_r|apply unb_reg0].
    + unfold sv_exact in E. rewrite soa, sob in E.
      match type of E with SOk (mkSR _ _ _ (so_plan (run ?s ?g)) _) = SOk _ => exists s, g, 0; assert (X : sr_plan r = so_plan (run s g)) by (injection E; intros; subst; reflexivity) end.
      split; [cbn; lra|]. split; [exact X|]. split; [reflexivity|]. intros T HT. cbn [ss_obj s_M]. rewrite R0. ring.
  - apply Reqb_false in R0. destruct unb as [u|].
    + destruct (rname (N:=RNum) rt "kl" && uname uty "kl")%bool eqn:KK.
      * apply andb_prop in KK. destruct KK as (_ & KU). unfold uname in KU.
        unfold sv_unb in E. rewrite soa, sob, soc, soreg in E.
        match type of E with SOk (mkSR _ _ _ (so_plan (run ?s ?g)) _) = SOk _ => exists s, g, 0; assert (X : sr_plan r = so_plan (run s g)) by (injection E; intros; subst; reflexivity) end.
        split; [exact Hr|]. split; [exact X|]. split; [reflexivity|]. intros T HT.
        cbn [ss_total ss_obj s_a s_b s_c s_M s_reg s_regm s_div s_rt some_or]. symmetry. etransitivity; [apply Rplus_0_r|].
        assert (U : Udoc ln 0 uty = Udoc ln 0 "kl") by (unfold Udoc; rewrite KU; reflexivity). unfold unb_obj. rewrite U. reflexivity.
      * match type of E with (if ?q then _ else _) = _ => destruct q eqn:QQ; [|discriminate] end.
        unfold sv_lbfgs in E. rewrite soa, sob, soc, soreg in E.
        match type of E with SOk (mkSR _ _ _ (so_plan (run ?s ?g)) _) = SOk _ => exists s, g, 0; assert (X : sr_plan r = so_plan (run s g)) by (injection E; intros; subst; reflexivity) end.
        split; [exact Hr|]. split; [exact X|]. split; [reflexivity|]. intros T HT.
        cbn [ss_total ss_obj s_a s_b s_c s_M s_reg s_regm s_div s_rt some_or]. symmetry. etransitivity; [apply Rplus_0_r|]. unfold unb_obj. rewrite rt_low_R. reflexivity.
    + destruct (HC eq_refl) as [Z|CV]; [contradiction|]. destruct rt as [s|fu df] eqn:RT.
      * cbn [rname] in E.
        assert (EK : (String.eqb (lower s) "entropy" || String.eqb (lower s) "kl")%bool = true) by (destruct CV as [->|(-> & _)]; reflexivity).
        rewrite EK in E. unfold sv_sink in E. rewrite soa, sob, soreg in E.
        assert (X : exists g : sargs (N:=RNum), 0 <= some_or 0 (s_reg g : option R) /\ sr_plan r = so_plan (run SSink g) /\ s_M g = M /\ s_a g = wa n a0 /\ s_b g = wb m b0 /\ s_reg g = Some (doc_reg reg0)).
        { destruct grad; [| |congruence|]; cbn [andb] in E; cbv zeta in E;
          match type of E with SOk (mkSR _ _ _ (so_plan (run ?s ?g)) _) = SOk _ => exists g; split; [exact Hr|]; split; [injection E; intros; subst; reflexivity|]; repeat split end. }
        destruct X as (g & G1 & X & GM & GA & GB & GR).
        assert (CK : exists k, forall T, coupling n m (wa n a0) (wb m b0) T -> Rdoc ln 0 n m (RName s) (wc n m a0 b0 c0) T = ment ln 0 n m T + k).
        { destruct CV as [ES|(ES & C0 & PA & PB)].
          - exists (- mass n (wa n a0)). intros T HT. unfold Rdoc. rewrite ES. cbn. rewrite (coup_total n m _ _ T HT). ring.
          - destruct (mkl_const n m (wa n a0) (wb m b0) PA PB) as (k & Hk). exists k. intros T HT. unfold Rdoc. rewrite ES, C0. cbn [some_or wc]. change (String.eqb "kl" "kl") with true. cbv iota. apply Hk. exact HT. }
        destruct CK as (k & Hk). exists SSink, g, (doc_reg reg0 * k). split; [exact G1|]. split; [exact X|].
        split; [intros T; unfold ss_feasible; rewrite GA, GB; reflexivity|]. intros T HT. unfold ss_obj. rewrite GM, GR. cbn [some_or]. rewrite (Hk T HT). ring.
      * unfold sv_cg in E. rewrite soa, sob, soreg in E.
        match type of E with SOk (mkSR _ _ _ (so_plan (run ?s ?g)) _) = SOk _ => exists s, g, 0; assert (X : sr_plan r = so_plan (run s g)) by (injection E; intros; subst; reflexivity) end.
        split; [exact Hr|]. split; [exact X|]. split; [reflexivity|]. intros T HT.
        cbn [ss_total ss_obj s_a s_b s_c s_M s_reg s_regm s_div s_rt some_or Rdoc]. ring.
Qed.
Print Assumptions C157_solves.

(** ** the reference measure *)
Lemma cost_plus : forall n m A B T, cost n m (fun i j => A i j + B i j) T = cost n m A T + cost n m B T.
Proof. intros. unfold cost. fold (dsum n m (fun i j => A i j * T i j)) (dsum n m (fun i j => B i j * T i j)). rewrite <- dsum_plus. apply dsum_ext. intros; ring. Qed.
Lemma kl_as_cost : forall n m a b c M reg T, coupling n m a b T -> (forall i j, (i < n)%nat -> (j < m)%nat -> 0 < c i j) ->
  cost n m M T + reg * mkl1 ln 0 n m T c = ent_obj n m (fun i j => M i j + - reg * ln (c i j)) reg T + reg * (total n m c - mass n a).
Proof.
  intros n m a b c M reg T C Hc. rewrite <- (coup_total n m a b T C). destruct C as (C0 & _ & _). unfold ent_obj. rewrite cost_plus.
  unfold mkl1, kl1, kl0. rewrite rsum_plus. fold (dsum n m (fun i j => T i j * ln (T i j / c i j + 0))). fold (dsum n m (fun i j => c i j - T i j)).
  rewrite dsum_minus. rewrite (dsum_ext n m (fun i j => T i j * ln (T i j / c i j + 0)) (fun i j => T i j * ln (T i j) - ln (c i j) * T i j)).
  2:{ intros i j Hi Hj. rewrite Rplus_0_r, xlnx_split by auto. unfold xlnx. ring. }
  rewrite dsum_minus. change (total n m T) with (dsum n m T). change (total n m c) with (dsum n m c).
  change (cost n m (fun i j => - reg * ln (c i j)) T) with (dsum n m (fun i j => - reg * ln (c i j) * T i j)).
  rewrite (dsum_ext n m (fun i j => - reg * ln (c i j) * T i j) (fun i j => - reg * (ln (c i j) * T i j))) by (intros; ring). rewrite dsum_scal.
  change (ent n m T) with (dsum n m (fun i j => T i j * ln (T i j))). ring.
Qed.
(** the reference measure c is documented for the balanced problem but not used: with perfect solvers
    the plan is not a solution for any positive c whose logarithm is not a sum of a row and a column term *)
Theorem C157_reference_refuted : forall ex lg tiny tol9 tol12 n m run M a b reg c uty method max_iter G0 warm tol grad i i' j j',
  s_exact n m run -> pos_vec n a -> pos_vec m b -> mass n a = mass m b -> 0 < reg -> grad <> GLast ->
  (forall i j, (i < n)%nat -> (j < m)%nat -> 0 < c i j) ->
  (i < n)%nat -> (i' < n)%nat -> (j < m)%nat -> (j' < m)%nat -> ln (c i j) + ln (c i' j') <> ln (c i j') + ln (c i' j) ->
  exists r T, sol ex lg tiny tol9 tol12 n m run M (Some a) (Some b) (Some reg) (Some c) (RName "KL") None uty method max_iter G0 warm tol grad = SOk r /\
    coupling n m a b T /\ cost n m M T + reg * mkl1 ln 0 n m T c < cost n m M (sr_plan r) + reg * mkl1 ln 0 n m (sr_plan r) c.
Proof.
  intros ex lg tiny tol9 tol12 n m run M a b reg c uty method max_iter G0 warm tol grad i i' j j' HX Ha Hb HE Hr NG Hc Hi Hi' Hj Hj' HD.
  assert (Hn : (0 < n)%nat) by lia. assert (Hm : (0 < m)%nat) by lia. set (M' := fun i j => M i j + - reg * ln (c i j)).
  destruct (C127_exists_unique n m a b M reg Hn Hm Ha Hb HE Hr) as (P & (CP & u & v & Hu & Hv & SP) & _ & MP).
  destruct (C127_exists_unique n m a b M' reg Hn Hm Ha Hb HE Hr) as (P' & (CP' & u' & v' & Hu' & Hv' & SP') & _ & MP').
  assert (X : exists r g, sol ex lg tiny tol9 tol12 n m run M (Some a) (Some b) (Some reg) (Some c) (RName "KL") None uty method max_iter G0 warm tol grad = SOk r /\
    sr_plan r = so_plan (run SSink g) /\ s_M g = M /\ s_a g = a /\ s_b g = b /\ s_reg g = Some reg).
  { assert (R0 : Reqb reg 0 = false) by (apply Reqb_false; lra).
    unfold sol, solve. rewrite neqb_doc. unfold doc_reg. cbn [some_or]. rewrite R0. change (rname (N:=RNum) (RName "KL") "entropy" || rname (N:=RNum) (RName "KL") "kl")%bool with true. cbv iota.
    unfold sv_sink. destruct grad; [| |congruence|]; cbn [andb]; cbv zeta; eexists; eexists; (split; [reflexivity|]); repeat split. }
  destruct X as (r & g & E & X & GM & GA & GB & GR).
  assert (GO : forall T, ss_obj ln 0 n m SSink g T = ent_obj n m M reg T).
  { intros T. unfold ss_obj. rewrite GM, GR. cbn [some_or]. unfold ent_obj, ent, ment. f_equal. f_equal. apply rsum_ext; intros. apply rsum_ext; intros. rewrite Rplus_0_r. reflexivity. }
  assert (FE : forall T, ss_feasible n m SSink g T <-> coupling n m a b T) by (intros T; unfold ss_feasible; rewrite GA, GB; reflexivity).
  assert (O : minimiser (ss_feasible n m SSink g) (ss_obj ln 0 n m SSink g) (so_plan (run SSink g))).
  { apply HX; [rewrite GR; cbn [some_or]; lra|]. exists P. split; [apply FE; exact CP|]. intros S HS. rewrite !GO. apply MP. apply FE. exact HS. }
  destruct O as (O1 & O2). set (Q := so_plan (run SSink g)) in *. apply FE in O1.
  assert (EQ : forall i j, (i < n)%nat -> (j < m)%nat -> Q i j = P i j).
  { apply MP; [exact O1|]. rewrite <- !GO. apply O2. apply FE. exact CP. }
  exists r, P'. split; [exact E|]. split; [exact CP'|]. rewrite X. rewrite !(kl_as_cost n m a b c M reg) by auto.
  apply Rplus_lt_compat_r. apply Rnot_le_lt. intros LE. destruct (MP' Q O1) as (_ & U). specialize (U LE).
  assert (LS : forall u e v, 0 < u -> 0 < v -> ln (u * exp e * v) = ln u + e + ln v).
  { intros x e y Hx Hy. assert (0 < exp e) by apply exp_pos. rewrite !ln_mult, ln_exp; auto. apply Rmult_lt_0_compat; auto. }
  assert (LN : forall i j, (i < n)%nat -> (j < m)%nat -> ln (u i) + - M i j / reg + ln (v j) = ln (u' i) + - M i j / reg + ln (c i j) + ln (v' j)).
  { intros p q Hp Hq. replace (ln (u' p) + - M p q / reg + ln (c p q) + ln (v' q)) with (ln (u' p) + - M' p q / reg + ln (v' q)) by (unfold M'; field; lra).
    rewrite <- !LS; auto. rewrite <- SP, <- SP' by auto. rewrite <- EQ, <- U by auto. reflexivity. }
  assert (A1 := LN i j Hi Hj). assert (A2 := LN i' j' Hi' Hj'). assert (A3 := LN i j' Hi Hj'). assert (A4 := LN i' j Hi' Hj). apply HD. lra.
Qed.
Print Assumptions C157_reference_refuted.

(** ** the potentials *)
(** the dual of the entropic problem *)
Definition ent_dual (n m : nat) (a b : vec) (M : mat) (reg : R) (f g : vec) : R :=
  dot n a f + dot m b g - reg * rsum n (fun i => rsum m (fun j => exp ((f i + g j - M i j) / reg))).
(** potentials returned by the entropic branch are the dual potentials divided by reg: reg times them
    is the only maximiser of the dual (up to the usual constant), they are none themselves unless reg = 1
    or they cancel everywhere, and the value is reg times their
    pairing with the weights *)
Theorem C157_potentials : forall ex lg tiny tol9 tol12 n m (run : ssolver -> sargs (N:=RNum) -> sout (N:=RNum)) (M : mat) (a b : vec) (reg : R) c0 rt uty method max_iter G0 warm tol grad r,
  0 < reg -> grad <> GLast -> (forall s, rt = RName s -> lower s = "entropy" \/ lower s = "kl") -> (exists s, rt = RName s) ->
  (forall g : sargs (N:=RNum), s_M g = M -> s_a g = a -> s_b g = b -> s_reg g = Some reg -> coupling n m a b (so_plan (run SSink g)) /\
     forall i j, (i < n)%nat -> (j < m)%nat -> so_plan (run SSink g) i j = exp (so_u (run SSink g) i + so_v (run SSink g) j - M i j / reg)) ->
  sol ex lg tiny tol9 tol12 n m run M (Some a) (Some b) (Some reg) c0 rt None uty method max_iter G0 warm tol grad = SOk r ->
  exists u v : vec, sr_pot r = Some (u, v) /\
    (forall f g, ent_dual n m a b M reg f g <= ent_dual n m a b M reg (fun i => reg * u i) (fun j => reg * v j) /\
       (ent_dual n m a b M reg f g = ent_dual n m a b M reg (fun i => reg * u i) (fun j => reg * v j) ->
        forall i j, (i < n)%nat -> (j < m)%nat -> f i + g j = reg * (u i + v j))) /\
    (reg <> 1 -> (exists i j, (i < n)%nat /\ (j < m)%nat /\ u i + v j <> 0) ->
     ent_dual n m a b M reg u v < ent_dual n m a b M reg (fun i => reg * u i) (fun j => reg * v j)) /\
    cost n m M (sr_plan r) + reg * ent n m (sr_plan r) = reg * (dot n a u + dot m b v).
Proof.
  intros ex lg tiny tol9 tol12 n m run M a b reg c0 rt uty method max_iter G0 warm tol grad r Hr NG HRT (s & RT) HS E.
  specialize (HRT s RT). subst rt.
  assert (X : exists g : sargs (N:=RNum), sr_plan r = so_plan (run SSink g) /\ sr_pot r = Some (so_u (run SSink g), so_v (run SSink g)) /\ s_M g = M /\ s_a g = a /\ s_b g = b /\ s_reg g = Some reg).
  { assert (R0 : Reqb reg 0 = false) by (apply Reqb_false; lra).
    unfold sol, solve in E. rewrite neqb_doc in E. unfold doc_reg in E. cbn [some_or] in E. rewrite R0 in E.
    assert (EK : (rname (N:=RNum) (RName s) "entropy" || rname (N:=RNum) (RName s) "kl")%bool = true) by (cbn [rname]; destruct HRT as [->| ->]; reflexivity).
    rewrite EK in E. unfold sv_sink in E. destruct grad; [| |congruence|]; cbn [andb] in E; cbv zeta in E;
    match type of E with SOk (mkSR _ _ _ (so_plan (run ?q ?g)) _) = SOk _ => exists g; split; [injection E; intros; subst; reflexivity|]; split; [injection E; intros; subst; reflexivity|]; repeat split end. }
  destruct X as (g0 & XP & XU & GM & GA & GB & GR). destruct (HS g0 GM GA GB GR) as (CP & SP). rewrite XP. clear E HS.
  set (P := so_plan (run SSink g0)) in *. set (u := so_u (run SSink g0)) in *. set (v := so_v (run SSink g0)) in *.
  exists u, v. split; [exact XU|]. clear XP XU.
  assert (PP : forall i j, (i < n)%nat -> (j < m)%nat -> 0 < P i j) by (intros; rewrite SP by auto; apply exp_pos).
  assert (LP : forall i j, (i < n)%nat -> (j < m)%nat -> ln (P i j) = u i + v j - M i j / reg) by (intros; rewrite SP, ln_exp by auto; auto).
  destruct CP as (C0 & C1 & C2).
  assert (DS : forall f g : vec, dot n a f + dot m b g = dsum n m (fun i j => P i j * (f i + g j))).
  { intros f g. rewrite (dsum_ext n m _ (fun i j => f i * P i j + g j * P i j)) by (intros; ring). rewrite dsum_plus, dsum_row, dsum_col.
    unfold dot. f_equal; apply rsum_ext; intros; [rewrite C1 by auto|rewrite C2 by auto]; ring. }
  assert (DD : forall f g, ent_dual n m a b M reg f g = dsum n m (fun i j => P i j * (f i + g j) - reg * exp ((f i + g j - M i j) / reg))).
  { intros f g. unfold ent_dual. rewrite DS, dsum_minus, dsum_scal. reflexivity. }
  assert (PT : forall p x mm, 0 < p -> p * x - reg * exp ((x - mm) / reg) <= p * (reg * ln p + mm) - reg * p /\
    (p * x - reg * exp ((x - mm) / reg) = p * (reg * ln p + mm) - reg * p -> x = reg * ln p + mm)).
  { intros p x mm Hp. set (t := (x - mm) / reg - ln p). assert (EX : exp ((x - mm) / reg) = p * exp t) by (unfold t, Rminus at 1; rewrite <- (exp_ln p Hp) at 1; rewrite <- exp_plus; f_equal; unfold Rminus; ring).
    assert (XX : x = reg * ln p + mm + reg * t) by (unfold t; field; lra). rewrite EX, XX.
    destruct (Req_dec t 0) as [T0|T0].
    - rewrite T0, exp_0. split; [right; ring|intros _; ring].
    - assert (H := exp_ineq1 t T0). assert (H2 : 0 < reg * p) by (apply Rmult_lt_0_compat; auto).
      assert (H3 : reg * p * (1 + t) < reg * p * exp t) by (apply Rmult_lt_compat_l; auto). split; [lra|intros; exfalso; lra]. }
  assert (DM : ent_dual n m a b M reg (fun i => reg * u i) (fun j => reg * v j) = dsum n m (fun i j => P i j * (reg * ln (P i j) + M i j) - reg * P i j)).
  { rewrite DD. apply dsum_ext. intros i j Hi Hj. rewrite (LP i j Hi Hj). f_equal; [field; lra|]. f_equal. rewrite SP by auto. f_equal. field. lra. }
  match goal with |- ?A /\ _ => assert (HA : A) end.
  { intros f g. rewrite DM, DD. split.
    + apply dsum_le. intros i j Hi Hj. apply PT. auto.
    + intros EQ i j Hi Hj.
      assert (Z : dsum n m (fun i j => (P i j * (reg * ln (P i j) + M i j) - reg * P i j) - (P i j * (f i + g j) - reg * exp ((f i + g j - M i j) / reg))) = 0) by (rewrite dsum_minus; lra).
      assert (NN : forall p q, (p < n)%nat -> (q < m)%nat -> 0 <= (P p q * (reg * ln (P p q) + M p q) - reg * P p q) - (P p q * (f p + g q) - reg * exp ((f p + g q - M p q) / reg)))
        by (intros p q Hp Hq; assert (V := proj1 (PT (P p q) (f p + g q) (M p q) (PP p q Hp Hq))); lra).
      assert (ZN := dsum_zero n m _ NN Z i j Hi Hj). cbv beta in ZN.
      destruct (PT (P i j) (f i + g j) (M i j) (PP i j Hi Hj)) as (_ & W). rewrite W by lra. rewrite (LP i j Hi Hj). field. lra. }
  split; [exact HA|]. split.
  - intros R1 (i & j & Hi & Hj & NZ). destruct (HA u v) as ([|E] & HU); auto. exfalso.
    specialize (HU E i j Hi Hj). assert (Z : (reg - 1) * (u i + v j) = 0) by lra. apply Rmult_integral in Z. destruct Z; [apply R1; lra|contradiction].
  - rewrite (DS u v). unfold cost, ent. fold (dsum n m (fun i j => M i j * P i j)) (dsum n m (fun i j => P i j * ln (P i j))).
    rewrite <- !dsum_scal, <- dsum_plus. apply dsum_ext. intros i j Hi Hj. rewrite (LP i j Hi Hj). field. lra.
Qed.
Print Assumptions C157_potentials.

(** ** what is ignored *)
(** the balanced regularised problem with a named regularisation ignores the initial potentials
    (documented for Sinkhorn), the initial plan, the reference measure and the method; nothing but the
    entropic unbalanced solver is told the method *)
Theorem C157_ignored : forall ex lg tiny tol9 tol12 n m run M a0 b0 reg c0 s uty method max_iter G0 warm tol grad c0' method' G0' warm' uty',
  reg <> 0 ->
  sol ex lg tiny tol9 tol12 n m run M a0 b0 (Some reg) c0 (RName s) None uty method max_iter G0 warm tol grad =
  sol ex lg tiny tol9 tol12 n m run M a0 b0 (Some reg) c0' (RName s) None uty' method' max_iter G0' warm' tol grad.
Proof.
  intros ex lg tiny tol9 tol12 n m run M a0 b0 reg c0 s uty method max_iter G0 warm tol grad c0' method' G0' warm' uty' Hr.
  unfold sol, solve. rewrite !neqb_doc. unfold doc_reg. cbn [some_or]. assert (R0 : Reqb reg 0 = false) by (apply Reqb_false; auto). rewrite R0. reflexivity.
Qed.
Print Assumptions C157_ignored.
Theorem C157_method : forall ex lg tiny tol9 tol12 n m run M a0 b0 reg0 c0 rt unb uty method method' max_iter G0 warm tol grad,
  (forall g, run SUnb g = run SUnb (mkS (s_M g) (s_a g) (s_b g) (s_reg g) (s_regm g) (s_c g) (s_rt g) (s_div g) (s_iter g) (s_tol g) (s_G0 g) (s_warm g) None)) ->
  sol ex lg tiny tol9 tol12 n m run M a0 b0 reg0 c0 rt unb uty method max_iter G0 warm tol grad =
  sol ex lg tiny tol9 tol12 n m run M a0 b0 reg0 c0 rt unb uty method' max_iter G0 warm tol grad.
Proof.
  intros ex lg tiny tol9 tol12 n m run M a0 b0 reg0 c0 rt unb uty method method' max_iter G0 warm tol grad H.
  unfold sol, solve. rewrite !neqb_doc. destruct (Reqb (doc_reg reg0) 0); [reflexivity|]. destruct unb as [u|]; [|reflexivity].
  destruct (rname (N:=RNum) rt "kl" && uname uty "kl")%bool; [|reflexivity]. unfold sv_unb.
  match goal with |- SOk (mkSR (Some (so_u (run SUnb ?g), _)) _ _ _ _) = SOk (mkSR (Some (so_u (run SUnb ?h), _)) _ _ _ _) => rewrite (H g), (H h) end. reflexivity.
Qed.
Print Assumptions C157_method.

(** ** what is refused *)
Definition s_not_implemented (reg0 : option R) (rt : rtype (N:=RNum)) (unb : option (R * R)) (uty : string) : Prop :=
  (unb <> None /\ lower uty <> "kl" /\ lower uty <> "l2" /\ lower uty <> "tv") \/
  (doc_reg reg0 <> 0 /\ exists s, rt = RName s /\ lower s <> "kl" /\ lower s <> "l2" /\ lower s <> "entropy").
Definition s_no_iteration (reg0 : option R) (rt : rtype (N:=RNum)) (unb : option (R * R)) (grad : gmode) (max_iter : option Z) : Prop :=
  unb = None /\ doc_reg reg0 <> 0 /\ grad = GLast /\ max_iter = Some 0%Z /\ exists s, rt = RName s /\ (lower s = "kl" \/ lower s = "entropy").
Theorem C157_refusals : forall ex lg tiny tol9 tol12 n m run M a0 b0 reg0 c0 rt unb uty method max_iter G0 warm tol grad,
  let res := sol ex lg tiny tol9 tol12 n m run M a0 b0 reg0 c0 rt unb uty method max_iter G0 warm tol grad in
  let NI := s_not_implemented reg0 rt unb uty in let V := s_no_iteration reg0 rt unb grad max_iter in
  (NI -> res = SExn SNotImplemented) /\ (V -> res = SExn SValueError) /\ (~ NI -> ~ V -> exists r, res = SOk r).
Proof.
  intros ex lg tiny tol9 tol12 n m run M a0 b0 reg0 c0 rt unb uty method max_iter G0 warm tol grad res NI V.
  unfold res, NI, V, s_not_implemented, s_no_iteration, sol, solve. clear res NI V. rewrite neqb_doc.
  destruct (Reqb (doc_reg reg0) 0) eqn:R0.
  - apply Reqb_true in R0. destruct unb as [u|].
    + unfold uname. destruct (String.eqb_spec (lower uty) "kl") as [K|K]; [cbn [orb]|].
      { split; [intros [(_ & Y & _)|(Y & _)]; contradiction|]. split; [intros (Y & _); discriminate|]. intros; eexists; reflexivity. }
      destruct (String.eqb_spec (lower uty) "l2") as [K2|K2]; [cbn [orb]|cbn [orb]].
      { split; [intros [(_ & _ & Y & _)|(Y & _)]; contradiction|]. split; [intros (Y & _); discriminate|]. intros; eexists; reflexivity. }
      destruct (String.eqb_spec (lower uty) "tv") as [K3|K3].
      { split; [intros [(_ & _ & _ & Y)|(Y & _)]; contradiction|]. split; [intros (Y & _); discriminate|]. intros; eexists; reflexivity. }
      split; [reflexivity|]. split; [intros (Y & _); discriminate|]. intros Y _. exfalso. apply Y. left. repeat split; auto. discriminate.
    + split; [intros [(Y & _)|(Y & _)]; [congruence|contradiction]|]. split; [intros (_ & Y & _); contradiction|]. intros; eexists; reflexivity.
  - apply Reqb_false in R0. destruct unb as [u|].
    + destruct (rname (N:=RNum) rt "kl" && uname uty "kl")%bool eqn:KK.
      { apply andb_prop in KK. destruct KK as (K1 & K2). unfold uname in K2. apply String.eqb_eq in K2.
        split; [|split; [intros (Y & _); discriminate|intros; eexists; reflexivity]].
        intros [(_ & Y & _)|(_ & s & -> & Y & _)]; [contradiction|]. cbn [rname] in K1. apply String.eqb_eq in K1. contradiction. }
      match goal with |- context [if ?q then _ else SExn SNotImplemented] => destruct q eqn:QQ end.
      * apply andb_prop in QQ. destruct QQ as (Q1 & Q2).
        split; [|split; [intros (Y & _); discriminate|intros; eexists; reflexivity]].
        intros [(_ & Y1 & Y2 & Y3)|(_ & s & RT & Y1 & Y2 & Y3)].
        { unfold uname in Q2. apply orb_prop in Q2. destruct Q2 as [Q2|Q2]; [apply orb_prop in Q2; destruct Q2 as [Q2|Q2]|]; apply String.eqb_eq in Q2; contradiction. }
        { rewrite RT in Q1. cbn [rname] in Q1. apply orb_prop in Q1. destruct Q1 as [Q1|Q1]; [apply orb_prop in Q1; destruct Q1 as [Q1|Q1]|]; apply String.eqb_eq in Q1; contradiction. }
      * split; [reflexivity|]. split; [intros (Y & _); discriminate|]. intros Y _. exfalso. apply Y.
        apply andb_false_iff in QQ. destruct QQ as [Q|Q].
        { right. split; [exact R0|]. destruct rt as [s|f df]; [|discriminate]. exists s. cbn [rname] in Q. apply orb_false_elim in Q. destruct Q as (Q & Q3). apply orb_false_elim in Q. destruct Q as (Q1 & Q2).
          apply String.eqb_neq in Q1, Q2, Q3. auto. }
        { left. unfold uname in Q. apply orb_false_elim in Q. destruct Q as (Q & Q3). apply orb_false_elim in Q. destruct Q as (Q1 & Q2).
          apply String.eqb_neq in Q1, Q2, Q3. split; [discriminate|auto]. }
    + destruct rt as [s|f df].
      2:{ split; [intros [(Y & _)|(_ & s & Y & _)]; [congruence|discriminate]|]. split; [intros (_ & _ & _ & _ & s & Y & _); discriminate|intros; eexists; reflexivity]. }
      cbn [rname]. destruct (String.eqb (lower s) "entropy" || String.eqb (lower s) "kl")%bool eqn:EK.
      * assert (EK' : lower s = "kl" \/ lower s = "entropy") by (apply orb_prop in EK; destruct EK as [Q|Q]; apply String.eqb_eq in Q; auto).
        split; [intros [(Y & _)|(_ & s' & Y & Y1 & _ & Y3)]; [congruence|inversion Y; subst s'; destruct EK'; contradiction]|].
        unfold sv_sink. split.
        { intros (_ & _ & -> & -> & _). reflexivity. }
        intros _ NV. destruct grad; try (eexists; reflexivity). cbn [andb].
        destruct (Z.eqb (so_iter max_iter 1000) 0) eqn:ZZ; [|eexists; reflexivity]. exfalso. apply NV. apply Z.eqb_eq in ZZ. unfold so_iter in ZZ.
        destruct max_iter as [k|]; [|discriminate]. subst k. repeat split; auto. exists s. auto.
      * apply orb_false_elim in EK. destruct EK as (E1 & E2). apply String.eqb_neq in E1, E2.
        destruct (String.eqb_spec (lower s) "l2") as [L2|L2].
        { split; [intros [(Y & _)|(_ & s' & Y & _ & Y2 & _)]; [congruence|inversion Y; subst s'; contradiction]|].
          split; [intros (_ & _ & _ & _ & s' & Y & Y2); inversion Y; subst s'; destruct Y2; contradiction|intros; eexists; reflexivity]. }
        split; [reflexivity|]. split; [intros (_ & _ & _ & _ & s' & Y & Y2); inversion Y; subst s'; destruct Y2; contradiction|].
        intros Y _. exfalso. apply Y. right. split; [exact R0|]. exists s. auto.
Qed.
Print Assumptions C157_refusals.

(** solvers as required exist *)
Theorem C157_solvers_exist : forall n m, exists run, s_truthful ln 0 n m run /\ s_exact n m run.
Proof.
  intros n m.
  destruct (choice (fun (q : ssolver * sargs (N:=RNum)) (T : mat) => let (s, g) := q in
     ((exists S, ss_feasible n m s g S) -> ss_feasible n m s g T) /\
     ((exists S, minimiser (ss_feasible n m s g) (ss_obj ln 0 n m s g) S) -> minimiser (ss_feasible n m s g) (ss_obj ln 0 n m s g) T))) as (pl & Hpl).
  { intros (s & g). destruct (classic (exists S, minimiser (ss_feasible n m s g) (ss_obj ln 0 n m s g) S)) as [(S & HS)|N1].
    - exists S. split; [intros _; apply HS|auto].
    - destruct (classic (exists S, ss_feasible n m s g S)) as [(S & HS)|N2].
      + exists S. split; [auto|intros X; contradiction].
      + exists zeroM. split; intros X; contradiction. }
  exists (fun s g => let T := pl (s, g) in mkSO (N:=RNum) T (cost n m (s_M g) T) (ss_total ln 0 n m s g T) (fun _ => 0) (fun _ => 0) None).
  split.
  - intros s g _ H. destruct (Hpl (s, g)) as (H1 & _). unfold ss_truthful. cbn [so_plan so_cost so_total]. auto.
  - intros s g _ H. destruct (Hpl (s, g)) as (_ & H2). cbn [so_plan]. auto.
Qed.
Print Assumptions C157_solvers_exist.
(** two points, uniform weights, zero cost, reference measure 2 on the diagonal and 1 elsewhere *)
Example C157_case : exists run, s_truthful ln 0 2 2 run /\ s_exact 2 2 run /\
  exists r T, sol exp ln 0 0 0 2 2 run zeroM (Some (fun _ => / 2)) (Some (fun _ => / 2)) (Some 1) (Some (fun i j => if Nat.eqb i j then 2 else 1)) (RName "KL") None "KL" None None None None None GAuto = SOk r /\
    coupling 2 2 (fun _ => / 2) (fun _ => / 2) T /\
    cost 2 2 zeroM T + 1 * mkl1 ln 0 2 2 T (fun i j => if Nat.eqb i j then 2 else 1) < cost 2 2 zeroM (sr_plan r) + 1 * mkl1 ln 0 2 2 (sr_plan r) (fun i j => if Nat.eqb i j then 2 else 1).
Proof.
  destruct (C157_solvers_exist 2 2) as (run & H1 & H2). exists run. split; [exact H1|]. split; [exact H2|].
  apply (C157_reference_refuted exp ln 0 0 0 2 2 run zeroM (fun _ => / 2) (fun _ => / 2) 1 (fun i j => if Nat.eqb i j then 2 else 1) "KL" None None None None None GAuto 0 1 0 1);
    auto; try lra; try lia; try (intros i Hi; lra); try discriminate.
  - intros i j _ _. destruct (Nat.eqb i j); lra.
  - cbn. assert (0 < ln 2) by (rewrite <- ln_1; apply ln_increasing; lra). rewrite ln_1. lra.
Qed.
