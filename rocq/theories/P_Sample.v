(** C158: what ot.solve_sample solves, reports, ignores and refuses, for arbitrary solvers behind it. *)
From Coq Require Import Reals Lra Lia String ZArith Bool List Classical ClassicalChoice.
From Verif Require Import Num Sums Spec Entropy Lbfgs_model Solve_model Sample_model Sgromov_proofs P_Sinkexist Duals_proofs Solve_proofs P_Solve.
Import ListNotations.
Local Open Scope R_scope.
Local Open Scope string_scope.

(** ** specification of the sample solvers *)
Definition line_cost (p : nat) (Xa Xb : mat) : mat := fun i j => Rabs (Xa i 0%nat - Xb j 0%nat) ^ p.
(** a solution, the returned number being its linear cost *)
Definition solves_with (n m : nat) (a b : option vec) (f : mat -> R) (D T : mat) (v : R) : Prop :=
  minimiser (coupling n m (wa n a) (wb m b)) f T /\ v = cost n m D T.
Definition l_ok (dist : mat -> mat -> string -> mat) (n m : nat) (s : lsolver) (g : largs (N:=RNum)) (o : lout (N:=RNum)) : Prop :=
  match s with
  | LEmd => forall met, l_metric g = Some met -> let D := dist (l_Xa g) (l_Xb g) met in
      (exists T, minimiser (coupling n m (wa n (l_a g)) (wb m (l_b g))) (cost n m D) T) -> solves_with n m (l_a g) (l_b g) (cost n m D) D (lo_plan o) (lo_ret o)
  | L1d => forall p, l_p g = Some p -> let D := line_cost p (l_Xa g) (l_Xb g) in
      (exists T, minimiser (coupling n m (wa n (l_a g)) (wb m (l_b g))) (cost n m D) T) -> exists T, solves_with n m (l_a g) (l_b g) (cost n m D) D T (lo_ret o)
  | LSink => forall met reg, l_metric g = Some met -> l_reg g = Some reg -> 0 < (reg : R) -> let D := dist (l_Xa g) (l_Xb g) met in let f T := cost n m D T + reg * ment ln 0 n m T in
      (exists T, minimiser (coupling n m (wa n (l_a g)) (wb m (l_b g))) f T) -> solves_with n m (l_a g) (l_b g) f D (lo_plan o) (lo_ret o)
  | LLowrank => exists H : mat -> R, lo_lin o = cost n m (dist (l_Xa g) (l_Xb g) "sqeuclidean") (lo_plan o) /\ lo_value o = lo_lin o + some_or 0 (l_reg g : option R) * H (lo_plan o)
  | LGauss => l_Xa g = l_Xb g -> n = m -> l_a g = l_b g -> lo_ret o = 0
  | _ => True
  end.
Definition l_exact dist n m (lrun : lsolver -> largs (N:=RNum) -> lout (N:=RNum)) : Prop := forall s g, l_ok dist n m s g (lrun s g).

Section S.
Variables (ex lg : R -> R) (tiny tol9 tol12 tol7 tol6 : R) (n m : nat) (dist : mat -> mat -> string -> mat).
Variables (run : ssolver -> sargs (N:=RNum) -> sout (N:=RNum)) (lrun : lsolver -> largs (N:=RNum) -> lout (N:=RNum)).
Definition samp (Xa Xb : mat) (a b : option vec) (metric : string) (reg : option R) (c : option mat) (rt : rtype (N:=RNum)) (unb : option (R * R)) (uty : string)
  (lazy : option bool) (batch : option nat) (method : option string) (max_iter : option Z) (G0 : option mat) (rank : nat) (scaling : R)
  (warm : option (vec * vec)) (tol : option R) (grad : gmode) (seed : option nat) : pans (N:=RNum) :=
  solve_sample (N:=RNum) ex lg tiny INR tol9 tol12 tol7 tol6 n m dist run lrun Xa Xb a b metric reg c rt unb uty lazy batch method max_iter G0 rank scaling warm tol grad seed.
End S.
(** the methods of the documentation that select a large scale solver *)
Definition large_scale (method : option string) : Prop := exists s, method = Some s /\
  In (lower s) ["1d"; "gaussian"; "lowrank"; "nystroem"; "factored"; "geomloss"; "geomloss_auto"; "geomloss_tensorized"; "geomloss_online"; "geomloss_multiscale"].
Definition plain_method (method : option string) : Prop := ~ large_scale method /\ prefix "geomloss" (low_method method) = false.
Lemma in_list_iff : forall s l, in_list s l = true <-> In s l.
Proof. intros s l. unfold in_list. rewrite existsb_exists. split; [intros (x & H & E); apply String.eqb_eq in E; subst; auto|intros H; exists s; split; auto; apply String.eqb_refl]. Qed.
Lemma listed_iff : forall method, listed method = true <-> large_scale method.
Proof.
  intros [s|]; unfold listed, large_scale.
  - rewrite in_list_iff. split; [intros H; exists s; auto|intros (x & E & H); inversion E; subst; auto].
  - split; [discriminate|intros (x & E & _); discriminate].
Qed.
Lemma not_listed : forall method, ~ large_scale method -> listed method = false.
Proof. intros method H. destruct (listed method) eqn:E; auto. apply listed_iff in E. contradiction. Qed.
Lemma noreg_iff : forall reg : option R, no_reg (N:=RNum) reg = Reqb (doc_reg reg) 0.
Proof. intros [r|]; unfold no_reg, doc_reg; cbn [some_or]; [reflexivity|]. symmetry. apply Reqb_true. reflexivity. Qed.
(** the names tested one by one are in the list *)
Lemma not_name : forall method s, listed method = false -> In s lst_method_lazy -> String.eqb (low_method method) s = false.
Proof.
  intros method s L H. apply String.eqb_neq. intros E. unfold listed in L. destruct method as [t|]; cbn [low_method] in E.
  - rewrite E in L. assert (X := proj2 (in_list_iff s lst_method_lazy) H). congruence.
  - subst s. cbn in H. repeat (destruct H as [H|H]; [discriminate|]). contradiction.
Qed.

(** ** without lazy *)
(** the problem of the samples' cost matrix is solved: value_linear and value are those of the plan,
    and the plan is a solution of the documented problem in the cases of C157 *)
Theorem C158_dense : forall ex lg tiny tol9 tol12 tol7 tol6 n m dist run lrun Xa Xb a b metric reg c rt unb uty lazy batch method max_iter G0 rank scaling warm tol grad seed r,
  s_truthful lg tiny n m run -> s_exact n m run -> ~ large_scale method -> lazy <> Some true -> 0 <= doc_reg reg ->
  samp ex lg tiny tol9 tol12 tol7 tol6 n m dist run lrun Xa Xb a b metric reg c rt unb uty lazy batch method max_iter G0 rank scaling warm tol grad seed = POk r ->
  let M := dist Xa Xb metric in
  exists T, p_plan r = Some T /\ p_lazy r = None /\
    ((unb = None -> exists T, coupling n m (wa n a) (wb m b) T) ->
     p_lin r = Some (cost n m M T) /\ p_value r = Some (reported lg tiny n m M a b reg c rt unb uty T)) /\
    (grad <> GLast -> (unb = None -> covered n m (wa n a) (wb m b) (doc_reg reg) c rt) ->
     let P := s_feasible n m (wa n a) (wb m b) unb in let f := s_obj n m (wa n a) (wb m b) (wc n m a b c) M (doc_reg reg) rt unb uty in
     (exists S, minimiser P f S) -> minimiser P f T).
Proof.
  intros ex lg tiny tol9 tol12 tol7 tol6 n m dist run lrun Xa Xb a b metric reg c rt unb uty lazy batch method max_iter G0 rank scaling warm tol grad seed r HT HX NL LZ Hr E M.
  unfold samp, solve_sample in E. rewrite (not_listed method NL) in E.
  assert (Z : truthy lazy = false) by (destruct lazy as [[|]|]; auto; congruence). rewrite Z in E. cbn [orb negb] in E. unfold p_dense in E.
  match type of E with match ?x with _ => _ end = _ => destruct x as [q|[|]] eqn:EQ; try discriminate end.
  assert (RQ : r = mkP (sr_pot q) (Some (sr_value q)) (Some (sr_lin q)) (Some (sr_plan q)) None (sr_status q)) by congruence. rewrite RQ. cbn [p_plan p_lazy p_lin p_value].
  exists (sr_plan q). split; [reflexivity|]. split; [reflexivity|]. split.
  - intros HC. destruct (C157_reports ex lg tiny tol9 tol12 n m run M a b reg c rt unb uty method max_iter G0 warm tol grad q HT Hr HC EQ) as (H1 & H2 & _).
    rewrite H1, H2. auto.
  - intros NG HC. exact (C157_solves ex lg tiny tol9 tol12 n m run M a b reg c rt unb uty method max_iter G0 warm tol grad q HX Hr NG HC EQ).
Qed.
Print Assumptions C158_dense.

(** ** lazy, exact *)
(** solves the same problem, gives the plan, and the value of lazy=False *)
Theorem C158_lazy_exact : forall ex lg tiny tol9 tol12 tol7 tol6 n m dist run lrun Xa Xb a b metric reg c rt uty batch max_iter G0 rank scaling warm tol grad seed,
  l_exact dist n m lrun -> doc_reg reg = 0 ->
  let M := dist Xa Xb metric in
  (exists T, minimiser (coupling n m (wa n a) (wb m b)) (cost n m M) T) ->
  exists r T, samp ex lg tiny tol9 tol12 tol7 tol6 n m dist run lrun Xa Xb a b metric reg c rt None uty (Some true) batch None max_iter G0 rank scaling warm tol grad seed = POk r /\
    p_plan r = Some T /\ minimiser (coupling n m (wa n a) (wb m b)) (cost n m M) T /\ p_value r = Some (cost n m M T) /\ p_lin r = Some (cost n m M T) /\
    forall r' grad' c' rt' warm' tol', s_truthful lg tiny n m run -> s_exact n m run -> grad' <> GLast ->
      samp ex lg tiny tol9 tol12 tol7 tol6 n m dist run lrun Xa Xb a b metric reg c' rt' None uty (Some false) batch None max_iter G0 rank scaling warm' tol' grad' seed = POk r' ->
      p_value r' = p_value r /\ p_lin r' = p_lin r.
Proof.
  intros ex lg tiny tol9 tol12 tol7 tol6 n m dist run lrun Xa Xb a b metric reg c rt uty batch max_iter G0 rank scaling warm tol grad seed HL R0 M HM.
  unfold samp at 1. unfold solve_sample. cbn [listed truthy orb negb andb]. rewrite noreg_iff, (proj2 (Reqb_true _ _) R0). cbn [andb]. unfold p_emd.
  match goal with |- context [lrun LEmd ?g] => assert (H := HL LEmd g metric eq_refl HM); set (o := lrun LEmd g) in * end. cbn [l_a l_b l_Xa l_Xb] in H. fold M in H.
  destruct H as (H1 & H2). eexists. exists (lo_plan o). split; [reflexivity|]. cbn [p_plan p_value p_lin]. split; [reflexivity|]. split; [exact H1|]. split; [f_equal; exact H2|]. split; [f_equal; exact H2|].
  intros r' grad' c' rt' warm' tol' HT HX NG E.
  destruct (C158_dense ex lg tiny tol9 tol12 tol7 tol6 n m dist run lrun Xa Xb a b metric reg c' rt' None uty (Some false) batch None max_iter G0 rank scaling warm' tol' grad' seed r' HT HX) as (T' & P1 & _ & P3 & P4); auto.
  { intros (s & D & _). discriminate. }
  { discriminate. }
  { lra. }
  fold M in P3, P4. destruct P3 as (P5 & P6); [intros _; exists (lo_plan o); apply H1|].
  assert (P7 : minimiser (coupling n m (wa n a) (wb m b)) (s_obj n m (wa n a) (wb m b) (wc n m a b c') M (doc_reg reg) rt' None uty) T').
  { apply P4; [exact NG|intros _; left; exact R0|]. exists (lo_plan o). destruct H1 as (Q1 & Q2). split; [exact Q1|]. intros S HS. unfold s_obj. rewrite R0, !Rmult_0_l, !Rplus_0_r. apply Q2. exact HS. }
  assert (VV : cost n m M T' = cost n m M (lo_plan o)).
  { destruct P7 as (Q1 & Q2). destruct H1 as (Q3 & Q4). specialize (Q2 _ Q3). specialize (Q4 _ Q1). unfold s_obj in Q2. rewrite R0, !Rmult_0_l, !Rplus_0_r in Q2. lra. }
  rewrite P5, P6. unfold reported. rewrite (proj2 (Reqb_true _ _) R0). rewrite VV, H2. auto.
Qed.
Print Assumptions C158_lazy_exact.

(** ** lazy, regularised *)
Lemma lazy_sink : forall ex lg tiny tol9 tol12 tol7 tol6 n m dist run lrun Xa Xb a b metric reg c rt uty batch method max_iter G0 rank scaling warm tol grad seed,
  plain_method method -> doc_reg reg <> 0 ->
  samp ex lg tiny tol9 tol12 tol7 tol6 n m dist run lrun Xa Xb a b metric reg c rt None uty (Some true) batch method max_iter G0 rank scaling warm tol grad seed =
  let o := lrun LSink (mkL (N:=RNum) Xa Xb a b (Some metric) None reg (od max_iter 1000%Z) (od tol tol9) None (od batch 100%nat) None None None None) in
  POk (mkP (Some (lo_u o, lo_v o)) None (Some (lo_ret o)) None (Some (lo_plan o)) None).
Proof.
  intros ex lg tiny tol9 tol12 tol7 tol6 n m dist run lrun Xa Xb a b metric reg c rt uty batch method max_iter G0 rank scaling warm tol grad seed (L & P) R0.
  apply not_listed in L. unfold samp, solve_sample. rewrite L. cbn [truthy orb negb]. rewrite noreg_iff, (proj2 (Reqb_false _ _) R0). rewrite andb_false_r. cbn [andb].
  rewrite !(not_name method) by (auto; cbn; tauto). rewrite P. unfold p_sink. rewrite noreg_iff, (proj2 (Reqb_false _ _) R0). reflexivity.
Qed.
(** the lazy plan solves the entropic problem whatever reg_type and c are, value_linear is its linear
    cost, and value is missing; with positive weights it is the plan of lazy=False with the entropy, or
    with the Kullback-Leibler divergence and no reference measure *)
Theorem C158_lazy_entropic : forall ex lg tiny tol9 tol12 tol7 tol6 n m dist run lrun Xa Xb a b metric reg c rt uty batch method max_iter G0 rank scaling warm tol grad seed,
  l_exact dist n m lrun -> (0 < n)%nat -> (0 < m)%nat -> pos_vec n (wa n a) -> pos_vec m (wb m b) -> mass n (wa n a) = mass m (wb m b) -> 0 < reg -> plain_method method ->
  let M := dist Xa Xb metric in
  exists r T, samp ex lg tiny tol9 tol12 tol7 tol6 n m dist run lrun Xa Xb a b metric (Some reg) c rt None uty (Some true) batch method max_iter G0 rank scaling warm tol grad seed = POk r /\
    p_lazy r = Some T /\ p_plan r = None /\ p_value r = None /\ p_lin r = Some (cost n m M T) /\
    minimiser (coupling n m (wa n a) (wb m b)) (ent_obj n m M reg) T /\
    forall r' s method' grad' warm' tol', s_truthful lg tiny n m run -> s_exact n m run -> grad' <> GLast -> ~ large_scale method' -> lower s = "entropy" \/ lower s = "kl" ->
      samp ex lg tiny tol9 tol12 tol7 tol6 n m dist run lrun Xa Xb a b metric (Some reg) None (RName s) None uty (Some false) batch method' max_iter G0 rank scaling warm' tol' grad' seed = POk r' ->
      exists T', p_plan r' = Some T' /\ (forall i j, (i < n)%nat -> (j < m)%nat -> T' i j = T i j) /\ p_lin r' = p_lin r.
Proof.
  intros ex lg tiny tol9 tol12 tol7 tol6 n m dist run lrun Xa Xb a b metric reg c rt uty batch method max_iter G0 rank scaling warm tol grad seed HL Hn Hm Ha Hb HE Hr HP M.
  assert (R0 : doc_reg (Some reg) <> 0) by (unfold doc_reg; cbn [some_or]; lra).
  destruct (C127_exists_unique n m (wa n a) (wb m b) M reg Hn Hm Ha Hb HE Hr) as (P & (CP & _) & _ & MP).
  rewrite (lazy_sink ex lg tiny tol9 tol12 tol7 tol6 n m dist run lrun Xa Xb a b metric (Some reg) c rt uty batch method max_iter G0 rank scaling warm tol grad seed HP R0). cbv zeta.
  assert (EM : forall T, cost n m M T + reg * ment ln 0 n m T = ent_obj n m M reg T).
  { intros T. unfold ent_obj, ent, ment. f_equal. f_equal. apply rsum_ext; intros. apply rsum_ext; intros. rewrite Rplus_0_r. reflexivity. }
  assert (MX : minimiser (coupling n m (wa n a) (wb m b)) (fun T => cost n m M T + reg * ment ln 0 n m T) P).
  { split; [exact CP|]. intros S HS. rewrite !EM. apply MP. exact HS. }
  match goal with |- context [lrun LSink ?g] => assert (H := HL LSink g metric reg eq_refl eq_refl Hr (ex_intro _ P MX)); set (o := lrun LSink g) in * end. cbn [l_a l_b l_Xa l_Xb] in H. fold M in H.
  destruct H as ((H1 & H1') & H2).
  assert (LE : ent_obj n m M reg (lo_plan o) <= ent_obj n m M reg P) by (rewrite <- !EM; apply H1'; exact CP).
  assert (EQ := proj2 (MP (lo_plan o) H1) LE).
  eexists. exists (lo_plan o). split; [reflexivity|]. cbn [p_plan p_value p_lin p_lazy]. repeat (split; [reflexivity|]). split; [f_equal; exact H2|].
  split; [split; [exact H1|intros S HS; rewrite <- !EM; apply H1'; exact HS]|].
  intros r' s method' grad' warm' tol' HT HX NG NL HS E.
  destruct (C158_dense ex lg tiny tol9 tol12 tol7 tol6 n m dist run lrun Xa Xb a b metric (Some reg) None (RName s) None uty (Some false) batch method' max_iter G0 rank scaling warm' tol' grad' seed r' HT HX) as (T' & P1 & _ & P3 & P4); auto.
  { discriminate. }
  { unfold doc_reg. cbn [some_or]. lra. }
  fold M in P3, P4. exists T'. split; [exact P1|].
  destruct P3 as (P5 & P6); [intros _; exists P; exact CP|].
  assert (CK : exists k, forall T, coupling n m (wa n a) (wb m b) T -> s_obj n m (wa n a) (wb m b) (wc n m a b None) M (doc_reg (Some reg)) (RName s) None uty T = ent_obj n m M reg T + k).
  { unfold s_obj, doc_reg. cbn [some_or]. destruct HS as [ES|ES].
    - exists (- (reg * mass n (wa n a))). intros T HT'. rewrite <- EM. unfold Rdoc. rewrite ES. cbn. rewrite (coup_total n m _ _ T HT'). ring.
    - destruct (mkl_const n m (wa n a) (wb m b) Ha Hb) as (k & Hk). exists (reg * k). intros T HT'. rewrite <- EM. unfold Rdoc, wc. rewrite ES. cbn [some_or]. change (String.eqb "kl" "kl") with true. cbv iota.
      change (wab n m a b) with (fun i j => wa n a i * wb m b j). rewrite (Hk T HT'). ring. }
  destruct CK as (k & CK).
  assert (P7 : minimiser (coupling n m (wa n a) (wb m b)) (ent_obj n m M reg) T').
  { apply (min_const _ _ (ent_obj n m M reg) k T' CK). apply P4; [exact NG|intros _; right; destruct HS as [HS|HS]; auto|]. exists P. apply (min_const _ _ (ent_obj n m M reg) k P CK). split; [exact CP|]. intros S HS'. apply MP. exact HS'. }
  destruct P7 as (Q1 & Q2). assert (EQ' := proj2 (MP T' Q1) (Q2 P CP)).
  assert (TT : forall i j, (i < n)%nat -> (j < m)%nat -> T' i j = lo_plan o i j) by (intros; rewrite EQ, EQ' by auto; auto).
  split; [exact TT|]. rewrite P5. assert (X : cost n m M T' = lo_ret o).
  { symmetry. etransitivity; [exact H2|]. unfold cost. apply rsum_ext; intros; apply rsum_ext; intros. rewrite TT by auto. reflexivity. }
  rewrite X. reflexivity.
Qed.
Print Assumptions C158_lazy_entropic.

(** so with lazy=True the quadratic regularisation is not what is solved: two points, unit cost between
    them, uniform weights, any reg > 0 *)
Theorem C158_lazy_reg_type_refuted : forall ex lg tiny tol9 tol12 tol7 tol6 dist run lrun Xa Xb metric reg uty batch max_iter G0 rank scaling warm tol grad seed,
  l_exact dist 2 2 lrun -> 0 < reg ->
  let M := dist Xa Xb metric in
  M 0%nat 0%nat = 0 -> M 1%nat 1%nat = 0 -> M 0%nat 1%nat = 1 -> M 1%nat 0%nat = 1 ->
  exists r T S, samp ex lg tiny tol9 tol12 tol7 tol6 2 2 dist run lrun Xa Xb None None metric (Some reg) None (RName "L2") None uty (Some true) batch None max_iter G0 rank scaling warm tol grad seed = POk r /\
    p_lazy r = Some T /\ coupling 2 2 (uniform 2) (uniform 2) S /\
    cost 2 2 M S + reg * Rdoc ln 0 2 2 (RName "L2") (fun _ _ => / 4) S < cost 2 2 M T + reg * Rdoc ln 0 2 2 (RName "L2") (fun _ _ => / 4) T.
Proof.
  intros ex lg tiny tol9 tol12 tol7 tol6 dist run lrun Xa Xb metric reg uty batch max_iter G0 rank scaling warm tol grad seed HL Hr M M00 M11 M01 M10.
  assert (U2 : forall i, uniform 2 i = / 2) by (intros; unfold uniform; cbn; lra).
  assert (PU : pos_vec 2 (uniform 2)) by (intros i _; rewrite U2; lra).
  destruct (C158_lazy_entropic ex lg tiny tol9 tol12 tol7 tol6 2 2 dist run lrun Xa Xb None None metric reg None (RName "L2") uty batch None max_iter G0 rank scaling warm tol grad seed HL) as (r & T & E & EL & _ & _ & _ & MT & _); auto.
  { split; [intros (s & D & _); discriminate|reflexivity]. }
  fold M in MT. change (wa 2 None) with (uniform 2) in MT. change (wb 2 None) with (uniform 2) in MT.
  destruct (C127_exists_unique 2 2 (uniform 2) (uniform 2) M reg ltac:(lia) ltac:(lia) PU PU eq_refl Hr) as (P & (CP & u & v & Hu & Hv & SP) & _ & MP).
  assert (EQ : forall i j, (i < 2)%nat -> (j < 2)%nat -> T i j = P i j) by (apply MP; [apply MT|apply MT; exact CP]).
  assert (K00 := SP 0%nat 0%nat ltac:(lia) ltac:(lia)). assert (K01 := SP 0%nat 1%nat ltac:(lia) ltac:(lia)). assert (K10 := SP 1%nat 0%nat ltac:(lia) ltac:(lia)). assert (K11 := SP 1%nat 1%nat ltac:(lia) ltac:(lia)).
  rewrite M00 in K00. rewrite M01 in K01. rewrite M10 in K10. rewrite M11 in K11.
  replace (- 0 / reg) with 0 in K00, K11 by (field; lra). rewrite exp_0 in K00, K11. set (e := exp (- (1) / reg)) in *.
  assert (He : 0 < e) by apply exp_pos.
  rewrite <- EQ in K00, K01, K10, K11 by lia.
  destruct MT as ((T0 & TR & TC) & _).
  assert (R0 := TR 0%nat ltac:(lia)). assert (R1 := TR 1%nat ltac:(lia)). assert (C0 := TC 0%nat ltac:(lia)). assert (C1 := TC 1%nat ltac:(lia)).
  unfold row_sum, col_sum in R0, R1, C0, C1. cbn [rsum] in R0, R1, C0, C1. rewrite U2 in R0, R1, C0, C1.
  set (p := T 0%nat 1%nat) in *. assert (T10 : T 1%nat 0%nat = p) by lra. assert (T00 : T 0%nat 0%nat = / 2 - p) by lra. assert (T11 : T 1%nat 1%nat = / 2 - p) by lra.
  assert (Hp : 0 < p) by (rewrite K01; apply Rmult_lt_0_compat; [apply Rmult_lt_0_compat; [apply Hu; lia|auto]|apply Hv; lia]).
  assert (PR : p * p = (/ 2 - p) * (/ 2 - p) * (e * e)).
  { rewrite <- T10 at 2. rewrite <- T00 at 1. rewrite <- T11 at 1. rewrite K00, K11, K01, K10. ring. }
  assert (Hq : 0 < / 2 - p) by (rewrite <- T00, K00; rewrite Rmult_1_r; apply Rmult_lt_0_compat; [apply Hu|apply Hv]; lia).
  assert (PE : p = (/ 2 - p) * e).
  { assert (Z : (p - (/ 2 - p) * e) * (p + (/ 2 - p) * e) = 0) by (ring_simplify; ring_simplify in PR; lra).
    apply Rmult_integral in Z. assert (0 < (/ 2 - p) * e) by (apply Rmult_lt_0_compat; auto). destruct Z; lra. }
  (* the slope of the quadratic objective at the entropic plan *)
  assert (SL : 0 < 2 + reg * (4 * p - 1)).
  { set (x := / reg). assert (Hx : 0 < x) by (apply Rinv_0_lt_compat; auto). assert (EX : reg * x = 1) by (unfold x; field; lra).
    assert (EB : 1 - x <= e). { unfold e. replace (- (1) / reg) with (- x) by (unfold x; field; lra). assert (Q := exp_ineq1 (- x) ltac:(lra)). lra. }
    assert (G : 1 - 2 * x < 4 * p).
    { destruct (Rlt_or_le (/ 2) x); [lra|]. assert (PP : p * (1 + e) = e / 2) by lra.
      assert (4 * p * (1 + e) = 2 * e) by lra. apply Rmult_lt_reg_r with (1 + e); [lra|]. rewrite H0. nra. }
    assert (V : reg * (1 - 2 * x) < reg * (4 * p)) by (apply Rmult_lt_compat_l; auto). lra. }
  set (d := 2 + reg * (4 * p - 1)) in *.
  (* a small step in that direction *)
  set (t := Rmin p (d / (4 * reg))). assert (Ht : 0 < t) by (unfold t; apply Rmin_pos; auto; apply Rdiv_lt_0_compat; lra).
  assert (Ht1 : t <= p) by apply Rmin_l. assert (Ht2 : t <= d / (4 * reg)) by apply Rmin_r.
  assert (Ht3 : 4 * reg * t <= d). { apply Rmult_le_compat_l with (r := 4 * reg) in Ht2; [|lra]. replace (4 * reg * (d / (4 * reg))) with d in Ht2 by (field; lra). exact Ht2. }
  exists r, T, (fun i j => if Nat.eqb i j then / 2 - p + t else p - t). split; [exact E|]. split; [exact EL|]. split.
  { split; [|split].
    - intros i j _ _. destruct (Nat.eqb i j); lra.
    - intros i Hi. rewrite U2. unfold row_sum. destruct i as [|[|i]]; [| |lia]; cbn; lra.
    - intros i Hi. rewrite U2. unfold col_sum. destruct i as [|[|i]]; [| |lia]; cbn; lra. }
  unfold cost, Rdoc. change (String.eqb (lower "L2") "kl") with false. change (String.eqb (lower "L2") "entropy") with false. cbv iota. unfold half_sq. cbn [rsum Nat.eqb].
  rewrite M00, M01, M10, M11, T00, T10, T11. fold p.
  assert (F : 2 * t * t * reg < t * d) by nra. unfold d in F. lra.
Qed.
Print Assumptions C158_lazy_reg_type_refuted.

(** ** what is ignored *)
(** a large scale method ignores unbalanced, unbalanced_type, reg_type, c, the initial plan and the
    initial potentials, and the batch size *)
Theorem C158_methods_ignore : forall ex lg tiny tol9 tol12 tol7 tol6 n m dist run lrun Xa Xb a b metric reg c rt unb uty lazy batch method max_iter G0 rank scaling warm tol grad seed c' rt' unb' uty' batch' G0' warm' grad',
  large_scale method ->
  samp ex lg tiny tol9 tol12 tol7 tol6 n m dist run lrun Xa Xb a b metric reg c rt unb uty lazy batch method max_iter G0 rank scaling warm tol grad seed =
  samp ex lg tiny tol9 tol12 tol7 tol6 n m dist run lrun Xa Xb a b metric reg c' rt' unb' uty' lazy batch' method max_iter G0' rank scaling warm' tol grad' seed.
Proof.
  intros ex lg tiny tol9 tol12 tol7 tol6 n m dist run lrun Xa Xb a b metric reg c rt unb uty lazy batch method max_iter G0 rank scaling warm tol grad seed c' rt' unb' uty' batch' G0' warm' grad' H.
  assert (L := proj2 (listed_iff method) H). destruct H as (s & -> & H). unfold samp, solve_sample. rewrite L. cbn [orb negb andb].
  assert (D : prefix "geomloss" (low_method (Some s)) = true \/ In (lower s) ["1d"; "gaussian"; "lowrank"; "nystroem"; "factored"]).
  { cbn [low_method]. cbn in H. repeat (destruct H as [H|H]; [rewrite <- H; cbn; tauto|]). contradiction. }
  destruct D as [D|D].
  - rewrite D. reflexivity.
  - cbn [low_method]. cbn in D. repeat (destruct D as [D|D]; [rewrite <- D; reflexivity|]). contradiction.
Qed.
Print Assumptions C158_methods_ignore.
(** so the unbalanced problem is not solved: whenever giving up all mass is cheaper than every
    coupling, the value reported by method '1d' exceeds the objective at some admissible plan *)
Theorem C158_unbalanced_refuted : forall ex lg tiny tol9 tol12 tol7 tol6 n m dist run lrun Xa Xb a b reg c rt l uty lazy batch s max_iter G0 rank scaling warm tol grad seed,
  l_exact dist n m lrun -> lower s = "1d" ->
  let M := line_cost 2 Xa Xb in
  (exists T, minimiser (coupling n m (wa n a) (wb m b)) (cost n m M) T) ->
  (forall T, coupling n m (wa n a) (wb m b) T -> unb_obj ln 0 n m (wa n a) (wb m b) (wc n m a b c) M 0 rt l uty zeroM < cost n m M T) ->
  exists r v, samp ex lg tiny tol9 tol12 tol7 tol6 n m dist run lrun Xa Xb a b "sqeuclidean" reg c rt (Some l) uty lazy batch (Some s) max_iter G0 rank scaling warm tol grad seed = POk r /\
    p_value r = Some v /\ nonneg_mat n m zeroM /\ unb_obj ln 0 n m (wa n a) (wb m b) (wc n m a b c) M 0 rt l uty zeroM < v.
Proof.
  intros ex lg tiny tol9 tol12 tol7 tol6 n m dist run lrun Xa Xb a b reg c rt l uty lazy batch s max_iter G0 rank scaling warm tol grad seed HL HS M HM HC.
  unfold samp, solve_sample. assert (L : listed (Some s) = true) by (unfold listed; rewrite HS; reflexivity). rewrite L. cbn [orb negb andb low_method]. rewrite HS.
  change (String.eqb "1d" "1d") with true. cbv iota. unfold p_1d. change (String.eqb "sqeuclidean" "sqeuclidean") with true. cbv iota. cbv zeta.
  match goal with |- context [lrun L1d ?g] => assert (H := HL L1d g 2%nat eq_refl HM); set (o := lrun L1d g) in * end. cbn [l_a l_b l_Xa l_Xb] in H. fold M in H.
  destruct H as (T & (H1 & _) & H2). eexists. exists (lo_ret o). split; [reflexivity|]. split; [reflexivity|]. split; [intros i j _ _; unfold zeroM; lra|].
  rewrite H2. apply HC. exact H1.
Qed.
Print Assumptions C158_unbalanced_refuted.
(** methods 'gaussian' and 'factored' ignore the weights *)
Theorem C158_weights_ignored : forall ex lg tiny tol9 tol12 tol7 tol6 n m dist run lrun Xa Xb a b metric reg c rt unb uty lazy batch s max_iter G0 rank scaling warm tol grad seed a' b',
  lower s = "gaussian" \/ lower s = "factored" ->
  samp ex lg tiny tol9 tol12 tol7 tol6 n m dist run lrun Xa Xb a b metric reg c rt unb uty lazy batch (Some s) max_iter G0 rank scaling warm tol grad seed =
  samp ex lg tiny tol9 tol12 tol7 tol6 n m dist run lrun Xa Xb a' b' metric reg c rt unb uty lazy batch (Some s) max_iter G0 rank scaling warm tol grad seed.
Proof.
  intros ex lg tiny tol9 tol12 tol7 tol6 n m dist run lrun Xa Xb a b metric reg c rt unb uty lazy batch s max_iter G0 rank scaling warm tol grad seed a' b' HS.
  unfold samp, solve_sample. assert (L : listed (Some s) = true) by (unfold listed; destruct HS as [-> | ->]; reflexivity). rewrite L. cbn [orb negb andb low_method].
  destruct HS as [-> | ->]; reflexivity.
Qed.
Print Assumptions C158_weights_ignored.
(** so for equal samples with different weights the Gaussian distance is reported as 0 although the
    squared distance of the weighted means, a lower bound of it, is positive *)
Theorem C158_weights_refuted : forall ex lg tiny tol9 tol12 tol7 tol6 n d dist run lrun X a b reg c rt unb uty lazy batch max_iter G0 rank scaling warm tol grad seed,
  l_exact dist n n lrun -> (exists k, (k < d)%nat /\ rsum n (fun i => a i * X i k) <> rsum n (fun i => b i * X i k)) ->
  exists r, samp ex lg tiny tol9 tol12 tol7 tol6 n n dist run lrun X X (Some a) (Some b) "sqeuclidean" reg c rt unb uty lazy batch (Some "gaussian") max_iter G0 rank scaling warm tol grad seed = POk r /\
    p_value r = Some 0 /\ 0 < rsum d (fun k => (rsum n (fun i => a i * X i k) - rsum n (fun i => b i * X i k)) ^ 2).
Proof.
  intros ex lg tiny tol9 tol12 tol7 tol6 n d dist run lrun X a b reg c rt unb uty lazy batch max_iter G0 rank scaling warm tol grad seed HL (k & Hk & D).
  unfold samp, solve_sample. change (listed (Some "gaussian")) with true. cbn [orb negb andb]. change (low_method (Some "gaussian")) with "gaussian".
  change (String.eqb "gaussian" "1d") with false. change (String.eqb "gaussian" "gaussian") with true. cbv iota. unfold p_gauss. change (sq_metric "sqeuclidean") with true. cbv iota. cbv zeta.
  match goal with |- context [lrun LGauss ?g] => assert (H := HL LGauss g eq_refl eq_refl eq_refl); set (o := lrun LGauss g) in * end.
  eexists. split; [reflexivity|]. split.
  { cbn [p_value]. assert (Z : nmul (n:=RNum) (lo_ret o) (lo_ret o) = 0) by (rewrite H; apply Rmult_0_l). rewrite Z. reflexivity. }
  apply Rlt_le_trans with ((rsum n (fun i => a i * X i k) - rsum n (fun i => b i * X i k)) ^ 2).
  - rewrite <- Rsqr_pow2. apply Rsqr_pos_lt. lra.
  - apply (rsum_le_one d (fun k => (rsum n (fun i => a i * X i k) - rsum n (fun i => b i * X i k)) ^ 2) k); auto. intros. apply pow2_ge_0.
Qed.
Print Assumptions C158_weights_refuted.

(** ** defaults and results of the methods *)
(** reg=None is documented as no regularisation; it is reg = 0 for 'factored' and 'lowrank' but reg = 1
    for 'nystroem' and 1e-6 for 'gaussian' *)
Theorem C158_default_reg : forall ex lg tiny tol9 tol12 tol7 tol6 n m dist run lrun Xa Xb a b metric c rt unb uty lazy batch s max_iter G0 rank scaling warm tol grad seed,
  let call reg := samp ex lg tiny tol9 tol12 tol7 tol6 n m dist run lrun Xa Xb a b metric reg c rt unb uty lazy batch (Some s) max_iter G0 rank scaling warm tol grad seed in
  (lower s = "factored" \/ lower s = "lowrank" -> call None = call (Some 0)) /\
  (lower s = "nystroem" -> call None = call (Some 1)) /\ (lower s = "gaussian" -> call None = call (Some tol6)) /\
  (lower s = "1d" -> forall reg, call None = call reg).
Proof.
  intros ex lg tiny tol9 tol12 tol7 tol6 n m dist run lrun Xa Xb a b metric c rt unb uty lazy batch s max_iter G0 rank scaling warm tol grad seed call.
  unfold call, samp, solve_sample, listed. cbn [low_method andb]. repeat split.
  - intros [-> | ->]; reflexivity.
  - intros ->; reflexivity.
  - intros ->; reflexivity.
  - intros -> reg; reflexivity.
Qed.
Print Assumptions C158_default_reg.
(** the factored, low rank, Nystroem and geomloss methods return a lazy plan, and the same plan in full
    unless lazy=True; the one-dimensional and Gaussian methods return no plan; value_linear is the value
    except for the low rank method (its linear cost) and for the last two (missing) *)
Theorem C158_methods_return : forall ex lg tiny tol9 tol12 tol7 tol6 n m dist run lrun Xa Xb a b metric reg c rt unb uty lazy batch s max_iter G0 rank scaling warm tol grad seed r,
  l_exact dist n m lrun -> large_scale (Some s) ->
  samp ex lg tiny tol9 tol12 tol7 tol6 n m dist run lrun Xa Xb a b metric reg c rt unb uty lazy batch (Some s) max_iter G0 rank scaling warm tol grad seed = POk r ->
  (exists v, p_value r = Some v) /\ p_status r = None /\
  match p_lazy r with
  | Some P => p_plan r = (if truthy lazy then None else Some P) /\
      (lower s = "factored" -> p_lin r = p_value r) /\
      (lower s = "lowrank" -> exists H, p_lin r = Some (cost n m (dist Xa Xb "sqeuclidean") P) /\ p_value r = Some (cost n m (dist Xa Xb "sqeuclidean") P + doc_reg reg * H)) /\
      (lower s = "nystroem" \/ prefix "geomloss" (lower s) = true -> p_lin r = None)
  | None => (lower s = "1d" \/ lower s = "gaussian") /\ p_plan r = None /\ p_lin r = p_value r
  end.
Proof.
  intros ex lg tiny tol9 tol12 tol7 tol6 n m dist run lrun Xa Xb a b metric reg c rt unb uty lazy batch s max_iter G0 rank scaling warm tol grad seed r HL LS E.
  assert (L := proj2 (listed_iff (Some s)) LS). destruct LS as (s' & E' & LS). assert (s' = s) by congruence. subst s'. clear E'.
  unfold samp, solve_sample in E. rewrite L in E. cbn [orb negb andb low_method] in E.
  assert (D : prefix "geomloss" (lower s) = true \/ In (lower s) ["1d"; "gaussian"; "lowrank"; "nystroem"; "factored"]).
  { cbn in LS. repeat (destruct LS as [LS|LS]; [rewrite <- LS; cbn; tauto|]). contradiction. }
  destruct D as [D|D].
  - assert (N1 : forall q, prefix "geomloss" q = false -> String.eqb (lower s) q = false) by (intros q Hq; apply String.eqb_neq; intros X; congruence).
    rewrite !N1 in E by reflexivity. rewrite D in E. unfold p_geom in E. rewrite L in E. cbv zeta in E.
    assert (X : exists v u P, r = mkP (N:=RNum) u (Some v) None (keep (N:=RNum) lazy P) (Some P) None).
    { destruct (split_us (low_method (Some s))) as [|x [|y [|z q]]];
      match type of E with POk (mkP ?u (Some ?v) None (keep lazy ?P) _ None) = POk _ => exists v, u, P; congruence end. }
    destruct X as (v & u & P & ->). cbn [p_value p_status p_lazy p_plan p_lin]. split; [exists v; reflexivity|]. split; [reflexivity|].
    split; [reflexivity|]. split; [intros X; exfalso; revert D; rewrite X; discriminate|]. split; [intros X; exfalso; revert D; rewrite X; discriminate|auto].
  - cbn in D. repeat (destruct D as [D|D]; [|]); try contradiction; rewrite <- D in E; cbn [String.eqb Ascii.eqb Bool.eqb prefix] in E.
    + unfold p_1d in E. cbv zeta in E.
      destruct (String.eqb metric "sqeuclidean"); [|destruct (String.eqb metric "euclidean" || String.eqb metric "cityblock")%bool; [|discriminate]];
      match type of E with POk ?q = POk _ => assert (X : r = q) by congruence end; rewrite X; cbn [p_value p_status p_lazy p_plan p_lin]; (split; [eexists; reflexivity|]); auto.
    + unfold p_gauss in E. cbv zeta in E. destruct (sq_metric metric); [|discriminate].
      match type of E with POk ?q = POk _ => assert (X : r = q) by congruence end; rewrite X; cbn [p_value p_status p_lazy p_plan p_lin]; (split; [eexists; reflexivity|]); auto.
    + unfold p_lowrank in E. cbv zeta in E. destruct (sq_metric metric); [|discriminate].
      match type of E with context [lrun LLowrank ?g] => assert (HH := HL LLowrank g); set (o := lrun LLowrank g) in * end. destruct HH as (H & H1 & H2).
      match type of E with POk ?q = POk _ => assert (X : r = q) by congruence end; rewrite X; cbn [p_value p_status p_lazy p_plan p_lin]; (split; [eexists; reflexivity|]).
      split; [reflexivity|]. split; [reflexivity|]. rewrite <- D. split; [discriminate|]. split; [|intros [Y|Y]; discriminate].
      intros _. exists (H (lo_plan o)). cbn [l_Xa l_Xb l_reg] in H1, H2. rewrite H2, H1. split; [reflexivity|]. destruct reg; reflexivity.
    + unfold p_nys in E. cbv zeta in E. destruct (sq_metric metric); [|discriminate].
      match type of E with POk ?q = POk _ => assert (X : r = q) by congruence end; rewrite X; cbn [p_value p_status p_lazy p_plan p_lin]; (split; [eexists; reflexivity|]).
      split; [reflexivity|]. split; [reflexivity|]. rewrite <- D. split; [discriminate|]. split; [discriminate|auto].
    + unfold p_fact in E. cbv zeta in E. destruct (sq_metric metric); [|discriminate].
      match type of E with POk ?q = POk _ => assert (X : r = q) by congruence end; rewrite X; cbn [p_value p_status p_lazy p_plan p_lin]; (split; [eexists; reflexivity|]).
      split; [reflexivity|]. split; [reflexivity|]. rewrite <- D. split; [auto|]. split; [discriminate|intros [Y|Y]; discriminate].
Qed.
Print Assumptions C158_methods_return.

(** ** what is refused *)
Definition p_not_implemented (metric : string) (reg : option R) (rt : rtype (N:=RNum)) (unb : option (R * R)) (uty : string) (lazy : option bool) (method : option string) : Prop :=
  (~ large_scale method /\ lazy <> Some true /\ s_not_implemented reg rt unb uty) \/
  (exists s, method = Some s /\ lower s = "1d" /\ ~ In metric ["sqeuclidean"; "euclidean"; "cityblock"]) \/
  (exists s, method = Some s /\ In (lower s) ["gaussian"; "factored"; "lowrank"; "nystroem"] /\ lower metric <> "sqeuclidean") \/
  (plain_method method /\ lazy = Some true /\ (unb <> None \/ (doc_reg reg = 0 /\ method <> None))).
Definition p_value_error reg rt unb (lazy : option bool) (method : option string) grad max_iter : Prop :=
  ~ large_scale method /\ lazy <> Some true /\ s_no_iteration reg rt unb grad max_iter.
(** a method that starts like geomloss but is not one of the five, with lazy=True: a variable is read
    before it is assigned *)
Definition p_unbound (lazy : option bool) (method : option string) : Prop :=
  ~ large_scale method /\ lazy = Some true /\ prefix "geomloss" (low_method method) = true.
Theorem C158_refusals : forall ex lg tiny tol9 tol12 tol7 tol6 n m dist run lrun Xa Xb a b metric reg c rt unb uty lazy batch method max_iter G0 rank scaling warm tol grad seed,
  let res := samp ex lg tiny tol9 tol12 tol7 tol6 n m dist run lrun Xa Xb a b metric reg c rt unb uty lazy batch method max_iter G0 rank scaling warm tol grad seed in
  let NI := p_not_implemented metric reg rt unb uty lazy method in let V := p_value_error reg rt unb lazy method grad max_iter in let UB := p_unbound lazy method in
  (NI -> res = PExn PNotImplemented) /\ (V -> res = PExn PValueError) /\ (UB -> res = PExn PUnboundLocal) /\ (~ NI -> ~ V -> ~ UB -> exists r, res = POk r).
Proof.
  intros ex lg tiny tol9 tol12 tol7 tol6 n m dist run lrun Xa Xb a b metric reg c rt unb uty lazy batch method max_iter G0 rank scaling warm tol grad seed res NI V UB.
  unfold NI, V, UB, res, samp, solve_sample, p_not_implemented, p_value_error, p_unbound. clear NI V UB res.
  destruct (listed method) eqn:L.
  - assert (LS := proj1 (listed_iff method) L). cbn [orb negb].
    destruct LS as (s & -> & LS'). assert (LS := proj1 (listed_iff (Some s)) L). cbn [andb low_method].
    assert (D : prefix "geomloss" (lower s) = true \/ In (lower s) ["1d"; "gaussian"; "lowrank"; "nystroem"; "factored"]).
    { cbn in LS'. repeat (destruct LS' as [LS'|LS']; [rewrite <- LS'; cbn; tauto|]). contradiction. }
    split; [|split; [intros (X & _); contradiction|split; [intros (X & _); contradiction|]]].
    + intros [(X & _)|[(s' & E & H1 & H2)|[(s' & E & H1 & H2)|((X & _) & _)]]]; try contradiction; assert (s' = s) by congruence; subst s'.
      * rewrite H1. change (String.eqb "1d" "1d") with true. cbv iota. unfold p_1d. cbv zeta. cbn [In] in H2.
        destruct (String.eqb_spec metric "sqeuclidean") as [Q|Q]; [exfalso; apply H2; auto|]. destruct (String.eqb_spec metric "euclidean") as [Q1|Q1]; [exfalso; apply H2; auto|].
        destruct (String.eqb_spec metric "cityblock") as [Q2|Q2]; [exfalso; apply H2; auto|]. reflexivity.
      * assert (Q : sq_metric metric = false) by (unfold sq_metric; apply String.eqb_neq; exact H2).
        unfold p_gauss, p_fact, p_lowrank, p_nys. rewrite Q. cbn in H1. repeat (destruct H1 as [H1|H1]; [rewrite <- H1; reflexivity|]). contradiction.
    + intros NN _ _. destruct D as [D|D].
      * assert (N1 : forall q, prefix "geomloss" q = false -> String.eqb (lower s) q = false) by (intros q Hq; apply String.eqb_neq; intros X; congruence).
        rewrite !N1 by reflexivity. rewrite D. unfold p_geom. rewrite L. cbv zeta. destruct (split_us (low_method (Some s))) as [|x [|y [|z q]]]; eexists; reflexivity.
      * assert (Q4 : In (lower s) ["gaussian"; "factored"; "lowrank"; "nystroem"] -> sq_metric metric = true).
        { intros H. unfold sq_metric. destruct (String.eqb_spec (lower metric) "sqeuclidean") as [Q|Q]; auto. exfalso. apply NN. right. right. left. exists s. auto. }
        unfold p_1d, p_gauss, p_fact, p_lowrank, p_nys. cbv zeta. cbn in D. destruct D as [D|D].
        { rewrite <- D. change (String.eqb "1d" "1d") with true. cbv iota.
          destruct (String.eqb_spec metric "sqeuclidean") as [Q|Q]; [eexists; reflexivity|]. destruct (String.eqb_spec metric "euclidean") as [Q1|Q1]; [eexists; reflexivity|].
          destruct (String.eqb_spec metric "cityblock") as [Q2|Q2]; [eexists; reflexivity|]. exfalso. apply NN. right. left. exists s. repeat split; auto.
          cbn. intros [X|[X|[X|[]]]]; congruence. }
        rewrite Q4 by (cbn; tauto). repeat (destruct D as [D|D]; [rewrite <- D; eexists; reflexivity|]). contradiction.
  - assert (NL : ~ large_scale method) by (intros X; apply listed_iff in X; congruence).
    assert (N3 : forall s, method = Some s -> In (lower s) lst_method_lazy -> False) by (intros s E H; apply NL; exists s; auto).
    cbn [orb]. destruct (truthy lazy) eqn:LZ; cbn [negb].
    + assert (LT : lazy = Some true) by (destruct lazy as [[|]|]; auto; discriminate).
      rewrite !(not_name method) by (auto; cbn; tauto). unfold p_geom, p_sink, p_emd. rewrite L. cbv zeta. rewrite noreg_iff.
      assert (MD : method = None -> prefix "geomloss" (low_method method) = false) by (intros ->; reflexivity).
      destruct (prefix "geomloss" (low_method method)) eqn:PG.
      * assert (MN : exists s, method = Some s) by (destruct method as [s|]; [eauto|discriminate (MD eq_refl)]). destruct MN as (s & ->). cbn [andb].
        assert (EU : match split_us (low_method (Some s)) with [_; _] => PExn (N:=RNum) PUnboundLocal | _ => PExn PUnboundLocal end = PExn PUnboundLocal) by (destruct (split_us (low_method (Some s))) as [|x [|y [|z q]]]; reflexivity).
        split; [|split; [intros (_ & X & _); congruence|split; [intros _; destruct (split_us (low_method (Some s))) as [|x [|y [|z q]]]; reflexivity|intros _ _ X; exfalso; apply X; auto]]].
        intros [(_ & X & _)|[(s' & E & H1 & _)|[(s' & E & H1 & _)|((_ & X) & _)]]]; [congruence| | |congruence]; exfalso; apply (N3 s' E).
        { rewrite H1. cbn. tauto. }
        { cbn in H1 |- *. tauto. }
      * split; [|split; [intros (_ & X & _); congruence|split; [intros (_ & _ & X); discriminate|]]].
        { intros [(_ & X & _)|[(s' & E & H1 & _)|[(s' & E & H1 & _)|(_ & _ & X)]]]; [congruence|exfalso; apply (N3 s' E); rewrite H1; cbn; tauto|exfalso; apply (N3 s' E); cbn in H1 |- *; tauto|].
          destruct X as [X|(X & Y)].
          - destruct unb as [l|]; [|congruence]. rewrite !andb_false_r. destruct (Reqb (doc_reg reg) 0); reflexivity.
          - rewrite (proj2 (Reqb_true _ _) X). destruct method; [reflexivity|congruence]. }
        { intros NN _ _. assert (UN : unb = None) by (destruct unb; auto; exfalso; apply NN; right; right; right; repeat split; auto; left; discriminate). subst unb.
          destruct (Reqb (doc_reg reg) 0) eqn:R0; [|rewrite andb_false_r; eexists; reflexivity].
          destruct method as [s|]; [|eexists; reflexivity]. exfalso. apply NN. right. right. right. repeat split; auto. right. split; [apply Reqb_true; exact R0|discriminate]. }
    + assert (LT : lazy <> Some true) by (intros ->; discriminate). unfold p_dense.
      destruct (C157_refusals ex lg tiny tol9 tol12 n m run (dist Xa Xb metric) a b reg c rt unb uty method max_iter G0 warm tol grad) as (H1 & H2 & H3).
      unfold sol in H1, H2, H3. split; [|split; [|split]].
      * intros [(_ & _ & X)|[(s' & E & X & _)|[(s' & E & X & _)|(_ & X & _)]]]; [rewrite (H1 X); reflexivity|exfalso; apply (N3 s' E); rewrite X; cbn; tauto|exfalso; apply (N3 s' E); cbn in X |- *; tauto|congruence].
      * intros (_ & _ & X). rewrite (H2 X). reflexivity.
      * intros (_ & X & _). congruence.
      * intros X Y _. destruct H3 as (r & H3); [intros Q; apply X; left; auto|intros Q; apply Y; auto|]. rewrite H3. eexists; reflexivity.
Qed.
Print Assumptions C158_refusals.

(** ** the hypotheses can be met *)
Theorem C158_solvers_exist : forall dist n m, exists lrun, l_exact dist n m lrun.
Proof.
  intros dist n m.
  destruct (choice (fun (q : lsolver * largs (N:=RNum)) (o : lout (N:=RNum)) => let (s, g) := q in l_ok dist n m s g o)) as (f & Hf).
  { intros (s & g). set (mk := fun (v : R) (P : mat) (x l : R) => mkLO (N:=RNum) v P x l 0 0 (fun _ => 0) (fun _ => 0) 1 None).
    destruct s.
    - destruct (l_metric g) as [met|] eqn:E1.
      + destruct (classic (exists T, minimiser (coupling n m (wa n (l_a g)) (wb m (l_b g))) (cost n m (dist (l_Xa g) (l_Xb g) met)) T)) as [(T & HT)|NT].
        * exists (mk (cost n m (dist (l_Xa g) (l_Xb g) met) T) T 0 0). intros met' E. rewrite E1 in E. assert (met' = met) by congruence. subst met'. intros D _. split; [exact HT|reflexivity].
        * exists (mk 0 zeroM 0 0). intros met' E. rewrite E1 in E. assert (met' = met) by congruence. subst met'. intros D X. contradiction.
      + exists (mk 0 zeroM 0 0). intros met' E. congruence.
    - destruct (l_p g) as [p|] eqn:E1.
      + destruct (classic (exists T, minimiser (coupling n m (wa n (l_a g)) (wb m (l_b g))) (cost n m (line_cost p (l_Xa g) (l_Xb g))) T)) as [(T & HT)|NT].
        * exists (mk (cost n m (line_cost p (l_Xa g) (l_Xb g)) T) T 0 0). intros p' E. rewrite E1 in E. assert (p' = p) by congruence. subst p'. intros D _. exists T. split; [exact HT|reflexivity].
        * exists (mk 0 zeroM 0 0). intros p' E. rewrite E1 in E. assert (p' = p) by congruence. subst p'. intros D X. contradiction.
      + exists (mk 0 zeroM 0 0). intros p' E. congruence.
    - exists (mk 0 zeroM 0 0). intros _ _ _. reflexivity.
    - exists (mk 0 zeroM 0 0). exact I.
    - set (v := cost n m (dist (l_Xa g) (l_Xb g) "sqeuclidean") zeroM). exists (mk 0 zeroM v v). exists (fun _ => 0). split; [reflexivity|]. cbn. ring.
    - exists (mk 0 zeroM 0 0). exact I.
    - exists (mk 0 zeroM 0 0). exact I.
    - destruct (l_metric g) as [met|] eqn:E1; [destruct (l_reg g) as [reg|] eqn:E2|].
      + destruct (classic (exists T, minimiser (coupling n m (wa n (l_a g)) (wb m (l_b g))) (fun T => cost n m (dist (l_Xa g) (l_Xb g) met) T + reg * ment ln 0 n m T) T)) as [(T & HT)|NT].
        * exists (mk (cost n m (dist (l_Xa g) (l_Xb g) met) T) T 0 0). intros met' reg' E E'. rewrite E1 in E. rewrite E2 in E'. assert (met' = met) by congruence. assert (reg' = reg) by congruence. subst met' reg'. intros _ D f' _. split; [exact HT|reflexivity].
        * exists (mk 0 zeroM 0 0). intros met' reg' E E'. rewrite E1 in E. rewrite E2 in E'. assert (met' = met) by congruence. assert (reg' = reg) by congruence. subst met' reg'. intros _ D f' X. contradiction.
      + exists (mk 0 zeroM 0 0). intros met' reg' E E'. congruence.
      + exists (mk 0 zeroM 0 0). intros met' reg' E E'. congruence. }
  exists (fun s g => f (s, g)). intros s g. exact (Hf (s, g)).
Qed.
Print Assumptions C158_solvers_exist.
(** samples 0 and 1 on both sides *)
Definition pts01 : mat := fun i _ => INR i.
Definition sqd : mat -> mat -> string -> mat := fun X Y _ i j => (X i 0%nat - Y j 0%nat) ^ 2.
Example C158_case_lazy : exists lrun, l_exact sqd 2 2 lrun /\ forall run, exists r T S,
  samp exp ln 0 0 0 0 0 2 2 sqd run lrun pts01 pts01 None None "sqeuclidean" (Some 1) None (RName "L2") None "KL" (Some true) None None None None 100 0 None None GAuto None = POk r /\
  p_lazy r = Some T /\ coupling 2 2 (uniform 2) (uniform 2) S /\
  cost 2 2 (sqd pts01 pts01 "sqeuclidean") S + 1 * Rdoc ln 0 2 2 (RName "L2") (fun _ _ => / 4) S < cost 2 2 (sqd pts01 pts01 "sqeuclidean") T + 1 * Rdoc ln 0 2 2 (RName "L2") (fun _ _ => / 4) T.
Proof.
  destruct (C158_solvers_exist sqd 2 2) as (lrun & H). exists lrun. split; [exact H|]. intros run.
  apply (C158_lazy_reg_type_refuted exp ln 0 0 0 0 0 sqd run lrun pts01 pts01 "sqeuclidean" 1 "KL" None None None 100 0 None None GAuto None); auto; try lra; unfold sqd, pts01; cbn; ring.
Qed.
(** one point at 0 and one at 3: moving costs 9, giving up costs 2 *)
Example C158_case_unbalanced : exists lrun, l_exact sqd 1 1 lrun /\ forall run, exists r v,
  samp exp ln 0 0 0 0 0 1 1 sqd run lrun (fun _ _ => 0) (fun _ _ => 3) None None "sqeuclidean" None None (RName "KL") (Some (1, 1)) "TV" None None (Some "1D") None None 100 0 None None GAuto None = POk r /\
  p_value r = Some v /\ nonneg_mat 1 1 zeroM /\ unb_obj ln 0 1 1 (wa 1 None) (wb 1 None) (wc 1 1 None None None) (line_cost 2 (fun _ _ => 0) (fun _ _ => 3)) 0 (RName "KL") (1, 1) "TV" zeroM < v.
Proof.
  destruct (C158_solvers_exist sqd 1 1) as (lrun & H). exists lrun. split; [exact H|]. intros run.
  assert (U1 : wa 1 None 0%nat = 1) by (unfold wa, uniform; cbn; field). assert (U2 : wb 1 None 0%nat = 1) by (unfold wb, uniform; cbn; field).
  assert (CC : forall T, coupling 1 1 (wa 1 None) (wb 1 None) T -> cost 1 1 (line_cost 2 (fun _ _ => 0) (fun _ _ => 3)) T = 9).
  { intros T (_ & R & _). specialize (R 0%nat ltac:(lia)). rewrite U1 in R. unfold row_sum in R. cbn in R. unfold cost, line_cost. cbn [rsum]. rewrite <- Rsqr_pow2, <- Rsqr_abs. unfold Rsqr. lra. }
  apply (C158_unbalanced_refuted exp ln 0 0 0 0 0 1 1 sqd run lrun); auto.
  - exists (fun _ _ => 1). assert (C1 : coupling 1 1 (wa 1 None) (wb 1 None) (fun _ _ => 1)).
    { split; [intros i j _ _; lra|split; intros i Hi; assert (i = 0%nat) by lia; subst i; [rewrite U1|rewrite U2]; unfold row_sum, col_sum; cbn; ring]. }
    split; [exact C1|]. intros S HS. rewrite !CC; auto. lra.
  - intros T HT. rewrite CC by exact HT. unfold unb_obj. change (Udoc ln 0 "TV") with tvd. unfold tvd, cost, row_sum, col_sum, zeroM. cbn [rsum fst snd]. rewrite U1, U2.
    replace (0 + 0 - 1) with (- (1)) by ring. rewrite Rabs_Ropp, Rabs_R1. lra.
Qed.
(** samples 0 and 1 with all the weight on one or the other *)
Example C158_case_weights : exists lrun, l_exact sqd 2 2 lrun /\ forall run, exists r,
  samp exp ln 0 0 0 0 0 2 2 sqd run lrun pts01 pts01 (Some (fun i => if Nat.eqb i 0 then 1 else 0)) (Some (fun i => if Nat.eqb i 0 then 0 else 1)) "sqeuclidean" None None (RName "KL") None "KL" None None (Some "gaussian") None None 100 0 None None GAuto None = POk r /\
  p_value r = Some 0 /\ 0 < rsum 1 (fun k => (rsum 2 (fun i => (if Nat.eqb i 0 then 1 else 0) * pts01 i k) - rsum 2 (fun i => (if Nat.eqb i 0 then 0 else 1) * pts01 i k)) ^ 2).
Proof.
  destruct (C158_solvers_exist sqd 2 2) as (lrun & H). exists lrun. split; [exact H|]. intros run.
  apply (C158_weights_refuted exp ln 0 0 0 0 0 2 1 sqd run lrun); auto. exists 0%nat. split; [lia|]. unfold pts01. cbn. lra.
Qed.
