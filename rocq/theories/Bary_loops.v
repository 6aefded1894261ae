(** Entropic barycenters: the log-domain and the stabilised loops. *)
From Coq Require Import Reals Lra Lia Arith Bool List.
Import ListNotations.
From Verif Require Import Num Sums Spec Duals_proofs Entropy Emd1d_model Emd1d_perm_proofs Sinkhorn_model Sinkhorn_proofs Bary_model Bary_proofs Bary_more.
Local Open Scope R_scope.

Section LogRun.
Variables (n h : nat) (M : mat) (reg : R) (A0 : mat) (w : vec) (tiny half : R).
Hypotheses (HA : nonneg_mat n h A0) (Ht : 0 < tiny) (Hn : (0 < n)%nat).
Hypothesis (H1 : rsum h w = 1).
Notation K := (fun i j => exp (- M i j / reg)).
Notation Mr := (fun i j => - M i j / reg).
(** the histograms in use, line 436 *)
Definition Aeps : mat := fun i s => A0 i s + tiny.
Lemma Aeps_pos : forall i s, (i < n)%nat -> (s < h)%nat -> 0 < Aeps i s.
Proof. intros i s Hi Hs. pose proof (HA i s Hi Hs). unfold Aeps. lra. Qed.
Lemma Aeps_nonneg : nonneg_mat n h Aeps. Proof. intros i s Hi Hs. left. apply Aeps_pos; auto. Qed.
Lemma Aeps_mass : forall s, (s < h)%nat -> exists i, (i < n)%nat /\ 0 < Aeps i s.
Proof. intros s Hs. exists 0%nat. split; [lia|apply Aeps_pos; auto]. Qed.
Definition expm (G : mat) : mat := fun j s => exp (G j s).
Lemma expm_pos : forall G, pos_mat n h (expm G). Proof. intros G j s _ _. apply exp_pos. Qed.
Lemma lse_R : forall f, logsumexp (N:=RNum) exp ln n f = ln (rsum n (fun i => exp (f i))).
Proof. intros. unfold logsumexp. rewrite nsum_R. reflexivity. Qed.
Lemma bl_f_R : forall G i s, (i < n)%nat -> (s < h)%nat -> exp (bl_f (N:=RNum) exp ln n A0 Mr tiny G i s) = lscal n K Aeps (expm G) i s.
Proof.
  intros G i s Hi Hs. unfold bl_f. rewrite lse_R. cbn [nsub nadd RNum]. unfold lscal. rewrite <- (exp_ln (Aeps i s)) by (apply Aeps_pos; auto).
  assert (P : 0 < rsum n (fun l => K i l * expm G l s)) by (apply (kv_pos n h M reg); auto; apply expm_pos).
  rewrite (rsum_ext n (fun j => exp (- M i j / reg + G j s)) (fun l => K i l * expm G l s)) by (intros; rewrite exp_plus; auto).
  rewrite <- (exp_ln (rsum n (fun l => K i l * expm G l s))) at 2 by auto. unfold Rdiv. rewrite <- exp_Ropp, <- exp_plus. reflexivity.
Qed.
Lemma bl_KU_R : forall G j s, (s < h)%nat -> bl_KU (N:=RNum) exp ln n A0 Mr tiny G j s = ln (ktv n M reg Aeps (expm G) j s).
Proof.
  intros G j s Hs. unfold bl_KU. rewrite lse_R. f_equal. apply rsum_ext. intros i Hi. cbn [nadd RNum]. rewrite exp_plus, bl_f_R; auto.
Qed.
Lemma bl_bar_R : forall G j, bl_bar (N:=RNum) exp ln n h A0 w Mr tiny G j = rsum h (fun s => w s * ln (ktv n M reg Aeps (expm G) j s)).
Proof. intros. unfold bl_bar. rewrite nsum_R. apply rsum_ext. intros s Hs. rewrite bl_KU_R by auto. reflexivity. Qed.
(** G is a zero of the dual constraint: sum_s w_s G_s = c *)
Definition wG (G : mat) (c : vec) : Prop := forall j, (j < n)%nat -> rsum h (fun s => w s * G j s) = c j.
Lemma wG_tilt : forall G c j, wG G c -> (j < n)%nat -> tilt h w (expm G) j = c j.
Proof. intros G c j HG Hj. unfold tilt. rewrite <- (HG j Hj). apply rsum_ext. intros. unfold expm. rewrite ln_exp. auto. Qed.
Lemma wG_next : forall G (c : vec), wG (fun j s => bl_bar (N:=RNum) exp ln n h A0 w Mr tiny G j + c j - bl_KU (N:=RNum) exp ln n A0 Mr tiny G j s) c.
Proof.
  intros G c j Hj. rewrite (rsum_ext h _ (fun s => (bl_bar (N:=RNum) exp ln n h A0 w Mr tiny G j + c j) * w s - w s * bl_KU (N:=RNum) exp ln n A0 Mr tiny G j s)) by (intros; ring).
  rewrite rsum_minus, rsum_scal, H1. unfold bl_bar. rewrite nsum_R. cbn [nmul RNum]. ring.
Qed.
Lemma wG_next0 : forall G, wG (fun j s => nsub (n:=RNum) (bl_bar (N:=RNum) exp ln n h A0 w Mr tiny G j) (bl_KU (N:=RNum) exp ln n A0 Mr tiny G j s)) (fun _ => 0).
Proof. intros G j Hj. rewrite <- (wG_next G (fun _ => 0) j Hj). apply rsum_ext. intros. cbn [nsub RNum]. rewrite Rplus_0_r. auto. Qed.
Lemma wG_0 : wG (fun _ _ => 0) (fun _ => 0).
Proof. intros j Hj. apply rsum_0. intros. ring. Qed.
Lemma expbar : forall G j, wG G (fun _ => 0) -> (j < n)%nat -> exp (bl_bar (N:=RNum) exp ln n h A0 w Mr tiny G j) = gmean_w h w (scal_col n K Aeps (expm G)) j.
Proof.
  intros G j HG Hj. rewrite (gbar_tilt n h M reg Aeps w Aeps_nonneg Aeps_mass (expm G) j (expm_pos G) Hj), (wG_tilt G (fun _ => 0) j HG Hj), exp_0, Rmult_1_l, bl_bar_R. reflexivity.
Qed.
Lemma bl_err_R : forall std G, bl_err (N:=RNum) exp ln std n h A0 Mr tiny G = rsum n (fun j => std h (fun s => exp (G j s + bl_KU (N:=RNum) exp ln n A0 Mr tiny G j s))).
Proof. intros. unfold bl_err. rewrite nsum_R. reflexivity. Qed.
Lemma exp_GKU : forall G j s, (s < h)%nat -> exp (G j s + bl_KU (N:=RNum) exp ln n A0 Mr tiny G j s) = scal_col n K Aeps (expm G) j s.
Proof. intros. rewrite exp_plus, bl_KU_R, exp_ln by (auto; apply (ktv_pos n h M reg Aeps Aeps_nonneg Aeps_mass); auto using expm_pos). reflexivity. Qed.

Notation bar := (bl_bar (N:=RNum) exp ln n h A0 w Mr tiny).
Lemma bl_post : forall std thr left ii G last errs, wG G (fun _ => 0) -> (last = None -> (0 < left)%nat) ->
  (forall G0 b, last = Some (G0, b) -> wG G0 (fun _ => 0) /\ b = bar G0) ->
  exists o, bl_loop (N:=RNum) exp ln std n h A0 w Mr tiny thr left ii G last errs = Some o /\ wG (bl_G o) (fun _ => 0) /\ bl_logbar o = bar (bl_G o) /\
  (forall k, bl_exit o <> NumErr k) /\
  (forall k, bl_exit o = Converged k -> Nat.modulo k 10 = 1%nat /\ bl_err (N:=RNum) exp ln std n h A0 Mr tiny (bl_G o) < thr).
Proof.
  intros std thr. induction left as [|left IH]; intros ii G last errs HG H0 HL; cbn [bl_loop].
  - destruct last as [[G0 b]|]; [|specialize (H0 eq_refl); lia]. destruct (HL G0 b eq_refl) as [L1 L2].
    eexists. split; [reflexivity|]. cbn. split; [auto|]. split; [auto|]. split; discriminate.
  - cbv zeta. assert (R1 : forall e, exists o, bl_loop (N:=RNum) exp ln std n h A0 w Mr tiny thr left (S ii) (fun j s => nsub (n:=RNum) (bar G j) (bl_KU (N:=RNum) exp ln n A0 Mr tiny G j s)) (Some (G, bar G)) e = Some o /\ wG (bl_G o) (fun _ => 0) /\ bl_logbar o = bar (bl_G o) /\
      (forall k, bl_exit o <> NumErr k) /\
      (forall k, bl_exit o = Converged k -> Nat.modulo k 10 = 1%nat /\ bl_err (N:=RNum) exp ln std n h A0 Mr tiny (bl_G o) < thr)).
    { intros e. apply IH; [apply wG_next0|discriminate|]. intros G0 b E. injection E as <- <-. auto. }
    destruct (Nat.eqb_spec (Nat.modulo ii 10) 1) as [E|E]; [|apply R1].
    destruct (nltb (n:=RNum) _ thr) eqn:B; [|apply R1]. eexists. split; [reflexivity|]. cbn [bl_G bl_logbar bl_exit]. split; [auto|]. split; [auto|]. split; [discriminate|].
    intros k Hk. injection Hk as <-. split; auto. apply Rltb_true in B. exact B.
Qed.
(** ** _barycenter_debiased_log: the G in use carries the c of the previous iteration *)
Notation KU := (bl_KU (N:=RNum) exp ln n A0 Mr tiny).
Definition dl_good (std : nat -> vec -> R) (thr : R) (o : dl_out (N:=RNum)) : Prop := ((exists c0, wG (dl_G o) c0) /\ (forall j, dl_logbar o j = bar (dl_G o) j + dl_cc o j) /\
  (forall k, dl_exit o <> NumErr k) /\
  (forall k, dl_exit o = Converged k -> (20 < k)%nat /\ Nat.modulo k 10 = 1%nat /\ bl_err (N:=RNum) exp ln std n h A0 Mr tiny (dl_G o) < thr)).
Lemma dl_post : forall std thr left ii G c last errs, (exists c0, wG G c0) -> (last = None -> (0 < left)%nat) ->
  (forall G0 c0 b, last = Some (G0, c0, b) -> (exists c1, wG G0 c1) /\ forall j, b j = bar G0 j + c0 j) ->
  exists o, dl_loop (N:=RNum) exp ln std n h A0 w Mr tiny half thr left ii G c last errs = Some o /\ dl_good std thr o.
Proof.
  intros std thr. induction left as [|left IH]; intros ii G c last errs HG H0 HL; cbn [dl_loop].
  - destruct last as [[[G0 c0] b]|]; [|specialize (H0 eq_refl); lia]. destruct (HL G0 c0 b eq_refl) as [L1 L2].
    eexists. split; [reflexivity|]. cbn. split; [auto|]. split; [auto|]. split; discriminate.
  - cbv zeta.
    assert (R1 : forall e, exists o, dl_loop (N:=RNum) exp ln std n h A0 w Mr tiny half thr left (S ii)
       (fun j s => nsub (n:=RNum) (nadd (n:=RNum) (bar G j) (c j)) (KU G j s)) (dl_c (N:=RNum) exp ln n Mr half 10 (fun j => nadd (n:=RNum) (bar G j) (c j)) c) (Some (G, c, fun j => nadd (n:=RNum) (bar G j) (c j))) e = Some o /\ dl_good std thr o).
    { intros e. apply IH; [exists c; apply wG_next|discriminate|]. intros G0 c0 b E. injection E as <- <- <-. auto. }
    destruct (Nat.eqb_spec (Nat.modulo ii 10) 1) as [E|E]; [|apply R1].
    destruct (nltb (n:=RNum) _ thr && Nat.ltb 20 ii)%bool eqn:B; [|apply R1]. apply andb_true_iff in B. destruct B as [B1 B2]. eexists. split; [reflexivity|]. cbn [dl_G dl_cc dl_logbar dl_exit]. split; [auto|]. split; [auto|]. split; [discriminate|].
    intros k Hk. injection Hk as <-. apply Rltb_true in B1. apply Nat.ltb_lt in B2. split; auto.
Qed.
Lemma expbar_c : forall G c0 j, wG G c0 -> (j < n)%nat -> exp (bar G j) = gmean_w h w (scal_col n K Aeps (expm G)) j / exp (c0 j).
Proof.
  intros G c0 j HG Hj. rewrite (gbar_tilt n h M reg Aeps w Aeps_nonneg Aeps_mass (expm G) j (expm_pos G) Hj), (wG_tilt G c0 j HG Hj), bl_bar_R. unfold gmean_w. pose proof (exp_pos (c0 j)).
  match goal with |- ?x = ?y => change (@eq R x y) end. field. lra.
Qed.
End LogRun.

(** ** barycenter_stabilized *)
Section StabRun.
Variables (n h : nat) (M : mat) (reg : R) (A : mat) (w : vec) (tau : R).
Hypotheses (Hreg : 0 < reg) (HA : nonneg_mat n h A) (HA1 : forall s, (s < h)%nat -> exists i, (i < n)%nat /\ 0 < A i s) (Hh : (0 < h)%nat).
Hypothesis (H1 : rsum h w = 1).
Notation K := (fun i j => exp (- M i j / reg)).
Notation state := (st (N:=RNum)).
Notation step := (sb_step (N:=RNum) exp ln n h A w M reg tau).
Notation absorbs := (sb_absorbs (N:=RNum) exp ln n h A w tau).
(** the stored kernel is diag(e^{al/reg}) K diag(e^{be/reg}) and v is positive *)
Definition sb_inv (s : state) : Prop :=
  (forall i j, (i < n)%nat -> (j < n)%nat -> st_K s i j = exp ((st_al s i + st_be s j - M i j) / reg)) /\ pos_mat n h (st_v s).
Definition sb_bal (s : state) : Prop := forall j, (j < n)%nat -> rsum h (fun k => w k * ln (st_v s j k)) = 0.
(** the right scaling of the original kernel *)
Definition sb_V (s : state) : mat := fun j k => exp (st_be s j / reg) * st_v s j k.
Lemma sb_V_pos : forall s, sb_inv s -> pos_mat n h (sb_V s).
Proof. intros s [_ Hv] j k Hj Hk. apply Rmult_lt_0_compat; [apply exp_pos|apply Hv; auto]. Qed.
Lemma sb_K_split : forall s i j, sb_inv s -> (i < n)%nat -> (j < n)%nat -> st_K s i j = exp (st_al s i / reg) * K i j * exp (st_be s j / reg).
Proof. intros s i j [HK _] Hi Hj. rewrite HK by auto. rewrite <- !exp_plus. f_equal. field. lra. Qed.
Lemma sb_u_R : forall s i k, sb_inv s -> (i < n)%nat -> (k < h)%nat -> sb_u (N:=RNum) n A s i k = exp (- (st_al s i / reg)) * lscal n K A (sb_V s) i k.
Proof.
  intros s i k HI Hi Hk. unfold sb_u, div_mat, dotK, lscal. rewrite nsum_R. cbn [nmul ndiv RNum].
  rewrite (rsum_ext n _ (fun l => exp (st_al s i / reg) * (K i l * sb_V s l k))) by (intros l Hl; rewrite (sb_K_split s i l HI Hi Hl); unfold sb_V; ring).
  rewrite rsum_scal. rewrite exp_Ropp. assert (P := kv_pos n h M reg (sb_V s) i k (sb_V_pos s HI) Hi Hk). pose proof (exp_pos (st_al s i / reg)).
  match goal with |- ?x = ?y => change (@eq R x y) end. field. split; lra.
Qed.
Lemma sb_Ktu_R : forall s j k, sb_inv s -> (j < n)%nat -> (k < h)%nat -> sb_Ktu (N:=RNum) n A s j k = exp (st_be s j / reg) * ktv n M reg A (sb_V s) j k.
Proof.
  intros s j k HI Hj Hk. unfold sb_Ktu, dotKt, ktv. rewrite nsum_R, <- rsum_scal. apply rsum_ext. intros i Hi. rewrite sb_u_R by auto. rewrite (sb_K_split s i j HI Hi Hj).
  cbn [nmul RNum]. rewrite exp_Ropp. pose proof (exp_pos (st_al s i / reg)).
  match goal with |- ?x = ?y => change (@eq R x y) end. field. lra.
Qed.
Lemma sb_Ktu_pos : forall s j k, sb_inv s -> (j < n)%nat -> (k < h)%nat -> 0 < sb_Ktu (N:=RNum) n A s j k.
Proof. intros. rewrite sb_Ktu_R by auto. apply Rmult_lt_0_compat; [apply exp_pos|]. apply (ktv_pos n h M reg A HA HA1); auto. apply sb_V_pos; auto. Qed.
Lemma sb_u_nonneg : forall s i k, sb_inv s -> (i < n)%nat -> (k < h)%nat -> 0 <= sb_u (N:=RNum) n A s i k.
Proof. intros. rewrite sb_u_R by auto. apply Rmult_le_pos; [left; apply exp_pos|]. apply (lscal_nonneg n h M reg A); auto. apply sb_V_pos; auto. Qed.
Lemma sb_q_R : forall s j, sb_q (N:=RNum) exp ln n h A w s j = gmean_w h w (sb_Ktu (N:=RNum) n A s) j.
Proof. intros. apply gbar_R. Qed.
Lemma sb_q_bal : forall s j, sb_inv s -> sb_bal s -> (j < n)%nat -> sb_q (N:=RNum) exp ln n h A w s j = gmean_w h w (scal_col n K A (sb_V s)) j.
Proof.
  intros s j HI HB Hj. rewrite sb_q_R. rewrite (gbar_tilt n h M reg A w HA HA1 (sb_V s) j (sb_V_pos s HI) Hj).
  unfold gmean_w, tilt. rewrite <- exp_plus. f_equal. rewrite <- rsum_plus.
  rewrite <- (Rplus_0_r (rsum h (fun s0 => w s0 * ln (sb_Ktu (N:=RNum) n A s j s0)))), <- (HB j Hj), <- rsum_plus. apply rsum_ext. intros k Hk.
  rewrite sb_Ktu_R by auto. unfold sb_V at 2. destruct HI as [HK Hv]. rewrite !ln_mult, ln_exp; auto using exp_pos; [ring|]. apply (ktv_pos n h M reg A HA HA1); auto. apply sb_V_pos; split; auto.
Qed.
Lemma sb_tilt : forall s j, sb_inv s -> sb_bal s -> (j < n)%nat -> tilt h w (sb_V s) j = st_be s j / reg.
Proof.
  intros s j [HK Hv] HB Hj. unfold tilt, sb_V. rewrite (rsum_ext h _ (fun k => (st_be s j / reg) * w k + w k * ln (st_v s j k))).
  - rewrite rsum_plus, rsum_scal, H1, (HB j Hj). ring.
  - intros k Hk. rewrite ln_mult, ln_exp; auto using exp_pos. ring.
Qed.
Lemma nmaxk_pos : forall k (f : vec), (exists i, (i <= k)%nat /\ 0 < f i) -> 0 < nmaxk (N:=RNum) k f.
Proof. intros k f (i & Hi & P). eapply Rlt_le_trans; [exact P|]. apply nmaxk_ge; auto. Qed.
Lemma step_inv : forall s, sb_inv s -> sb_inv (step s) /\ sb_bal (step s).
Proof.
  intros s HI. unfold sb_step. destruct (absorbs s).
  - split; [split|]; unfold sb_absorb; cbn [st_K st_al st_be st_v].
    + intros i j Hi Hj. reflexivity.
    + intros j k Hj Hk. cbn. lra.
    + intros j Hj. apply rsum_0. intros k Hk. change (w k * ln 1 = 0). rewrite ln_1. ring.
  - split; [split|]; cbn [st_K st_al st_be st_v].
    + destruct HI; auto.
    + intros j k Hj Hk. unfold sb_v. rewrite sb_q_R. apply Rdiv_lt_0_compat; [apply gmean_w_pos|apply sb_Ktu_pos; auto].
    + intros j Hj. cbn [st_v]. rewrite (rsum_ext h _ (fun k => ln (gmean_w h w (sb_Ktu (N:=RNum) n A s) j) * w k - w k * ln (sb_Ktu (N:=RNum) n A s j k))).
      * rewrite rsum_minus, rsum_scal, H1, ln_gmean. ring.
      * intros k Hk. unfold sb_v. rewrite sb_q_R. cbn [ndiv RNum]. unfold Rdiv. rewrite ln_mult, ln_Rinv; auto using gmean_w_pos, sb_Ktu_pos, Rinv_0_lt_compat. ring.
Qed.
Lemma start_inv : (0 < n)%nat -> sb_inv (sb_start (N:=RNum) exp n M reg).
Proof.
  intros Hn. split; cbn [sb_start st_K st_al st_be st_v].
  - intros i j _ _. cbn [ndiv nopp n0 RNum]. f_equal. unfold nopp. cbn [nsub n0 RNum]. f_equal. ring.
  - intros j k _ _. cbn [ndiv n1 RNum]. rewrite nofnat_INR. apply Rdiv_lt_0_compat; [lra|apply lt_0_INR; auto].
Qed.
Fixpoint sb_iter (k : nat) (s : state) : state := match k with O => s | S k' => sb_iter k' (step s) end.
Lemma sb_iter_S : forall k s, sb_iter (S k) s = step (sb_iter k s).
Proof. induction k; intros; [reflexivity|]. cbn [sb_iter] in *. rewrite <- IHk. reflexivity. Qed.
Lemma iter_inv : forall k s, sb_inv s -> sb_inv (sb_iter k s) /\ ((0 < k)%nat -> sb_bal (sb_iter k s)).
Proof.
  induction k; intros s HI; [cbn; split; auto; lia|]. rewrite sb_iter_S. destruct (step_inv (sb_iter k s) (proj1 (IHk s HI))). auto.
Qed.
Lemma bad_never : forall s, sb_inv s -> sb_bad (N:=RNum) exp ln n h A w M reg tau no_nan no_nan s = false.
Proof.
  intros s HI. unfold sb_bad, any2. rewrite !orb_false_iff. repeat split; try (apply any_false; intros; apply any_false; intros; reflexivity).
  apply any_false. intros i Hi. apply any_false. intros k Hk. apply Reqb_false. apply Rgt_not_eq. apply sb_Ktu_pos; auto.
Qed.
(** the loop returns one of the iterates *)
Lemma sb_post : forall thr left ii s errs, sb_inv s ->
  let o := sb_loop (N:=RNum) exp ln n h A w M reg tau no_nan no_nan thr left ii s errs in
  exists k, (k <= left)%nat /\ fst (fst o) = sb_iter k s /\ (snd o = MaxIter -> k = left) /\ (forall j, snd o <> NumErr j) /\
  (forall j, snd o = Converged j -> S j = (ii + k)%nat /\ (1 <= k)%nat /\ sb_error (N:=RNum) exp ln n h A w M reg tau (sb_iter (k - 1) s) < thr).
Proof.
  intros thr. induction left as [|left IH]; intros ii s errs HI; cbn [sb_loop].
  - exists 0%nat. cbn. repeat split; auto; discriminate.
  - cbv zeta. rewrite bad_never by auto.
    assert (R1 : forall e, let o := sb_loop (N:=RNum) exp ln n h A w M reg tau no_nan no_nan thr left (S ii) (step s) e in
      exists k, (k <= S left)%nat /\ fst (fst o) = sb_iter k s /\ (snd o = MaxIter -> k = S left) /\ (forall j, snd o <> NumErr j) /\
      (forall j, snd o = Converged j -> S j = (ii + k)%nat /\ (1 <= k)%nat /\ sb_error (N:=RNum) exp ln n h A w M reg tau (sb_iter (k - 1) s) < thr)).
    { intros e. destruct (IH (S ii) (step s) e (proj1 (step_inv s HI))) as (k & K1 & K2 & K3 & K4 & K5). exists (S k). split; [lia|]. split; [exact K2|]. split; [intros E; rewrite (K3 E); auto|]. split; [auto|].
      intros j Hj. destruct (K5 j Hj) as (J1 & J2 & J3). split; [lia|]. split; [lia|]. replace (S k - 1)%nat with (S (k - 1)) by lia. exact J3. }
    destruct ((Nat.eqb (Nat.modulo ii 10) 0 && negb (absorbs s) || Nat.eqb ii 0)%bool); [|apply R1].
    destruct (nltb (n:=RNum) _ thr) eqn:B; [|apply R1]. exists 1%nat. cbn [fst snd]. split; [lia|]. split; [reflexivity|]. split; [discriminate|]. split; [discriminate|].
    intros j Hj. injection Hj as <-. split; [lia|]. split; [lia|]. apply Rltb_true in B. exact B.
Qed.
Lemma step_q : forall s, st_q (step s) = sb_q (N:=RNum) exp ln n h A w s.
Proof. intros s. unfold sb_step. destruct (absorbs s); reflexivity. Qed.
Lemma no_absorb : forall k s, (forall l, (l < k)%nat -> absorbs (sb_iter l s) = false) -> st_be (sb_iter k s) = st_be s /\ st_al (sb_iter k s) = st_al s.
Proof.
  induction k; intros s Hk; [auto|]. rewrite sb_iter_S. unfold sb_step. rewrite Hk by lia. cbn [st_be st_al]. apply IHk. intros. apply Hk. lia.
Qed.
End StabRun.
