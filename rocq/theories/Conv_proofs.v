(** Convolutional barycenters: the images seen as flat histograms on the pixel grid. *)
From Coq Require Import Reals Lra Lia Arith Bool List.
Import ListNotations.
From Verif Require Import Num Sums Spec Duals_proofs Entropy Emd1d_model Emd1d_perm_proofs Sinkhorn_model Sinkhorn_proofs Bary_model Bary_proofs Bary_more Bary_loops Bary_deb Conv_model.
Local Open Scope R_scope.
Ltac toR := match goal with |- @eq _ ?a ?b => change (@eq R a b) end.

(** position of pixel i among k on the unit interval *)
Definition pix (k i : nat) : R := if Nat.eqb k 1 then 0 else INR i / INR (k - 1).
(** squared distance between pixels q and r of a w x h image, numbered row by row *)
Definition grid_cost (w h q r : nat) : R :=
  (pix w (q / h) - pix w (r / h)) ^ 2 + (pix h (q mod h) - pix h (r mod h)) ^ 2.
(** the images as columns of a histogram matrix *)
Definition flat (h : nat) (X : nat -> nat -> nat -> R) : mat := fun q k => X k (q / h)%nat (q mod h)%nat.
Definition flat1 (h : nat) (X : nat -> nat -> R) : vec := fun q => X (q / h)%nat (q mod h)%nat.

Lemma flat_sum : forall h w (f : nat -> nat -> R), (0 < h)%nat -> rsum w (fun i => rsum h (fun j => f i j)) = rsum (w * h) (fun q => f (q / h)%nat (q mod h)%nat).
Proof.
  intros h w f Hh. induction w as [|w IH]; [reflexivity|]. cbn [rsum]. rewrite IH.
  replace (S w * h)%nat with (w * h + h)%nat by lia. rewrite rsum_split. f_equal. apply rsum_ext. intros k Hk.
  replace (w * h + k)%nat with (k + w * h)%nat by lia. rewrite Nat.div_add, Nat.mod_add by lia. rewrite Nat.div_small, Nat.mod_small by auto. reflexivity.
Qed.
Lemma q_range : forall w h q, (q < w * h)%nat -> (q / h < w)%nat /\ (q mod h < h)%nat.
Proof. intros w h q H. assert (h <> 0)%nat by (intros ->; lia). split; [apply Nat.div_lt_upper_bound; lia|apply Nat.mod_upper_bound; auto]. Qed.
Lemma q_of : forall h i j, (j < h)%nat -> ((i * h + j) / h)%nat = i /\ ((i * h + j) mod h)%nat = j.
Proof. intros h i j H. replace (i * h + j)%nat with (j + i * h)%nat by lia. rewrite Nat.div_add, Nat.mod_add by lia. rewrite Nat.div_small, Nat.mod_small by auto. auto. Qed.
Lemma grid_sym : forall w h q r, grid_cost w h q r = grid_cost w h r q.
Proof. intros. unfold grid_cost. ring. Qed.

Section C.
Variables (w h : nat) (reg : R).
Hypotheses (Hw0 : (0 < w)%nat) (Hh0 : (0 < h)%nat) (Hreg : 0 < reg).
Notation n := (w * h)%nat.
Notation M := (grid_cost w h).
Notation K := (fun q r => exp (- grid_cost w h q r / reg)).

Lemma lin_R : forall k i, lin01 (N:=RNum) k i = pix k i.
Proof. intros. unfold lin01, pix. destruct (Nat.eqb k 1); [reflexivity|]. rewrite !nofnat_INR. reflexivity. Qed.
Lemma cvM_R : forall k i j, cv_M (N:=RNum) reg k i j = - (pix k i - pix k j) ^ 2 / reg.
Proof. intros. unfold cv_M, nopp. rewrite !lin_R. cbn [nsub nmul ndiv RNum]. change (@n0 RNum) with 0. unfold Rdiv. toR. ring. Qed.
Lemma kern : forall q r, exp (cv_M (N:=RNum) reg w (q / h) (r / h)) * exp (cv_M (N:=RNum) reg h (q mod h) (r mod h)) = K q r.
Proof. intros. rewrite <- exp_plus. f_equal. rewrite !cvM_R. unfold grid_cost. field. lra. Qed.

(** convolving along both axes multiplies by the Gibbs kernel of the grid *)
Lemma convol_R : forall X k q, (q < n)%nat -> flat h (convol (N:=RNum) exp w h reg X) q k = rsum n (fun r => K q r * flat h X r k).
Proof.
  intros X k q Hq. unfold flat, convol. rewrite nsum_R.
  rewrite (rsum_ext h _ (fun l => rsum w (fun m => exp (cv_M (N:=RNum) reg w (q / h) m) * exp (cv_M (N:=RNum) reg h (q mod h) l) * X k m l))).
  - rewrite rsum_swap. rewrite (flat_sum h w (fun m l => exp (cv_M (N:=RNum) reg w (q / h) m) * exp (cv_M (N:=RNum) reg h (q mod h) l) * X k m l) Hh0).
    apply rsum_ext. intros r Hr. rewrite kern. reflexivity.
  - intros l Hl. cbn [nmul RNum]. rewrite nsum_R. rewrite <- rsum_scal. apply rsum_ext. intros. ring.
Qed.
Lemma convol_log_R : forall X q, (q < n)%nat -> flat1 h (convol_log (N:=RNum) exp ln w h reg X) q = ln (rsum n (fun r => exp (- M q r / reg + flat1 h X r))).
Proof.
  intros X q Hq. unfold flat1, convol_log, logsumexp. rewrite nsum_R. f_equal.
  rewrite (rsum_ext h _ (fun l => rsum w (fun m => exp (cv_M (N:=RNum) reg w (q / h) m) * exp (cv_M (N:=RNum) reg h (q mod h) l) * exp (X m l)))).
  - rewrite rsum_swap. rewrite (flat_sum h w (fun m l => exp (cv_M (N:=RNum) reg w (q / h) m) * exp (cv_M (N:=RNum) reg h (q mod h) l) * exp (X m l)) Hh0).
    apply rsum_ext. intros r Hr. rewrite kern, <- exp_plus. reflexivity.
  - intros l Hl. cbn [nadd RNum]. rewrite nsum_R. cbn [nadd RNum]. rewrite exp_plus, exp_ln.
    + rewrite <- rsum_scal. apply rsum_ext. intros. rewrite exp_plus. ring.
    + apply rsum_pos; auto. intros; apply exp_pos.
Qed.

(** ** the plain loops *)
Variables (nh : nat) (A : nat -> nat -> nat -> R) (wt : vec) (stab : R).
Notation A' := (flat h A).
Hypotheses (HA : nonneg_mat n nh A') (HA1 : forall s, (s < nh)%nat -> exists i, (i < n)%nat /\ 0 < A' i s).
Hypothesis (Hstab : 0 <= stab).
Notation ktv' := (ktv n M reg A').
Notation pos := (pos_mat n nh).

Definition shift (KU : mat) (j : nat) : R := rsum nh (fun s => wt s * ln (1 + stab / KU j s)).

(** positive states *)
Definition cpos (s : cst (N:=RNum)) : Prop := (forall q, (q < n)%nat -> 0 < flat1 h (cs_bar s) q) /\ pos (flat h (cs_KU s)) /\ forall q, (q < n)%nat -> 0 < flat1 h (cs_c s) q.
(** what one half step establishes *)
Record half_ok (s : cst (N:=RNum)) (V : mat) (U KU : mat) : Prop := {
  ho_V : forall q k, (q < n)%nat -> (k < nh)%nat -> V q k = flat1 h (cs_bar s) q / flat h (cs_KU s) q k;
  ho_Vpos : pos V;
  ho_U : forall q k, (q < n)%nat -> (k < nh)%nat -> U q k = lscal n K A' V q k;
  ho_KU : forall q k, (q < n)%nat -> (k < nh)%nat -> KU q k = ktv' V q k;
  ho_KUpos : pos KU }.

Notation cU := (cv_U (N:=RNum) exp w h reg A).
Lemma half_spec : forall s, cpos s -> half_ok s (flat h (cv_V s)) (flat h (cU s)) (flat h (convol (N:=RNum) exp w h reg (cU s))).
Proof.
  intros s (P1 & P2 & _).
  assert (V1 : forall q k, flat h (cv_V s) q k = flat1 h (cs_bar s) q / flat h (cs_KU s) q k) by reflexivity.
  assert (VP : pos (flat h (cv_V s))) by (intros q k Hq Hk; rewrite V1; apply Rdiv_lt_0_compat; [apply P1|apply P2]; auto).
  assert (UE : forall q k, (q < n)%nat -> flat h (cU s) q k = lscal n K A' (flat h (cv_V s)) q k).
  { intros q k Hq. unfold lscal. rewrite <- convol_R by auto. reflexivity. }
  assert (KE : forall q k, (q < n)%nat -> (k < nh)%nat -> flat h (convol (N:=RNum) exp w h reg (cU s)) q k = ktv' (flat h (cv_V s)) q k).
  { intros q k Hq Hk. rewrite convol_R by auto. unfold ktv. apply rsum_ext. intros r Hr. rewrite UE by auto. rewrite (grid_sym w h q r). reflexivity. }
  constructor; auto. intros q k Hq Hk. rewrite KE by auto. apply (ktv_pos n nh M reg A'); auto.
Qed.

Definition gbarR (KU : mat) (q : nat) : R := exp (rsum nh (fun k => wt k * ln (KU q k + stab))).
Lemma gbar_eq : forall KU q, flat1 h (cv_gbar (N:=RNum) exp ln nh wt stab KU) q = gbarR (flat h KU) q.
Proof. intros. unfold flat1, cv_gbar, gbarR. rewrite nsum_R. reflexivity. Qed.

Variable (deb : bool).
Definition stp : cst (N:=RNum) -> cst (N:=RNum) := if deb then cd_step (N:=RNum) exp ln sqrt w h reg nh A wt stab else cv_step (N:=RNum) exp ln w h reg nh A wt stab.
(** the c multiplying bar in the step *)
Definition cfac (s : cst (N:=RNum)) : vec := if deb then flat1 h (cs_c s) else fun _ => 1.

Lemma stp_V : forall s, cs_V (stp s) = cv_V s. Proof. intros; unfold stp; destruct deb; reflexivity. Qed.
Lemma stp_U : forall s, cs_U (stp s) = cU s. Proof. intros; unfold stp; destruct deb; reflexivity. Qed.
Lemma stp_KU : forall s, cs_KU (stp s) = convol (N:=RNum) exp w h reg (cU s). Proof. intros; unfold stp; destruct deb; reflexivity. Qed.
Lemma stp_bar : forall s q, flat1 h (cs_bar (stp s)) q = cfac s q * gbarR (flat h (cs_KU (stp s))) q.
Proof. intros. unfold stp, cfac. destruct deb; cbn [cd_step cv_step cs_bar cs_KU]; rewrite <- gbar_eq; [reflexivity|toR; ring]. Qed.
Lemma cd_c_pos : forall k (bar c : nat -> nat -> R), (forall q, (q < n)%nat -> 0 < flat1 h bar q) -> (forall q, (q < n)%nat -> 0 < flat1 h c q) ->
  forall q, (q < n)%nat -> 0 < flat1 h (cd_c (N:=RNum) exp sqrt w h reg k bar c) q.
Proof.
  induction k as [|k IH]; intros bar c Hb Hc; [exact Hc|]. cbn [cd_c]. apply IH; auto. intros q Hq. unfold flat1, cd_c1.
  apply sqrt_lt_R0. apply Rdiv_lt_0_compat; [apply Rmult_lt_0_compat; [apply (Hc q Hq)|apply (Hb q Hq)]|].
  change (0 < flat h (convol (N:=RNum) exp w h reg (fun _ => c)) q 0%nat). rewrite convol_R by auto. apply rsum_pos; [lia|]. intros r Hr. apply Rmult_lt_0_compat; [apply exp_pos|apply (Hc r Hr)].
Qed.
Lemma stp_pos : forall s, cpos s -> cpos (stp s).
Proof.
  intros s Hs. pose proof (half_spec s Hs) as Hh. destruct Hs as (P1 & P2 & P3).
  assert (B : forall q, (q < n)%nat -> 0 < flat1 h (cs_bar (stp s)) q).
  { intros q Hq. rewrite stp_bar. apply Rmult_lt_0_compat; [|apply exp_pos]. unfold cfac. destruct deb; [auto|lra]. }
  split; [exact B|]. split; [rewrite stp_KU; apply Hh|].
  unfold stp in *. destruct deb; cbn [cd_step cv_step cs_c]; [|auto]. cbn [cd_step cs_bar] in B. apply cd_c_pos; auto.
Qed.
Lemma start_pos : cpos (cv_start (N:=RNum) exp w h reg).
Proof.
  split; [|split].
  - intros q Hq. unfold flat1, cv_start. cbn [cs_bar ndiv RNum]. rewrite nofnat_INR. apply Rdiv_lt_0_compat; [apply Rlt_0_1|]. apply lt_0_INR. apply Nat.mul_pos_pos; auto.
  - intros q k Hq Hk. unfold cv_start. cbn [cs_KU]. rewrite convol_R by auto. apply rsum_pos; [lia|]. intros r Hr. unfold flat. change (@n1 RNum) with 1. rewrite Rmult_1_r. apply exp_pos.
  - intros q Hq. unfold flat1, cv_start. cbn [cs_c]. change (@n1 RNum) with 1. lra.
Qed.

(** two steps: the scaling V of the second satisfies the dual constraint up to the shift *)
Lemma two_tilt : forall s, rsum nh wt = 1 -> cpos s -> forall q, (q < n)%nat ->
  tilt nh wt (flat h (cs_V (stp (stp s)))) q = ln (cfac s q) + shift (flat h (cs_KU (stp s))) q.
Proof.
  intros s H1 Hs q Hq. pose proof (stp_pos s Hs) as Hs1. destruct Hs1 as (B1 & B2 & B3).
  assert (CF : 0 < cfac s q) by (unfold cfac; destruct deb; [apply Hs; auto|lra]).
  unfold tilt, shift. rewrite stp_V.
  rewrite (rsum_ext nh _ (fun k => (ln (cfac s q) * wt k + rsum nh (fun l => wt l * ln (flat h (cs_KU (stp s)) q l + stab)) * wt k) - wt k * ln (flat h (cs_KU (stp s)) q k))).
  - rewrite rsum_minus, rsum_plus, !rsum_scal, H1.
    rewrite (rsum_ext nh (fun k => wt k * ln (1 + stab / flat h (cs_KU (stp s)) q k)) (fun k => wt k * ln (flat h (cs_KU (stp s)) q k + stab) - wt k * ln (flat h (cs_KU (stp s)) q k))).
    + rewrite rsum_minus. ring.
    + intros k Hk. pose proof (B2 q k Hq Hk) as X.
      assert (Y : 0 <= stab / flat h (cs_KU (stp s)) q k) by (apply Rmult_le_pos; [auto|left; apply Rinv_0_lt_compat; auto]).
      replace (flat h (cs_KU (stp s)) q k + stab) with (flat h (cs_KU (stp s)) q k * (1 + stab / flat h (cs_KU (stp s)) q k)) by (field; lra).
      rewrite ln_mult by lra. ring.
  - intros k Hk. change (flat h (cv_V (stp s)) q k) with (flat1 h (cs_bar (stp s)) q / flat h (cs_KU (stp s)) q k). pose proof (B2 q k Hq Hk) as X.
    unfold Rdiv. rewrite ln_mult, ln_Rinv by (auto using Rinv_0_lt_compat). rewrite stp_bar. unfold gbarR. rewrite ln_mult, ln_exp by (auto using exp_pos). ring.
Qed.

(** the returned image against the geometric mean of the second marginals *)
Lemma two_bar : forall s, rsum nh wt = 1 -> cpos s -> forall q, (q < n)%nat -> let s2 := stp (stp s) in
  flat1 h (cs_bar s2) q * (cfac s q * exp (shift (flat h (cs_KU (stp s))) q)) = cfac (stp s) q * (gmean_w nh wt (scal_col n K A' (flat h (cs_V s2))) q * exp (shift (flat h (cs_KU s2)) q)).
Proof.
  intros s H1 Hs q Hq s2. pose proof (stp_pos s Hs) as Hs1. pose proof (half_spec _ Hs1) as Hh2.
  assert (CF : 0 < cfac s q) by (unfold cfac; destruct deb; [apply Hs; auto|lra]).
  assert (VP : pos (flat h (cs_V s2))) by (unfold s2; rewrite stp_V; apply Hh2).
  assert (KP : pos (flat h (cs_KU s2))) by (unfold s2; rewrite stp_KU; apply Hh2).
  rewrite (gbar_tilt n nh M reg A' wt HA HA1 _ q VP Hq). unfold s2 at 2. rewrite (two_tilt s H1 Hs q Hq), exp_plus, exp_ln by auto.
  unfold s2 at 1. rewrite stp_bar. fold s2.
  assert (G : gbarR (flat h (cs_KU s2)) q = gmean_w nh wt (ktv' (flat h (cs_V s2))) q * exp (shift (flat h (cs_KU s2)) q)).
  { unfold gbarR, gmean_w, shift. rewrite <- exp_plus. f_equal. rewrite <- rsum_plus. apply rsum_ext. intros k Hk.
    replace (ktv' (flat h (cs_V s2)) q k) with (flat h (cs_KU s2) q k) by (unfold s2; rewrite stp_KU, stp_V; apply (ho_KU _ _ _ _ Hh2); auto).
    pose proof (KP q k Hq Hk) as X.
    assert (Y : 0 <= stab / flat h (cs_KU s2) q k) by (apply Rmult_le_pos; [auto|left; apply Rinv_0_lt_compat; auto]).
    replace (flat h (cs_KU s2) q k + stab) with (flat h (cs_KU s2) q k * (1 + stab / flat h (cs_KU s2) q k)) by (field; lra).
    rewrite ln_mult by lra. ring. }
  rewrite G. ring.
Qed.

Fixpoint citer (k : nat) : cst (N:=RNum) := match k with O => cv_start (N:=RNum) exp w h reg | S k' => stp (citer k') end.
Lemma citer_pos : forall k, cpos (citer k).
Proof. induction k; [apply start_pos|apply stp_pos; auto]. Qed.

Lemma err_R : forall std s, cv_err (N:=RNum) std w h nh s = rsum n (fun q => std nh (fun k => flat h (cs_V s) q k * flat h (cs_KU s) q k)).
Proof.
  intros. unfold cv_err. rewrite nsum_R. rewrite (rsum_ext w _ (fun i => rsum h (fun j => std nh (fun k => cs_V s k i j * cs_KU s k i j)))) by (intros; apply nsum_R).
  rewrite (flat_sum h w (fun i j => std nh (fun k => cs_V s k i j * cs_KU s k i j)) Hh0). reflexivity.
Qed.

Lemma loop_post : forall std late thr left ii errs, let o := cv_loop (N:=RNum) std w h nh stp late thr left ii (citer ii) errs in
  exists k, (ii <= k <= ii + left)%nat /\ fst (fst o) = citer k /\ (snd o = MaxIter -> k = (ii + left)%nat) /\ (forall j, snd o <> NumErr j) /\
  (forall j, snd o = Converged j -> k = S j /\ Nat.modulo j 10 = 9%nat /\ late j = true /\ cv_err (N:=RNum) std w h nh (citer k) < thr).
Proof.
  intros std late thr. induction left as [|left IH]; intros ii errs o.
  - exists ii. unfold o. cbn [cv_loop fst snd]. split; [lia|]. split; [auto|]. split; [lia|]. split; discriminate.
  - assert (R1 : forall e, let o := cv_loop (N:=RNum) std w h nh stp late thr left (S ii) (stp (citer ii)) e in
      exists k, (ii <= k <= ii + S left)%nat /\ fst (fst o) = citer k /\ (snd o = MaxIter -> k = (ii + S left)%nat) /\ (forall j, snd o <> NumErr j) /\
      (forall j, snd o = Converged j -> k = S j /\ Nat.modulo j 10 = 9%nat /\ late j = true /\ cv_err (N:=RNum) std w h nh (citer k) < thr)).
    { intros e. destruct (IH (S ii) e) as (k & K1 & K2 & K3 & K4 & K5). exists k. split; [lia|]. split; [exact K2|]. split; [intros X; rewrite (K3 X); lia|]. split; [exact K4|exact K5]. }
    unfold o. cbn [cv_loop]. cbv zeta. destruct (Nat.eqb_spec (Nat.modulo ii 10) 9) as [E|E]; [|apply R1].
    destruct (nltb (n:=RNum) (cv_err (N:=RNum) std w h nh (stp (citer ii))) thr && late ii)%bool eqn:B; [|apply R1].
    apply andb_true_iff in B. destruct B as [B1 B2]. exists (S ii). cbn [fst snd]. split; [lia|]. split; [reflexivity|]. split; [discriminate|]. split; [discriminate|].
    intros j X. injection X as <-. repeat split; auto. apply Rltb_true. exact B1.
Qed.
End C.

(** ** the log-domain loops *)
Section L.
Variables (w h : nat) (reg : R).
Hypotheses (Hw0 : (0 < w)%nat) (Hh0 : (0 < h)%nat) (Hreg : 0 < reg).
Notation n := (w * h)%nat.
Notation M := (grid_cost w h).
Notation Mr := (fun q r => - grid_cost w h q r / reg).
Variables (nh : nat) (A : nat -> nat -> nat -> R) (wt : vec) (stab : R).
Notation A' := (flat h A).

Lemma lse_ext : forall m (f g : nat -> R), (forall i, (i < m)%nat -> f i = g i) -> logsumexp (N:=RNum) exp ln m f = logsumexp (N:=RNum) exp ln m g.
Proof. intros. unfold logsumexp. rewrite !nsum_R. f_equal. apply rsum_ext. intros. rewrite H; auto. Qed.
Lemma cl_f_R : forall G k q, (q < n)%nat -> flat h (cl_f (N:=RNum) exp ln w h reg A stab G) q k = bl_f (N:=RNum) exp ln n A' Mr stab (flat h G) q k.
Proof.
  intros G k q Hq. unfold flat at 1. unfold cl_f, bl_f. 
  change (convol_log (N:=RNum) exp ln w h reg (G k) (q / h) (q mod h)) with (flat1 h (convol_log (N:=RNum) exp ln w h reg (G k)) q).
  rewrite (convol_log_R w h reg Hw0 Hh0 Hreg) by auto. unfold logsumexp. rewrite nsum_R. reflexivity.
Qed.
Lemma cl_KU_R : forall G k q, (q < n)%nat -> flat h (cl_KU (N:=RNum) exp ln w h reg A stab G) q k = bl_KU (N:=RNum) exp ln n A' Mr stab (flat h G) q k.
Proof.
  intros G k q Hq. unfold flat at 1. unfold cl_KU, bl_KU.
  change (convol_log (N:=RNum) exp ln w h reg (cl_f (N:=RNum) exp ln w h reg A stab G k) (q / h) (q mod h)) with (flat1 h (convol_log (N:=RNum) exp ln w h reg (cl_f (N:=RNum) exp ln w h reg A stab G k)) q).
  rewrite (convol_log_R w h reg Hw0 Hh0 Hreg) by auto. unfold logsumexp. rewrite nsum_R. f_equal. apply rsum_ext. intros r Hr. cbn [nadd RNum]. f_equal.
  rewrite (grid_sym w h q r). f_equal. rewrite <- cl_f_R by auto. reflexivity.
Qed.
Lemma cl_bar_R : forall G q, (q < n)%nat -> flat1 h (cl_bar (N:=RNum) exp ln w h reg nh A wt stab G) q = bl_bar (N:=RNum) exp ln n nh A' wt Mr stab (flat h G) q.
Proof. intros G q Hq. unfold flat1, cl_bar, bl_bar. rewrite !nsum_R. apply rsum_ext. intros k Hk. cbn [nmul RNum]. f_equal. apply (cl_KU_R G k q Hq). Qed.
Lemma cl_err_R : forall G, (0 < nh)%nat -> cl_err (N:=RNum) exp ln popstd w h reg nh A stab G = bl_err (N:=RNum) exp ln popstd n nh A' Mr stab (flat h G).
Proof.
  intros G Hn. unfold cl_err, bl_err. rewrite !nsum_R. 
  rewrite (rsum_ext w _ (fun i => rsum h (fun j => popstd nh (fun k => exp (G k i j + cl_KU (N:=RNum) exp ln w h reg A stab G k i j))))) by (intros; apply nsum_R).
  rewrite (flat_sum h w (fun i j => popstd nh (fun k => exp (G k i j + cl_KU (N:=RNum) exp ln w h reg A stab G k i j))) Hh0). apply rsum_ext. intros q Hq.
  assert (E : forall k, exp (G k (q / h)%nat (q mod h)%nat + cl_KU (N:=RNum) exp ln w h reg A stab G k (q / h) (q mod h)) = exp (flat h G q k + bl_KU (N:=RNum) exp ln n A' Mr stab (flat h G) q k)).
  { intros k. rewrite <- (cl_KU_R G k q Hq). reflexivity. }
  unfold popstd. rewrite (rsum_ext nh (fun k => exp (G k (q / h)%nat (q mod h)%nat + _)) (fun k => exp (flat h G q k + bl_KU (N:=RNum) exp ln n A' Mr stab (flat h G) q k))) by (intros; apply E).
  f_equal. f_equal. apply rsum_ext. intros k Hk. rewrite E. reflexivity.
Qed.

Hypothesis (H1 : rsum nh wt = 1).
Definition wGi (G : nat -> nat -> nat -> R) (c : nat -> nat -> R) : Prop := wG n nh wt (flat h G) (flat1 h c).
Notation bar := (cl_bar (N:=RNum) exp ln w h reg nh A wt stab).
Notation KU := (cl_KU (N:=RNum) exp ln w h reg A stab).
Lemma wGi_next : forall G (c : nat -> nat -> R), wGi (fun k i j => bar G i j + c i j - KU G k i j) c.
Proof.
  intros G c q Hq. pose proof (wG_next n nh M reg A' wt stab H1 (flat h G) (flat1 h c) q Hq) as E. rewrite <- E.
  apply rsum_ext. intros k Hk. f_equal. rewrite <- (cl_bar_R G q Hq), <- (cl_KU_R G k q Hq). reflexivity.
Qed.

Lemma cl_post : forall std thr left ii G last errs, wGi G (fun _ _ => 0) -> (last = None -> (0 < left)%nat) ->
  (forall G0 b, last = Some (G0, b) -> wGi G0 (fun _ _ => 0) /\ b = bar G0) ->
  exists o, cl_loop (N:=RNum) exp ln std w h reg nh A wt stab thr left ii G last errs = Some o /\ wGi (cl_G o) (fun _ _ => 0) /\ cl_logbar o = bar (cl_G o) /\
  (forall k, cl_exit o = Converged k -> Nat.modulo k 10 = 9%nat /\ cl_err (N:=RNum) exp ln std w h reg nh A stab (cl_G o) < thr).
Proof.
  intros std thr. induction left as [|left IH]; intros ii G last errs HG H0 HL; cbn [cl_loop].
  - destruct last as [[G0 b]|]; [|specialize (H0 eq_refl); lia]. destruct (HL G0 b eq_refl) as [L1 L2].
    eexists. split; [reflexivity|]. cbn. split; [auto|]. split; [auto|]. discriminate.
  - cbv zeta.
    assert (R1 : forall e, exists o, cl_loop (N:=RNum) exp ln std w h reg nh A wt stab thr left (S ii) (fun k i j => nsub (n:=RNum) (bar G i j) (KU G k i j)) (Some (G, bar G)) e = Some o /\ wGi (cl_G o) (fun _ _ => 0) /\ cl_logbar o = bar (cl_G o) /\
      (forall k, cl_exit o = Converged k -> Nat.modulo k 10 = 9%nat /\ cl_err (N:=RNum) exp ln std w h reg nh A stab (cl_G o) < thr)).
    { intros e. apply IH; [|discriminate|].
      - intros q Hq. rewrite <- (wGi_next G (fun _ _ => 0) q Hq). apply rsum_ext. intros. unfold flat. cbn [nsub RNum]. rewrite Rplus_0_r. reflexivity.
      - intros G0 b E. injection E as <- <-. auto. }
    destruct (Nat.eqb_spec (Nat.modulo ii 10) 9) as [E|E]; [|apply R1].
    destruct (nltb (n:=RNum) _ thr) eqn:B; [|apply R1]. eexists. split; [reflexivity|]. cbn [cl_G cl_logbar cl_exit]. split; [auto|]. split; [auto|].
    intros k X. injection X as <-. split; [auto|]. apply Rltb_true. exact B.
Qed.

Variable half : R.
(** c is zero or ten debiasing updates of the c that G carries *)
Definition dinv (G : nat -> nat -> nat -> R) (c : nat -> nat -> R) : Prop :=
  exists cp pb, wGi G cp /\ (c = cl_c (N:=RNum) exp ln w h reg half 10 pb cp \/ (c = (fun _ _ => 0) /\ cp = fun _ _ => 0)).
Definition cld_good std thr (o : cl_out (N:=RNum)) : Prop :=
  dinv (cl_G o) (cl_c0 o) /\ (forall i j, cl_logbar o i j = bar (cl_G o) i j + cl_c0 o i j) /\
  (forall k, cl_exit o = Converged k -> (20 < k)%nat /\ Nat.modulo k 10 = 9%nat /\ cl_err (N:=RNum) exp ln std w h reg nh A stab (cl_G o) < thr).
Lemma cld_post : forall std thr left ii G c last errs, dinv G c ->
  ((0 < left)%nat \/ (let '(G0, c0, b) := last in dinv G0 c0 /\ forall i j, b i j = bar G0 i j + c0 i j)) ->
  cld_good std thr (cld_loop (N:=RNum) exp ln std w h reg nh A wt stab half thr left ii G c last errs).
Proof.
  intros std thr. induction left as [|left IH]; intros ii G c last errs HG H0; cbn [cld_loop].
  - destruct H0 as [H0|H0]; [lia|]. destruct last as [[G0 c0] b]. destruct H0 as [L1 L2]. split; [auto|]. split; [auto|]. discriminate.
  - cbv zeta.
    assert (R1 : forall e, cld_good std thr (cld_loop (N:=RNum) exp ln std w h reg nh A wt stab half thr left (S ii) (fun k i j => nsub (n:=RNum) (nadd (n:=RNum) (bar G i j) (c i j)) (KU G k i j))
      (cl_c (N:=RNum) exp ln w h reg half 10 (fun i j => nadd (n:=RNum) (bar G i j) (c i j)) c) (G, c, fun i j => nadd (n:=RNum) (bar G i j) (c i j)) e)).
    { intros e. apply IH; [|right; auto]. exists c, (fun i j => nadd (n:=RNum) (bar G i j) (c i j)). split; [apply wGi_next|]. left. reflexivity. }
    destruct (Nat.eqb_spec (Nat.modulo ii 10) 9) as [E|E]; [|apply R1].
    destruct (nltb (n:=RNum) _ thr && Nat.ltb 20 ii)%bool eqn:B; [|apply R1]. apply andb_true_iff in B. destruct B as [B1 B2].
    split; [auto|]. split; [auto|]. cbn [cl_exit cl_G]. intros k X. injection X as <-. split; [apply Nat.ltb_lt; auto|]. split; [auto|]. apply Rltb_true. exact B1.
Qed.
End L.

(** ** the debiasing updates on flat vectors *)
Definition debias_update (n : nat) (M : mat) (reg : R) (b c : vec) : vec := fun j => sqrt (c j * b j / rsum n (fun i => exp (- M j i / reg) * c i)).
Section D.
Variables (w h : nat) (reg : R).
Hypotheses (Hw0 : (0 < w)%nat) (Hh0 : (0 < h)%nat) (Hreg : 0 < reg).
Notation n := (w * h)%nat.
Notation upd := (debias_update (w * h) (grid_cost w h) reg).
Lemma cd_c1_flat : forall (b d : nat -> nat -> R) q, (q < n)%nat -> flat1 h (cd_c1 (N:=RNum) exp sqrt w h reg b d) q = upd (flat1 h b) (flat1 h d) q.
Proof. intros b d q Hq. unfold flat1 at 1, cd_c1, debias_update. f_equal. cbn [ndiv nmul RNum]. f_equal. exact (convol_R w h reg Hh0 Hreg (fun _ => d) 0 q Hq). Qed.
Lemma cl_c1_flat : forall (b c : nat -> nat -> R) q, (q < n)%nat -> exp (flat1 h (cl_c1 (N:=RNum) exp ln w h reg (1 / 2) b c) q) = upd (fun j => exp (flat1 h b j)) (fun j => exp (flat1 h c j)) q.
Proof.
  intros b c q Hq. unfold flat1 at 1, cl_c1, debias_update. cbn [nmul nsub nadd RNum].
  pose proof (convol_log_R w h reg Hw0 Hh0 Hreg c q Hq) as E. unfold flat1 in E at 1. rewrite E.
  set (k := rsum n (fun i => exp (- grid_cost w h q i / reg) * exp (flat1 h c i))).
  assert (K0 : 0 < k) by (apply rsum_pos; [lia|]; intros r Hr; apply Rmult_lt_0_compat; apply exp_pos).
  rewrite (rsum_ext (w * h) (fun r => exp (- grid_cost w h q r / reg + flat1 h c r)) (fun r => exp (- grid_cost w h q r / reg) * exp (flat1 h c r))) by (intros; rewrite exp_plus; reflexivity). fold k.
  match goal with |- exp ?u = _ => rewrite <- (sqrt_square (exp u)) by (left; apply exp_pos); rewrite <- exp_plus; replace (u + u) with (flat1 h c q + flat1 h b q + - ln k) by (unfold flat1; field) end.
  rewrite !exp_plus, exp_Ropp, exp_ln by auto. reflexivity.
Qed.
Lemma upd_ext : forall m (b b' c c' : vec), (forall q, (q < n)%nat -> b q = b' q) -> (forall q, (q < n)%nat -> c q = c' q) -> forall q, (q < n)%nat -> Nat.iter m (upd b) c q = Nat.iter m (upd b') c' q.
Proof.
  clear Hw0 Hh0 Hreg. induction m as [|m IH]; intros b b' c c' Hb Hc q Hq; [apply Hc; auto|]. change (sqrt (Nat.iter m (upd b) c q * b q / rsum n (fun i => exp (- grid_cost w h q i / reg) * Nat.iter m (upd b) c i)) = sqrt (Nat.iter m (upd b') c' q * b' q / rsum n (fun i => exp (- grid_cost w h q i / reg) * Nat.iter m (upd b') c' i))). rewrite (IH b b' c c' Hb Hc q Hq), (Hb q Hq). f_equal. f_equal. 
  apply rsum_ext. intros r Hr. rewrite (IH b b' c c' Hb Hc r Hr). reflexivity.
Qed.
Lemma iter_r : forall (T : Type) m (f : T -> T) x, Nat.iter (S m) f x = Nat.iter m f (f x).
Proof. induction m as [|m IH]; intros; [reflexivity|]. change (Nat.iter (S (S m)) f x) with (f (Nat.iter (S m) f x)). rewrite IH. reflexivity. Qed.
Lemma cd_c_flat : forall m (b c : nat -> nat -> R) q, (q < n)%nat -> flat1 h (cd_c (N:=RNum) exp sqrt w h reg m b c) q = Nat.iter m (upd (flat1 h b)) (flat1 h c) q.
Proof.
  induction m as [|m IH]; intros b c q Hq; [reflexivity|]. cbn [cd_c]. rewrite IH by auto. rewrite iter_r. apply upd_ext; auto. intros r Hr. apply cd_c1_flat; auto.
Qed.
Lemma cl_c_flat : forall m (b c : nat -> nat -> R) q, (q < n)%nat -> exp (flat1 h (cl_c (N:=RNum) exp ln w h reg (1 / 2) m b c) q) = Nat.iter m (upd (fun j => exp (flat1 h b j))) (fun j => exp (flat1 h c j)) q.
Proof.
  induction m as [|m IH]; intros b c q Hq; [reflexivity|]. cbn [cl_c]. rewrite IH by auto. rewrite iter_r. apply upd_ext; auto. intros r Hr. apply cl_c1_flat; auto.
Qed.
End D.
