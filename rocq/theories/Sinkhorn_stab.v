(** The stabilised solver as a disguised kernel iteration, the batched projections and the
    last-step mode. *)
From Coq Require Import List Arith Bool Reals Lra Lia.
From Verif Require Import Num Sums Spec Duals_proofs Entropy Sinkhorn_model Sinkhorn_proofs Sinkhorn_more.
Import ListNotations.
Local Open Scope R_scope.

Ltac rfield := match goal with |- @eq _ ?x ?y => change (@eq R x y) end; field; repeat split; lra.
Lemma Rdiv_1 : forall x : R, x / 1 = x.
Proof. intros; field. Qed.
Lemma sc_help : forall c x k y : R, 0 < c -> c * x * k * (y / c) = x * k * y.
Proof. intros; field; lra. Qed.
Lemma sc_help2 : forall c x k : R, 0 < k -> c * x / k = c / k * x.
Proof. intros; field; lra. Qed.
Lemma sc_help3 : forall x k y p q : R, 0 < p -> 0 < q -> x / p * k * (y / q) = x * k * y / (p * q).
Proof. intros; field; lra. Qed.
Lemma nat_num_INR : forall k, nat_num (N:=RNum) k = INR k.
Proof. induction k; [reflexivity|]. cbn [nat_num]. rewrite IHk, S_INR. reflexivity. Qed.

(** ** sinkhorn_stabilized *)
Section S.
Variables (n m : nat) (a b : vec) (M : mat) (reg tau : R).
Hypotheses (Hn : (0 < n)%nat) (Hm : (0 < m)%nat) (Ha : pos_vec n a) (Hb : pos_vec m b) (Hreg : 0 < reg).
Definition kern (i j : nat) : R := exp (- M i j / reg).
Lemma kern_pos : forall i j, (i < n)%nat -> (j < m)%nat -> 0 < kern i j.
Proof. intros; apply exp_pos. Qed.
Notation pl u v := (scaled (N:=RNum) kern u v).
Notation kv := (kp_v (N:=RNum) n b kern).
Notation ku := (kp_u (N:=RNum) m a kern).
Notation upd := (st_update (N:=RNum) n m a b exp M reg).
Notation stp := (st_step (N:=RNum) n m a b exp ln M reg tau).
Notation gam := (get_Gamma (N:=RNum) exp ln M reg).

(** the scalings hidden in a state *)
Definition hu (s : ss (N:=RNum)) (i : nat) : R := exp (s_al s i / reg) * s_u s i.
Definition hv (s : ss (N:=RNum)) (j : nat) : R := exp (s_be s j / reg) * s_v s j.
Lemma gam_pl : forall (s : ss (N:=RNum)) i j, 0 < s_u s i -> 0 < s_v s j -> gam s i j = pl (hu s) (hv s) i j.
Proof.
  intros s i j Hu Hv. unfold get_Gamma, scaled, hu, hv, kern, nopp. cbn. rewrite !exp_plus, !exp_ln by auto.
  replace ((0 - (M i j - s_al s i - s_be s j)) / reg) with (- M i j / reg + s_al s i / reg + s_be s j / reg) by (field; lra).
  rewrite !exp_plus. ring.
Qed.
Lemma getK_R : forall (al be : vec) i j, get_K (N:=RNum) exp M reg al be i j = exp (al i / reg) * kern i j * exp (be j / reg).
Proof.
  intros al be i j. unfold get_K, kern, nopp. cbn.
  replace ((0 - (M i j - al i - be j)) / reg) with (al i / reg + - M i j / reg + be j / reg) by (field; lra).
  rewrite !exp_plus. ring.
Qed.
(** one update is one kernel iteration on the hidden scalings *)
Lemma upd_hv : forall (s : ss (N:=RNum)) j, pos_vec n (s_u s) -> (j < m)%nat -> hv (upd s) j = kv (hu s) j.
Proof.
  intros s j Hu Hj. rewrite kv_R. unfold hv, st_update. cbn [s_be s_v].
  rewrite nsum_R. set (Z := rsum n _).
  assert (E : Z = exp (s_be s j / reg) * ktu n kern (hu s) j).
  { unfold Z, ktu. rewrite <- rsum_scal. apply rsum_ext; intros i Hi. rewrite getK_R. unfold hu. cbn. ring. }
  assert (P : 0 < ktu n kern (hu s) j).
  { apply (ktu_pos n m); auto using kern_pos. intros i Hi. apply Rmult_lt_0_compat; auto. apply exp_pos. }
  rewrite E. assert (Q := exp_pos (s_be s j / reg)). cbn. rfield.
Qed.
Lemma upd_pos_v : forall (s : ss (N:=RNum)), pos_vec n (s_u s) -> pos_vec m (s_v (upd s)).
Proof.
  intros s Hu j Hj. unfold st_update. cbn [s_v]. rewrite nsum_R. apply Rdiv_lt_0_compat; auto. apply rsum_pos; auto.
  intros i Hi. apply Rmult_lt_0_compat; auto. rewrite getK_R. repeat apply Rmult_lt_0_compat; apply exp_pos.
Qed.
Lemma upd_pos_u : forall (s : ss (N:=RNum)), pos_vec n (s_u s) -> pos_vec n (s_u (upd s)).
Proof.
  intros s Hu i Hi. assert (Pv := upd_pos_v s Hu). unfold st_update. cbn [s_u].
  rewrite nsum_R. apply Rdiv_lt_0_compat; auto. apply rsum_pos; auto.
  intros j Hj. apply Rmult_lt_0_compat; [|apply (Pv j Hj)]. rewrite getK_R. repeat apply Rmult_lt_0_compat; apply exp_pos.
Qed.
Lemma upd_hu : forall (s : ss (N:=RNum)) i, pos_vec n (s_u s) -> (i < n)%nat -> hu (upd s) i = ku (hv (upd s)) i.
Proof.
  intros s i Hu Hi. assert (Pv := upd_pos_v s Hu).
  assert (P : 0 < kv_sum m kern (hv (upd s)) i).
  { apply (kvs_pos n); auto using kern_pos. intros j Hj. apply Rmult_lt_0_compat; [apply exp_pos|apply (Pv j Hj)]. }
  rewrite (ku_R n); auto.
  assert (E : s_u (upd s) i = a i / (exp (s_al s i / reg) * kv_sum m kern (hv (upd s)) i)).
  { unfold st_update at 1. cbn [s_u]. rewrite nsum_R. apply (f_equal (Rdiv (a i))). unfold kv_sum. rewrite <- rsum_scal. apply rsum_ext; intros j Hj.
    rewrite getK_R. unfold hv, st_update. cbn. ring. }
  unfold hu at 1. rewrite E. change (s_al (upd s) i) with (s_al s i). assert (Q := exp_pos (s_al s i / reg)). rfield.
Qed.
Lemma absorb_hu : forall (s : ss (N:=RNum)) i, 0 < s_u s i -> hu (st_absorb (N:=RNum) n m ln reg s) i = hu s i / INR n.
Proof.
  intros s i Hu. assert (Q := lt_0_INR n Hn). unfold hu, st_absorb. cbn [s_al s_u]. rewrite nat_num_INR. cbn.
  replace ((s_al s i + reg * ln (s_u s i)) / reg) with (s_al s i / reg + ln (s_u s i)) by (field; lra). rewrite exp_plus, exp_ln by auto. rfield.
Qed.
Lemma absorb_hv : forall (s : ss (N:=RNum)) j, 0 < s_v s j -> hv (st_absorb (N:=RNum) n m ln reg s) j = hv s j / INR m.
Proof.
  intros s j Hv. assert (Q := lt_0_INR m Hm). unfold hv, st_absorb. cbn [s_be s_v]. rewrite nat_num_INR. cbn.
  replace ((s_be s j + reg * ln (s_v s j)) / reg) with (s_be s j / reg + ln (s_v s j)) by (field; lra). rewrite exp_plus, exp_ln by auto. rfield.
Qed.
Lemma absorb_pos : forall (s : ss (N:=RNum)), pos_vec n (s_u (st_absorb (N:=RNum) n m ln reg s)) /\ pos_vec m (s_v (st_absorb (N:=RNum) n m ln reg s)).
Proof.
  intros s. split; intros k Hk; cbn [st_absorb s_u s_v]; rewrite nat_num_INR; apply Rdiv_lt_0_compat; try (cbn; lra); apply lt_0_INR; auto.
Qed.

(** the plain kernel iteration: u_{k+1} = ku (kv u_k), started at u_0 *)
Fixpoint kiter (k : nat) (u : vec) : vec := match k with O => u | S k' => ku (kv (kiter k' u)) end.
Definition kplan (k : nat) (u : vec) : mat := match k with O => fun _ _ => 0 | S k' => pl (ku (kv (kiter k' u))) (kv (kiter k' u)) end.

Lemma kv_scale : forall c u u', 0 < c -> pos_vec n u' -> (forall i, (i < n)%nat -> u i = c * u' i) -> forall j, (j < m)%nat -> kv u j = kv u' j / c.
Proof.
  intros c u u' Hc Hu H j Hj. rewrite !kv_R. assert (P := ktu_pos n m kern Hn kern_pos u' j Hu Hj).
  replace (ktu n kern u j) with (c * ktu n kern u' j). { rfield. }
  unfold ktu. rewrite <- rsum_scal. apply rsum_ext; intros; rewrite H by auto; ring.
Qed.
Lemma ku_scale : forall c v v', 0 < c -> pos_vec m v' -> (forall j, (j < m)%nat -> v j = v' j / c) -> forall i, (i < n)%nat -> ku v i = c * ku v' i.
Proof.
  intros c v v' Hc Hv H i Hi. assert (P := kvs_pos n m kern Hm kern_pos v' i Hv Hi).
  assert (E : kv_sum m kern v i = kv_sum m kern v' i / c).
  { unfold kv_sum. rewrite <- rsum_div. apply rsum_ext; intros; rewrite H by auto. rfield. }
  assert (Q : 0 < kv_sum m kern v i) by (rewrite E; apply Rdiv_lt_0_compat; auto).
  rewrite !(ku_R n) by auto. rewrite E. rfield.
Qed.
(** a state tracks the plain iterate u up to a factor *)
Definition tracks (s : ss (N:=RNum)) (u : vec) : Prop :=
  pos_vec n (s_u s) /\ pos_vec n u /\ exists c, 0 < c /\ forall i, (i < n)%nat -> hu s i = c * u i.
Lemma upd_tracks : forall (s : ss (N:=RNum)) u, tracks s u -> exists c, 0 < c /\
  (forall i, (i < n)%nat -> hu (upd s) i = c * ku (kv u) i) /\ (forall j, (j < m)%nat -> hv (upd s) j = kv u j / c).
Proof.
  intros s u (Pu & Qu & c & Hc & H). exists c. split; auto.
  assert (V : forall j, (j < m)%nat -> hv (upd s) j = kv u j / c).
  { intros j Hj. rewrite upd_hv by auto. apply kv_scale; auto. }
  split; auto. intros i Hi. rewrite upd_hu by auto. apply ku_scale; auto. apply (kv_pos n m b kern Hn Hb kern_pos); auto.
Qed.
Lemma step_tracks : forall (s : ss (N:=RNum)) u, tracks s u -> tracks (stp s) (ku (kv u)) /\
  forall i j, (i < n)%nat -> (j < m)%nat ->
    gam (stp s) i j = pl (ku (kv u)) (kv u) i j / (if st_big (N:=RNum) n m tau (upd s) then INR n * INR m else 1).
Proof.
  intros s u T. destruct (upd_tracks s u T) as (c & Hc & EU & EV). destruct T as (Pu & Qu & _).
  assert (PV := upd_pos_v s Pu). assert (PU := upd_pos_u s Pu).
  assert (Qv := kv_pos n m b kern Hn Hb kern_pos u Qu). assert (Qu' := ku_pos n m a kern Hm Ha kern_pos _ Qv).
  assert (N1 := lt_0_INR n Hn). assert (M1 := lt_0_INR m Hm).
  assert (E0 : forall i j, (i < n)%nat -> (j < m)%nat -> pl (hu (upd s)) (hv (upd s)) i j = pl (ku (kv u)) (kv u) i j).
  { intros i j Hi Hj. unfold scaled. rewrite EU, EV by auto. apply sc_help; auto. }
  unfold st_step. destruct (st_big _ _ _ (upd s)).
  - destruct (absorb_pos (upd s)) as [AU AV]. split.
    + split; [auto|]. split; [auto|]. exists (c / INR n). split; [apply Rdiv_lt_0_compat; auto|].
      intros i Hi. rewrite absorb_hu by auto. rewrite EU by auto. apply sc_help2; auto.
    + intros i j Hi Hj. rewrite gam_pl by auto. rewrite <- E0 by auto. unfold scaled. rewrite absorb_hu, absorb_hv by auto. apply sc_help3; auto.
  - split; [split; auto; split; auto; exists c; auto|].
    intros i j Hi Hj. rewrite gam_pl by auto. rewrite E0 by auto. symmetry. apply Rdiv_1.
Qed.

(** what the loop returns: the state after some number k >= 1 of steps *)
Section Loop.
Variables (norm : nat -> (nat -> R) -> R) (thr : R) (period : nat).
Notation loop := (st_loop (N:=RNum) n m a b norm no_nan exp ln M reg tau thr period).
Lemma any_no_nan : forall k (f : vec), any k (fun i => no_nan (f i)) = false.
Proof. intros; apply any_false; auto. Qed.
Lemma st_loop_spec : forall left ii err (s : ss (N:=RNum)) u, tracks s u ->
  let r := loop left ii err s in
  (forall k, snd r <> NumErr k) /\
  ((0 < left)%nat -> exists k s0, (1 <= k <= left)%nat /\ tracks s0 (kiter (k - 1) u) /\ fst r = stp s0 /\
     (snd r = MaxIter -> k = left) /\
     ((thr < err \/ (ii mod period = 0)%nat) -> forall q, snd r = Converged q -> (q mod period = 0)%nat /\ q = (ii + k - 1)%nat /\ st_err (N:=RNum) n m b norm exp ln M reg (fst r) <= thr)).
Proof.
  induction left; intros ii err s u T; cbn [st_loop]; [cbn; split; [discriminate|lia]|].
  destruct (step_tracks s u T) as [T' _]. rewrite !any_no_nan. cbn [orb].
  set (err' := if Nat.eqb (ii mod period) 0 then st_err (N:=RNum) n m b norm exp ln M reg (stp s) else err).
  change (@nleb RNum) with Rleb. destruct (Rleb err' thr) eqn:E; cbn [fst snd].
  - split; [discriminate|]. intros _. exists 1%nat, s. split; [lia|]. split; [exact T|]. split; [reflexivity|]. split; [discriminate|].
    intros Hor q Hq. injection Hq as <-. apply Rleb_true in E. unfold err' in E. destruct (Nat.eqb_spec (ii mod period) 0) as [Z|Z].
    + split; auto. split; [lia|auto].
    + exfalso. destruct Hor; [lra|auto].
  - apply Rleb_false in E. destruct (IHleft (S ii) err' (stp s) (ku (kv u)) T') as [X Y]. split; auto. intros _.
    destruct left as [|l].
    + exists 1%nat, s. cbn. split; [lia|]. split; auto. split; auto. split; auto. intros _ q Hq. discriminate.
    + destruct (Y ltac:(lia)) as (k & s0 & K1 & K2 & K3 & K4 & K5). exists (S k), s0. split; [lia|]. split.
      { replace (S k - 1)%nat with (S (k - 1)) by lia. cbn [kiter].
        assert (Q : forall j w, kiter j (ku (kv w)) = ku (kv (kiter j w))) by (induction j; intros w; cbn; [auto|rewrite IHj; auto]).
        rewrite <- Q. exact K2. }
      split; auto. split; [intros HH; rewrite (K4 HH); auto|]. intros _ q Hq.
      destruct (K5 (or_introl E) q Hq) as (F1 & F2 & F3). split; auto. split; [lia|auto].
Qed.
End Loop.
End S.

(** ** batched projections: element q is a kernel iteration on the transposed problem *)
Section B.
Variables (B n m : nat) (a b : nat -> vec) (K : nat -> mat).
Hypotheses (HB : (0 < B)%nat) (Hn : (0 < n)%nat) (Hm : (0 < m)%nat)
  (Ha : forall q, (q < B)%nat -> pos_vec n (a q)) (Hb : forall q, (q < B)%nat -> pos_vec m (b q))
  (HK : forall q i j, (q < B)%nat -> (i < n)%nat -> (j < m)%nat -> 0 < K q i j).
Notation bf := (bp_f (N:=RNum) m a K).
Notation bg := (bp_g (N:=RNum) n b K).
Notation bT := (bp_T (N:=RNum) K).
Definition bpos (s : bs (N:=RNum)) := (forall q, (q < B)%nat -> pos_vec n (b_f s q)) /\ (forall q, (q < B)%nat -> pos_vec m (b_g s q)).
Lemma bf_pos : forall g, (forall q, (q < B)%nat -> pos_vec m (g q)) -> forall q, (q < B)%nat -> pos_vec n (bf g q).
Proof. intros g Hg q Hq i Hi. unfold bp_f. rewrite nsum_R. apply Rdiv_lt_0_compat; [apply Ha; auto|]. apply rsum_pos; auto. intros; apply Rmult_lt_0_compat; [apply HK; auto|apply Hg; auto]. Qed.
Lemma bg_pos : forall f, (forall q, (q < B)%nat -> pos_vec n (f q)) -> forall q, (q < B)%nat -> pos_vec m (bg f q).
Proof. intros f Hf q Hq i Hi. unfold bp_g. rewrite nsum_R. apply Rdiv_lt_0_compat; [apply Hb; auto|]. apply rsum_pos; auto. intros; apply Rmult_lt_0_compat; [apply HK; auto|apply Hf; auto]. Qed.
(** columns of an updated state are exact *)
Lemma bT_col : forall f q j, (forall q, (q < B)%nat -> pos_vec n (f q)) -> (q < B)%nat -> (j < m)%nat ->
  col_sum n (bT (mk_bs (N:=RNum) f (bg f)) q) j = b q j.
Proof.
  intros f q j Hf Hq Hj. unfold col_sum, bp_T. cbn [b_f b_g].
  assert (E : bg f q j = b q j / rsum n (fun i => K q i j * f q i)) by (unfold bp_g; rewrite nsum_R; reflexivity).
  assert (P : 0 < rsum n (fun i => K q i j * f q i)) by (apply rsum_pos; auto; intros; apply Rmult_lt_0_compat; [apply HK; auto|apply Hf; auto]).
  change (rsum n (fun i => K q i j * f q i * bg f q j) = b q j). rewrite (rsum_scal_r n (bg f q j) (fun i => K q i j * f q i)). rewrite E. rfield.
Qed.
Definition bdone (s : bs (N:=RNum)) := bpos s /\ b_g s = bg (b_f s).
Lemma bT_pos : forall (s : bs (N:=RNum)) q i j, bpos s -> (q < B)%nat -> (i < n)%nat -> (j < m)%nat -> 0 < bT s q i j.
Proof. intros s q i j [Pf Pg] Hq Hi Hj. unfold bp_T. cbn. repeat apply Rmult_lt_0_compat; [apply HK|apply Pf|apply Pg]; auto. Qed.
Lemma bp_loop_spec : forall norm tol left ii (s : bs (N:=RNum)), (forall q, (q < B)%nat -> pos_vec m (b_g s q)) ->
  let r := bp_loop (N:=RNum) B n m a b norm tol K left ii s in
  (forall k, snd r <> NumErr k) /\
  ((0 < left)%nat -> bdone (fst r)) /\
  (forall k, snd r = Converged k -> (k mod 10 = 0)%nat /\ bp_err (N:=RNum) B n m a norm (bT (fst r)) < tol).
Proof.
  intros norm tol. induction left; intros ii s Hg; cbn [bp_loop]; [cbn; repeat split; try discriminate; intros; lia|].
  set (f := bf (b_g s)). set (s' := mk_bs (N:=RNum) f (bg f)).
  assert (Pf := bf_pos (b_g s) Hg). assert (Pg := bg_pos f Pf).
  change (@nltb RNum) with Rltb.
  destruct (Nat.eqb_spec (ii mod 10) 0) as [Z|Z]; cbn [andb]; [destruct (Rltb _ tol) eqn:E|].
  - cbn [fst snd]. repeat split; try discriminate; auto. injection H as <-; auto. apply Rltb_true in E; exact E.
  - destruct (IHleft (S ii) s' Pg) as (X & Y & W). split; auto. split; auto. intros _. destruct left; [split; [split; auto|reflexivity]|apply Y; lia].
  - destruct (IHleft (S ii) s' Pg) as (X & Y & W). split; auto. split; auto. intros _. destruct left; [split; [split; auto|reflexivity]|apply Y; lia].
Qed.
Lemma bdone_col : forall (s : bs (N:=RNum)) q j, bdone s -> (q < B)%nat -> (j < m)%nat -> col_sum n (bT s q) j = b q j.
Proof. intros [f g] q j [[Pf Pg] E] Hq Hj. cbn in E, Pf. subst g. apply bT_col; auto. Qed.

(** ** convergence of all elements at once *)
Section Conv.
Hypothesis (Hmass : forall q, (q < B)%nat -> mass n (a q) = mass m (b q)).
(** element q of the batch, transposed *)
Definition Kt (q : nat) : mat := fun j i => K q i j.
Lemma Kt_pos : forall q, (q < B)%nat -> forall j i, (j < m)%nat -> (i < n)%nat -> 0 < Kt q j i.
Proof. intros; apply HK; auto. Qed.
Lemma bf_kv : forall g q i, bf g q i = kp_v (N:=RNum) m (a q) (Kt q) (g q) i.
Proof. intros. rewrite kv_R. unfold bp_f. rewrite nsum_R. reflexivity. Qed.
Lemma bg_ku : forall f q j, (q < B)%nat -> (j < m)%nat -> pos_vec n (f q) -> bg f q j = kp_u (N:=RNum) n (b q) (Kt q) (f q) j.
Proof.
  intros f q j Hq Hj Hf. assert (P := kvs_pos m n (Kt q) Hn (Kt_pos q Hq) (f q) j Hf Hj).
  rewrite (ku_R m n (b q) (Kt q) (Hb q Hq)) by auto. unfold bp_g. rewrite nsum_R. reflexivity.
Qed.
Definition bgap (s : bs (N:=RNum)) (q : nat) : R := gap m n (b q) (a q) (Kt q) (b_g s q) (b_f s q).
Lemma gap_ext : forall n' m' a' b' K' u v u' v', (forall i, (i < n')%nat -> u i = u' i) -> (forall j, (j < m')%nat -> v j = v' j) ->
  gap n' m' a' b' K' u v = gap n' m' a' b' K' u' v'.
Proof. intros. apply dsum_ext. intros i j Hi Hj. rewrite H, H0 by auto. reflexivity. Qed.
Definition bstep (s : bs (N:=RNum)) : bs (N:=RNum) := mk_bs (N:=RNum) (bf (b_g s)) (bg (bf (b_g s))).
Lemma bstep_g : forall (s : bs (N:=RNum)) q, (forall q, (q < B)%nat -> pos_vec m (b_g s q)) -> (q < B)%nat -> forall j, (j < m)%nat ->
  b_g (bstep s) q j = kp_u (N:=RNum) n (b q) (Kt q) (kp_v (N:=RNum) m (a q) (Kt q) (b_g s q)) j.
Proof.
  intros s q Hg Hq j Hj. cbn [bstep b_g]. rewrite bg_ku by (auto; apply bf_pos; auto).
  unfold kp_u. reflexivity.
Qed.
Lemma bdone_row : forall (s : bs (N:=RNum)) q, bdone s -> (q < B)%nat -> forall j, (j < m)%nat -> row_sum n (scaled (N:=RNum) (Kt q) (b_g s q) (b_f s q)) j = b q j.
Proof.
  intros s q D Hq j Hj. rewrite <- (bdone_col s q j D Hq Hj). apply rsum_ext; intros i Hi. unfold scaled, bp_T, Kt. cbn. ring.
Qed.
Lemma bgap_step : forall (s : bs (N:=RNum)) q, bdone s -> (q < B)%nat ->
  bgap s q - bgap (bstep s) q >= kl n (a q) (fun i => row_sum m (bT s q) i).
Proof.
  intros s q D Hq. pose proof D as D0; destruct D0 as [[Pf Pg] E].
  assert (G := gap_step m n (b q) (a q) (Kt q) Hm Hn (Hb q Hq) (Ha q Hq) (Kt_pos q Hq) (eq_sym (Hmass q Hq)) (b_g s q) (b_f s q) (Pg q Hq) (Pf q Hq) (bdone_row s q D Hq)).
  unfold bgap. rewrite (gap_ext m n (b q) (a q) (Kt q) (b_g (bstep s) q) (b_f (bstep s) q) _ _ (bstep_g s q Pg Hq) (fun i _ => bf_kv (b_g s) q i)).
  apply Rle_ge. eapply Rle_trans; [|exact G]. right. apply rsum_ext; intros i Hi.
  replace (colm m (Kt q) (b_g s q) (b_f s q) i) with (row_sum m (bT s q) i); [reflexivity|].
  apply rsum_ext; intros j Hj. unfold scaled, bp_T, Kt. cbn. ring.
Qed.
Lemma bstep_done : forall (s : bs (N:=RNum)), (forall q, (q < B)%nat -> pos_vec m (b_g s q)) -> bdone (bstep s).
Proof. intros s Hg. assert (Pf := bf_pos (b_g s) Hg). split; [split; [exact Pf|exact (bg_pos _ Pf)]|reflexivity]. Qed.
Lemma bgap_nonneg : forall (s : bs (N:=RNum)) q, bdone s -> (q < B)%nat -> 0 <= bgap s q.
Proof.
  intros s q D Hq. pose proof D as D0; destruct D0 as [[Pf Pg] E].
  apply (gap_nonneg m n (b q) (a q) (Kt q) Hm (Hb q Hq) (Ha q Hq) (Kt_pos q Hq) (eq_sym (Hmass q Hq))); auto. apply tot_rows. apply bdone_row; auto.
Qed.
(** total mass of the batch elements *)
Definition btot : R := rsum B (fun q => mass n (a q)).
Lemma mass_le_btot : forall q, (q < B)%nat -> mass n (a q) <= btot.
Proof. intros q Hq. apply (rsum_le_one B (fun q => mass n (a q))); auto. intros k Hk. apply rsum_nonneg; intros i Hi; left; apply Ha; auto. Qed.
Lemma btot_pos : 0 < btot.
Proof. eapply Rlt_le_trans; [|apply (mass_le_btot 0%nat); auto]. apply rsum_pos; auto. apply Ha; auto. Qed.
Lemma berr_kl : forall (s : bs (N:=RNum)) tol, bdone s -> 0 <= tol -> tol <= bp_err (N:=RNum) B n m a norm2 (bT s) ->
  tol * tol / (4 * btot) <= rsum B (fun q => kl n (a q) (fun i => row_sum m (bT s q) i)).
Proof.
  intros s tol D Ht He. unfold bp_err in He.
  destruct (nmaxk_In (B - 1) (fun q => norm2 n (fun i => nsub (n:=RNum) (nsum m (fun j => bT s q i j)) (a q i)))) as (q & Hq & Eq).
  rewrite Eq in He. assert (Hq' : (q < B)%nat) by lia. clear Eq Hq. rename Hq' into Hq.
  pose proof D as D0; destruct D0 as [[Pf Pg] E].
  assert (PR : pos_vec n (fun i => row_sum m (bT s q) i)).
  { intros i Hi. apply rsum_pos; auto. intros j Hj. apply (bT_pos s q i j (proj1 D)); auto. }
  assert (ES : rsum n (fun i => row_sum m (bT s q) i) = mass n (a q)).
  { rewrite Hmass by auto. transitivity (total n m (bT s q)); [reflexivity|]. unfold total. rewrite rsum_swap. apply rsum_ext; intros j Hj. apply (bdone_col s q j D Hq Hj). }
  assert (L := err_kl n (a q) (fun i => row_sum m (bT s q) i) btot (Ha q Hq) PR (mass_le_btot q Hq) ltac:(rewrite ES; apply mass_le_btot; auto)).
  assert (S : norm2 n (fun i => nsub (n:=RNum) (nsum m (fun j => bT s q i j)) (a q i)) = sqrt (rsum n (fun i => (row_sum m (bT s q) i - a q i) * (row_sum m (bT s q) i - a q i)))).
  { unfold norm2. f_equal. apply rsum_ext; intros i Hi. rewrite nsum_R. reflexivity. }
  rewrite S in He. set (z := rsum n (fun i => (row_sum m (bT s q) i - a q i) * (row_sum m (bT s q) i - a q i))) in *.
  assert (0 <= z) by (apply rsum_nonneg; intros; apply Rle_0_sqr).
  assert (tol * tol <= z). { rewrite <- (sqrt_sqrt z) by auto. apply Rmult_le_compat; auto. }
  assert (T := btot_pos).
  apply Rle_trans with (kl n (a q) (fun i => row_sum m (bT s q) i)).
  - apply (Rmult_le_reg_l (4 * btot)); [lra|]. replace (4 * btot * (tol * tol / (4 * btot))) with (tol * tol) by (field; lra). lra.
  - apply (rsum_le_one B (fun q => kl n (a q) (fun i => row_sum m (bT s q) i))); auto. intros k Hk.
    apply kl_nonneg; [intros i Hi; left; apply Ha; auto|]. intros i Hi. apply rsum_pos; auto. intros j Hj. apply (bT_pos s k i j (proj1 D)); auto.
Qed.
Lemma b_maxiter_gap : forall tol left ii (s : bs (N:=RNum)), 0 <= tol -> (forall q, (q < B)%nat -> pos_vec m (b_g s q)) -> (0 < left)%nat ->
  snd (bp_loop (N:=RNum) B n m a b norm2 tol K left ii s) = MaxIter ->
  INR (checks left ii) * (tol * tol / (4 * btot)) <= rsum B (fun q => bgap (bstep s) q).
Proof.
  intros tol. induction left; intros ii s Ht Hg Hl; [lia|]. cbn [bp_loop checks].
  change (mk_bs (N:=RNum) (bf (b_g s)) (bg (bf (b_g s)))) with (bstep s).
  assert (D := bstep_done s Hg). set (s' := bstep s) in *.
  assert (D' := bstep_done s' (proj2 (proj1 D))).
  assert (G1 : rsum B (fun q => bgap (bstep s') q) + rsum B (fun q => kl n (a q) (fun i => row_sum m (bT s' q) i)) <= rsum B (fun q => bgap s' q)).
  { rewrite <- rsum_plus. apply rsum_le; intros q Hq. assert (X := bgap_step s' q D Hq). lra. }
  assert (G2 : 0 <= rsum B (fun q => bgap (bstep s') q)) by (apply rsum_nonneg; intros; apply bgap_nonneg; auto).
  assert (G3 : 0 <= rsum B (fun q => kl n (a q) (fun i => row_sum m (bT s' q) i))).
  { apply rsum_nonneg; intros q Hq. apply kl_nonneg; [intros i Hi; left; apply Ha; auto|]. intros i Hi. apply rsum_pos; auto. intros j Hj. apply (bT_pos s' q i j (proj1 D)); auto. }
  change (@nltb RNum) with Rltb.
  destruct (Nat.eqb (ii mod 10) 0); cbn [andb].
  - destruct (Rltb _ tol) eqn:E; [discriminate|]. apply Rltb_false in E.
    assert (G4 := berr_kl s' tol D Ht E). intros HX.
    rewrite plus_INR, Rmult_plus_distr_r. change (INR 1) with 1. rewrite Rmult_1_l.
    destruct left as [|l]; [cbn [checks]; change (INR 0) with 0; lra|].
    specialize (IHleft _ _ Ht (proj2 (proj1 D)) ltac:(lia) HX). lra.
  - intros HX. cbn [Nat.add]. destruct left as [|l]; [cbn [checks]; change (INR 0) with 0; lra|].
    specialize (IHleft _ _ Ht (proj2 (proj1 D)) ltac:(lia) HX). lra.
Qed.
Lemma b_converges : forall tol k kk it (s : bs (N:=RNum)), 0 < tol -> 0 < k -> (forall q i j, (q < B)%nat -> (i < n)%nat -> (j < m)%nat -> k <= K q i j <= kk) ->
  (forall q, (q < B)%nat -> pos_vec m (b_g s q)) -> 80 * (btot * btot) * ln (kk / k) < INR it * (tol * tol) ->
  exists ii, snd (bp_loop (N:=RNum) B n m a b norm2 tol K it 0 s) = Converged ii.
Proof.
  intros tol k kk it s Ht Hk HKB Hg Hit. assert (T := btot_pos).
  assert (L0 : 0 <= ln (kk / k)).
  { apply ln_ge0. apply (Rmult_le_reg_r k); auto. replace (kk / k * k) with kk by (field; lra). specialize (HKB 0%nat 0%nat 0%nat HB Hn Hm). lra. }
  assert (Hl : (0 < it)%nat).
  { destruct it; [|lia]. exfalso. change (INR 0) with 0 in Hit. assert (0 <= 80 * (btot * btot) * ln (kk / k)) by (repeat apply Rmult_le_pos; lra). lra. }
  destruct (bp_loop_spec norm2 tol it 0 s Hg) as (X & _).
  destruct (snd _) as [ii|ii|] eqn:E; [eauto|exfalso; apply (X ii); reflexivity|].
  assert (G := b_maxiter_gap tol it 0 s (Rlt_le _ _ Ht) Hg Hl E). exfalso.
  assert (F : rsum B (fun q => bgap (bstep s) q) <= 2 * btot * ln (kk / k)).
  { unfold btot. replace (2 * rsum B (fun q => mass n (a q)) * ln (kk / k)) with (rsum B (fun q => 2 * mass n (a q) * ln (kk / k))).
    - apply rsum_le; intros q Hq. unfold bgap.
      rewrite (gap_ext m n (b q) (a q) (Kt q) (b_g (bstep s) q) (b_f (bstep s) q) _ _ (bstep_g s q Hg Hq) (fun i _ => bf_kv (b_g s) q i)).
      rewrite Hmass by auto. apply (gap_first m n (b q) (a q) (Kt q) Hm Hn (Hb q Hq) (Ha q Hq) (Kt_pos q Hq) (eq_sym (Hmass q Hq)) k kk (b_g s q) Hk); auto.
      intros j i Hj Hi. apply HKB; auto.
    - rewrite <- rsum_scal, <- rsum_scal_r. reflexivity. }
  assert (C := checks_0 n m Hn Hm it).
  assert (G' : INR (checks it 0) * (tol * tol / (4 * btot)) <= 2 * btot * ln (kk / k)) by lra.
  apply (Rmult_le_compat_l (40 * btot)) in G'; [|lra].
  replace (40 * btot * (INR (checks it 0) * (tol * tol / (4 * btot)))) with (10 * INR (checks it 0) * (tol * tol)) in G' by (field; lra).
  assert (INR it * (tol * tol) <= 10 * INR (checks it 0) * (tol * tol)) by (apply Rmult_le_compat_r; auto; apply Rle_0_sqr).
  lra.
Qed.
End Conv.
End B.
