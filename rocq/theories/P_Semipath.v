(** C159: ot/regpath.py, semi_relaxed_path.
    [semi n m a C g T] = g <C,T> + 1/2 |T 1 - a|^2 is the problem of the docstring, to be minimised over [coupled n m b]: T >= 0 with
    column sums b; [suot lam] = <C,T> + lam |T 1 - a|^2.  Plans are matrices; [unflat m t] reads the flattened vector returned by the code. *)
From Coq Require Import List Arith Bool Reals Lra Lia QArith.
From Verif Require Import Num Sums Spec NS_dense Duals_proofs Emd1d_model Sinkhorn_model Sinkhorn_more Regpath_model Regpath_proofs P_Regpath Semipath_model Semipath_proofs.
Import ListNotations.
Local Open Scope R_scope.

Definition semi (n m : nat) (a : vec) (C : mat) (g : R) (T : mat) : R := g * cost n m C T + / 2 * sq_sum n (row_sum m T) a.
Definition suot (n m : nat) (a : vec) (C : mat) (lam : R) (T : mat) : R := cost n m C T + lam * sq_sum n (row_sum m T) a.
Definition columns (n m : nat) (b : vec) (T : mat) : Prop := forall j, (j < m)%nat -> col_sum n T j = b j.
Definition coupled (n m : nat) (b : vec) (T : mat) : Prop := nonneg_plan n m T /\ columns n m b T.
(** derivative of [semi] with respect to T i j *)
Definition marginal (m : nat) (a : vec) (C : mat) (g : R) (T : mat) (i j : nat) : R := g * C i j + (row_sum m T i - a i).
(** moving mass inside a column between two cells of the support does not change [semi] to first order *)
Definition stationary (n m : nat) (a : vec) (C : mat) (g : R) (T : mat) : Prop :=
  forall i i' j, (i < n)%nat -> (i' < n)%nat -> (j < m)%nat -> T i j <> 0 -> T i' j <> 0 -> marginal m a C g T i j = marginal m a C g T i' j.
Definition optimal_semi (n m : nat) (a b : vec) (C : mat) (g : R) (T : mat) : Prop :=
  coupled n m b T /\ (forall U, coupled n m b U -> semi n m a C g T <= semi n m a C g U) /\ (0 < g -> forall U, coupled n m b U -> suot n m a C (/ (2 * g)) T <= suot n m a C (/ (2 * g)) U).
(** the matrix given to np.linalg.inv and the contract of that call *)
Definition start (n m : nat) (C : mat) : mat := aug (N:=RNum) n m (active0 (N:=RNum) n m C).
Definition inverts_start (n m : nat) (C : mat) (inv : nat -> mat -> mat) : Prop := inverse (m + m) (inv (m + m)%nat (start n m C)) (start n m C).

Lemma inv_len : forall n m C inv, inverts_start n m C inv -> let A := active0 (N:=RNum) n m C in inverse (m + length A) (inv (m + length A)%nat (aug (N:=RNum) n m A)) (aug (N:=RNum) n m A).
Proof. intros n m C inv H A. unfold A. rewrite A0_len. exact H. Qed.
Lemma marg_marginal : forall n m a C g t i j, (i < n)%nat -> (j < m)%nat -> marg n m a C g t (i * m + j) = marginal m a C g (unflat m t) i j.
Proof.
  intros n m a C g t i j Hi Hj. unfold marg, marginal. destruct (cell_div m i j Hj) as [E1 E2]. rewrite E1, rowf_row by auto. unfold sc, cvec. rewrite E1, E2. reflexivity.
Qed.
Lemma stat_spec : forall n m a b C g t, stat n m a b C g t -> columns n m b (unflat m t) /\ stationary n m a C g (unflat m t).
Proof.
  intros n m a b C g t (S1 & u & S2). split; [intros j Hj; rewrite <- colf_col by auto; auto|]. intros i i' j Hi Hi' Hj T1 T2.
  rewrite <- !(marg_marginal n) by auto. assert (E : forall k, reds n m a C g u t k = marg n m a C g t k + u (k mod m)%nat) by (intros; unfold reds, marg; ring).
  assert (Q1 := S2 _ (cell_lt n m i j Hi Hj) T1). assert (Q2 := S2 _ (cell_lt n m i' j Hi' Hj) T2). rewrite E in Q1, Q2. rewrite (proj2 (cell_div m i j Hj)) in Q1. rewrite (proj2 (cell_div m i' j Hj)) in Q2. lra.
Qed.
Lemma objS_semi : forall n m a C g t, (0 < m)%nat -> objS n m a C g t = semi n m a C g (unflat m t).
Proof.
  intros n m a C g t Hm. unfold objS, objJ, semi. f_equal.
  - f_equal. rewrite rsum_grid. apply rsum_ext. intros i _. apply rsum_ext. intros j Hj. destruct (cell_div m i j Hj) as [E1 E2]. unfold sc, cvec. rewrite E1, E2. reflexivity.
  - f_equal. apply rsum_ext. intros i Hi. rewrite <- (rowf_row n m t i Hi). reflexivity.
Qed.
Lemma semi_ext : forall n m a C g T T', (forall i j, (i < n)%nat -> (j < m)%nat -> T i j = T' i j) -> semi n m a C g T = semi n m a C g T'.
Proof.
  intros n m a C g T T' E. unfold semi, cost, sq_sum, row_sum. f_equal; f_equal.
  - apply rsum_ext. intros i Hi. apply rsum_ext. intros j Hj. rewrite E; auto.
  - apply rsum_ext. intros i Hi. rewrite (rsum_ext m (fun j => T i j) (fun j => T' i j)) by (intros; apply E; auto). reflexivity.
Qed.
Lemma kktS_optimal : forall n m a b C g u t, (0 < n)%nat -> (0 < m)%nat -> kktS n m a b C g u t -> optimal_semi n m a b C g (unflat m t).
Proof.
  intros n m a b C g u t Hn Hm K. pose proof K as (K1 & K2).
  assert (Cp : coupled n m b (unflat m t)).
  { split; [intros i j Hi Hj; apply (K2 (i * m + j)%nat); apply cell_lt; auto|]. intros j Hj. rewrite <- colf_col by auto. auto. }
  assert (O : forall U, coupled n m b U -> semi n m a C g (unflat m t) <= semi n m a C g U).
  { intros U (U1 & U2). rewrite <- objS_semi by auto. rewrite (semi_ext n m a C g U (unflat m (flat m U))) by (intros; symmetry; apply (unflat_flat n); auto). rewrite <- objS_semi by auto.
    apply (kktS_min n m a b C Hn Hm g u); auto.
    - intros k Hk. destruct (cell_of n m k Hk) as (i & j & Hi & Hj & ->). change (flat m U (i * m + j)%nat) with (unflat m (flat m U) i j). rewrite (unflat_flat n) by auto. apply U1; auto.
    - intros j Hj. rewrite colf_col by auto. rewrite <- U2 by auto. apply rsum_ext. intros i Hi. apply (unflat_flat n); auto. }
  split; [exact Cp|]. split; [exact O|]. intros Hg U HU. specialize (O U HU). assert (E : forall V, suot n m a C (/ (2 * g)) V = / g * semi n m a C g V) by (intros; unfold suot, semi; field; lra).
  rewrite !E. apply Rmult_le_compat_l; auto. left. apply Rinv_0_lt_compat; auto.
Qed.

(** the matrix inverted at the first iteration is always invertible *)
Theorem C159_start_invertible : forall n m C, (0 < n)%nat -> (0 < m)%nat -> exists W, inverse (m + m) W (start n m C).
Proof. intros n m C Hn Hm. exists (W0 n m C). pose proof (W0_inverse n m C Hn Hm) as H. rewrite A0_len in H. exact H. Qed.
(** IndexError (gamma_list[-1] of an empty list) exactly when the iteration budget allows no iteration *)
Theorem C159_index_error : forall n m (a b : vec) (C : mat) tol_add tol_rem reg inv itmax, (0 < n)%nat -> (0 < m)%nat -> 0 < tol_add -> 0 < tol_rem ->
  (semi_relaxed_path (N:=RNum) n m a b C 0 tol_add tol_rem inv reg itmax = None <-> (itmax <= 1)%nat).
Proof. intros n m a b C tol_add tol_rem reg inv itmax Hn Hm Ha Hr. apply (spath_none n m a b C Hn Hm tol_add tol_rem Ha Hr reg inv). Qed.
(** whatever the iteration budget, ties or degeneracies: every plan of the path, and every interpolated plan, has the column sums b exactly and is stationary *)
Theorem C159_stationary : forall n m (a b : vec) (C : mat) tol_add tol_rem reg inv itmax p, (0 < n)%nat -> (0 < m)%nat -> 0 < tol_add -> 0 < tol_rem -> 0 <= reg -> inverts_start n m C inv ->
  semi_relaxed_path (N:=RNum) n m a b C 0 tol_add tol_rem inv reg itmax = Some p ->
  decreasing (map fst p) /\ (forall d, fst (last p d) = reg) /\
  (forall g t, In (g, t) p -> columns n m b (unflat m t) /\ stationary n m a C g (unflat m t)) /\
  (forall g, reg <= g -> exists t, compute_transport_plan (N:=RNum) g p = Some t /\ columns n m b (unflat m t) /\ stationary n m a C g (unflat m t)).
Proof.
  intros n m a b C tol_add tol_rem reg inv itmax p Hn Hm Ha Hr Hreg Hinv E.
  destruct (spath_stat n m a b C Hn Hm tol_add tol_rem Ha Hr reg Hreg inv (inv_len n m C inv Hinv) itmax p E) as (D & L & S & P). split; [exact D|]. split; [exact L|]. split.
  - intros g t Hin. apply (stat_spec n m a b C g t). apply S; auto.
  - intros g Hg. destruct (P g Hg) as (t & Et & St). exists t. split; [exact Et|]. apply (stat_spec n m a b C g t St).
Qed.
(** What optimality asks of the returned lists.  [strict_cells]: at every returned breakpoint but the last, at most one cell with zero mass
    has the marginal of a cell of its column with non-zero mass; [separated_cells]: within a relative distance tau below a breakpoint no positive
    entry of the interpolated plan becomes negative and no cell becomes cheaper than a cell of its column that carried mass at the breakpoint. *)
Definition strict_cells (n m : nat) (a : vec) (C : mat) (p : list (R * vec)) : Prop := forall g t, In (g, t) (removelast p) -> let T := unflat m t in
  let tied := fun i j => T i j = 0 /\ exists l, (l < n)%nat /\ T l j <> 0 /\ marginal m a C g T i j = marginal m a C g T l j in
  forall i j i' j', (i < n)%nat -> (j < m)%nat -> (i' < n)%nat -> (j' < m)%nat -> tied i j -> tied i' j' -> i = i' /\ j = j'.
Definition separated_cells (n m : nat) (a : vec) (C : mat) (tau : R) (p : list (R * vec)) : Prop := forall g1 t1 g2 t2, In ((g1, t1), (g2, t2)) (combine p (tl p)) ->
  forall i j g, (i < n)%nat -> (j < m)%nat -> g2 <= g <= g1 -> (1 - tau) * g1 <= g -> let T1 := unflat m t1 in let T := unflat m (segment g1 t1 g2 t2 g) in
  (0 < T1 i j -> 0 <= T i j) /\
  (forall l, (l < n)%nat -> T1 l j <> 0 -> marginal m a C g1 T1 l j < marginal m a C g1 T1 i j -> marginal m a C g T l j <= marginal m a C g T i j).
Theorem C159_optimal : forall n m (a b : vec) (C : mat) tol_add tol_rem tau reg inv itmax p, (0 < n)%nat -> (0 < m)%nat ->
  (forall j, (j < m)%nat -> 0 < b j) ->
  (forall j, (j < m)%nat -> exists l, (l < n)%nat /\ forall i, (i < n)%nat -> i <> l -> C l j < C i j) ->
  0 < tol_add < tau -> 0 < tol_rem < tau -> tau < 1 -> 0 <= reg -> inverts_start n m C inv ->
  semi_relaxed_path (N:=RNum) n m a b C 0 tol_add tol_rem inv reg itmax = Some p -> (S (length p) < itmax)%nat -> strict_cells n m a C p -> separated_cells n m a C tau p ->
  forall g, reg <= g -> exists t, compute_transport_plan (N:=RNum) g p = Some t /\ optimal_semi n m a b C g (unflat m t).
Proof.
  intros n m a b C tol_add tol_rem tau reg inv itmax p Hn Hm Hb HC Ha Hr Ht Hreg Hinv E Hlen SE Sep g Hg.
  destruct (spath_exact n m a b C Hn Hm tol_add tol_rem (proj1 Ha) (proj1 Hr) reg Hreg inv (inv_len n m C inv Hinv) tau (proj2 Ha) (proj2 Hr) Ht Hb) with (itmax := itmax) (p := p) (g := g) as (t & u & Et & K); auto.
  - intros i j Hi Hj Hne. destruct (HC j Hj) as (l & Hl & HL). assert (El : imin n C j = l).
    { destruct (Nat.eq_dec (imin n C j) l) as [?|F]; auto. exfalso. assert (Q1 := HL (imin n C j) (imin_lt n m C Hn Hm j) F). assert (Q2 := imin_le n m C Hn Hm l j Hl). lra. }
    rewrite El in *. apply HL; auto.
  - intros g' t Hin k l Hk Hl Z1 (k1 & Hk1 & M1 & N1 & E1) Z2 (l1 & Hl1 & M2 & N2 & E2).
    destruct (cell_of n m k Hk) as (i & j & Hi & Hj & ->). destruct (cell_of n m l Hl) as (i' & j' & Hi' & Hj' & ->).
    destruct (cell_of n m k1 Hk1) as (x & y & Hx & Hy & ->). destruct (cell_of n m l1 Hl1) as (x' & y' & Hx' & Hy' & ->).
    rewrite (proj2 (cell_div m x y Hy)), (proj2 (cell_div m i j Hj)) in M1. rewrite (proj2 (cell_div m x' y' Hy')), (proj2 (cell_div m i' j' Hj')) in M2. subst y y'.
    rewrite !marg_marginal in E1 by auto. rewrite !marg_marginal in E2 by auto.
    destruct (SE g' t Hin i j i' j' Hi Hj Hi' Hj') as [-> ->]; [split; [exact Z1|exists x; auto]|split; [exact Z2|exists x'; auto]|]. reflexivity.
  - intros g1 t1 g2 t2 Hin k g' Hk Hg' Hb'. destruct (cell_of n m k Hk) as (i & j & Hi & Hj & ->). destruct (Sep g1 t1 g2 t2 Hin i j g' Hi Hj Hg' Hb') as (P1 & P2). split; [exact P1|].
    intros k' Hk' Em Hne. destruct (cell_of n m k' Hk') as (x & y & Hx & Hy & ->). rewrite (proj2 (cell_div m x y Hy)), (proj2 (cell_div m i j Hj)) in Em. subst y. rewrite !marg_marginal by auto. apply P2; auto.
  - exists t. split; [exact Et|]. apply (kktS_optimal n m a b C g u t Hn Hm K).
Qed.

(** ** a case: two rows with costs 1 and 2, weights 1/2, one column of mass 1; the second cell enters at gamma = 1 *)
Section Case.
Let a1 : vec := fun _ => / 2.
Let b1 : vec := fun _ => 1.
Let C1 : mat := fun i _ => match i with O => 1 | _ => 2 end.
Let inv1 : nat -> mat -> mat := fun _ _ p q => match p, q with O, O => - 1 | O, _ => 1 | _, O => 1 | _, _ => 0 end.
Let path1 := semi_relaxed_path (N:=RNum) 2 1 a1 b1 C1 0 (/ 10) (/ 10) inv1 (/ 4) 5.
Let t2 (x y : R) : vec := fun k => match k with O => x | 1%nat => y | _ => 0 end.
Lemma case_active : active0 (N:=RNum) 2 1 C1 = [0%nat].
Proof. unfold active0. cbn [map seq]. f_equal. cbn [argmaxk Nat.sub]. cbn [nltb nopp nsub n0 RNum]. replace (Rltb _ _) with false; [reflexivity|]. symmetry. apply Rltb_false. unfold nopp, C1. cbn. lra. Qed.
Lemma case_inv : inverts_start 2 1 C1 inv1.
Proof.
  unfold inverts_start, start. rewrite case_active. change (1 + 1)%nat with 2%nat. intros p q Hp Hq. destruct p as [|[|p]]; try lia; destruct q as [|[|q]]; try lia; cbn; unfold Hc, HrHr, HtH, Hr; cbn; lra.
Qed.
Lemma case_path : exists p u v, path1 = Some p /\ p = [(1, u); (/ 4, v)] /\ (forall k, (k < 2)%nat -> u k = t2 1 0 k) /\ (forall k, (k < 2)%nat -> v k = t2 (5 / 8) (3 / 8) k).
Proof.
  assert (H2 : (0 < 2)%nat) by lia. assert (H1 : (0 < 1)%nat) by lia. assert (T1 : 0 < / 10) by lra. assert (HI := inv_len 2 1 C1 inv1 case_inv).
  set (Hi := Hi0 2 1 C1 inv1) in *. assert (SA : sact 2 1 [0%nat] Hi) by (rewrite <- case_active; apply sact0; auto).
  assert (V0 : forall g k, (k < 2)%nat -> tgs 2 1 a1 b1 C1 [0%nat] Hi g k = t2 1 0 k).
  { intros g [|[|k]] Hk; [| |lia].
    - assert (Q := tgs0_val 2 1 a1 b1 C1 H2 H1 Hi HI g 0 H1). rewrite case_active in Q. exact Q.
    - unfold tgs. apply scat_out. cbn. lia. }
  assert (P0 : phiS 2 1 a1 b1 [0%nat] Hi 0%nat = - / 2) by (unfold phiS, sphi; cbn; unfold Hra, Hty, Hr, a1, b1; cbn; lra).
  assert (D0 : deltaS 1 C1 [0%nat] Hi 0%nat = 1) by (unfold deltaS, sdelta; cbn; unfold sc, cvec, C1; cbn; lra).
  assert (P1 : phiS 2 1 a1 b1 [0%nat] Hi 1%nat = 1) by (unfold phiS, sphi; cbn; unfold Hra, Hty, Hr, a1, b1; cbn; lra).
  assert (D1 : deltaS 1 C1 [0%nat] Hi 1%nat = 0) by (unfold deltaS, sdelta; cbn; unfold sc, cvec, C1; cbn; lra).
  pose proof SA as (ND & HB & _). assert (EHi : Hi0 2 1 C1 inv1 = Hi) by reflexivity. clearbody Hi.
  assert (cA1 : sA 2 1 a1 b1 C1 (/ 10) [0%nat] Hi None 1 = 1).
  { rewrite sA_eq by auto. cbv zeta. cbn [inl existsb Nat.eqb orb]. unfold alS, beS, rowf. cbn [rsum Nat.mul Nat.add]. unfold scat. cbn [scatter Nat.eqb]. change (1 / 1)%nat with 1%nat. change (1 mod 1)%nat with 0%nat.
    change (1 + 0)%nat with 1%nat. rewrite P0, D0, P1, D1, !hrR. unfold sc, cvec, C1, a1. cbn. field_simplify; lra. }
  assert (cA0 : sA 2 1 a1 b1 C1 (/ 10) [0%nat] Hi None 0 = 0) by (apply sA_in; cbn; auto).
  assert (cR0 : sR 2 1 a1 b1 C1 (/ 10) [0%nat] Hi None 0 = 0) by (rewrite sR_eq; cbv zeta; change (1 + 0)%nat with 1%nat; rewrite P1, D1; unfold Rdiv; rewrite Rinv_0; ring).
  destruct (sraw_first 2 1 a1 b1 C1 H2 H1 (/ 10) (/ 10) T1 T1 (/ 4) inv1 5 ltac:(lia)) as (g0 & A' & add' & pop' & Er & B1 & _ & Cs).
  rewrite case_active, EHi in *. specialize (B1 1%nat ltac:(lia)). rewrite cA1 in B1.
  pose proof (fun H => supdate 2 1 a1 b1 C1 H2 H1 (/ 10) (/ 10) [0%nat] Hi None g0 A' add' pop' SA H Cs) as U. specialize (U ltac:(lra)). cbv zeta in U.
  assert (EA : g0 = 1 /\ A' = [0%nat; 1%nat]).
  { destruct Cs as [(i & Hi9 & Eg & -> & _)|(_ & Hp & Eg & _)]; [|cbn [length] in Hp; replace pop' with 0%nat in Eg by lia; rewrite cR0 in Eg; lra].
    destruct i as [|[|i]]; [rewrite cA0 in Eg; lra|rewrite cA1 in Eg; auto|lia]. }
  destruct EA as (-> & ->). clear Cs. cbn [length] in *. destruct U as (S2 & _ & _).
  set (Hi2 := complement_schur (N:=RNum) (1 + 1) Hi add' 1 (pop' + 1)) in *.
  assert (V2 : forall g k, (k < 2)%nat -> tgs 2 1 a1 b1 C1 [0%nat; 1%nat] Hi2 g k = t2 ((1 + g) / 2) ((1 - g) / 2) k).
  { intros g k Hk. symmetry. apply (ssol_unique 2 1 a1 b1 C1 H2 H1 [0%nat; 1%nat] Hi2 g (fun _ => - (g + (1 + g) / 2 - / 2)) (t2 ((1 + g) / 2) ((1 - g) / 2))); [exact S2| |exact Hk]. split; [|split].
    - intros [|[|k']] Hk' Hn; [exfalso; apply Hn; cbn; auto|exfalso; apply Hn; cbn; auto|lia].
    - intros j Hj. replace j with 0%nat by lia. unfold colf. cbn [rsum Nat.mul Nat.add]. rewrite !hcR. cbn. unfold b1. lra.
    - intros k' [<-|[<-|[]]]; unfold reds, rowf; cbn [rsum Nat.mul Nat.add]; rewrite !hrR; unfold sc, cvec, C1, a1; cbn; lra. }
  pose proof S2 as (ND2 & HB2 & _).
  assert (W : forall l g, (l < 2)%nat -> phiS 2 1 a1 b1 [0%nat; 1%nat] Hi2 (1 + l)%nat - g * deltaS 1 C1 [0%nat; 1%nat] Hi2 (1 + l)%nat = t2 ((1 + g) / 2) ((1 - g) / 2) l).
  { intros l g Hl. rewrite <- V2 by auto. rewrite <- (tgs_at 2 1 a1 b1 C1 [0%nat; 1%nat] Hi2 g l) by auto. destruct l as [|[|l]]; [reflexivity|reflexivity|lia]. }
  assert (cR2 : forall l, (l < 2)%nat -> sR 2 1 a1 b1 C1 (/ 10) [0%nat; 1%nat] Hi2 (Some 1) l <= 0).
  { intros l Hl. rewrite sR_eq. cbv zeta. pose proof (W l 0 Hl) as W0'. pose proof (W l 1 Hl) as W1'. destruct l as [|[|l]]; [| |lia]; cbn [t2] in W0', W1'.
    - revert W0' W1'. generalize (phiS 2 1 a1 b1 [0%nat; 1%nat] Hi2 (1 + 0)%nat) (deltaS 1 C1 [0%nat; 1%nat] Hi2 (1 + 0)%nat). intros x y W0' W1'. assert (Ex : x = / 2) by lra. assert (Ey : y = - / 2) by lra. replace (x / y) with (-1) by (rewrite Ex, Ey; field). destruct (Rleb _ _); lra.
    - revert W0' W1'. generalize (phiS 2 1 a1 b1 [0%nat; 1%nat] Hi2 (1 + 1)%nat) (deltaS 1 C1 [0%nat; 1%nat] Hi2 (1 + 1)%nat). intros x y W0' W1'. assert (Ex : x = / 2) by lra. assert (Ey : y = / 2) by lra. replace (x / y) with 1 by (rewrite Ex, Ey; field). destruct (Rleb _ _) eqn:E; [lra|]. apply Rleb_false in E. lra. }
  assert (Pg : posg (Some 1)) by (cbn; lra).
  destruct (sstep_cases 2 1 a1 b1 C1 H2 H1 (/ 10) (/ 10) T1 T1 [0%nat; 1%nat] Hi2 (Some 1) Pg ND2 HB2 ltac:(cbn; lia)) as (g2 & A2 & add2 & pop2 & Es2 & _ & _ & _ & _ & Cs2).
  assert (G2 : g2 = 0).
  { destruct Cs2 as [(i & Hi9 & -> & _)|(Hpos & Hp & Eg2 & _)]; [apply sA_in; auto; destruct i as [|[|i]]; cbn; auto; lia|]. cbn [length] in Hp. pose proof (cR2 pop2 Hp). lra. }
  subst g2.
  assert (EL : sloop (N:=RNum) 2 1 a1 b1 C1 0 (/ 10) (/ 10) 3 (/ 4) [0%nat; 1%nat] (1 + 1) Hi add' pop' 1 = [(0, tgs 2 1 a1 b1 C1 [0%nat; 1%nat] Hi2 0)]).
  { transitivity (if Rltb (/ 4) 1 then (let '(g', sol, A', add', pop') := sstep (N:=RNum) 2 1 a1 b1 C1 0 (/ 10) (/ 10) [0%nat; 1%nat] Hi2 (Some 1) in (g', sol) :: sloop (N:=RNum) 2 1 a1 b1 C1 0 (/ 10) (/ 10) 2 (/ 4) A' (1 + 2) Hi2 add' pop' g') else []); [reflexivity|].
    rewrite (proj2 (Rltb_true (/ 4) 1)) by lra. rewrite Es2. f_equal. apply sloop_stop. lra. }
  change (5 - 2)%nat with 3%nat in Er. rewrite EL in Er.
  set (u := tgs 2 1 a1 b1 C1 [0%nat] Hi 1) in *. set (v := tgs 2 1 a1 b1 C1 [0%nat; 1%nat] Hi2 0) in *.
  exists [(1, u); (/ 4, lerpR 1 u 0 v (/ 4))], u, (lerpR 1 u 0 v (/ 4)). split; [|split; [reflexivity|split]].
  - unfold path1, semi_relaxed_path. rewrite Er. exact (f_equal (@Some (list (R * vec))) (corr2 (/ 4) 1 u 0 v)).
  - intros k Hk. apply V0; auto.
  - intros k Hk. rewrite lerpR_eq. unfold u, v. rewrite V0, V2 by auto. destruct k as [|[|k]]; cbn [t2]; try lia; lra.
Qed.
Example C159_case : exists p, path1 = Some p /\ (S (length p) < 5)%nat /\ strict_cells 2 1 a1 C1 p /\ separated_cells 2 1 a1 C1 (/ 5) p /\ inverts_start 2 1 C1 inv1 /\
  (forall j, (j < 1)%nat -> exists l, (l < 2)%nat /\ forall i, (i < 2)%nat -> i <> l -> C1 l j < C1 i j).
Proof.
  destruct case_path as (p & u & v & Ep & -> & Eu & Ev). exists [(1, u); (/ 4, v)]. split; [exact Ep|]. split; [cbn; lia|]. split; [|split; [|split]].
  - intros g t Hin T tied i j i' j' Hi Hj Hi' Hj' (Z1 & _) (Z2 & _). cbn [removelast In] in Hin. destruct Hin as [E|[]]; injection E as <- <-. unfold T, unflat in *.
    assert (j = 0%nat) by lia. assert (j' = 0%nat) by lia. subst j j'. destruct i as [|[|i]]; try lia; destruct i' as [|[|i']]; try lia; cbn [Nat.mul Nat.add] in *; rewrite ?Eu in Z1 by lia; rewrite ?Eu in Z2 by lia; cbn [t2] in *; try (split; reflexivity); exfalso; lra.
  - intros g1 t1 g2 t3 Hin i j g Hi Hj Hg Hb T1 T. cbn [combine tl In] in Hin. destruct Hin as [E|[]]; injection E as <- <- <- <-. assert (j = 0%nat) by lia. subst j. unfold T, T1, marginal, unflat, row_sum, segment. cbn [rsum].
    split.
    + destruct i as [|[|i]]; try lia; cbn [Nat.mul Nat.add]; rewrite Eu, Ev by lia; cbn [t2]; intros; lra.
    + intros l Hl. destruct i as [|[|i]]; try lia; destruct l as [|[|l]]; try lia; cbn [Nat.mul Nat.add]; rewrite ?Eu, ?Ev by lia; cbn [t2]; unfold a1, C1; intros; lra.
  - exact case_inv.
  - intros j Hj. exists 0%nat. split; [lia|]. intros [|[|i]] Hi Hne; try lia. unfold C1. lra.
Qed.
End Case.

(** ** where the hypotheses fail *)
Definition semiQ (n m : nat) (a : nat -> Q) (C : nat -> nat -> Q) (g : Q) (T : nat -> nat -> Q) : Q :=
  let row := fun i => nsum (N:=QNum) m (fun j => T i j) in
  (g * nsum (N:=QNum) n (fun i => nsum (N:=QNum) m (fun j => C i j * T i j)) + (1 # 2) * nsum (N:=QNum) n (fun i => (row i - a i) * (row i - a i)))%Q.
Definition inverseQ (k : nat) (W K : nat -> nat -> Q) : Prop := forall p q, (p < k)%nat -> (q < k)%nat -> (nsum (N:=QNum) k (fun s => W p s * K s q) == if Nat.eqb p q then 1 else 0)%Q.
(** Two equally cheap cells in a column: the entry event of the second one is never found (its denominator is zero), the path has the
    single plan (1, 0) although (1/2, 1/2) has the same cost and the right row sums.  Constants of the code. *)
Theorem C159_ties_refuted : exists (a b : nat -> Q) (C : nat -> nat -> Q) (inv : nat -> (nat -> nat -> Q) -> nat -> nat -> Q) (reg : Q) itmax, (forall i j, 0 < C i j)%Q /\ (0 < reg)%Q /\
  inverseQ 2 (inv 2%nat (aug (N:=QNum) 2 1 (active0 (N:=QNum) 2 1 C))) (aug (N:=QNum) 2 1 (active0 (N:=QNum) 2 1 C)) /\
  exists p, semi_relaxed_path (N:=QNum) 2 1 a b C (1 # 10000000000000000) (1 # 10000000000) (1 # 100000000) inv reg itmax = Some p /\ (S (length p) < itmax)%nat /\
  exists U : nat -> nat -> Q, (forall i j, 0 <= U i j)%Q /\ (nsum (N:=QNum) 2 (fun i => U i 0%nat) == b 0%nat)%Q /\ (semiQ 2 1 a C reg U < semiQ 2 1 a C reg (unflatQ 1 (lastQ p)))%Q.
Proof.
  exists (fun _ => (1 # 2)%Q), (fun _ => 1%Q), (fun _ _ => 1%Q), (fun _ _ p q => match p, q with O, O => -1 | O, _ => 1 | _, O => 1 | _, _ => 0 end)%Q, (1 # 100)%Q, 9%nat.
  split; [reflexivity|]. split; [reflexivity|]. split; [intros [|[|p]] [|[|q]] Hp Hq; try lia; vm_compute; reflexivity|].
  eexists. split; [vm_compute; reflexivity|]. split; [cbn; lia|]. exists (fun _ _ => (1 # 2)%Q). split; [intros; discriminate|]. split; [reflexivity|]. vm_compute. reflexivity.
Qed.

Print Assumptions C159_start_invertible.
Print Assumptions C159_index_error.
Print Assumptions C159_stationary.
Print Assumptions C159_optimal.
Print Assumptions C159_case.
Print Assumptions C159_ties_refuted.
