(** Unbalanced co-optimal transport: product divergences, block sub-problems, descent. *)
From Coq Require Import Reals Lra Lia Arith Bool List.
Import ListNotations.
From Verif Require Import Num Sums Spec Entropy Optim_model Duals_proofs Optim_proofs Gw_model Gw_proofs Gw_more Unb_proofs Ugw_model.
Local Open Scope R_scope.

(** ** linear summations over an index set *)
Record lin {I : Type} (inr : I -> Prop) (s : (I -> R) -> R) : Prop := mkLin {
  l_ext : forall f g, (forall i, inr i -> f i = g i) -> s f = s g;
  l_plus : forall f g, s (fun i => f i + g i) = s f + s g;
  l_scal : forall c f, s (fun i => c * f i) = c * s f }.
Definition upto (n i : nat) : Prop := (i < n)%nat.
Definition upto2 (n m : nat) (ij : nat * nat) : Prop := (fst ij < n)%nat /\ (snd ij < m)%nat.
Definition s2 (n m : nat) (f : nat * nat -> R) : R := dsum n m (fun i j => f (i, j)).
Lemma lin1 : forall n, lin (upto n) (rsum n).
Proof. intro n. split; [intros; apply rsum_ext; auto|intros; apply rsum_plus|intros; apply rsum_scal]. Qed.
Lemma lin2 : forall n m, lin (upto2 n m) (s2 n m).
Proof.
  intros n m. split; intros; unfold s2.
  - apply dsum_ext; intros. apply H. split; auto.
  - apply (dsum_plus n m (fun i j => f (i, j)) (fun i j => g (i, j))).
  - apply (dsum_scal n m c (fun i j => f (i, j))).
Qed.
Lemma lin_minus : forall I inr (s : (I -> R) -> R), lin inr s -> forall f g, s (fun i => f i - g i) = s f - s g.
Proof. intros I inr s L f g. rewrite (l_ext _ _ L _ (fun i => f i + (-1) * g i)) by (intros; ring). rewrite (l_plus _ _ L f (fun i => -1 * g i)), (l_scal _ _ L (-1) g). ring. Qed.
Lemma lin_scal_r : forall I inr (s : (I -> R) -> R), lin inr s -> forall c f, s (fun i => f i * c) = s f * c.
Proof. intros I inr s L c f. rewrite (l_ext _ _ L _ (fun i => c * f i)) by (intros; ring). rewrite (l_scal _ _ L). ring. Qed.

(** ** divergences between product measures *)
Definition l2h (x y : R) : R := (x - y) ^ 2 / 2.
Definition kl0 {I : Type} (s : (I -> R) -> R) (mu al : I -> R) : R := s (fun i => mu i * ln (mu i / al i)).
Section Prod.
Context {I J : Type} (inI : I -> Prop) (inJ : J -> Prop) (s : (I -> R) -> R) (t : (J -> R) -> R) (Ls : lin inI s) (Lt : lin inJ t).
Variables (mu al : I -> R) (nu be : J -> R).
Lemma prod_kl : (forall i, inI i -> 0 <= mu i /\ 0 < al i) -> (forall j, inJ j -> 0 <= nu j /\ 0 < be j) ->
  s (fun i => t (fun j => gkl (mu i * nu j) (al i * be j))) = t nu * kl0 s mu al + s mu * kl0 t nu be - s mu * t nu + s al * t be.
Proof.
  intros H1 H2. unfold kl0.
  rewrite (l_ext _ _ Ls _ (fun i => (t nu * (mu i * ln (mu i / al i)) + (t (fun j => nu j * ln (nu j / be j)) - t nu) * mu i) + t be * al i)).
  - rewrite (l_plus _ _ Ls (fun i => t nu * (mu i * ln (mu i / al i)) + (t (fun j => nu j * ln (nu j / be j)) - t nu) * mu i) (fun i => t be * al i)).
    rewrite (l_plus _ _ Ls (fun i => t nu * (mu i * ln (mu i / al i)))), !(l_scal _ _ Ls). ring.
  - intros i Hi. destruct (H1 i Hi) as [M A].
    rewrite (l_ext _ _ Lt _ (fun j => ((mu i * ln (mu i / al i) - mu i) * nu j + mu i * (nu j * ln (nu j / be j))) + al i * be j)).
    + rewrite (l_plus _ _ Lt (fun j => (mu i * ln (mu i / al i) - mu i) * nu j + mu i * (nu j * ln (nu j / be j)))).
      rewrite (l_plus _ _ Lt (fun j => (mu i * ln (mu i / al i) - mu i) * nu j)), !(l_scal _ _ Lt). ring.
    + intros j Hj. destruct (H2 j Hj) as [V B]. unfold gkl. destruct M as [M|M]; [|rewrite <- M; unfold Rdiv; ring].
      destruct V as [V|V]; [|rewrite <- V; unfold Rdiv; ring].
      replace (mu i * nu j / (al i * be j)) with ((mu i / al i) * (nu j / be j)) by (field; lra).
      rewrite ln_mult by (apply Rdiv_lt_0_compat; auto). ring.
Qed.
Lemma prod_l2 : s (fun i => t (fun j => l2h (mu i * nu j) (al i * be j)))
  = (s (fun i => al i * al i) * t (fun j => be j * be j) - 2 * s (fun i => al i * mu i) * t (fun j => be j * nu j) + s (fun i => mu i * mu i) * t (fun j => nu j * nu j)) / 2.
Proof.
  unfold l2h.
  rewrite (l_ext _ _ Ls _ (fun i => (t (fun j => be j * be j) / 2) * (al i * al i) + (- t (fun j => be j * nu j)) * (al i * mu i) + (t (fun j => nu j * nu j) / 2) * (mu i * mu i))).
  - rewrite (l_plus _ _ Ls (fun i => (t (fun j => be j * be j) / 2) * (al i * al i) + (- t (fun j => be j * nu j)) * (al i * mu i))).
    rewrite (l_plus _ _ Ls (fun i => (t (fun j => be j * be j) / 2) * (al i * al i))), !(l_scal _ _ Ls). field.
  - intros i _.
    rewrite (l_ext _ _ Lt _ (fun j => ((al i * al i / 2) * (be j * be j) + (- (al i * mu i)) * (be j * nu j)) + (mu i * mu i / 2) * (nu j * nu j))) by (intros; field).
    rewrite (l_plus _ _ Lt (fun j => (al i * al i / 2) * (be j * be j) + (- (al i * mu i)) * (be j * nu j))).
    rewrite (l_plus _ _ Lt (fun j => (al i * al i / 2) * (be j * be j))), !(l_scal _ _ Lt). field.
Qed.
Lemma dbp_R : (forall i, inI i -> 0 <= mu i /\ 0 < al i) -> (forall j, inJ j -> 0 <= nu j /\ 0 < be j) -> forall dv,
  div_between_product (N:=RNum) ln 0 s t mu nu al be dv
  = s (fun i => t (fun j => match dv with DKL => gkl | DL2 => l2h end (mu i * nu j) (al i * be j))).
Proof.
  intros H1 H2 [|].
  - rewrite prod_kl by auto. unfold div_between_product, kl_div, kl0. cbn.
    rewrite (l_ext _ _ Ls (fun i => mu i * ln (mu i / al i + 0)) (fun i => mu i * ln (mu i / al i))) by (intros; rewrite Rplus_0_r; auto).
    rewrite (l_ext _ _ Lt (fun i => nu i * ln (nu i / be i + 0)) (fun i => nu i * ln (nu i / be i))) by (intros; rewrite Rplus_0_r; auto).
    rewrite (lin_minus _ _ _ Ls al mu), (lin_minus _ _ _ Lt be nu). ring.
  - rewrite prod_l2. unfold div_between_product, two. cbn. replace (1 + 1) with 2 by ring. field.
Qed.
End Prod.

Lemma sum1_R : forall n f, sum1 (N:=RNum) n f = rsum n f. Proof. intros; apply nsum_R. Qed.
Lemma sum2_R : forall n m f, sum2 (N:=RNum) n m f = s2 n m f.
Proof. intros; unfold sum2, s2, dsum. rewrite nsum_R. apply rsum_ext; intros; apply nsum_R. Qed.
Lemma rowsum_R : forall m G i, rowsum (N:=RNum) m G i = row_sum m G i. Proof. intros; apply nsum_R. Qed.
Lemma csum_R : forall n G j, csum (N:=RNum) n G j = col_sum n G j. Proof. intros; apply nsum_R. Qed.
Lemma xlogx_R : forall x, xlogx (N:=RNum) ln x = x * ln x.
Proof.
  intro x. unfold xlogx. cbn. destruct (Req_EM_T x 0) as [E|E].
  - rewrite E. ring.
  - rewrite (proj2 (Reqb_false x 0) E). reflexivity.
Qed.

(** ** div_to_product *)
Lemma kl_to_prod : forall n m P a b, nonneg_mat n m P -> pos_vec n a -> pos_vec m b ->
  dsum n m (fun i j => P i j * ln (P i j / (a i * b j)))
  = dsum n m (fun i j => P i j * ln (P i j)) - rsum n (fun i => row_sum m P i * ln (a i)) - rsum m (fun j => col_sum n P j * ln (b j)).
Proof.
  intros n m P a b HP Ha Hb.
  rewrite (dsum_ext n m _ (fun i j => (P i j * ln (P i j) - ln (a i) * P i j) - ln (b j) * P i j)).
  - rewrite !dsum_minus, dsum_row, dsum_col. f_equal; [f_equal|]; apply rsum_ext; intros; ring.
  - intros i j Hi Hj. specialize (Ha i Hi); specialize (Hb j Hj). destruct (HP i j Hi Hj) as [Q|Q].
    + unfold Rdiv. rewrite ln_mult by (auto; apply Rinv_0_lt_compat; nra). rewrite ln_Rinv by nra. rewrite ln_mult by auto. ring.
    + rewrite <- Q. ring.
Qed.
Lemma dtp_R : forall n m P a b pi1 pi2 mass, nonneg_mat n m P -> pos_vec n a -> pos_vec m b ->
  match pi1 with Some p => forall i, (i < n)%nat -> p i = row_sum m P i | None => True end ->
  match pi2 with Some p => forall j, (j < m)%nat -> p j = col_sum n P j | None => True end ->
  div_to_product (N:=RNum) ln n m P a b pi1 pi2 DKL mass
  = if mass then dsum n m (fun i j => gkl (P i j) (a i * b j)) else dsum n m (fun i j => P i j * ln (P i j / (a i * b j))).
Proof.
  intros n m P a b pi1 pi2 mass HP Ha Hb E1 E2. unfold div_to_product.
  set (p1 := match pi1 with Some p => p | None => rowsum (N:=RNum) m P end). set (p2 := match pi2 with Some p => p | None => csum (N:=RNum) n P end).
  assert (Q1 : forall i, (i < n)%nat -> p1 i = row_sum m P i) by (intros; unfold p1; destruct pi1; [auto|apply rowsum_R]).
  assert (Q2 : forall j, (j < m)%nat -> p2 j = col_sum n P j) by (intros; unfold p2; destruct pi2; [auto|apply csum_R]).
  assert (R0 : forall (p1 p2 : vec), (forall i, (i < n)%nat -> p1 i = row_sum m P i) -> (forall j, (j < m)%nat -> p2 j = col_sum n P j) ->
    sum2 (N:=RNum) n m (fun ij => xlogx (N:=RNum) ln (flat (N:=RNum) P ij)) - nsum (N:=RNum) n (fun i => p1 i * ln (a i)) - nsum (N:=RNum) m (fun j => p2 j * ln (b j))
    = dsum n m (fun i j => P i j * ln (P i j / (a i * b j)))).
  { intros q1 q2 F1 F2. rewrite sum2_R, !nsum_R. rewrite (kl_to_prod n m P a b HP Ha Hb). f_equal; [f_equal|].
    - unfold s2. apply dsum_ext; intros. apply xlogx_R.
    - apply rsum_ext; intros. rewrite F1; auto.
    - apply rsum_ext; intros. rewrite F2; auto. }
  specialize (R0 p1 p2 Q1 Q2). cbn [nsub nadd nmul RNum]. destruct mass.
  - change (sum2 (N:=RNum) n m (fun ij => xlogx (N:=RNum) ln (flat (N:=RNum) P ij)) - nsum (N:=RNum) n (fun i => p1 i * ln (a i)) - nsum (N:=RNum) m (fun j => p2 j * ln (b j))
      - nsum (N:=RNum) n p1 + nsum (N:=RNum) n a * nsum (N:=RNum) m b = dsum n m (fun i j => gkl (P i j) (a i * b j))).
    rewrite R0, !nsum_R. unfold gkl. rewrite dsum_plus, dsum_minus. rewrite (rsum_ext n p1 (row_sum m P) Q1).
    change (rsum n (row_sum m P)) with (dsum n m P). rewrite rsum_mult. reflexivity.
  - exact R0.
Qed.
Lemma dtp_l2_R : forall n m P a b pi1 pi2 mass,
  div_to_product (N:=RNum) ln n m P a b pi1 pi2 DL2 mass = dsum n m (fun i j => l2h (P i j) (a i * b j)).
Proof.
  intros. unfold div_to_product, two. cbn [nadd nsub nmul ndiv n1 RNum]. unfold l2h. rewrite sum2_R, !nsum_R. unfold s2.
  rewrite (rsum_ext n (fun i => a i * nsum (N:=RNum) m (fun j => P i j * b j)) (fun i => rsum m (fun j => a i * (P i j * b j)))) by (intros; rewrite nsum_R, rsum_scal; reflexivity).
  rewrite rsum_mult. change (rsum n (fun i => rsum m (fun j => a i * (P i j * b j)))) with (dsum n m (fun i j => a i * (P i j * b j))).
  change (rsum n (fun i => rsum m (fun j => a i * a i * (b j * b j)))) with (dsum n m (fun i j => a i * a i * (b j * b j))).
  rewrite (dsum_ext n m (fun i j => (P i j - a i * b j) ^ 2 / 2) (fun i j => / 2 * ((P i j * P i j + a i * a i * (b j * b j)) - 2 * (a i * (P i j * b j))))) by (intros; field).
  rewrite dsum_scal, dsum_minus, dsum_plus, (dsum_scal n m 2). unfold flat; cbn [fst snd].
  replace (1 + 1) with 2 by ring. match goal with |- @eq _ ?x ?y => change (@eq R x y) end. field.
Qed.

(** ** the objective *)
Definition Dv (dv : divergence) : R -> R -> R := match dv with DKL => gkl | DL2 => l2h end.
Definition pen (rho : option R) (x : R) : R := match rho with None => 0 | Some r => r * x end.
Definition lin_term (r c : nat) (M : option mat) (P : mat) : R := match M with None => 0 | Some M => dsum r c (fun i j => P i j * M i j) end.
Definition coot (n m k l : nat) (X Y s f : mat) : R := dsum n m (fun i j => dsum k l (fun a b => (X i a - Y j b) ^ 2 * (s i j * f a b))).
Definition prod_div (D : R -> R -> R) (n k : nat) (mu nu al be : vec) : R := rsum n (fun i => rsum k (fun a => D (mu i * nu a) (al i * be a))).
Definition plan_div (D : R -> R -> R) (n m k l : nat) (s f al be : mat) : R := dsum n m (fun i j => dsum k l (fun a b => D (s i j * f a b) (al i j * be a b))).
Definition ref (a b : vec) : mat := fun i j => a i * b j.
Definition ugw_obj (n m k l : nat) (inp : ugw_input (N:=RNum)) (s f : mat) : R :=
  let D := Dv (gdv inp) in
  coot n m k l (gX inp) (gY inp) s f + lin_term n m (gMs inp) s + lin_term k l (gMf inp) f
  + pen (grx inp) (prod_div D n k (row_sum m s) (row_sum l f) (wxs inp) (wxf inp))
  + pen (gry inp) (prod_div D m l (col_sum n s) (col_sum k f) (wys inp) (wyf inp))
  + match grt inp with
    | Joint => eps_s inp * plan_div D n m k l s f (ref (wxs inp) (wys inp)) (ref (wxf inp) (wyf inp))
    | Independent => eps_s inp * dsum n m (fun i j => D (s i j) (wxs inp i * wys inp j)) + eps_f inp * dsum k l (fun a b => D (f a b) (wxf inp a * wyf inp b))
    end.
(** the problem ot.solve is asked to minimise *)
Definition uot_val (dv : divergence) (n m : nat) (pb : uot_problem (N:=RNum)) (P : mat) : R :=
  dsum n m (fun i j => u_cost pb i j * P i j) + u_eps pb * dsum n m (fun i j => Dv dv (P i j) (u_c pb i j))
  + pen (u_rx pb) (rsum n (fun i => Dv dv (row_sum m P i) (u_a pb i))) + pen (u_ry pb) (rsum m (fun j => Dv dv (col_sum n P j) (u_b pb j))).

Lemma dd_swap : forall n m k l (h : nat -> nat -> nat -> nat -> R),
  dsum n m (fun i j => dsum k l (fun a b => h i j a b)) = dsum k l (fun a b => dsum n m (fun i j => h i j a b)).
Proof.
  intros. unfold dsum.
  transitivity (rsum n (fun i => rsum k (fun a => rsum m (fun j => rsum l (fun b => h i j a b))))); [apply rsum_ext; intros; apply rsum_swap|].
  rewrite rsum_swap. apply rsum_ext; intros a _.
  transitivity (rsum n (fun i => rsum l (fun b => rsum m (fun j => h i j a b)))); [apply rsum_ext; intros; apply rsum_swap|]. apply rsum_swap.
Qed.
Lemma coot_swap : forall n m k l X Y s f, coot n m k l X Y s f = coot k l n m (transp X) (transp Y) f s.
Proof. intros. unfold coot, transp. rewrite dd_swap. apply dsum_ext; intros; apply dsum_ext; intros; ring. Qed.
Lemma prod_div_swap : forall D n k mu nu al be, prod_div D n k mu nu al be = prod_div D k n nu mu be al.
Proof. intros. unfold prod_div. rewrite rsum_swap. apply rsum_ext; intros; apply rsum_ext; intros. f_equal; ring. Qed.
Lemma plan_div_swap : forall D n m k l s f al be, plan_div D n m k l s f al be = plan_div D k l n m f s be al.
Proof. intros. unfold plan_div. rewrite dd_swap. apply dsum_ext; intros; apply dsum_ext; intros. f_equal; ring. Qed.
(** exchange of samples and features *)
Definition swap_in (inp : ugw_input (N:=RNum)) : ugw_input (N:=RNum) :=
  mkIn (N:=RNum) (transp (gX inp)) (transp (gY inp)) (gMf inp) (gMs inp) (wxf inp) (wyf inp) (wxs inp) (wys inp) (grx inp) (gry inp) (eps_f inp) (eps_s inp) (grt inp) (gdv inp).
Lemma ugw_swap : forall n m k l inp s f, (grt inp = Joint -> eps_f inp = eps_s inp) -> ugw_obj n m k l inp s f = ugw_obj k l n m (swap_in inp) f s.
Proof.
  intros n m k l inp s f E. unfold ugw_obj, swap_in. cbn [gX gY gMs gMf wxs wys wxf wyf grx gry eps_s eps_f grt gdv].
  rewrite (coot_swap n m k l), (prod_div_swap _ n k), (prod_div_swap _ m l). destruct (grt inp).
  - rewrite (plan_div_swap _ n m k l), E by auto. ring.
  - ring.
Qed.

Section Block.
Variables (n m k l : nat) (X Y : mat) (M : option mat) (f : mat) (wx wy vx vy : vec) (rx ry : option R) (e e' : R) (rt : regtype).
Definition base (i j : nat) : R := rsum k (fun a => X i a * X i a * row_sum l f a) + rsum l (fun b => Y j b * Y j b * col_sum k f b) - 2 * rsum l (fun b => rsum k (fun a => X i a * f a b) * Y j b).
Lemma coot_local : forall s, coot n m k l X Y s f = dsum n m (fun i j => base i j * s i j).
Proof.
  intro s. unfold coot. apply dsum_ext; intros i j _ _. unfold base.
  rewrite (dsum_ext k l _ (fun a b => s i j * ((X i a * X i a) * f a b + (Y j b * Y j b) * f a b - 2 * (X i a * f a b * Y j b)))) by (intros; ring).
  rewrite dsum_scal, dsum_minus, dsum_plus, dsum_row, dsum_col, dsum_scal.
  assert (E : dsum k l (fun a b => X i a * f a b * Y j b) = rsum l (fun b => rsum k (fun a => X i a * f a b) * Y j b)).
  { unfold dsum. rewrite rsum_swap. apply rsum_ext; intros. apply rsum_scal_r. }
  rewrite E. ring.
Qed.
Hypotheses (Hf : nonneg_mat k l f) (Hwx : pos_vec n wx) (Hwy : pos_vec m wy) (Hvx : pos_vec k vx) (Hvy : pos_vec l vy) (He : 0 <= e).
Let mf : R := total k l f.
Definition costK : mat := uot_cost_matrix (N:=RNum) ln 0 k l X Y M f vx vy rx ry e DKL rt.
Definition rho_term (rho : option R) (x : R) : R := pen rho x.
Lemma penal_R : forall rho x, penal (N:=RNum) rho x = pen rho x.
Proof. intros [r|] x; cbn; auto. destruct (Req_EM_T r 0) as [E|E]; [rewrite E, (proj2 (Reqb_true 0 0)) by reflexivity; ring|rewrite (proj2 (Reqb_false r 0) E); reflexivity]. Qed.
Lemma cost_R : forall i j, costK i j = base i j + match M with None => 0 | Some M => M i j end
  + pen rx (kl0 (rsum k) (row_sum l f) vx) + pen ry (kl0 (rsum l) (col_sum k f) vy)
  + match rt with Joint => e * dsum k l (fun a b => f a b * ln (f a b / (vx a * vy b))) | Independent => 0 end.
Proof.
  intros i j. unfold costK, uot_cost_matrix, two. cbn [nadd nsub nmul ndiv n1 n0 nltb RNum]. rewrite !penal_R.
  assert (E1 : kl_div (N:=RNum) ln 0 (sum1 (N:=RNum) k) (rowsum (N:=RNum) l f) vx false = kl0 (rsum k) (row_sum l f) vx).
  { unfold kl_div, kl0. cbn. rewrite sum1_R. apply rsum_ext; intros. rewrite rowsum_R, Rplus_0_r. reflexivity. }
  assert (E2 : kl_div (N:=RNum) ln 0 (sum1 (N:=RNum) l) (csum (N:=RNum) k f) vy false = kl0 (rsum l) (col_sum k f) vy).
  { unfold kl_div, kl0. cbn. rewrite sum1_R. apply rsum_ext; intros. rewrite csum_R, Rplus_0_r. reflexivity. }
  assert (E3 : div_to_product (N:=RNum) ln k l f vx vy (Some (rowsum (N:=RNum) l f)) (Some (csum (N:=RNum) k f)) DKL false = dsum k l (fun a b => f a b * ln (f a b / (vx a * vy b)))).
  { rewrite dtp_R; auto; intros; [apply rowsum_R|apply csum_R]. }
  assert (E4 : nsum (N:=RNum) k (fun a => X i a * X i a * rowsum (N:=RNum) l f a) + nsum (N:=RNum) l (fun b => Y j b * Y j b * csum (N:=RNum) k f b)
     - (1 + 1) * nsum (N:=RNum) l (fun b => nsum (N:=RNum) k (fun a => X i a * f a b) * Y j b) = base i j).
  { unfold base. rewrite !nsum_R. f_equal; [f_equal; apply rsum_ext; intros|].
    - rewrite rowsum_R; reflexivity.
    - rewrite csum_R; reflexivity.
    - replace (1 + 1) with 2 by ring. f_equal. apply rsum_ext; intros. rewrite nsum_R; reflexivity. }
  destruct rt; [destruct (Rltb 0 e) eqn:Z|]; destruct M; rewrite E1, E2, ?E3, E4; match goal with |- @eq _ ?x ?y => change (@eq R x y) end; try ring.
  all: apply Rltb_false in Z; assert (e = 0) as -> by lra; ring.
Qed.
Definition probK (mass : R) : uot_problem (N:=RNum) :=
  mkUot (N:=RNum) costK wx wy (match rt with Joint => mass * e | Independent => e' end) (ref wx wy) (scale_rho (N:=RNum) mass rx) (scale_rho (N:=RNum) mass ry).
Definition block_obj (s : mat) : R :=
  coot n m k l X Y s f + lin_term n m M s
  + pen rx (prod_div gkl n k (row_sum m s) (row_sum l f) wx vx) + pen ry (prod_div gkl m l (col_sum n s) (col_sum k f) wy vy)
  + match rt with Joint => e * plan_div gkl n m k l s f (ref wx wy) (ref vx vy) | Independent => e' * dsum n m (fun i j => gkl (s i j) (wx i * wy j)) end.
Lemma gkl_sum : forall I inr (t : (I -> R) -> R), lin inr t -> forall mu al, t (fun i => gkl (mu i) (al i)) = kl0 t mu al - t mu + t al.
Proof. intros I inr t L mu al. unfold gkl, kl0. rewrite (l_plus _ _ L (fun i => mu i * ln (mu i / al i) - mu i) al), (lin_minus _ _ _ L). reflexivity. Qed.
Lemma pen_split : forall rho (x y mass : R), pen (scale_rho (N:=RNum) mass rho) x + pen rho y = pen rho (mass * x + y).
Proof. intros [r|] x y mass; cbn; [|ring]. rewrite Rmult_comm. ring. Qed.
Lemma block_exact : exists c, forall s, nonneg_mat n m s -> uot_val DKL n m (probK mf) s + c = block_obj s.
Proof.
  set (W1 := rsum n wx * rsum k vx - mf * rsum n wx). set (W2 := rsum m wy * rsum l vy - mf * rsum m wy).
  set (W3 := total n m (ref wx wy) * total k l (ref vx vy) - mf * total n m (ref wx wy)).
  exists (pen rx W1 + pen ry W2 + match rt with Joint => e * W3 | Independent => 0 end). intros s Hs.
  assert (Rf : forall a, (a < k)%nat -> 0 <= row_sum l f a) by (intros; apply rsum_nonneg; auto).
  assert (Cf : forall b, (b < l)%nat -> 0 <= col_sum k f b) by (intros; apply rsum_nonneg; auto).
  assert (Rs : forall i, (i < n)%nat -> 0 <= row_sum m s i) by (intros; apply rsum_nonneg; auto).
  assert (Cs : forall j, (j < m)%nat -> 0 <= col_sum n s j) by (intros; apply rsum_nonneg; auto).
  assert (T1 : rsum k (row_sum l f) = mf) by reflexivity.
  assert (T2 : rsum l (col_sum k f) = mf) by (unfold mf, total, col_sum, row_sum; apply rsum_swap).
  set (ms := total n m s).
  assert (T3 : rsum n (row_sum m s) = ms) by reflexivity.
  assert (T4 : rsum m (col_sum n s) = ms) by (unfold ms, total, col_sum, row_sum; apply rsum_swap).
  assert (P1 : prod_div gkl n k (row_sum m s) (row_sum l f) wx vx = mf * rsum n (fun i => gkl (row_sum m s i) (wx i)) + ms * kl0 (rsum k) (row_sum l f) vx + W1).
  { unfold prod_div. rewrite (prod_kl _ _ _ _ (lin1 n) (lin1 k)) by (intros; split; auto). rewrite (gkl_sum _ _ _ (lin1 n)). rewrite T1, T3. unfold W1. ring. }
  assert (P2 : prod_div gkl m l (col_sum n s) (col_sum k f) wy vy = mf * rsum m (fun j => gkl (col_sum n s j) (wy j)) + ms * kl0 (rsum l) (col_sum k f) vy + W2).
  { unfold prod_div. rewrite (prod_kl _ _ _ _ (lin1 m) (lin1 l)) by (intros; split; auto). rewrite (gkl_sum _ _ _ (lin1 m)). rewrite T2, T4. unfold W2. ring. }
  assert (P3 : plan_div gkl n m k l s f (ref wx wy) (ref vx vy) = mf * dsum n m (fun i j => gkl (s i j) (wx i * wy j)) + ms * dsum k l (fun a b => f a b * ln (f a b / (vx a * vy b))) + W3).
  { transitivity (s2 n m (fun ij => s2 k l (fun ab => gkl (s (fst ij) (snd ij) * f (fst ab) (snd ab)) (ref wx wy (fst ij) (snd ij) * ref vx vy (fst ab) (snd ab))))); [reflexivity|].
    rewrite (prod_kl _ _ _ _ (lin2 n m) (lin2 k l) (fun ij => s (fst ij) (snd ij)) (fun ij => ref wx wy (fst ij) (snd ij)) (fun ab => f (fst ab) (snd ab)) (fun ab => ref vx vy (fst ab) (snd ab))).
    - pose proof (gkl_sum _ _ _ (lin2 n m) (fun ij => s (fst ij) (snd ij)) (fun ij => ref wx wy (fst ij) (snd ij))) as G.
      change (dsum n m (fun i j => gkl (s i j) (wx i * wy j))) with (s2 n m (fun ij => gkl (s (fst ij) (snd ij)) (ref wx wy (fst ij) (snd ij)))). rewrite G.
      change (dsum k l (fun a b => f a b * ln (f a b / (vx a * vy b)))) with (kl0 (s2 k l) (fun ab => f (fst ab) (snd ab)) (fun ab => ref vx vy (fst ab) (snd ab))).
      change (s2 k l (fun ab => f (fst ab) (snd ab))) with mf. change (s2 n m (fun ij => s (fst ij) (snd ij))) with ms.
      change (s2 n m (fun ij => ref wx wy (fst ij) (snd ij))) with (total n m (ref wx wy)). change (s2 k l (fun ij => ref vx vy (fst ij) (snd ij))) with (total k l (ref vx vy)).
      unfold W3. ring.
    - intros [i j] [Hi Hj]; cbn in *. split; [auto|]. apply Rmult_lt_0_compat; auto.
    - intros [i j] [Hi Hj]; cbn in *. split; [auto|]. apply Rmult_lt_0_compat; auto. }
  unfold block_obj. rewrite P1, P2, P3, coot_local.
  unfold uot_val, probK. cbn [u_cost u_a u_b u_eps u_c u_rx u_ry Dv].
  set (K1 := kl0 (rsum k) (row_sum l f) vx). set (K2 := kl0 (rsum l) (col_sum k f) vy). set (K3 := dsum k l (fun a b => f a b * ln (f a b / (vx a * vy b)))).
  assert (EC : dsum n m (fun i j => costK i j * s i j) = dsum n m (fun i j => base i j * s i j) + lin_term n m M s + pen rx (ms * K1) + pen ry (ms * K2) + match rt with Joint => e * (ms * K3) | Independent => 0 end).
  { transitivity (dsum n m (fun i j => (base i j * s i j + s i j * match M with None => 0 | Some M => M i j end) + (pen rx K1 + pen ry K2 + match rt with Joint => e * K3 | Independent => 0 end) * s i j)).
    - apply dsum_ext; intros. rewrite cost_R. fold K1 K2 K3. ring.
    - rewrite !dsum_plus, dsum_scal. change (dsum n m s) with ms.
      assert (EM : dsum n m (fun i j => s i j * match M with None => 0 | Some M => M i j end) = lin_term n m M s).
      { unfold lin_term. destruct M; [reflexivity|]. unfold dsum. apply rsum_0; intros. apply rsum_0; intros. ring. }
      rewrite EM. destruct rx, ry, rt; cbn; ring. }
  rewrite EC. unfold ref. destruct rx, ry, rt; cbn; ring.
Qed.
End Block.

(** ** the two block problems are the restrictions of the objective *)
Definition good_ugw (n m k l : nat) (inp : ugw_input (N:=RNum)) : Prop :=
  pos_vec n (wxs inp) /\ pos_vec m (wys inp) /\ pos_vec k (wxf inp) /\ pos_vec l (wyf inp) /\ 0 <= eps_s inp /\ 0 <= eps_f inp /\ gdv inp = DKL.
Lemma mass_R : forall n m (P : mat), sum2 (N:=RNum) n m (flat (N:=RNum) P) = total n m P.
Proof. intros. rewrite sum2_R. reflexivity. Qed.
Lemma samp_exact : forall n m k l inp f s0, good_ugw n m k l inp -> eps_f inp = eps_s inp -> nonneg_mat k l f ->
  exists c, forall s, nonneg_mat n m s -> uot_val DKL n m (samp_problem (N:=RNum) ln 0 n m k l inp s0 f) s + c = ugw_obj n m k l inp s f.
Proof.
  intros n m k l inp f s0 (H1 & H2 & H3 & H4 & H5 & H6 & H7) E Hf.
  destruct (block_exact n m k l (gX inp) (gY inp) (gMs inp) f (wxs inp) (wys inp) (wxf inp) (wyf inp) (grx inp) (gry inp) (eps_f inp) (eps_f inp) (grt inp) Hf H1 H2 H3 H4 H6) as [c Hc].
  exists (c + lin_term k l (gMf inp) f + match grt inp with Joint => 0 | Independent => eps_f inp * dsum k l (fun a b => gkl (f a b) (wxf inp a * wyf inp b)) end).
  intros s Hs. specialize (Hc s Hs).
  assert (EP : samp_problem (N:=RNum) ln 0 n m k l inp s0 f = probK k l (gX inp) (gY inp) (gMs inp) f (wxs inp) (wys inp) (wxf inp) (wyf inp) (grx inp) (gry inp) (eps_f inp) (eps_f inp) (grt inp) (total k l f)).
  { unfold samp_problem, probK, costK. rewrite mass_R, H7. reflexivity. }
  rewrite EP. unfold ugw_obj. rewrite H7. cbn [Dv]. unfold block_obj in Hc. rewrite <- E. destruct (grt inp); lra.
Qed.
Lemma feat_exact : forall n m k l inp s f0, good_ugw n m k l inp -> (grt inp = Joint -> eps_f inp = eps_s inp) -> nonneg_mat n m s ->
  exists c, forall f, nonneg_mat k l f -> uot_val DKL k l (feat_problem (N:=RNum) ln 0 n m k l inp s f0) f + c = ugw_obj n m k l inp s f.
Proof.
  intros n m k l inp s f0 (H1 & H2 & H3 & H4 & H5 & H6 & H7) E Hs.
  destruct (block_exact k l n m (transp (gX inp)) (transp (gY inp)) (gMf inp) s (wxf inp) (wyf inp) (wxs inp) (wys inp) (grx inp) (gry inp) (eps_s inp) (eps_f inp) (grt inp) Hs H3 H4 H1 H2 H5) as [c Hc].
  exists (c + lin_term n m (gMs inp) s + match grt inp with Joint => 0 | Independent => eps_s inp * dsum n m (fun a b => gkl (s a b) (wxs inp a * wys inp b)) end).
  intros f Hf. specialize (Hc f Hf).
  assert (EP : feat_problem (N:=RNum) ln 0 n m k l inp s f0 = probK n m (transp (gX inp)) (transp (gY inp)) (gMf inp) s (wxf inp) (wyf inp) (wxs inp) (wys inp) (grx inp) (gry inp) (eps_s inp) (eps_f inp) (grt inp) (total n m s)).
  { unfold feat_problem, probK, costK. rewrite mass_R, H7. destruct (grt inp) eqn:G; [|reflexivity]. rewrite E by auto. reflexivity. }
  rewrite EP, ugw_swap by auto. unfold ugw_obj, swap_in. cbn [gX gY gMs gMf wxs wys wxf wyf grx gry eps_s eps_f grt gdv]. rewrite H7. cbn [Dv]. unfold block_obj in Hc.
  destruct (grt inp); [rewrite E in * by auto|]; lra.
Qed.

(** ** descent *)
Definition no_worse (n m : nat) (sol : inner_solver (N:=RNum)) : Prop := forall it pb P, nonneg_mat n m P ->
  nonneg_mat n m (sol it pb P) /\ uot_val DKL n m pb (sol it pb P) <= uot_val DKL n m pb P.
Lemma round_descent : forall n m k l inp sq fs ss it s f, good_ugw n m k l inp -> eps_f inp = eps_s inp -> no_worse k l fs -> no_worse n m ss ->
  nonneg_mat n m s -> nonneg_mat k l f ->
  let r := bcd_round (N:=RNum) ln sq 0 n m k l inp fs ss false it s f in
  nonneg_mat n m (fst r) /\ nonneg_mat k l (snd r) /\ ugw_obj n m k l inp (fst r) (snd r) <= ugw_obj n m k l inp s f.
Proof.
  intros n m k l inp sq fs ss it s f HG E Hfs Hss Hs Hf. unfold bcd_round, rescale. cbn [fst snd].
  set (f' := fs it (feat_problem (N:=RNum) ln 0 n m k l inp s f) f). destruct (Hfs it (feat_problem (N:=RNum) ln 0 n m k l inp s f) f Hf) as [Hf' Lf]. fold f' in Hf', Lf.
  set (s' := ss it (samp_problem (N:=RNum) ln 0 n m k l inp s f') s). destruct (Hss it (samp_problem (N:=RNum) ln 0 n m k l inp s f') s Hs) as [Hs' Ls]. fold s' in Hs', Ls.
  split; auto. split; auto.
  destruct (feat_exact n m k l inp s f HG (fun _ => E) Hs) as [c Hc]. destruct (samp_exact n m k l inp f' s HG E Hf') as [d Hd].
  rewrite <- (Hd s' Hs'). pose proof (Hd s Hs) as D1. pose proof (Hc f Hf) as C1. pose proof (Hc f' Hf') as C2. lra.
Qed.
Lemma bcd_descent : forall n m k l inp sq fs ss tol left it s f, good_ugw n m k l inp -> eps_f inp = eps_s inp -> no_worse k l fs -> no_worse n m ss ->
  nonneg_mat n m s -> nonneg_mat k l f ->
  let r := bcd (N:=RNum) ln sq 0 n m k l inp left fs ss false tol it s f in
  nonneg_mat n m (fst r) /\ nonneg_mat k l (snd r) /\ ugw_obj n m k l inp (fst r) (snd r) <= ugw_obj n m k l inp s f.
Proof.
  intros n m k l inp sq fs ss tol left. induction left; intros it s f HG E Hfs Hss Hs Hf.
  - cbn. repeat split; auto. lra.
  - cbn [bcd]. pose proof (round_descent n m k l inp sq fs ss it s f HG E Hfs Hss Hs Hf) as R. cbv zeta in R.
    destruct (bcd_round (N:=RNum) ln sq 0 n m k l inp fs ss false it s f) as [s' f']. cbn [fst snd] in R. destruct R as (R1 & R2 & R3).
    match goal with |- context [if ?b then _ else _] => destruct b end; [cbn; auto|].
    specialize (IHleft (S it) s' f' HG E Hfs Hss R1 R2). cbv zeta in IHleft. destruct IHleft as (Q1 & Q2 & Q3). repeat split; auto. lra.
Qed.
