(** Lemmas about the solve_gromov model.  The first part is the specification: the documented
    problem and what each called solver is documented to return; it does not use the model's dispatch. *)
From Coq Require Import Reals Lra Lia String ZArith Bool.
From Verif Require Import Num Sums Spec Entropy Lbfgs_model Sgromov_model Gw_proofs P_Sinkexist Duals_proofs.
Local Open Scope R_scope.
Local Open Scope string_scope.

(** ** specification *)
(** who may be a plan: both margins exact, the first margin exact, or at most the margins and mass u *)
Inductive kind := Balanced | SemiRelaxed | PartialMass (u : R).
Definition feasible (n m : nat) (a b : vec) (k : kind) (T : mat) : Prop :=
  match k with
  | Balanced => coupling n m a b T
  | SemiRelaxed => nonneg_mat n m T /\ forall i, (i < n)%nat -> row_sum m T i = a i
  | PartialMass u => subcoupling n m a b T /\ total n m T = u
  end.
(** wl <M,T> + wq GW(T), the two parts *)
Definition lin_part (n m : nat) (wl : R) (M : mat) (T : mat) : R := wl * cost n m M T.
Definition quad_part (n m : nat) (wq : R) (L : R -> R -> R) (C1 C2 T : mat) : R := wq * gw_obj n m L C1 C2 T.
Definition fused_obj (n m : nat) (wl wq : R) (M : mat) (L : R -> R -> R) (C1 C2 : mat) (eps : R) (T : mat) : R :=
  lin_part n m wl M T + quad_part n m wq L C1 C2 T + eps * ent n m T.
Definition minimiser (P : mat -> Prop) (f : mat -> R) (T : mat) : Prop := P T /\ forall S, P S -> f T <= f S.

Definition zeroM : mat := fun _ _ => 0.
Definition some_or {A} (d : A) (o : option A) : A := match o with Some x => x | None => d end.

(** ** what the called solvers are documented to solve (their own docstrings and default epsilon) *)
Definition sv_kind (s : gsolver) (g : gargs (N:=RNum)) : kind :=
  match s with
  | SRGW2 | SRFGW2 | ESRGW2 | ESRFGW2 => SemiRelaxed
  | PGW2 | PFGW2 | EPGW2 | EPFGW2 => PartialMass (some_or 0 (g_m g))
  | _ => Balanced
  end.
Definition sv_wq (s : gsolver) (g : gargs (N:=RNum)) : R :=
  match s with
  | GW2 | SRGW2 | PGW2 | EGW2 | ESRGW2 | EPGW2 => 1
  | EMD2 | SINK => 0
  | _ => some_or (/ 2) (g_alpha g)
  end.
Definition sv_wl (s : gsolver) (g : gargs (N:=RNum)) : R :=
  match s with
  | GW2 | SRGW2 | PGW2 | EGW2 | ESRGW2 | EPGW2 => 0
  | EMD2 | SINK => 1
  | _ => 1 - some_or (/ 2) (g_alpha g)
  end.
Definition sv_eps (s : gsolver) (g : gargs (N:=RNum)) : R :=
  match s with
  | EGW2 | SINK | EFGW2 | ESRGW2 | ESRFGW2 | EPGW2 | EPFGW2 => some_or (/ 10) (g_eps g)
  | _ => 0
  end.
Section Solver.
Variables (n m : nat) (L : gloss -> R -> R -> R) (s : gsolver) (g : gargs (N:=RNum)).
Let M := some_or zeroM (g_M g : option mat).
Let C1 : mat := match g_C g with Some c => fst c | None => zeroM end.
Let C2 : mat := match g_C g with Some c => snd c | None => zeroM end.
Let Lg := L (some_or SquareLoss (g_loss g)).
Definition sv_feasible (T : mat) : Prop := feasible n m (g_a g) (some_or (fun _ => 0) (g_b g : option vec)) (sv_kind s g) T.
Definition sv_lin (T : mat) : R := lin_part n m (sv_wl s g) M T.
Definition sv_quad (T : mat) : R := quad_part n m (sv_wq s g) Lg C1 C2 T.
Definition sv_obj (T : mat) : R := fused_obj n m (sv_wl s g) (sv_wq s g) M Lg C1 C2 (sv_eps s g) T.
(** the reported numbers are those of the reported plan *)
Definition sv_truthful (o : gout (N:=RNum)) : Prop :=
  sv_feasible (o_plan o) /\ o_val o = sv_lin (o_plan o) + sv_quad (o_plan o) /\ o_lin o = sv_lin (o_plan o) /\ o_quad o = sv_quad (o_plan o).
Definition sv_optimal (o : gout (N:=RNum)) : Prop := minimiser sv_feasible sv_obj (o_plan o).
End Solver.
(** the called solvers report truthfully whenever there is a plan at all, and find a minimiser
    whenever there is one *)
Definition truthful (n m : nat) L run : Prop := forall s g, (exists T, sv_feasible n m s g T) -> sv_truthful n m L s g (run s g).
Definition exact_solvers (n m : nat) L run : Prop :=
  forall s g, (exists T, minimiser (sv_feasible n m s g) (sv_obj n m L s g) T) -> sv_optimal n m L s g (run s g).

(** ** the problem documented by solve_gromov *)
Definition doc_kind (unb : option R) (ty : string) : option kind :=
  if String.eqb (lower ty) "semirelaxed" then Some SemiRelaxed
  else match unb with None => Some Balanced | Some u => if String.eqb (lower ty) "partial" then Some (PartialMass u) else None end.
Definition doc_wl (M : option mat) (al : R) : R := match M with None => 0 | Some _ => 1 - al end.
Definition doc_wq (M : option mat) (al : R) : R := match M with None => 1 | Some _ => al end.
Definition doc_reg (reg : option R) : R := some_or 0 reg.
Definition doc_loss (loss : string) : gloss := if String.eqb (lower loss) "kl" then KlLoss else SquareLoss.

Lemma lsum2 : forall n m (f : nat -> nat -> R), nsum (N:=RNum) n (fun i => nsum (N:=RNum) m (fun j => f i j)) = rsum n (fun i => rsum m (fun j => f i j)).
Proof. intros. rewrite nsum_R. apply rsum_ext; intros. apply nsum_R. Qed.

(** entropy with the logarithm as the code evaluates it *)
Definition entl (lg : R -> R) (tiny : R) (n m : nat) (T : mat) : R := rsum n (fun i => rsum m (fun j => T i j * lg (T i j + tiny))).
Lemma sg_ent_R : forall lg tiny n m r T, sg_ent (N:=RNum) lg tiny n m r T = r * entl lg tiny n m T.
Proof. intros. unfold sg_ent, entl. cbn [nmul nadd RNum]. rewrite <- lsum2. reflexivity. Qed.
Definition uniform (n : nat) : vec := fun _ => 1 / INR n.

(** ** the dispatch, for the reals *)
Section Disp.
Variables (lg : R -> R) (tiny tol9 tol7 : R) (n m : nat) (L : gloss -> R -> R -> R).
Variable run : gsolver -> gargs (N:=RNum) -> gout (N:=RNum).
Variables (Ca Cb : mat) (M : option mat) (a0 b0 : option vec) (loss : string) (symm : option bool) (alpha : option R).
Variables (reg : option R) (rty : string) (unb : option R) (uty : string).
Variables (method : option string) (max_iter : option Z) (init : option mat) (tol : option R).
Definition sg := solve_gromov (N:=RNum) lg tiny INR tol9 tol7 n m run Ca Cb M a0 b0 loss symm alpha reg rty unb uty method max_iter init tol.
Let a := some_or (uniform n) a0.
Let b := some_or (uniform m) b0.
Lemma sga : sg_a (N:=RNum) INR n a0 = a. Proof. unfold a, sg_a, uniform. destruct a0; reflexivity. Qed.
Lemma sgb : sg_b (N:=RNum) INR m b0 = b. Proof. unfold b, sg_b, uniform. destruct b0; reflexivity. Qed.
Lemma isa : forall x, is_alpha (N:=RNum) alpha x = true <-> alpha = Some x.
Proof.
  intros x. unfold is_alpha. destruct alpha as [v|]; cbn [neqb RNum]; [|split; discriminate].
  rewrite Reqb_true. split; [intros ->; auto|intros E; inversion E; auto].
Qed.
(** the regularised fused problems whose solver is called without epsilon *)
Definition fused_reg : Prop :=
  M <> None /\ doc_reg reg <> 0 /\ alpha <> Some 1 /\
  (doc_kind unb uty = Some SemiRelaxed \/ (doc_kind unb uty = Some Balanced /\ alpha <> Some 0)).
Let al := some_or (/ 2) alpha.
Definition dlin (T : mat) : R := lin_part n m (doc_wl M al) (some_or zeroM M) T.
Definition dquad (T : mat) : R := quad_part n m (doc_wq M al) (L (doc_loss loss)) Ca Cb T.
Definition opt_is (o : option R) (x : R) : Prop := match o with Some y => y = x | None => True end.

Lemma lossok : forall l, sg_loss loss = Some l -> l = doc_loss loss.
Proof.
  intros l. unfold sg_loss, doc_loss. destruct (String.eqb (lower loss) "l2") eqn:E.
  - apply String.eqb_eq in E. rewrite E. cbn. intros X; inversion X; auto.
  - destruct (String.eqb (lower loss) "kl"); intros X; inversion X; auto.
Qed.
Lemma nolin : no_lin (N:=RNum) M alpha = true -> M = None \/ alpha = Some 1.
Proof. unfold no_lin. destruct M; auto. intros E. right. apply isa. exact E. Qed.
Lemma haslin : no_lin (N:=RNum) M alpha = false -> M <> None /\ alpha <> Some 1.
Proof. unfold no_lin. destruct M; [|discriminate]. intros E. split; [discriminate|]. intros X. apply isa in X. unfold is_alpha in *. cbn [n1 RNum] in E. congruence. Qed.

Definition answer (r : gres (N:=RNum)) : Prop :=
  exists s g k, doc_kind unb uty = Some k /\ r_plan r = o_plan (run s g) /\
    (forall T, sv_feasible n m s g T <-> feasible n m a b k T) /\
    (forall T, sv_lin n m s g T = dlin T) /\ (forall T, sv_quad n m L s g T = dquad T) /\
    (lower rty = "entropy" -> ~ fused_reg -> sv_eps s g = doc_reg reg) /\
    (sv_truthful n m L s g (run s g) ->
       r_value r = Some (dlin (r_plan r) + dquad (r_plan r) + doc_reg reg * entl lg tiny n m (r_plan r)) /\
       opt_is (r_lin r) (dlin (r_plan r)) /\ opt_is (r_quad r) (dquad (r_plan r))).

Lemma exact_reg : (is_exact (N:=RNum) reg) = true -> doc_reg reg = 0.
Proof. unfold doc_reg, is_exact. destruct reg as [r|]; cbn [some_or]; auto. intros E. apply Reqb_true in E. exact E. Qed.
Lemma notexact_reg : forall r, reg = Some r -> (is_exact (N:=RNum) reg) = false -> r <> 0.
Proof. intros r E. unfold is_exact. rewrite E. intros F. apply Reqb_false in F. exact F. Qed.

Ltac spec_unfold := unfold sv_feasible, sv_lin, sv_quad, sv_eps, sv_kind, sv_wl, sv_wq, dlin, dquad, lin_part, quad_part, doc_wl, doc_wq, opt_is, lin0, al in *;
  cbn [g_M g_C g_a g_b g_loss g_eps g_alpha g_m some_or fst snd r_plan r_value r_lin r_quad feasible nadd nmul n0 RNum] in *.
(** how the weights of a call relate to the documented ones *)
Definition wmatch (s : gsolver) (g : gargs (N:=RNum)) : Prop :=
  (forall T, sv_lin n m s g T = dlin T) /\ (forall T, sv_quad n m L s g T = dquad T).
Lemma wm_quad : forall s p l e mm sy me it to g0,
  M = None \/ alpha = Some 1 -> (s = GW2 \/ s = SRGW2 \/ s = PGW2 \/ s = EGW2 \/ s = ESRGW2 \/ s = EPGW2) -> l = doc_loss loss ->
  wmatch s (mkG (N:=RNum) None (Some (Ca, Cb)) a p (Some l) e None mm sy me it to g0).
Proof.
  intros s p l e mm sy me it to g0 H Hs ->.
  assert (W : sv_wl s (mkG (N:=RNum) None (Some (Ca, Cb)) a p (Some (doc_loss loss)) e None mm sy me it to g0) = 0 /\ sv_wq s (mkG (N:=RNum) None (Some (Ca, Cb)) a p (Some (doc_loss loss)) e None mm sy me it to g0) = 1)
    by (destruct Hs as [->|[->|[->|[->|[->| ->]]]]]; cbn; auto).
  destruct W as (W1 & W2). split; intros T; unfold sv_lin, sv_quad; rewrite ?W1, ?W2; unfold dlin, dquad, lin_part, quad_part, doc_wl, doc_wq, al;
  cbn [g_M g_C g_loss some_or fst snd]; (destruct H as [H|H]; [rewrite H|rewrite H; destruct M]); cbn [some_or]; ring.
Qed.
Lemma wm_lin : forall s p mm0 e mm sy me it to g0,
  M = Some mm0 -> alpha = Some 0 -> (s = EMD2 \/ s = SINK) ->
  wmatch s (mkG (N:=RNum) M None a p None e None mm sy me it to g0).
Proof.
  intros s p mm0 e mm sy me it to g0 HM HA Hs. unfold wmatch.
  split; intros T; unfold sv_lin, sv_quad; unfold dlin, dquad, lin_part, quad_part, doc_wl, doc_wq, al;
  rewrite HM, HA; destruct Hs as [->| ->]; cbn; ring.
Qed.
Lemma wm_fused : forall s p mm0 x l e mm sy me it to g0,
  M = Some mm0 -> alpha = Some x -> (s = FGW2 \/ s = SRFGW2 \/ s = PFGW2 \/ s = EFGW2 \/ s = ESRFGW2 \/ s = EPFGW2) -> l = doc_loss loss ->
  wmatch s (mkG (N:=RNum) (Some mm0) (Some (Ca, Cb)) a p (Some l) e (Some x) mm sy me it to g0).
Proof.
  intros s p mm0 x l e mm sy me it to g0 HM HA Hs ->.
  split; intros T; unfold sv_lin, sv_quad; unfold dlin, dquad, lin_part, quad_part, doc_wl, doc_wq, al;
  rewrite HM, HA; destruct Hs as [->|[->|[->|[->|[->| ->]]]]]; cbn [sv_wl sv_wq g_M g_C g_loss g_alpha some_or fst snd]; ring.
Qed.
Lemma answer_intro : forall s g k r ev, doc_kind unb uty = Some k -> r_plan r = o_plan (run s g) ->
  (forall T, sv_feasible n m s g T <-> feasible n m a b k T) -> wmatch s g ->
  (lower rty = "entropy" -> ~ fused_reg -> sv_eps s g = doc_reg reg) ->
  r_value r = Some (o_val (run s g) + ev) -> ev = doc_reg reg * entl lg tiny n m (r_plan r) ->
  (r_lin r = None \/ r_lin r = Some (o_lin (run s g)) \/ ((r_lin r = Some 0 \/ r_lin r = Some (o_val (run s g) - o_quad (run s g))) /\ (r_lin r = Some 0 -> M = None \/ alpha = Some 1))) ->
  (r_quad r = None \/ r_quad r = Some (o_quad (run s g)) \/ (r_quad r = Some (o_val (run s g)) /\ (M = None \/ alpha = Some 1)) \/ (r_quad r = Some 0 /\ M <> None /\ alpha = Some 0)) ->
  answer r.
Proof.
  intros s g k r ev Hk Hp Hf (W1 & W2) He Hv Hev Hl Hq. exists s, g, k. repeat (split; [assumption|]).
  intros (T0 & T1 & T2 & T3). rewrite Hp in *. rewrite W1, W2 in T1. rewrite W1 in T2. rewrite W2 in T3.
  set (P := o_plan (run s g)) in *. clearbody P.
  split; [rewrite Hv, T1, Hev; reflexivity|]. split.
  - destruct Hl as [->|[->|(Hl & HM)]]; cbn [opt_is]; auto.
    destruct Hl as [Hl|Hl]; rewrite Hl; cbn [opt_is]; [|lra].
    unfold dlin, lin_part, doc_wl, al. destruct (HM Hl) as [E|E]; rewrite E; [ring|]. destruct M; cbn [some_or]; ring.
  - destruct Hq as [->|[->|[(-> & HM)|(-> & HM & HA)]]]; cbn [opt_is]; auto.
    + rewrite T1. enough (dlin P = 0) by lra. unfold dlin, lin_part, doc_wl, al. destruct HM as [E|E]; rewrite E; [ring|]. destruct M; cbn [some_or]; ring.
    + unfold dquad, quad_part, doc_wq, al. rewrite HA. destruct M; [cbn [some_or]; ring|congruence].
Qed.
Lemma lin0_ok : M = None \/ alpha = Some 1 -> forall (x y z : R),
  lin0 (N:=RNum) alpha = None \/ lin0 (N:=RNum) alpha = Some x \/ ((lin0 (N:=RNum) alpha = Some 0 \/ lin0 (N:=RNum) alpha = Some (y - z)) /\ (lin0 (N:=RNum) alpha = Some 0 -> M = None \/ alpha = Some 1)).
Proof. intros H x y z. unfold lin0. destruct (is_alpha (N:=RNum) alpha n1); auto. Qed.
Lemma noalpha : forall x, is_alpha (N:=RNum) alpha x = false -> alpha <> Some x.
Proof. intros x E F. apply isa in F. congruence. Qed.
Lemma fused_open : forall (k : mat -> R -> gans (N:=RNum)) r, with_lin (N:=RNum) M alpha k = GOk r -> exists mm x, M = Some mm /\ alpha = Some x /\ k mm x = GOk r.
Proof. intros k r. unfold with_lin. destruct M as [mm|], alpha as [x|]; try discriminate. intros H. exists mm, x. auto. Qed.

Lemma dispatch : forall r, sg = GOk r -> answer r.
Proof.
  intros r. unfold sg, solve_gromov. destruct (sg_loss loss) as [l|] eqn:EL; [|discriminate]. apply lossok in EL.
  assert (EX : forall e, (is_exact (N:=RNum) reg) = e ->
    (if e then doc_reg reg = 0 else exists r0, reg = Some r0 /\ doc_reg reg = r0 /\ doc_reg reg <> 0)).
  { intros [|] E; [apply exact_reg; exact E|]. unfold is_exact in E. destruct reg as [r0|] eqn:ER; [|discriminate]. exists r0. unfold doc_reg. cbn [some_or].
    apply Reqb_false in E. auto. }
  destruct (String.eqb (lower uty) "semirelaxed") eqn:ES.
  - assert (DK : doc_kind unb uty = Some SemiRelaxed) by (unfold doc_kind; rewrite ES; auto).
    destruct (is_exact (N:=RNum) reg) eqn:ER; specialize (EX _ eq_refl); cbn in EX.
    + unfold sg_semi. destruct (no_lin (N:=RNum) M alpha) eqn:NL.
      * apply nolin in NL. rewrite sga. intros X; inversion X; clear X.
        eapply (answer_intro SRGW2 _ SemiRelaxed _ 0); try exact DK; try reflexivity.
        { apply wm_quad; auto. } { intros _ _. rewrite EX. reflexivity. }
        { cbn [r_value]. f_equal. symmetry. apply Rplus_0_r. } { rewrite EX. ring. }
        { cbn [r_lin]. apply lin0_ok; auto. } { cbn [r_quad]. auto. }
      * apply haslin in NL. intros X. apply fused_open in X. destruct X as (mm & x & HM & HA & X). rewrite sga in X. inversion X; clear X.
        eapply (answer_intro SRFGW2 _ SemiRelaxed _ 0); try exact DK; try reflexivity.
        { apply wm_fused; auto. } { intros _ _. rewrite EX. reflexivity. }
        { cbn [r_value]. f_equal. symmetry. apply Rplus_0_r. } { rewrite EX. ring. }
        { cbn [r_lin]. auto. } { cbn [r_quad]. auto. }
    + destruct EX as (r0 & RE & DR & RN). rewrite RE. unfold sg_reg_semi.
      destruct (entropy_type rty && no_lin (N:=RNum) M alpha)%bool eqn:NL.
      * apply andb_prop in NL. destruct NL as (_ & NL). apply nolin in NL. rewrite sga, sg_ent_R. intros X; inversion X; clear X.
        eapply (answer_intro ESRGW2 _ SemiRelaxed _ (r0 * entl lg tiny n m _)); try exact DK; try reflexivity.
        { apply wm_quad; auto 10. } { intros _ _. rewrite RE. reflexivity. } { rewrite RE. reflexivity. }
        { cbn [r_lin]. right; right. split; auto. } { cbn [r_quad]. auto. }
      * intros X. apply fused_open in X. destruct X as (mm & x & HM & HA & X). rewrite sga, sg_ent_R in X. inversion X; clear X.
        eapply (answer_intro ESRFGW2 _ SemiRelaxed _ (r0 * entl lg tiny n m _)); try exact DK; try reflexivity.
        { apply wm_fused; auto 10. }
        { intros RT NF. exfalso. apply NF. split; [congruence|]. split; [exact RN|]. split; [|left; exact DK].
          intros HA1. unfold entropy_type in NL. rewrite RT in NL. cbn in NL. unfold no_lin in NL. rewrite HM in NL. apply isa in HA1. cbn [n1 RNum] in NL. congruence. }
        { rewrite RE. reflexivity. }
        { cbn [r_lin]. auto. } { cbn [r_quad]. auto. }
  - destruct unb as [u|] eqn:EU.
    + destruct (String.eqb (lower uty) "partial") eqn:EP; [|discriminate].
      assert (DK : doc_kind unb uty = Some (PartialMass u)) by (unfold doc_kind; rewrite ES, EU, EP; auto).
      destruct (is_exact (N:=RNum) reg) eqn:ER; specialize (EX _ eq_refl); cbn in EX.
      * unfold sg_partial. destruct (too_much (N:=RNum) INR n m a0 b0 u); [discriminate|]. destruct (no_lin (N:=RNum) M alpha) eqn:NL.
        -- apply nolin in NL. rewrite sga, sgb. intros X; inversion X; clear X.
           eapply (answer_intro PGW2 _ (PartialMass u) _ 0); try exact DK; try reflexivity.
           { apply wm_quad; auto. } { intros _ _. rewrite EX. reflexivity. }
           { cbn [r_value]. f_equal. symmetry. apply Rplus_0_r. } { rewrite EX. ring. }
           { cbn [r_lin]. auto. } { cbn [r_quad]. auto. }
        -- apply haslin in NL. intros X. apply fused_open in X. destruct X as (mm & x & HM & HA & X). rewrite sga, sgb in X. inversion X; clear X.
           eapply (answer_intro PFGW2 _ (PartialMass u) _ 0); try exact DK; try reflexivity.
           { apply wm_fused; auto. } { intros _ _. rewrite EX. reflexivity. }
           { cbn [r_value]. f_equal. symmetry. apply Rplus_0_r. } { rewrite EX. ring. }
           { cbn [r_lin]. auto. } { cbn [r_quad]. auto. }
      * destruct EX as (r0 & RE & DR & RN). rewrite RE. unfold sg_reg_partial. destruct (too_much (N:=RNum) INR n m a0 b0 u); [discriminate|]. destruct (no_lin (N:=RNum) M alpha) eqn:NL.
        -- apply nolin in NL. rewrite sga, sgb, sg_ent_R. intros X; inversion X; clear X.
           eapply (answer_intro EPGW2 _ (PartialMass u) _ (r0 * entl lg tiny n m _)); try exact DK; try reflexivity.
           { apply wm_quad; auto 10. } { intros _ _. rewrite RE. reflexivity. } { rewrite RE. reflexivity. }
           { cbn [r_lin]. auto. } { cbn [r_quad]. auto. }
        -- apply haslin in NL. intros X. apply fused_open in X. destruct X as (mm & x & HM & HA & X). rewrite sga, sgb, sg_ent_R in X. inversion X; clear X.
           eapply (answer_intro EPFGW2 _ (PartialMass u) _ (r0 * entl lg tiny n m _)); try exact DK; try reflexivity.
           { apply wm_fused; auto 10. } { intros _ _. rewrite RE. reflexivity. } { rewrite RE. reflexivity. }
           { cbn [r_lin]. auto. } { cbn [r_quad]. auto. }
    + assert (DK : doc_kind unb uty = Some Balanced) by (unfold doc_kind; rewrite ES, EU; auto).
      destruct (is_exact (N:=RNum) reg) eqn:ER; specialize (EX _ eq_refl); cbn in EX.
      * unfold sg_exact. destruct (no_lin (N:=RNum) M alpha) eqn:NL.
        { apply nolin in NL. rewrite sga, sgb. intros X; inversion X; clear X.
          eapply (answer_intro GW2 _ Balanced _ 0); try exact DK; try reflexivity.
          { apply wm_quad; auto. } { intros _ _. rewrite EX. reflexivity. }
          { cbn [r_value]. f_equal. symmetry. apply Rplus_0_r. } { rewrite EX. ring. }
          { cbn [r_lin]. apply lin0_ok; auto. } { cbn [r_quad]. auto. } }
        apply haslin in NL. destruct NL as (NM & NA).
        destruct (is_alpha (N:=RNum) alpha n0) eqn:A0.
        { apply isa in A0. change (alpha = Some 0) in A0. destruct M as [mm|] eqn:HM; [|congruence]. rewrite sga, sgb. intros X; inversion X; clear X.
          eexists EMD2, _, Balanced. split; [exact DK|]. split; [reflexivity|].
          assert (W : wmatch EMD2 (mkG (N:=RNum) M None a (Some b) None None None None None None (iter_or max_iter 1000000) None None))
            by (apply (wm_lin _ _ mm); auto).
          destruct W as (W1 & W2). rewrite HM in W1, W2. split; [reflexivity|]. split; [exact W1|]. split; [exact W2|].
          split; [intros _ _; rewrite EX; reflexivity|]. intros (T0 & T1 & T2 & T3). cbn [r_value r_lin r_quad r_plan opt_is].
          rewrite W1, W2 in T1.
          assert (Q0 : forall P, dquad P = 0) by (intros P; unfold dquad, quad_part, doc_wq, al; rewrite HM, A0; cbn; ring).
          rewrite Q0 in *. rewrite T1, EX. split; [f_equal; ring|]. split; [ring|reflexivity]. }
        intros X. apply fused_open in X. destruct X as (mm & x & HM & HA & X). rewrite sga, sgb in X. inversion X; clear X.
        eapply (answer_intro FGW2 _ Balanced _ 0); try exact DK; try reflexivity.
        { apply wm_fused; auto. } { intros _ _. rewrite EX. reflexivity. }
        { cbn [r_value]. f_equal. symmetry. apply Rplus_0_r. } { rewrite EX. ring. }
        { cbn [r_lin]. auto. } { cbn [r_quad]. auto. }
      * destruct EX as (r0 & RE & DR & RN). rewrite RE. unfold sg_reg. destruct (entropy_type rty) eqn:ET; cbn [andb]; [|discriminate].
        destruct (no_lin (N:=RNum) M alpha) eqn:NL.
        { apply nolin in NL. rewrite sga, sgb, sg_ent_R. intros X; inversion X; clear X.
          eapply (answer_intro EGW2 _ Balanced _ (r0 * entl lg tiny n m _)); try exact DK; try reflexivity.
          { apply wm_quad; auto 10. } { intros _ _. rewrite RE. reflexivity. } { rewrite RE. reflexivity. }
          { cbn [r_lin]. right; right. split; auto. } { cbn [r_quad]. auto. } }
        apply haslin in NL. destruct NL as (NM & NA).
        destruct (is_alpha (N:=RNum) alpha n0) eqn:A0.
        { apply isa in A0. change (alpha = Some 0) in A0. destruct M as [mm|] eqn:HM; [|congruence]. rewrite sga, sgb, sg_ent_R. intros X; inversion X; clear X.
          eexists SINK, _, Balanced. split; [exact DK|]. split; [reflexivity|].
          assert (W : wmatch SINK (mkG (N:=RNum) M None a (Some b) None (Some r0) None None None None (iter_or max_iter 1000) (tol_or (N:=RNum) tol tol9) None))
            by (apply (wm_lin _ _ mm); auto).
          destruct W as (W1 & W2). rewrite HM in W1, W2. split; [reflexivity|]. split; [exact W1|]. split; [exact W2|].
          split; [intros _ _; rewrite RE; reflexivity|]. intros _. cbn [r_value r_lin r_quad r_plan opt_is nadd nmul n0 RNum].
          assert (Q0 : forall P, dquad P = 0) by (intros P; unfold dquad, quad_part, doc_wq, al; rewrite HM, A0; cbn; ring).
          assert (L0 : forall P, dlin P = cost n m mm P) by (intros P; unfold dlin, lin_part, doc_wl, al; rewrite HM, A0; cbn [some_or]; ring).
          rewrite Q0, L0, lsum2. unfold cost. rewrite RE. split; [unfold doc_reg; cbn [some_or]; f_equal; ring|]. split; auto. }
        intros X. apply fused_open in X. destruct X as (mm & x & HM & HA & X). rewrite sga, sgb, sg_ent_R in X. inversion X; clear X.
        eapply (answer_intro EFGW2 _ Balanced _ (r0 * entl lg tiny n m _)); try exact DK; try reflexivity.
        { apply wm_fused; auto 10. }
        { intros RT NF. exfalso. apply NF. split; [congruence|]. split; [exact RN|]. split; [exact NA|]. right. split; [exact DK|]. apply noalpha. exact A0. }
        { rewrite RE. reflexivity. }
        { cbn [r_lin]. auto. } { cbn [r_quad]. auto. }
Qed.
End Disp.
