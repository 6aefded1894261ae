(** Lemmas about the solve model.  The first part is the specification. *)
From Coq Require Import Reals Lra Lia String ZArith Bool.
From Verif Require Import Num Sums Spec Entropy Lbfgs_model Solve_model Sgromov_proofs Duals_proofs.
Local Open Scope R_scope.
Local Open Scope string_scope.

(** ** specification *)
Section Spec.
Variables (lg : R -> R) (tiny : R).
(** divergences of vectors: Kullback-Leibler without and with mass terms, half squares, total variation *)
Definition kl0 (n : nat) (x y : vec) : R := rsum n (fun i => x i * lg (x i / y i + tiny)).
Definition kl1 (n : nat) (x y : vec) : R := kl0 n x y + rsum n (fun i => y i - x i).
Definition half_sq (n : nat) (x y : vec) : R := rsum n (fun i => (x i - y i) ^ 2) / 2.
Definition tvd (n : nat) (x y : vec) : R := rsum n (fun i => Rabs (x i - y i)).
Definition Udoc (name : string) : nat -> vec -> vec -> R :=
  if String.eqb (lower name) "kl" then kl1 else if String.eqb (lower name) "tv" then tvd else half_sq.
(** the regularisation of a plan, c the reference measure *)
Definition mkl0 (n m : nat) (T c : mat) : R := rsum n (fun i => kl0 m (T i) (c i)).
Definition mkl1 (n m : nat) (T c : mat) : R := rsum n (fun i => kl1 m (T i) (c i)).
Definition ment (n m : nat) (T : mat) : R := rsum n (fun i => rsum m (fun j => T i j * lg (T i j + tiny))).
Definition Rdoc (n m : nat) (rt : rtype (N:=RNum)) (c T : mat) : R :=
  match rt with
  | RPair f _ => f T
  | RName s => if String.eqb (lower s) "kl" then mkl1 n m T c
               else if String.eqb (lower s) "entropy" then ment n m T - total n m T
               else rsum n (fun i => half_sq m (T i) (c i))
  end.
Definition unb_obj (n m : nat) (a b : vec) (c M : mat) (reg : R) (rt : rtype (N:=RNum)) (l : R * R) (name : string) (T : mat) : R :=
  cost n m M T + reg * Rdoc n m rt c T + fst l * Udoc name n (row_sum m T) a + snd l * Udoc name m (col_sum n T) b.
(** what sinkhorn_knopp_unbalanced reports as total cost (C73): no mass terms *)
Definition nomass (n m : nat) (a b : vec) (c M : mat) (reg : R) (l : R * R) (T : mat) : R :=
  cost n m M T + reg * mkl0 n m T c + fst l * kl0 n (row_sum m T) a + snd l * kl0 m (col_sum n T) b.
End Spec.

Section Solvers.
Variables (lg : R -> R) (tiny : R) (n m : nat) (s : ssolver) (g : sargs (N:=RNum)).
Let reg := some_or 0 (s_reg g : option R).
Let l := some_or (0, 0) (s_regm g : option (R * R)).
Let c := some_or zeroM (s_c g : option mat).
Let name := some_or "kl" (s_div g).
Definition ss_feasible (T : mat) : Prop :=
  match s with
  | SMM | SLbfgs | SUnb => nonneg_mat n m T
  | _ => coupling n m (s_a g) (s_b g) T
  end.
(** mm_unbalanced takes the same divergence for the plan as for the marginals *)
Definition ss_obj (T : mat) : R :=
  match s with
  | SEmd => cost n m (s_M g) T
  | SMM => unb_obj lg tiny n m (s_a g) (s_b g) c (s_M g) reg (RName name) l name T
  | SLbfgs => unb_obj lg tiny n m (s_a g) (s_b g) c (s_M g) reg (some_or (RName "kl") (s_rt g)) l name T
  | SCg => cost n m (s_M g) T + reg * Rdoc lg tiny n m (some_or (RName "kl") (s_rt g)) c T
  | SSink => cost n m (s_M g) T + reg * ment lg tiny n m T
  | SSmooth => cost n m (s_M g) T + reg / 2 * rsum n (fun i => rsum m (fun j => T i j * T i j))
  | SUnb => unb_obj lg tiny n m (s_a g) (s_b g) c (s_M g) reg (some_or (RName "kl") (s_rt g)) l "kl" T
  end.
Definition ss_total (T : mat) : R :=
  match s with SUnb => nomass lg tiny n m (s_a g) (s_b g) c (s_M g) reg l T | _ => ss_obj T end.
Definition ss_truthful (o : sout (N:=RNum)) : Prop :=
  ss_feasible (so_plan o) /\ so_cost o = cost n m (s_M g) (so_plan o) /\ so_total o = ss_total (so_plan o).
End Solvers.
Definition s_truthful lg tiny n m (run : ssolver -> sargs (N:=RNum) -> sout (N:=RNum)) : Prop := forall s (g : sargs (N:=RNum)), 0 <= some_or 0 (s_reg g : option R) -> (exists T, ss_feasible n m s g T) -> ss_truthful lg tiny n m s g (run s g).
Definition s_exact n m (run : ssolver -> sargs (N:=RNum) -> sout (N:=RNum)) : Prop := forall s (g : sargs (N:=RNum)), 0 <= some_or 0 (s_reg g : option R) -> (exists T, minimiser (ss_feasible n m s g) (ss_obj ln 0 n m s g) T) ->
  minimiser (ss_feasible n m s g) (ss_obj ln 0 n m s g) (so_plan (run s g)).

Lemma lower_lower : forall s, lower (lower s) = lower s.
Proof.
  induction s as [|x s IH]; cbn [lower]; [reflexivity|]. rewrite IH. f_equal.
  destruct x as [[|] [|] [|] [|] [|] [|] [|] [|]]; reflexivity.
Qed.
Section Sol.
Variables (ex lg : R -> R) (tiny tol9 tol12 : R) (n m : nat) (run : ssolver -> sargs (N:=RNum) -> sout (N:=RNum)).
Variables (M : mat) (a0 b0 : option vec) (reg0 : option R) (c0 : option mat) (rt : rtype (N:=RNum)) (unb : option (R * R)) (uty : string).
Variables (method : option string) (max_iter : option Z) (G0 : option mat) (warm : option (vec * vec)) (tol : option R) (grad : gmode).
Definition sol := solve (N:=RNum) ex lg tiny INR tol9 tol12 n m run M a0 b0 reg0 c0 rt unb uty method max_iter G0 warm tol grad.
Definition wa : vec := some_or (uniform n) a0.
Definition wb : vec := some_or (uniform m) b0.
Definition wab : mat := fun i j => wa i * wb j.
Definition wc : mat := some_or wab c0.
Lemma soa : so_a (N:=RNum) INR n a0 = wa. Proof. unfold wa, so_a, uniform. destruct a0; reflexivity. Qed.
Lemma sob : so_b (N:=RNum) INR m b0 = wb. Proof. unfold wb, so_b, uniform. destruct b0; reflexivity. Qed.
Lemma soab : so_ab (N:=RNum) INR n m a0 b0 = wab. Proof. unfold so_ab, wab. rewrite soa, sob. reflexivity. Qed.
Lemma soc : so_c (N:=RNum) INR n m a0 b0 c0 = wc. Proof. unfold so_c, wc. rewrite soab. destruct c0; reflexivity. Qed.
Lemma soreg : so_reg (N:=RNum) reg0 = doc_reg reg0. Proof. unfold so_reg, doc_reg. destruct reg0; reflexivity. Qed.
Lemma solin : forall P, so_lin (N:=RNum) n m M P = cost n m M P. Proof. intros. unfold so_lin. rewrite lsum2. reflexivity. Qed.
Lemma soent : forall P, so_ent (N:=RNum) lg tiny n m P = ment lg tiny n m P. Proof. intros. unfold so_ent. rewrite lsum2. reflexivity. Qed.
Lemma sokl : forall P, so_kl (N:=RNum) lg tiny INR n m a0 b0 P = mkl0 lg tiny n m P wab.
Proof. intros. unfold so_kl. rewrite soab, lsum2. reflexivity. Qed.
Lemma sosq : forall P, so_sq (N:=RNum) n m P = rsum n (fun i => rsum m (fun j => P i j * P i j)). Proof. intros. unfold so_sq. rewrite lsum2. reflexivity. Qed.

(** the documented value of a plan, by branch *)
Definition reported (T : mat) : R :=
  match unb with
  | None => if Reqb (doc_reg reg0) 0 then cost n m M T else
      match rt with
      | RPair f _ => cost n m M T + doc_reg reg0 * f T
      | RName s => cost n m M T + doc_reg reg0 *
          (if String.eqb (lower s) "entropy" then ment lg tiny n m T
           else if String.eqb (lower s) "kl" then mkl0 lg tiny n m T wab
           else rsum n (fun i => rsum m (fun j => T i j * T i j)))
      end
  | Some l => if (negb (Reqb (doc_reg reg0) 0) && rname (N:=RNum) rt "kl" && uname uty "kl")%bool then nomass lg tiny n m wa wb wc M (doc_reg reg0) l T
              else unb_obj lg tiny n m wa wb wc M (doc_reg reg0) rt l uty T
  end.

Lemma rt_low_R : forall c T, Rdoc lg tiny n m (rt_low (N:=RNum) rt) c T = Rdoc lg tiny n m rt c T.
Proof. intros. unfold rt_low, Rdoc. destruct rt; [rewrite lower_lower|]; reflexivity. Qed.
Lemma neqb_doc : neqb (n:=RNum) (so_reg (N:=RNum) reg0) n0 = Reqb (doc_reg reg0) 0.
Proof. rewrite soreg. reflexivity. Qed.

Definition plan_kind (T : mat) : Prop := match unb with None => coupling n m wa wb T | Some _ => nonneg_mat n m T end.
Lemma reports : forall r, s_truthful lg tiny n m run -> 0 <= doc_reg reg0 -> sol = SOk r ->
  (unb = None -> exists T, coupling n m wa wb T) ->
  sr_lin r = cost n m M (sr_plan r) /\ sr_value r = reported (sr_plan r) /\ (grad <> GLast -> plan_kind (sr_plan r)).
Proof.
  intros r HT Hr E HC.
  assert (ZN : nonneg_mat n m zeroM) by (intros i j Hi Hj; unfold zeroM; lra).
  unfold sol, solve in E. rewrite neqb_doc in E. unfold reported, plan_kind. destruct (Reqb (doc_reg reg0) 0) eqn:R0.
  - apply Reqb_true in R0. destruct unb as [u|].
    + cbn [negb andb]. destruct (uname uty "kl" || uname uty "l2")%bool eqn:UN.
      * unfold sv_mm in E. rewrite soa, sob, soc, soreg in E.
        match type of E with SOk ?x = SOk _ => assert (X : r = x) by congruence end. subst r. clear E. cbn [sr_lin sr_plan sr_value].
        match goal with |- context [run SMM ?g] => destruct (HT SMM g) as (T1 & T2 & T3); [exact Hr|exists zeroM; exact ZN|] end.
        rewrite T2, T3. split; [reflexivity|]. split; [|intros _; exact T1].
        cbn [ss_total ss_obj s_a s_b s_c s_M s_reg s_regm s_div some_or]. unfold unb_obj. rewrite R0. match goal with |- @eq _ ?p ?q => change (@eq R p q) end. ring.
      * destruct (uname uty "tv"); [|discriminate].
        unfold sv_lbfgs in E. rewrite soa, sob, soc, soreg in E.
        match type of E with SOk ?x = SOk _ => assert (X : r = x) by congruence end. subst r. clear E. cbn [sr_lin sr_plan sr_value].
        match goal with |- context [run SLbfgs ?g] => destruct (HT SLbfgs g) as (T1 & T2 & T3); [exact Hr|exists zeroM; exact ZN|] end.
        rewrite T2, T3. split; [reflexivity|]. split; [|intros _; exact T1].
        cbn [ss_total ss_obj s_a s_b s_c s_M s_reg s_regm s_div s_rt some_or]. unfold unb_obj. rewrite R0. match goal with |- @eq _ ?p ?q => change (@eq R p q) end. ring.
    + unfold sv_exact in E. rewrite soa, sob in E.
      match type of E with SOk ?x = SOk _ => assert (X : r = x) by congruence end. subst r. clear E. cbn [sr_lin sr_plan sr_value].
      match goal with |- context [run SEmd ?g] => destruct (HT SEmd g) as (T1 & T2 & T3); [cbn; lra|apply HC; auto|] end.
      rewrite T2. split; [reflexivity|]. split; [reflexivity|]. intros _; exact T1.
  - apply Reqb_false in R0. destruct unb as [u|].
    + cbn [negb andb]. destruct (rname (N:=RNum) rt "kl" && uname uty "kl")%bool eqn:KK.
      * unfold sv_unb in E. rewrite soa, sob, soc, soreg in E.
        match type of E with SOk ?x = SOk _ => assert (X : r = x) by congruence end. subst r. clear E. cbn [sr_lin sr_plan sr_value].
        match goal with |- context [run SUnb ?g] => destruct (HT SUnb g) as (T1 & T2 & T3); [exact Hr|exists zeroM; exact ZN|] end.
        rewrite T2, T3. split; [reflexivity|]. split; [reflexivity|intros _; exact T1].
      * match type of E with (if ?q then _ else _) = _ => destruct q eqn:QQ; [|discriminate] end.
        unfold sv_lbfgs in E. rewrite soa, sob, soc, soreg in E.
        match type of E with SOk ?x = SOk _ => assert (X : r = x) by congruence end. subst r. clear E. cbn [sr_lin sr_plan sr_value].
        match goal with |- context [run SLbfgs ?g] => destruct (HT SLbfgs g) as (T1 & T2 & T3); [exact Hr|exists zeroM; exact ZN|] end.
        rewrite T2, T3. split; [reflexivity|]. split; [|intros _; exact T1].
        cbn [ss_total ss_obj s_a s_b s_c s_M s_reg s_regm s_div s_rt some_or]. unfold unb_obj. rewrite rt_low_R. reflexivity.
    + destruct rt as [s|f df] eqn:RT.
      * cbn [rname] in E. destruct (String.eqb (lower s) "entropy" || String.eqb (lower s) "kl")%bool eqn:EK.
        { unfold sv_sink in E. rewrite soa, sob, soreg in E.
          destruct grad eqn:EG; cbn [andb] in E; cbv zeta in E; [| |destruct (Z.eqb (so_iter max_iter 1000) 0); [discriminate|]|];
            match type of E with SOk ?x = SOk _ => assert (X : r = x) by congruence end; subst r; clear E; cbn [sr_lin sr_plan sr_value rname];
            rewrite ?solin, ?soent, ?sokl; (split; [reflexivity|]);
            (split; [destruct (String.eqb (lower s) "entropy"); [reflexivity|]; cbn [orb] in EK; rewrite EK; reflexivity|]);
            intros NG; try (exfalso; apply NG; reflexivity);
            match goal with |- context [run SSink ?g] => destruct (HT SSink g) as (T1 & T2 & T3); [exact Hr|apply HC; auto|exact T1] end. }
        destruct (String.eqb (lower s) "l2"); [|discriminate].
        unfold sv_l2 in E. rewrite soa, sob, soreg in E.
        match type of E with SOk ?x = SOk _ => assert (X : r = x) by congruence end. subst r. clear E. cbn [sr_lin sr_plan sr_value].
        match goal with |- context [run SSmooth ?g] => destruct (HT SSmooth g) as (T1 & T2 & T3); [exact Hr|apply HC; auto|] end.
        rewrite solin, sosq. apply orb_false_elim in EK. destruct EK as (E1 & E2). rewrite E1, E2. split; [reflexivity|]. split; [reflexivity|]. intros _; exact T1.
      * unfold sv_cg in E. rewrite soa, sob, soreg in E.
        match type of E with SOk ?x = SOk _ => assert (X : r = x) by congruence end. subst r. clear E. cbn [sr_lin sr_plan sr_value].
        match goal with |- context [run SCg ?g] => destruct (HT SCg g) as (T1 & T2 & T3); [exact Hr|apply HC; auto|] end.
        rewrite T3, solin. split; [reflexivity|]. split; [reflexivity|]. intros _; exact T1.
Qed.
End Sol.
