(** Model of /repo/ot/weak.py (weak_optimal_transport) and /repo/ot/factored.py
    (factored_optimal_transport).  Samples Xa (n x d) and Xb (m x d) are functions of two indices.
    The random initial support of factored_optimal_transport is an argument. *)
From Coq Require Import List Arith Bool.
From Verif Require Import Num Emd1d_model Optim_model.
Import ListNotations.

Section Weak.
Context {N : NumOps}.
Notation vec := (nat -> N).
Notation mat := (nat -> nat -> N).

(** Xa - T Xb / a, entry (i, t): weak.py:111 and 115 *)
Definition weak_res (m : nat) (a : vec) (Xa Xb T : mat) : mat :=
  fun i t => nsub (Xa i t) (ndiv (nsum m (fun j => nmul (T i j) (Xb j t))) (a i)).
(** f, weak.py:110-111 *)
Definition weak_loss (n m d : nat) (a : vec) (Xa Xb T : mat) : N :=
  nsum n (fun i => nmul (a i) (nsum d (fun t => nmul (weak_res m a Xa Xb T i t) (weak_res m a Xa Xb T i t)))).
(** df, weak.py:114-115 *)
Definition weak_grad (m d : nat) (a : vec) (Xa Xb T : mat) : mat :=
  fun i j => nmul (nopp two) (nsum d (fun t => nmul (weak_res m a Xa Xb T i t) (Xb j t))).
(** the default line search of cg, optim.py:512-515: alpha_min = 0, no upper limit *)
Definition armijo_ls (search : (N -> N) -> N -> N -> N -> option N * N) (n m : nat) : line_search_t :=
  fun F G D Mi c _ =>
    let '(al, v) := line_search_armijo search (fun t => F (fun i j => nadd (G i j) (nmul t (D i j)))) (Some c) (inner n m Mi D) n0 None in (al, v, None).
(** weak.py:92-129: cg with M = 0 and reg = 1; [lp] is emd(a, b, .) *)
Definition weak_optimal_transport (fuel n m d : nat) (a b : vec) (Xa Xb : mat) (lp : mat -> mat)
    (search : (N -> N) -> N -> N -> N -> option N * N) (G0 : option mat) (numItermax : nat) (stopThr stopThr2 : N) : option cg_state :=
  generic_conditional_gradient fuel n m a b (fun _ _ => n0) n1 (weak_loss n m d a Xa Xb) (weak_grad m d a Xa Xb) lp
    (armijo_ls search n m) (Some (match G0 with None => outer a b | Some g => g end)) numItermax stopThr stopThr2.

(** ** factored.py:99-159 *)
(** dist(X1, X2): squared Euclidean distances (the expanded formula of utils.py is Utils_model) *)
Definition sqd (d : nat) (X Y : mat) : mat := fun i j => nsum d (fun t => nmul (nsub (X i t) (Y j t)) (nsub (X i t) (Y j t))).
Section Fact.
(** [ot k l w1 w2 M] is solve_ot's plan: emd, or sinkhorn with the given reg; [norm] is nx.norm *)
Variables (ot : nat -> nat -> vec -> vec -> mat -> mat) (norm : mat -> N).
Variables (na nb r d : nat) (Xa Xb : mat) (a b : vec).
(** line 113 *)
Definition fact_w : vec := fun _ => ndiv n1 (nofnat r).
(** lines 129-133 *)
Definition fact_plans (X : mat) : mat * mat := (ot na r a fact_w (sqd d Xa X), ot r nb fact_w b (sqd d X Xb)).
Definition fact_support (Ga Gb : mat) : mat := fun k t =>
  nmul (nmul (ndiv n1 two) (nadd (nsum na (fun i => nmul (Ga i k) (Xa i t))) (nsum nb (fun j => nmul (Gb k j) (Xb j t))))) (nofnat r).
(** the loop 126-139; the result carries Ga, Gb, X, the support before the last update and the
    number of rounds; None when the loop body never runs (Ga is unbound: NameError) *)
Record fact_out := mkFact { fo_Ga : mat; fo_Gb : mat; fo_X : mat; fo_old : mat; fo_it : nat }.
Fixpoint fact_loop (k : nat) (it : nat) (stopThr : N) (X : mat) (last : option fact_out) : option fact_out :=
  match k with
  | O => last
  | S k' =>
      let '(Ga, Gb) := fact_plans X in
      let X' := fact_support Ga Gb in
      let o := mkFact Ga Gb X' X (S it) in
      if nltb (norm (fun i t => nsub (X' i t) (X i t))) stopThr then Some o else fact_loop k' (S it) stopThr X' (Some o)
  end.
Definition factored_optimal_transport (X0 : mat) (stopThr : N) (numItermax : nat) : option fact_out := fact_loop numItermax 0 stopThr X0 None.
(** log["lazy_plan"], line 155 with get_lowrank_lazytensor(Q, R): Q R^T, Q = Ga * r, R = Gb.T *)
Definition fact_lazy_plan (Ga Gb : mat) : mat := fun i j => nsum r (fun k => nmul (nmul (Ga i k) (nofnat r)) (Gb k j)).
(** log["costa"], log["costb"] for the exact solver: lines 115-122 *)
Definition fact_costs (o : fact_out) : N * N := (inner na r (sqd d Xa (fo_old o)) (fo_Ga o), inner r nb (sqd d (fo_old o) Xb) (fo_Gb o)).
End Fact.
End Weak.
