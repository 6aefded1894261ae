(** Model of /repo/ot/mapping.py (joint_OT_mapping_linear, joint_OT_mapping_kernel, the nearest Brenier
    potential functions), of MappingTransport (/repo/ot/da.py:1970-2173) and of utils.kernel (utils.py:42-49).
    Samples are n x d matrices.  np.linalg.solve is the parameter [solve k d A B] (None: LinAlgError), the
    linear oracle of emd(a, b, .) is [lp], scipy's Armijo search is [search] (see Optim_model), and the convex
    solver cvxpy of the Brenier functions is an oracle. *)
From Coq Require Import List Arith Bool String.
From Verif Require Import Num Emd1d_model Optim_model Weak_model.
Import ListNotations.

Section Mapping.
Context {N : NumOps}.
Notation vec := (nat -> N).
Notation mat := (nat -> nat -> N).

(** nx.dot of an (. x k) and a (k x .) matrix *)
Definition mmul (k : nat) (A B : mat) : mat := fun i t => nsum k (fun s => nmul (A i s) (B s t)).
(** concatenate((X, ones), axis=1) for an (. x d) matrix *)
Definition with_ones (d : nat) (X : mat) : mat := fun i s => if Nat.ltb s d then X i s else n1.
Definition eye : mat := fun i j => if Nat.eqb i j then n1 else n0.
(** Id[-1] = 0 for a (d+1) x (d+1) identity *)
Definition eye0 (d : nat) : mat := fun i j => if Nat.eqb i d then n0 else eye i j.
Definition unif (n : nat) : vec := fun _ => ndiv n1 (nofnat n).
(** kernel, utils.py:42-49, for the Gaussian names *)
Definition gauss_kernel (ex : N -> N) (d : nat) (sigma : N) (X Y : mat) : mat :=
  fun i j => ex (ndiv (nopp (sqd d X Y i j)) (nmul two (nmul sigma sigma))).

Section Joint.
Variables (ns nt d : nat) (xs xt : mat) (mu eta : N).
Variables (lp : mat -> mat) (search : (N -> N) -> N -> N -> N -> option N * N).
Variables (solve : nat -> nat -> mat -> mat -> option mat).
Variables (numItermax numInner : nat) (stopThr stopInner stopThr2 : N).
Definition jM : mat := fun i j => nmul (sqd d xs xt i j) (nofnat ns).                  (* 556, 797 *)
Definition jY (G : mat) : mat := fun i t => nmul (nofnat ns) (mmul nt G xt i t).        (* ns * nx.dot(G, xt) *)
Definition sqsum (n m : nat) (A : mat) : N := nsum n (fun i => nsum m (fun t => nmul (A i t) (A i t))).

(** solve_G, 574-595 and 820-841; [xsi] is xs1.L or K1.L; stopThr2 keeps cg's default 1e-9 *)
Definition j_f (xsi G : mat) : N := sqsum ns d (fun i t => nsub (xsi i t) (jY G i t)).
Definition j_df (xsi G : mat) : mat := fun i j =>
  nmul (nmul (nopp two) (nofnat ns)) (nsum d (fun t => nmul (nsub (xsi i t) (jY G i t)) (xt j t))).
Definition solve_G (xsi G0 : mat) : option mat :=
  match generic_conditional_gradient (Nat.max 1 numInner) ns nt (unif ns) (unif nt) jM (ndiv n1 mu) (j_f xsi) (j_df xsi) lp
          (armijo_ls search ns nt) (Some G0) numInner stopInner stopThr2 with
  | Some r => Some (cg_G r) | None => None end.

(** the alternation of 597-647 and 848-898: [P] is xs1 (resp. K1) with k columns, [solve_L] the update of the
    mapping, [loss] the full loss.  Python's abs(0)/abs(0) and x/0 are nan and inf: not below stopThr. *)
Record jres := mk_jres { j_G : mat; j_L : mat; j_loss : list N }.
Section Alt.
Variables (k : nat) (P : mat) (solve_L : mat -> option mat) (loss : mat -> mat -> N).
Definition j_stop (new old : N) : bool := if neqb old n0 then false else nltb (ndiv (nabs (nsub new old)) (nabs old)) stopThr.
Fixpoint j_loop (left : nat) (G L : mat) (old : N) (log : list N) : option jres :=
  match left with
  | O => Some (mk_jres G L log)
  | S left' =>
      match solve_G (mmul k P L) G with
      | None => None
      | Some G' => match solve_L G' with
          | None => None
          | Some L' => let v := loss L' G' in
              if j_stop v old then Some (mk_jres G' L' (log ++ [v])) else j_loop left' G' L' v (log ++ [v])
          end
      end
  end.
Definition j_run : option jres :=
  let G := lp jM in
  match solve_L G with
  | None => None
  | Some L => j_loop numItermax G L (loss L G) [loss L G]
  end.
End Alt.

(** joint_OT_mapping_linear, 528-647 *)
Section Linear.
Variable bias : bool.
Definition l_k : nat := if bias then S d else d.
Definition l_xs1 : mat := if bias then with_ones d xs else xs.
Definition l_Id : mat := if bias then eye0 d else eye.
Definition l_I0 : mat := l_Id.                       (* Id[:, :-1]: the first d columns *)
(** sel drops the last row when there is a bias: the first d rows in both cases *)
Definition l_loss (L G : mat) : N :=
  nadd (nadd (sqsum ns d (fun i t => nsub (mmul l_k l_xs1 L i t) (jY G i t))) (nmul mu (inner ns nt G jM)))
       (nmul eta (sqsum d d (fun s t => nsub (L s t) (l_I0 s t)))).
Definition l_solve_L (G : mat) : option mat :=
  solve l_k d (fun s r => nadd (nsum ns (fun i => nmul (l_xs1 i s) (l_xs1 i r))) (nmul eta (l_Id s r)))
              (fun s t => nadd (nsum ns (fun i => nmul (l_xs1 i s) (jY G i t))) (nmul eta (l_I0 s t))).
Definition joint_OT_mapping_linear : option jres := j_run l_k l_xs1 l_solve_L l_loss.
End Linear.

(** joint_OT_mapping_kernel, 759-898; [K] is kernel(xs, xs) *)
Section Kernel.
Variables (bias : bool) (K : mat).
Definition k_k : nat := if bias then S ns else ns.
Definition k_K1 : mat := if bias then with_ones ns K else K.
(** Kp = eye(ns+1); Kp[:ns, :ns] = K *)
Definition k_Kreg : mat := if bias then fun i j => if (Nat.ltb i ns && Nat.ltb j ns)%bool then K i j else eye i j else K.
Definition k_K0 : mat := fun i j =>
  if bias then nadd (nsum ns (fun l => nmul (k_K1 l i) (k_K1 l j))) (nmul eta (k_Kreg i j))
  else nadd (K i j) (nmul eta (eye i j)).
Definition k_loss (L G : mat) : N :=
  nadd (nadd (sqsum ns d (fun i t => nsub (mmul k_k k_K1 L i t) (jY G i t))) (nmul mu (inner ns nt G jM)))
       (nmul eta (nsum d (fun t => nsum k_k (fun i => nmul (nsum k_k (fun s => nmul (L s t) (k_Kreg s i))) (L i t))))).
Definition k_solve_L (G : mat) : option mat :=
  solve k_k d k_K0 (if bias then fun s t => nsum ns (fun i => nmul (k_K1 i s) (jY G i t)) else jY G).
Definition joint_OT_mapping_kernel : option jres := j_run k_k k_K1 k_solve_L k_loss.
End Kernel.

(** MappingTransport.transform, da.py:2149-2173: [same] is array_equal(xs_, Xs); [kern] the kernel name;
    rows of the coupling of sum zero give nan or inf entries, replaced by 0 *)
Definition map_transform (kern : string) (ex : N -> N) (sigma : N) (bias : bool) (r : jres) (same : bool) (X : mat) : option mat :=
  if same then
    let w := fun i => nsum nt (fun j => j_G r i j) in
    Some (mmul nt (fun i j => if neqb (w i) n0 then n0 else ndiv (j_G r i j) (w i)) xt)
  else if String.eqb kern "gaussian" then
    let K := gauss_kernel ex d sigma X xs in
    Some (mmul (if bias then S ns else ns) (if bias then with_ones ns K else K) (j_L r))
  else if String.eqb kern "linear" then
    Some (mmul (if bias then S d else d) (if bias then with_ones d X else X) (j_L r))
  else None.
End Joint.

(** ** nearest Brenier potentials *)
Section Ssnb.
Variable d : nat.
Definition ip (x y : vec) : N := nsum d (fun t => nmul (x t) (y t)).
Definition vsub (x y : vec) : vec := fun t => nsub (x t) (y t).
(** _ssnb_qcqp_constants, 202-225; None: AssertionError *)
Definition ssnb_constants (l L : N) : option (N * N * N) :=
  if (nltb n0 l && nltb l L)%bool then
    let c := ndiv n1 (nmul two (nsub n1 (ndiv l L))) in
    Some (ndiv c L, nmul l c, ndiv (nmul (nmul two l) c) L)
  else None.
(** the right-hand side of the constraint "value at x >= ..." from the data (pj, gj, xj), the gradient at x
    being gx: 171-178, 369-376 and (roles exchanged) 398-405 *)
Definition ssnb_rhs (c1 c2 c3 : N) (gx x : vec) (pj : N) (gj xj : vec) : N :=
  nsub (nadd (nadd (nadd pj (ip gj (vsub x xj))) (nmul c1 (ip (vsub gx gj) (vsub gx gj))))
             (nmul c2 (ip (vsub x xj) (vsub x xj))))
       (nmul c3 (ip (vsub gj gx) (vsub xj x))).
(** the constraints of the fit, lines 168-178: pairs in the same class *)
Definition fit_ok (n : nat) (cls : nat -> nat) (c : N * N * N) (X : mat) (phi : vec) (G : mat) : bool :=
  let '(c1, c2, c3) := c in
  forallb (fun i => forallb (fun j => if Nat.eqb (cls i) (cls j) then nleb (ssnb_rhs c1 c2 c3 (G i) (X i) (phi j) (G j) (X j)) (phi i) else true) (seq 0 n)) (seq 0 n).
(** objective of the fit, 159-163 *)
Definition fit_cost (n : nat) (V plan G : mat) : N :=
  nsum n (fun i => nsum n (fun j => nmul (ip (vsub (G i) (V j)) (vsub (G i) (V j))) (plan i j))).
(** nearest_brenier_potential_fit, 143-199: [lp] is emd(a, b, .), [qcqp] the convex program for a plan.
    Initial G: V or the barycentric projection of the plan between X and V.  Returns the last solution and
    the list of problem values; with its = 0 the NumPy backend returns (None, initial G) and the constants are
    never checked.  None: the AssertionError of the constants. *)
Section Fit.
Variables (n : nat) (a : vec) (X V : mat) (lp : mat -> mat) (qcqp : mat -> vec * mat).
Definition fit_init (target : bool) : mat := if target then V else fun i t => ndiv (mmul n (lp (sqd d X V)) V i t) (a i).
Fixpoint fit_loop (its : nat) (phi : option vec) (G : mat) (log : list N) : option vec * mat * list N :=
  match its with
  | O => (phi, G, log)
  | S k => let plan := lp (sqd d G V) in
           let s := qcqp plan in fit_loop k (Some (fst s)) (snd s) (log ++ [fit_cost n V plan (snd s)])
  end.
Definition nearest_brenier_potential_fit (target : bool) (l L : N) (its : nat) : option (option vec * mat * list N) :=
  match its, ssnb_constants l L with
  | S _, None => None
  | _, _ => Some (fit_loop its None (fit_init target) [])
  end.
End Fit.
(** the programs of nearest_brenier_potential_predict_bounds, 360-411: feasibility of (phi_y, g_y) for the
    lower and for the upper bound at y of class k *)
Definition lower_ok (n : nat) (cls : nat -> nat) (k : nat) (c : N * N * N) (X : mat) (phi : vec) (G : mat) (y : vec) (p : N) (g : vec) : bool :=
  let '(c1, c2, c3) := c in forallb (fun j => if Nat.eqb (cls j) k then nleb (ssnb_rhs c1 c2 c3 g y (phi j) (G j) (X j)) p else true) (seq 0 n).
Definition upper_ok (n : nat) (cls : nat -> nat) (k : nat) (c : N * N * N) (X : mat) (phi : vec) (G : mat) (y : vec) (p : N) (g : vec) : bool :=
  let '(c1, c2, c3) := c in forallb (fun i => if Nat.eqb (cls i) k then nleb (ssnb_rhs c1 c2 c3 (G i) (X i) p g y) (phi i) else true) (seq 0 n).
End Ssnb.
End Mapping.
