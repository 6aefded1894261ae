(** Model of the (fused, semi-relaxed, partial) Gromov-Wasserstein solvers of /repo/ot/gromov:
    _utils.py, _gw.py, _semirelaxed.py, _partial.py.  C1 is n x n, C2 is m x m, plans are n x m.
    numpy dot products are written as sums; products with a vector of ones are dropped. *)
From Coq Require Import List Arith Bool.
From Verif Require Import Num Optim_model.
Import ListNotations.

Section Gw.
Context {N : NumOps}.
(** [lg] is the logarithm, [eps] the 1e-18 added inside it (_utils.py:130, 139) *)
Variables (n m : nat) (lg : N -> N) (eps : N).

Inductive gwl := SquareLoss | KlLoss.
Definition tr (A : gmat (N:=N)) : gmat (N:=N) := fun i j => A j i.

(** _transform_matrix, _utils.py:114-139 (an unknown loss_fun raises ValueError: not modelled) *)
Definition f1 (l : gwl) (a : N) : N := match l with SquareLoss => nmul a a | KlLoss => nsub (nmul a (lg (nadd a eps))) a end.
Definition f2 (l : gwl) (b : N) : N := match l with SquareLoss => nmul b b | KlLoss => b end.
Definition h1 (l : gwl) (a : N) : N := a.
Definition h2 (l : gwl) (b : N) : N := match l with SquareLoss => nmul two b | KlLoss => lg (nadd b eps) end.
Definition fC1 (l : gwl) (C : gmat) : gmat (N:=N) := fun i k => f1 l (C i k).
Definition fC2 (l : gwl) (C : gmat) : gmat (N:=N) := fun j k => f2 l (C j k).
Definition hC1 (l : gwl) (C : gmat) : gmat (N:=N) := fun i k => h1 l (C i k).
Definition hC2 (l : gwl) (C : gmat) : gmat (N:=N) := fun j k => h2 l (C j k).

(** init_matrix, _utils.py:232-239: constC1 = fC1 p 1^T, constC2 = 1 (q^T fC2^T) *)
Definition constC1 (l : gwl) (C1 : gmat) (p : nat -> N) : gmat (N:=N) := fun i _ => nsum n (fun k => nmul (f1 l (C1 i k)) (p k)).
Definition constC2 (l : gwl) (C2 : gmat) (q : nat -> N) : gmat (N:=N) := fun _ j => nsum m (fun k => nmul (q k) (f2 l (C2 j k))).
Definition constC (l : gwl) (C1 C2 : gmat) (p q : nat -> N) : gmat (N:=N) := fun i j => nadd (constC1 l C1 p i j) (constC2 l C2 q i j).
(** dot(dot(hC1, T), hC2.T) *)
Definition bil (A B T : gmat (N:=N)) : gmat (N:=N) := fun i j => nsum m (fun l => nmul (nsum n (fun k => nmul (A i k) (T k l))) (B j l)).
(** tensor_product, _utils.py:277-280; gwloss, 315-320; gwggrad, 354 *)
Definition tensor_product (cC A B T : gmat) : gmat (N:=N) := fun i j => nadd (cC i j) (nopp (bil A B T i j)).
Definition gwloss (cC A B T : gmat) : N := inner n m (tensor_product cC A B T) T.
Definition gwggrad (cC A B T : gmat) : gmat (N:=N) := fun i j => nmul two (tensor_product cC A B T i j).
Definition half_ : N := ndiv n1 two.

(** ** gromov_wasserstein / fused_gromov_wasserstein, _gw.py:170-205, 576-611 *)
Definition gw_f (l : gwl) (C1 C2 : gmat) (p q : nat -> N) (G : gmat) : N := gwloss (constC l C1 C2 p q) (hC1 l C1) (hC2 l C2) G.
Definition gw_df (l : gwl) (sym : bool) (C1 C2 : gmat) (p q : nat -> N) (G : gmat) : gmat (N:=N) :=
  let g := gwggrad (constC l C1 C2 p q) (hC1 l C1) (hC2 l C2) G in
  if sym then g
  else fun i j => nmul half_ (nadd (g i j) (gwggrad (constC l (tr C1) (tr C2) p q) (hC1 l (tr C1)) (hC2 l (tr C2)) G i j)).
(** solve_gromov_linesearch, _gw.py:930-937 (alpha_min = alpha_max = None; 939-946 is
    Optim_model.quad_line_search) *)
Definition gl_a (A B : gmat) (reg : N) (G D : gmat (N:=N)) : N := nopp (nmul reg (inner n m (bil A B D) D)).
Definition gl_b (sym : bool) (A B M : gmat) (reg : N) (G D : gmat (N:=N)) : N :=
  if sym then nsub (inner n m M D) (nmul (nmul two reg) (inner n m (bil A B D) G))
  else nsub (inner n m M D) (nmul reg (nadd (inner n m (bil A B D) G) (inner n m (bil A B G) D))).
(** armijo = False, G0 given or the product of p and q (160-161); [lp] is the emd call of cg.
    M = 0, reg = 1 for gromov_wasserstein, (1 - alpha) M and alpha for the fused one.  gw_dist and
    fgw_dist are the last recorded loss ([cg_val] of the result). *)
Definition fused_gw (fuel : nat) (l : gwl) (sym : bool) (M : gmat) (reg : N) (C1 C2 : gmat) (p q : nat -> N) (lp : gmat -> gmat)
    (G0 : option gmat) (max_iter : nat) (tol_rel tol_abs : N) : option cg_state :=
  generic_conditional_gradient fuel n m p q M reg (gw_f l C1 C2 p q) (gw_df l sym C1 C2 p q) lp
    (quad_line_search (gl_a (hC1 l C1) (hC2 l C2) reg) (gl_b sym (hC1 l C1) (hC2 l C2) M reg) (fun _ _ _ => None)) G0 max_iter tol_rel tol_abs.
Definition gromov_wasserstein (fuel : nat) (l : gwl) (sym : bool) (C1 C2 : gmat) (p q : nat -> N) (lp : gmat -> gmat)
    (G0 : option gmat) (max_iter : nat) (tol_rel tol_abs : N) : option cg_state :=
  fused_gw fuel l sym (fun _ _ => n0) n1 C1 C2 p q lp G0 max_iter tol_rel tol_abs.
Definition fused_gromov_wasserstein (fuel : nat) (l : gwl) (sym : bool) (alpha : N) (M C1 C2 : gmat) (p q : nat -> N) (lp : gmat -> gmat)
    (G0 : option gmat) (max_iter : nat) (tol_rel tol_abs : N) : option cg_state :=
  fused_gw fuel l sym (fun i j => nmul (nsub n1 alpha) (M i j)) alpha C1 C2 p q lp G0 max_iter tol_rel tol_abs.
(** gradients attached by gromov_wasserstein2, _gw.py:400-407 ([e] is 1e-15); also
    partial_gromov_wasserstein2, _partial.py:481-488, with the same p and q *)
Definition gw2_gC1 (l : gwl) (e : N) (C1 C2 : gmat) (p : nat -> N) (T : gmat) : gmat (N:=N) := fun i k =>
  match l with
  | SquareLoss => nsub (nmul (nmul two (C1 i k)) (nmul (p i) (p k)))
                       (nmul two (nsum m (fun j => nmul (T i j) (nsum m (fun c => nmul (C2 j c) (T k c))))))
  | KlLoss => nsub (nmul (lg (nadd (C1 i k) e)) (nmul (p i) (p k)))
                   (nsum m (fun j => nmul (T i j) (nsum m (fun c => nmul (lg (nadd (C2 j c) e)) (T k c)))))
  end.
Definition gw2_gC2 (l : gwl) (e : N) (C1 C2 : gmat) (q : nat -> N) (T : gmat) : gmat (N:=N) := fun j c =>
  let x := nsum n (fun i => nmul (T i j) (nsum n (fun k => nmul (C1 i k) (T k c)))) in
  match l with
  | SquareLoss => nsub (nmul (nmul two (C2 j c)) (nmul (q j) (q c))) (nmul two x)
  | KlLoss => nadd (ndiv (nopp x) (nadd (C2 j c) e)) (nmul (q j) (q c))
  end.

(** ** semirelaxed_(fused_)gromov_wasserstein, _semirelaxed.py:159-199, 512-552 *)
Definition csum (G : gmat (N:=N)) (j : nat) : N := nsum n (fun i => G i j).
Definition rowsum (G : gmat (N:=N)) (i : nat) : N := nsum m (fun j => G i j).
Definition sr_const (l : gwl) (C1 C2 : gmat) (p : nat -> N) (G : gmat) : gmat (N:=N) :=
  fun i j => nadd (constC1 l C1 p i j) (constC2 l C2 (csum G) i j).
Definition sr_f (l : gwl) (C1 C2 : gmat) (p : nat -> N) (G : gmat) : N := gwloss (sr_const l C1 C2 p G) (hC1 l C1) (hC2 l C2) G.
Definition sr_df (l : gwl) (sym : bool) (C1 C2 : gmat) (p : nat -> N) (G : gmat) : gmat (N:=N) :=
  let g := gwggrad (sr_const l C1 C2 p G) (hC1 l C1) (hC2 l C2) G in
  if sym then g
  else fun i j => nmul half_ (nadd (g i j) (gwggrad (sr_const l (tr C1) (tr C2) p G) (hC1 l (tr C1)) (hC2 l (tr C2)) G i j)).
(** solve_semirelaxed_gromov_linesearch, 829-840 *)
Definition sr_a (l : gwl) (C1 C2 : gmat) (reg : N) (G D : gmat (N:=N)) : N :=
  nmul reg (inner n m (fun i j => nsub (constC2 l C2 (csum D) i j) (bil (hC1 l C1) (hC2 l C2) D i j)) D).
Definition sr_b (l : gwl) (C1 C2 M : gmat) (reg : N) (G D : gmat (N:=N)) : N :=
  nadd (inner n m M D) (nmul reg (nadd
    (inner n m (fun i j => nsub (constC2 l C2 (csum D) i j) (bil (hC1 l C1) (hC2 l C2) D i j)) G)
    (inner n m (fun i j => nsub (constC2 l C2 (csum G) i j) (bil (hC1 l C1) (hC2 l C2) G i j)) D))).
(** G0 = None (147-148): p times the uniform weights [q] *)
Definition semirelaxed_gw (fuel : nat) (l : gwl) (sym : bool) (M : gmat) (reg : N) (C1 C2 : gmat) (p q : nat -> N) (margin : N)
    (G0 : option gmat) (max_iter : nat) (tol_rel tol_abs : N) : option cg_state :=
  generic_conditional_gradient fuel n m p q M reg (sr_f l C1 C2 p) (sr_df l sym C1 C2 p) (semirelaxed_lp m margin p)
    (quad_line_search (sr_a l C1 C2 reg) (sr_b l C1 C2 M reg) (fun _ _ _ => None)) G0 max_iter tol_rel tol_abs.

(** ** partial_gromov_wasserstein, _partial.py:212-254 (and the fused one, with M and reg) *)
Definition pt_const (l : gwl) (C1 C2 : gmat) (G : gmat) : gmat (N:=N) :=
  fun i j => nadd (constC1 l C1 (rowsum G) i j) (constC2 l C2 (csum G) i j).
Definition pt_f (l : gwl) (C1 C2 : gmat) (G : gmat) : N := gwloss (pt_const l C1 C2 G) (hC1 l C1) (hC2 l C2) G.
Definition pt_df (l : gwl) (sym : bool) (C1 C2 : gmat) (G : gmat) : gmat (N:=N) :=
  let g := gwggrad (pt_const l C1 C2 G) (hC1 l C1) (hC2 l C2) G in
  if sym then g
  else fun i j => nmul half_ (nadd (g i j)
    (gwggrad (fun i j => nadd (nsum n (fun k => nmul (f1 l (C1 k i)) (rowsum G k))) (nsum m (fun c => nmul (csum G c) (f2 l (C2 c j)))))
             (tr (hC1 l C1)) (tr (hC2 l C2)) G i j)).                                 (* 215, 242-247 *)
(** solve_partial_gromov_linesearch, _partial.py:1053-1068, called with df_Gc = df(deltaG + G), 250-254 *)
Definition pt_line_search (l : gwl) (sym : bool) (C1 C2 M : gmat) (reg : N) : line_search_t :=
  fun _ G D _ c dfG =>
    let dfGc := pt_df l sym C1 C2 (fun i j => nadd (D i j) (G i j)) in
    let dd := fun i j => nsub (dfGc i j) (dfG i j) in
    let a := nmul reg (nmul half_ (inner n m dd D)) in
    let b := nadd (inner n m M D) (nmul reg (inner n m dfG D)) in
    let al := solve_1d_linesearch_quad a b in
    (al, nadd (nadd c (nmul a (nmul al al))) (nmul b al), Some (fun i j => nadd (dfG i j) (nmul al (dd i j)))).
(** G0 = None (195-198): outer(p, q) m / (sum p sum q) *)
Definition partial_start (p q : nat -> N) (mass : N) : gmat (N:=N) :=
  fun i j => ndiv (nmul (nmul (p i) (q j)) mass) (nmul (nsum n p) (nsum m q)).
Definition partial_gw (fuel : nat) (l : gwl) (sym : bool) (M : gmat) (reg : N) (C1 C2 : gmat) (p q : nat -> N) (lp : gmat -> gmat)
    (mass : N) (G0 : option gmat) (max_iter : nat) (tol : N) : option cg_state :=
  let G0 := match G0 with Some G => G | None => partial_start p q mass end in
  generic_conditional_gradient fuel n m p q M reg (pt_f l C1 C2) (pt_df l sym C1 C2) lp
    (pt_line_search l sym C1 C2 M reg) (Some G0) max_iter tol n0.

End Gw.
