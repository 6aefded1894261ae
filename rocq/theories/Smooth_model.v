(** Model of ot/smooth.py: the three regularizations, the smoothed dual and semi-dual objectives
    with their gradients, and the plans built from the dual variables; and of the value reported
    by ot.solve (solvers.py) for reg_type 'L2' and 'entropy'.
    The L-BFGS iterations of scipy are not modelled: the theorems hold at every dual point.
    [ex], [lg] are numpy's exp and log. *)
From Coq Require Import List Arith Bool.
From Verif Require Import Num Emd1d_model Utils_model.
Import ListNotations.

(** smooth.py:188-257; reg_type dispatch of smooth_ot_dual, lines 598-607 *)
Inductive regul := NegEntropy | SquaredL2 | Sparse (max_nz : nat).

Section Smooth.
Context {N : NumOps}.
Variables ex lg : N -> N.
Notation vec := (nat -> N).
Notation mat := (nat -> nat -> N).
Definition two : N := nadd n1 n1.
Definition half : N := ndiv n1 two.

(** membership in the max_nz largest entries of the column (np.argpartition(-X, max_nz)[:max_nz]);
    ties are resolved by the stable order of Emd1d_model *)
Definition top (n : nat) (x : vec) (k : nat) (i : nat) : bool := existsb (fun r => Nat.eqb (desc n x r) i) (seq 0 k).

(** delta_Omega on one column of n entries: lines 191-194, 211-215, 234-245 *)
Definition l2_delta (n : nat) (gamma : N) (x : vec) : N * vec :=
  let mx := fun i => nmax (x i) n0 in
  (ndiv (nsum n (fun i => nmul (mx i) (mx i))) (nmul two gamma), fun i => ndiv (mx i) gamma).
Definition delta_Omega (r : regul) (n : nat) (gamma : N) (x : vec) : N * vec :=
  match r with
  | NegEntropy => let G := fun i => ex (nsub (ndiv (x i) gamma) n1) in (nmul gamma (nsum n G), G)
  | SquaredL2 => l2_delta n gamma x
  | Sparse k => l2_delta n gamma (fun i => if top n x k i then x i else n0)
  end.
(** np.argpartition raises ValueError unless max_nz < n *)
Definition delta_ok (r : regul) (n : nat) : bool := match r with Sparse k => Nat.ltb k n | _ => true end.

(** max_Omega on one column with target mass bj: lines 196-202, 217-221, 247-254 *)
Definition l2_max (n : nat) (gamma : N) (x : vec) (bj : N) (G : vec) : N * vec :=
  (nsub (nsum n (fun i => nmul (x i) (G i))) (nmul (nmul (nmul half gamma) bj) (nsum n (fun i => nmul (G i) (G i)))), G).
Definition max_Omega (r : regul) (n : nat) (gamma : N) (x : vec) (bj : N) : N * vec :=
  let scaled := fun i => ndiv (x i) (nmul bj gamma) in
  match r with
  | NegEntropy =>
      let mx := ndiv (nmaxk (n - 1) x) gamma in
      let e := fun i => ex (nsub (ndiv (x i) gamma) mx) in
      let s := nsum n e in
      (nsub (nmul gamma (nadd (lg s) mx)) (nmul gamma (lg bj)), fun i => ndiv (e i) s)
  | SquaredL2 => l2_max n gamma x bj (proj_simplex n scaled n1)
  | Sparse k => l2_max n gamma x bj (match projection_sparse_simplex n scaled k n1 with Some w => w | None => fun _ => n0 end)
  end.
Definition max_ok (r : regul) (n : nat) : bool := match r with Sparse k => (Nat.leb 1 k && Nat.leb k n)%bool | _ => true end.

(** dual_obj_grad, lines 260-301; None: ValueError *)
Definition Xdual (alpha beta : vec) (C : mat) (j : nat) : vec := fun i => nsub (nadd (alpha i) (beta j)) (C i j).
Definition dual_obj_grad (r : regul) (n m : nat) (gamma : N) (alpha beta a b : vec) (C : mat) : option (N * vec * vec) :=
  if delta_ok r n then
    let col := fun j => delta_Omega r n gamma (Xdual alpha beta C j) in
    let obj := nadd (nsum n (fun i => nmul (alpha i) (a i))) (nsum m (fun j => nmul (beta j) (b j))) in
    Some (nsub obj (nsum m (fun j => fst (col j))),
          (fun i => nsub (a i) (nsum m (fun j => snd (col j) i))),
          (fun j => nsub (b j) (nsum n (fun i => snd (col j) i))))
  else None.
(** get_plan_from_dual, lines 453-473 *)
Definition get_plan_from_dual (r : regul) (n : nat) (gamma : N) (alpha beta : vec) (C : mat) : option mat :=
  if delta_ok r n then Some (fun i j => snd (delta_Omega r n gamma (Xdual alpha beta C j)) i) else None.

(** semi_dual_obj_grad, lines 367-403 *)
Definition Xsemi (alpha : vec) (C : mat) (j : nat) : vec := fun i => nsub (alpha i) (C i j).
Definition semi_dual_obj_grad (r : regul) (n m : nat) (gamma : N) (alpha a b : vec) (C : mat) : option (N * vec) :=
  if max_ok r n then
    let col := fun j => max_Omega r n gamma (Xsemi alpha C j) (b j) in
    Some (nsub (nsum n (fun i => nmul (alpha i) (a i))) (nsum m (fun j => nmul (b j) (fst (col j)))),
          fun i => nsub (a i) (nsum m (fun j => nmul (snd (col j) i) (b j))))
  else None.
(** get_plan_from_semi_dual, lines 476-497 *)
Definition get_plan_from_semi_dual (r : regul) (n : nat) (gamma : N) (alpha b : vec) (C : mat) : option mat :=
  if max_ok r n then Some (fun i j => nmul (snd (max_Omega r n gamma (Xsemi alpha C j) (b j)) i) (b j)) else None.

(** solvers.py:513-514 (reg_type 'L2'): the value reported for a plan *)
Definition solve_l2_value (n m : nat) (reg : N) (M P : mat) : N :=
  nadd (nsum n (fun i => nsum m (fun j => nmul (M i j) (P i j)))) (nmul reg (nsum n (fun i => nsum m (fun j => nmul (P i j) (P i j))))).
End Smooth.
