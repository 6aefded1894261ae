(** The linear program of the Wasserstein barycenter: model of /repo/ot/lp/_barycenter_solvers.py, barycenter 85-157.
    Sparse matrices are block matrices with their sizes; scipy.sparse eye, kron, hstack, vstack and block_diag are modelled
    entry by entry.  Parameter: the LP solver [solve], which gets (number of variables, c, A_eq, b_eq) and stands for both
    scipy.optimize.linprog (variables >= 0 by default, 132-136) and cvxopt.solvers.lp with G = -I, h = 0 (139-152); it
    returns None where linprog reports failure with sol.x = None.  Simplified: at least one distribution. *)
From Coq Require Import List Arith Bool.
From Verif Require Import Num Emd1d_model Sinkhorn_model.
Import ListNotations.

Section Lpbar.
Context {N : NumOps}.
Notation vec := (nat -> N).
Notation mat := (nat -> nat -> N).

Record bmat := mkB { b_rows : nat; b_cols : nat; b_ent : mat }.
(** sps.eye(p, q) *)
Definition b_eye (p q : nat) : bmat := mkB p q (fun i j => if Nat.eqb i j then n1 else n0).
Definition b_ones (p q : nat) : bmat := mkB p q (fun _ _ => n1).
Definition b_zero (p q : nat) : bmat := mkB p q (fun _ _ => n0).
Definition b_neg (A : bmat) : bmat := mkB (b_rows A) (b_cols A) (fun i j => nsub n0 (b_ent A i j)).
(** sps.kron *)
Definition b_kron (A B : bmat) : bmat :=
  mkB (b_rows A * b_rows B) (b_cols A * b_cols B) (fun i j => nmul (b_ent A (i / b_rows B) (j / b_cols B)) (b_ent B (i mod b_rows B) (j mod b_cols B))).
(** sps.hstack and sps.vstack of two matrices *)
Definition b_hstack (A B : bmat) : bmat :=
  mkB (b_rows A) (b_cols A + b_cols B) (fun i j => if Nat.ltb j (b_cols A) then b_ent A i j else b_ent B i (j - b_cols A)).
Definition b_vstack (A B : bmat) : bmat :=
  mkB (b_rows A + b_rows B) (b_cols A) (fun i j => if Nat.ltb i (b_rows A) then b_ent A i j else b_ent B (i - b_rows A) j).
Definition b_diag2 (A B : bmat) : bmat :=
  mkB (b_rows A + b_rows B) (b_cols A + b_cols B) (fun i j =>
    if Nat.ltb i (b_rows A) then (if Nat.ltb j (b_cols A) then b_ent A i j else n0)
    else (if Nat.ltb j (b_cols A) then n0 else b_ent B (i - b_rows A) (j - b_cols A))).
(** sps.vstack and sps.block_diag of a non-empty list *)
Fixpoint b_vstackl (A : bmat) (l : list bmat) : bmat := match l with [] => A | B :: l => b_vstack A (b_vstackl B l) end.
Fixpoint b_diagl (A : bmat) (l : list bmat) : bmat := match l with [] => A | B :: l => b_diag2 A (b_diagl B l) end.
Definition at0 (f : nat -> bmat) (D : nat) : bmat * list bmat := (f 0, map f (seq 1 (D - 1))).
Definition dgl (p : bmat * list bmat) := b_diagl (fst p) (snd p).
Definition vsl (p : bmat * list bmat) := b_vstackl (fst p) (snd p).

Section Program.
Variables (n D : nat) (A M : mat) (w : vec).
(** 94-99: D blocks M.ravel() * weights[i] of length n * n, then n zeros *)
Definition lb_c : vec := fun q => if Nat.ltb q (D * (n * n)) then nmul (M ((q mod (n * n)) / n) ((q mod (n * n)) mod n)) (w (q / (n * n))) else n0.
(** 101-105 *)
Definition lb_A1 : bmat := b_hstack (dgl (at0 (fun _ => b_kron (b_eye n n) (b_ones 1 n)) D)) (b_zero (D * n) n).
(** 108-116 *)
Definition lb_idiag2 (i : nat) : bmat := if Nat.eqb i 0 then b_kron (b_ones 1 n) (b_eye n n) else b_kron (b_ones 1 n) (b_eye (n - 1) n).
Definition lb_eyes (i : nat) : bmat := if Nat.eqb i 0 then b_neg (b_eye n n) else b_neg (b_eye (n - 1) n).
(** 118 *)
Definition lb_A2 : bmat := b_hstack (dgl (at0 lb_idiag2 D)) (vsl (at0 lb_eyes D)).
(** 119-123; b_eq1 (98) is the concatenation of the columns of A *)
Definition lb_Aeq : bmat := b_vstack lb_A1 lb_A2.
Definition lb_beq : vec := fun p => if Nat.ltb p (D * n) then A (p mod n) (p / n) else n0.
End Program.

Inductive lb_res := LbAssert | LbTypeError | LbOk (b : vec).
(** 85-157; [weights] comes with its length; x[-n:] are the last n of the D n^2 + n variables *)
Definition barycenter_lp (solve : nat -> vec -> bmat -> vec -> option vec) (n D : nat) (A M : mat) (weights : option (nat * vec)) : lb_res :=
  let run := fun w => match solve (D * (n * n) + n) (lb_c n D M w) (lb_Aeq n D) (lb_beq n D A) with
                      | Some x => LbOk (fun j => x (D * (n * n) + j))
                      | None => LbTypeError
                      end in
  match weights with
  | None => run (fun _ => ndiv n1 (nofnat D))
  | Some (l, w) => if Nat.eqb l D then run w else LbAssert
  end.
End Lpbar.
