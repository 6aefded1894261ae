(** Model of ot/regpath.py: Schur complement updates, the homotopy of the fully relaxed (l2-penalized
    unbalanced) problem, and the interpolation of the path.  Plans are flattened row-major, cell i*m+j.
    scipy sparse matrices are functions; H_inv is a function with dimension the length of the active list.
    [tiny], [tol_add], [tol_rem] are the constants 1e-16, 1e-10 and 1e-8 of the code. *)
From Coq Require Import List Arith Bool.
From Verif Require Import Num Emd1d_model Sinkhorn_model.
Import ListNotations.

Section Reg.
Context {N : NumOps}.
Notation vec := (nat -> N).
Notation mat := (nat -> nat -> N).

(** complement_schur, lines 475-498; [k] is the size of M_current, [b = None] removes row and column [pop] *)
Definition skip (p i : nat) : nat := if Nat.ltb i p then i else S i.
Definition half_const : N := ndiv n1 (nadd n1 n1).                                                       (* 0.5 *)
Definition schur_remove (Mc : mat) (pop : nat) : mat :=                                                  (* 476-481 *)
  fun i j => nsub (Mc (skip pop i) (skip pop j)) (ndiv (nmul (Mc (skip pop i) pop) (Mc pop (skip pop j))) (Mc pop pop)).
Definition schur_add (k : nat) (Mc : mat) (b : vec) (d : N) : mat :=                                     (* 483-497 *)
  match k with
  | O => fun _ _ => half_const                                                                           (* 485 *)
  | _ =>
    let X := fun i => nsum k (fun j => nmul (Mc i j) (b j)) in
    let s := nsub d (nsum k (fun j => nmul (b j) (X j))) in
    fun i j =>
      if Nat.ltb i k then
        if Nat.ltb j k then nadd (Mc i j) (ndiv (nmul (X i) (X j)) s) else ndiv (nsub n0 (X i)) s
      else if Nat.ltb j k then ndiv (nsub n0 (X j)) s else ndiv n1 s
  end.
Definition complement_schur (k : nat) (Mc : mat) (b : option vec) (d : N) (pop : nat) : mat :=
  match b with None => schur_remove Mc pop | Some b => schur_add k Mc b d end.

(** recast_ot_as_lasso, lines 100-113 *)
Section Lasso.
Variables (n m : nat) (a b : vec) (C : mat).
Definition Hmat (r k : nat) : N := if Nat.ltb r n then (if Nat.eqb (k / m) r then n1 else n0) else (if Nat.eqb (k mod m + n) r then n1 else n0).
Definition yvec (r : nat) : N := if Nat.ltb r n then a r else b (r - n).
Definition cvec (k : nat) : N := C (k / m) (k mod m).
End Lasso.

(** fully_relaxed_path, on a design matrix with R rows and NM columns (lines 618-681) *)
Section Path.
Variables (R NM : nat) (H : mat) (y c : vec) (tiny tol_add tol_rem : N).
Definition HtH (i l : nat) : N := nsum R (fun r => nmul (H r i) (H r l)).
Definition Hty (i : nat) : N := nsum R (fun r => nmul (H r i) (y r)).

(** x[A] = tA for an array of zeros, lines 653-654; A without duplicates *)
Fixpoint scatter (A : list nat) (x : vec) (i : nat) : N :=
  match A with [] => n0 | a :: A' => if Nat.eqb i a then x 0 else scatter A' (fun l => x (S l)) i end.
Definition inl (A : list nat) (i : nat) : bool := existsb (Nat.eqb i) A.
Definition at_ (A : list nat) (l : nat) : nat := nth l A 0.

(** ot_next_gamma, lines 272-277 *)
Definition cand_add (phi delta : vec) (A : list nat) (gamma : N) (i : nat) : N :=
  let dotA := fun x => nsum (length A) (fun l => nmul (HtH i (at_ A l)) (x l)) in
  let v := ndiv (nsub (dotA phi) (Hty i)) (nadd (nsub (dotA delta) (c i)) tiny) in
  let v := if inl A i then n0 else v in
  if nltb (nsub gamma (nmul tol_add gamma)) v then n0 else v.
(** compute_next_removal, lines 401-403 *)
Definition cand_rem (phi delta : vec) (gamma : N) (l : nat) : N :=
  let v := ndiv (phi l) (nsub (delta l) tiny) in
  if nleb (nmul (nsub n1 tol_rem) gamma) v then n0 else v.

Definition remove_at (p : nat) (A : list nat) : list nat := firstn p A ++ skipn (S p) A.

(** one iteration of the while loop, lines 632-665: the new active list, what to do with H_inv next
    (Some b: add with column b; None: remove [pop]), the new gamma and the solution *)
Definition phi_of (A : list nat) (Hi : mat) (l : nat) : N := nsum (length A) (fun q => nmul (Hi l q) (Hty (at_ A q))).
Definition delta_of (A : list nat) (Hi : mat) (l : nat) : N := nsum (length A) (fun q => nmul (Hi l q) (c (at_ A q))).
Definition path_step (A : list nat) (Hi : mat) (gamma_cur : N) : N * vec * list nat * option vec * nat :=
  let k := length A in
  let phi := phi_of A Hi in
  let delta := delta_of A Hi in
  let ik := argmaxk (NM - 1) (cand_add phi delta A gamma_cur) in
  let gamma := cand_add phi delta A gamma_cur ik in
  let pop := argmaxk (k - 1) (cand_rem phi delta gamma_cur) in
  let alt := cand_rem phi delta gamma_cur pop in
  let rem := nltb gamma alt in
  let gamma := if rem then alt else gamma in
  let sol := scatter A (fun l => nsub (phi l) (nmul gamma (delta l))) in
  if rem then (gamma, sol, remove_at pop A, None, pop)
  else (gamma, sol, A ++ [ik], Some (fun l => HtH (at_ A l) ik), pop).
Fixpoint path_loop (left : nat) (reg : N) (A : list nat) (k : nat) (Hi : mat) (add : option vec) (pop : nat) (gamma_cur : N) : list (N * vec) :=
  match left with
  | O => []
  | S left' =>
      if nltb reg gamma_cur then
        let Hi' := complement_schur k Hi add (nadd n1 n1) pop in                                         (* 632 *)
        let '(g, sol, A', add', pop') := path_step A Hi' gamma_cur in
        (g, sol) :: path_loop left' reg A' (length A) Hi' add' pop' g
      else []
  end.
(** lines 623-665: the breakpoints (gamma, t) before the final correction *)
Definition raw_path (reg : N) (itmax : nat) : list (N * vec) :=
  let M0 := fun i => ndiv (Hty i) (c i) in
  let i0 := argmaxk (NM - 1) M0 in
  (M0 i0, fun _ => n0) :: path_loop (itmax - 1) reg [i0] 0 (fun _ _ => n0) (Some (fun _ => n0)) 0 (M0 i0).
(** lines 671-679: the last breakpoint is replaced by reg *)
Definition lerp (g0 : N) (t0 : vec) (g1 : N) (t1 : vec) (g : N) : vec :=
  fun i => nadd (t0 i) (ndiv (nmul (nsub (t1 i) (t0 i)) (nsub g g0)) (nsub g1 g0)).
Fixpoint correct_last (reg : N) (p : list (N * vec)) : list (N * vec) :=
  match p with
  | (g0, t0) :: [(g1, t1)] => (g0, t0) :: [(reg, lerp g0 t0 g1 t1 reg)]
  | x :: ((_ :: _) as q) => x :: correct_last reg q
  | [(g0, t0)] => [(reg, t0)]
  | [] => []
  end.
Definition relaxed_path (reg : N) (itmax : nat) : list (N * vec) := correct_last reg (raw_path reg itmax).
End Path.

Definition fully_relaxed_path (n m : nat) (a b : vec) (C : mat) (tiny tol_add tol_rem reg : N) (itmax : nat) : list (N * vec) :=
  relaxed_path (n + m) (n * m) (Hmat n m) (yvec n a b) (cvec m C) tiny tol_add tol_rem reg itmax.

(** compute_transport_plan, lines 974-985, on the list of (gamma, plan); None: empty list (IndexError) *)
Fixpoint last_le (gamma : N) (gs : list N) (i : nat) (best : option nat) : option nat :=               (* 979: np.where(...)[0][-1] *)
  match gs with [] => best | g :: gs' => last_le gamma gs' (S i) (if nleb gamma g then Some i else best) end.
Definition compute_transport_plan (gamma : N) (p : list (N * vec)) : option vec :=
  match p with
  | [] => None
  | (g0, t0) :: _ =>
      if nleb g0 gamma then Some t0                                                                     (* 974 *)
      else let '(gl, tl) := last p (g0, t0) in
      if nleb gamma gl then Some tl                                                                     (* 976 *)
      else match last_le gamma (map fst p) 0 None with
           | None => None
           | Some i => match nth_error p i, nth_error p (S i) with
                       | Some (ga, ta), Some (gb, tb) => Some (lerp ga ta gb tb gamma)                  (* 980-984 *)
                       | _, _ => None
                       end
           end
  end.
End Reg.
