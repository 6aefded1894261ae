(** Model of ot/regpath.py: semi_relaxed_path (684-836) with recast_semi_relaxed_as_lasso (116-213),
    semi_relaxed_next_gamma (280-354), compute_next_removal (357-403) and construct_augmented_H (501-541);
    complement_schur, the correction of the last solution and compute_transport_plan are those of Regpath_model.
    Simplified: exact arithmetic; gamma = None stands for np.inf; np.linalg.inv is the parameter [inv]; 1e-16, 1e-10, 1e-8 are the
    parameters [tiny], [tol_add], [tol_rem]; the printed messages are left out; the lists gamma_list, t_list are one list of pairs. *)
From Coq Require Import List Arith Bool.
From Verif Require Import Num Emd1d_model Sinkhorn_model Regpath_model.
Import ListNotations.

Section Semi.
Context {N : NumOps}.
Notation vec := (nat -> N).
Notation mat := (nat -> nat -> N).
Variables (n m : nat) (a b : vec) (C : mat) (tiny tol_add tol_rem : N) (inv : nat -> mat -> mat).

(** recast_semi_relaxed_as_lasso, 196-213: row r of Hr, row r of Hc, the flattened cost; Hr.T.dot(Hr), Hr.T.dot(a) (759-761) *)
Definition Hr (r k : nat) : N := if Nat.eqb (k / m) r then n1 else n0.
Definition Hc (r k : nat) : N := if Nat.eqb (k mod m) r then n1 else n0.
Definition HrHr (i l : nat) : N := HtH n Hr i l.
Definition Hra (i : nat) : N := Hty n Hr a i.
Definition sc : vec := cvec m C.
(** construct_augmented_H, 501-541 *)
Definition aug (A : list nat) (p q : nat) : N :=
  if Nat.ltb p m then (if Nat.ltb q m then n0 else Hc p (at_ A (q - m)))
  else (if Nat.ltb q m then Hc q (at_ A (p - m)) else HrHr (at_ A (p - m)) (at_ A (q - m))).
(** 767-769: the cheapest cell of every column, np.argmin takes the first *)
Definition active0 : list nat := map (fun j => argmaxk (n - 1) (fun i => nopp (C i j)) * m + j) (seq 0 m).
(** 783-788: augmented_phi and augmented_delta; their first m entries are phi_u, delta_u *)
Definition rhs (A : list nat) (q : nat) : N := if Nat.ltb q m then b q else Hra (at_ A (q - m)).
Definition sphi (A : list nat) (Hi : mat) (l : nat) : N := nsum (m + length A) (fun q => nmul (Hi l q) (rhs A q)).
Definition sdelta (A : list nat) (Hi : mat) (l : nat) : N := nsum (length A) (fun q => nmul (Hi l (m + q)) (sc (at_ A q))).
(** semi_relaxed_next_gamma, 349-354; with gamma = inf the threshold inf - inf is nan and nothing is excluded *)
Definition scand_add (phi delta : vec) (A : list nat) (gamma : option N) (i : nat) : N :=
  let dotA := fun x : vec => nsum (length A) (fun l => nmul (HrHr i (at_ A l)) (x (m + l))) in
  let hcT := fun x : vec => nsum m (fun j => nmul (Hc j i) (x j)) in
  let v := ndiv (nadd (nsub (dotA phi) (Hra i)) (hcT phi)) (nadd (nadd (nsub (dotA delta) (sc i)) (hcT delta)) tiny) in
  let v := if inl A i then n0 else v in
  match gamma with None => v | Some g => if nltb (nsub g (nmul tol_add g)) v then n0 else v end.
(** compute_next_removal, 401-403 *)
Definition scand_rem (phi delta : vec) (gamma : option N) (l : nat) : N :=
  let v := ndiv (phi (m + l)) (nsub (delta (m + l)) tiny) in
  match gamma with None => v | Some g => if nleb (nmul (nsub n1 tol_rem) g) v then n0 else v end.
(** the body of the while loop, 783-820; the last component is id_pop, which complement_schur ignores when a column is added *)
Definition sstep (A : list nat) (Hi : mat) (gamma_cur : option N) : N * vec * list nat * option vec * nat :=
  let phi := sphi A Hi in
  let delta := sdelta A Hi in
  let ik := argmaxk (n * m - 1) (scand_add phi delta A gamma_cur) in
  let gamma := scand_add phi delta A gamma_cur ik in
  let pop := argmaxk (length A - 1) (scand_rem phi delta gamma_cur) in
  let alt := scand_rem phi delta gamma_cur pop in
  let rem := nltb gamma alt in
  let gamma := if rem then alt else gamma in
  let sol := scatter A (fun l => nsub (phi (m + l)) (nmul gamma (delta (m + l)))) in
  if rem then (gamma, sol, remove_at pop A, None, pop)
  else (gamma, sol, A ++ [ik], Some (fun q => if Nat.ltb q m then Hc q ik else HrHr (at_ A (q - m)) ik), pop).
(** the iterations after the first, 776-820 *)
Fixpoint sloop (left : nat) (reg : N) (A : list nat) (k : nat) (Hi : mat) (add : option vec) (pop : nat) (g : N) : list (N * vec) :=
  match left with
  | O => []
  | S left' =>
      if nltb reg g then
        let Hi' := complement_schur k Hi add n1 (pop + m) in
        let '(g', sol, A', add', pop') := sstep A Hi' (Some g) in
        (g', sol) :: sloop left' reg A' (m + length A) Hi' add' pop' g'
      else []
  end.
(** the while loop from current_gamma = inf *)
Definition sraw (reg : N) (itmax : nat) : list (N * vec) :=
  match itmax - 1 with
  | O => []
  | S left' =>
      let Hi := inv (m + length active0) (aug active0) in
      let '(g', sol, A', add', pop') := sstep active0 Hi None in
      (g', sol) :: sloop left' reg A' (m + length active0) Hi add' pop' g'
  end.
(** 822-836.  None: gamma_list[-1] of an empty list, IndexError *)
Definition semi_relaxed_path (reg : N) (itmax : nat) : option (list (N * vec)) :=
  match sraw reg itmax with [] => None | p => Some (correct_last reg p) end.
End Semi.
