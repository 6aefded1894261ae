(** Model of NorthWestMMGluing and _clean_discrete_measure, /repo/ot/lp/_barycenter_solvers.py
    (lines 868-927 and 960-988). *)
From Coq Require Import List Arith Bool.
From Verif Require Import Num Optim_model Gw_model.
Import ListNotations.

Section Glue.
Context {N : NumOps}.
(** row i of one plan: the cells (j, P[i, j]) with P[i, j] > 0 in order of j (line 898) *)
Definition cells (nk : nat) (row : nat -> N) : list (nat * N) :=
  map (fun j => (j, row j)) (filter (fun j => nltb n0 (row j)) (seq 0 nk)).
(** Simplification of the state: instead of P_list[k][i, :], jjs[k] and jj_idx[k] the model keeps
    the cells from jj_idx[k] on with their current mass; earlier cells are never read again.
    [heads] is None when some jj_idx[k] ran past the end (jj_idx_in_range, 890-894). *)
Fixpoint heads (st : list (list (nat * N))) : option (list (nat * N)) :=
  match st with
  | [] => Some []
  | [] :: _ => None
  | (c :: _) :: r => match heads r with Some h => Some (c :: h) | None => None end
  end.
Definition minl (l : list N) : N := match l with [] => n0 | x :: r => fold_left nmin r x end.
(** lines 915-919 for one plan *)
Definition take_mass (v : N) (l : list (nat * N)) : list (nat * N) :=
  match l with
  | [] => []
  | (j, p) :: r => let p' := nsub p v in if neqb p' n0 then r else (j, p') :: r
  end.
(** the while loop 904-919 for one row: the (multi-index, mass) pairs in order; None: out of fuel *)
Fixpoint glue_row (fuel : nat) (u : N) (st : list (list (nat * N))) : option (list (list nat * N)) :=
  if nltb n0 u then
    match heads st with
    | None => Some []
    | Some h =>
        match fuel with
        | O => None
        | S f => let v := minl (map snd h) in
                 match glue_row f (nsub u v) (map (take_mass v) st) with
                 | Some r => Some ((map fst h, v) :: r)
                 | None => None
                 end
        end
    end
  else Some [].
(** the dictionary gamma_weights in insertion order, 909-912 *)
Definition key_eqb (x y : list nat) : bool := if list_eq_dec Nat.eq_dec x y then true else false.
Fixpoint dict_add (d : list (list nat * N)) (key : list nat) (v : N) : list (list nat * N) :=
  match d with
  | [] => [(key, v)]
  | (k', w) :: r => if key_eqb k' key then (k', nadd w v) :: r else (k', w) :: dict_add r key v
  end.
Definition row_fuel (plans : list (nat * gmat (N:=N))) : nat := fold_right (fun p s => fst p + s) 0 plans.
Definition row_state (plans : list (nat * gmat)) (i : nat) : list (list (nat * N)) := map (fun p => cells (fst p) (snd p i)) plans.
(** gamma restricted to its support: for each row i, the pairs above *)
Fixpoint glue_rows (plans : list (nat * gmat)) (a : nat -> N) (rows : list nat) : option (list (nat * list (list nat * N))) :=
  match rows with
  | [] => Some []
  | i :: r => match glue_row (row_fuel plans) (a i) (row_state plans i), glue_rows plans a r with
              | Some x, Some y => Some ((i, x) :: y)
              | _, _ => None
              end
  end.
(** a = None: the first marginal of the first plan (870-871); pi_list must not be empty *)
Definition NorthWestMMGluing (n : nat) (plans : list (nat * gmat)) (a : option (nat -> N)) : option (list (list nat * N) * list (nat * list (list nat * N))) :=
  let a := match a with Some a => a | None => match plans with [] => fun _ => n0 | p :: _ => rowsum (fst p) (snd p) end end in
  match glue_rows plans a (seq 0 n) with
  | None => None
  | Some g => Some (fold_left (fun d e => dict_add d (fst e) (snd e)) (flat_map snd g) [], g)
  end.

(** _clean_discrete_measure.  [close i j] stands for D[i, j] < tol.  The pairs are those of
    nx.where (row by row) with i <= j. *)
Section Clean.
Variables (n : nat) (close : nat -> nat -> bool) (a : nat -> N).
Definition close_pairs : list (nat * nat) :=
  flat_map (fun i => map (pair i) (filter (fun j => (close i j && Nat.leb i j)%bool) (seq 0 n))) (seq 0 n).
Record cstate := mkC { c_map : nat -> option nat; c_uniq : list nat; c_b : list N }.
Definition set_map (f : nat -> option nat) (i y : nat) : nat -> option nat := fun k => if Nat.eqb k i then Some y else f k.
Fixpoint add_at (b : list N) (y : nat) (v : N) : list N :=
  match b, y with
  | [], _ => []
  | x :: r, O => nadd x v :: r
  | x :: r, S y => x :: add_at r y v
  end.
Definition clean_step (st : cstate) (ij : nat * nat) : cstate :=
  let '(i, j) := ij in
  match c_map st i with
  | None => mkC (set_map (c_map st) i (length (c_uniq st))) (c_uniq st ++ [i]) (c_b st ++ [a i])
  | Some y => match c_map st j with
              | None => mkC (set_map (c_map st) j y) (c_uniq st) (add_at (c_b st) y (a j))
              | Some _ => st
              end
  end.
Definition clean : cstate := fold_left clean_step close_pairs (mkC (fun _ => None) [] []).
(** Y = X[unique_X_idx], b *)
Definition clean_discrete_measure : list nat * list N := (c_uniq clean, c_b clean).
End Clean.
End Glue.
