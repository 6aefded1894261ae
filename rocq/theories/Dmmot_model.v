(** Discrete multi-marginal transport on the 1d grid: ot/lp/dmmot.py.
    A has n rows (bins) and K columns (histograms); [A k j] is A[j, k], that is AA[k][j]. *)
From Coq Require Import Arith Bool List.
Import ListNotations.
From Verif Require Import Num Emd1d_model.

Section Dmmot.
Context {N : NumOps}.

(** maximum and minimum of f 0 .. f k (k+1 values) *)
Fixpoint maxi (k : nat) (f : nat -> nat) : nat := match k with O => f 0 | S k' => Nat.max (maxi k' f) (f k) end.
Fixpoint mini (k : nat) (f : nat -> nat) : nat := match k with O => f 0 | S k' => Nat.min (mini k' f) (f k) end.
(** dist_monge_max_min, dmmot.py:15-57 (an integer; here on K = k+1 indices) *)
Definition dist_monge_max_min (k : nat) (f : nat -> nat) : nat := maxi k f - mini k f.

(** first position in [0, c) where f equals m: vals.index(minval), dmmot.py:155 (ValueError if there is none) *)
Fixpoint index_from (s c : nat) (f : nat -> N) (m : N) : option nat :=
  match c with O => None | S c' => if neqb (f s) m then Some s else index_from (S s) c' f m end.

Record dmstate := mkD { d_A : nat -> nat -> N; d_idx : nat -> nat; d_x : list (list nat * N); d_obj : N; d_dual : nat -> nat -> N }.
Definition upd1 {A} (f : nat -> A) (i : nat) (x : A) (k : nat) : A := if Nat.eqb k i then x else f k.
Definition upd2 {A} (f : nat -> nat -> A) (i j : nat) (x : A) (k l : nat) : A := if (Nat.eqb k i && Nat.eqb l j)%bool then x else f k l.

(** one pass of the while loop, dmmot.py:152-173.  K = k+1.  The dictionary xx is a list of
    (key, value) in order of insertion; a key is never assigned twice (proved: NoDup). *)
Definition dm_step (n k : nat) (st : dmstate) : option dmstate :=
  let idx := d_idx st in
  let vals := fun c => d_A st c (idx c) in
  let minval := nmink k vals in
  match index_from 0 (S k) vals minval with
  | None => None
  | Some i =>
      let idx' := upd1 idx i (S (idx i)) in
      let temp := nadd (nsub (nofnat (N:=N) (dist_monge_max_min k idx')) (nofnat (N:=N) (dist_monge_max_min k idx))) (d_dual st i (idx i)) in
      Some (mkD (fun c j => if Nat.eqb j (idx c) then nsub (d_A st c j) minval else d_A st c j)
                idx'
                (d_x st ++ [(map idx (seq 0 (S k)), minval)])
                (nadd (d_obj st) (nmul (nofnat (N:=N) (dist_monge_max_min k idx)) minval))
                (if Nat.ltb (idx' i) n then upd2 (d_dual st) i (idx' i) (nadd (d_dual st i (idx' i)) temp) else d_dual st))
  end.
(** all([i < _ for _, i in zip(dims, idx)]), dmmot.py:152 *)
Definition all_inside (n k : nat) (idx : nat -> nat) : bool := forallb (fun c => Nat.ltb (idx c) n) (seq 0 (S k)).
(** the loop; None is "out of fuel" or ValueError *)
Fixpoint dm_loop (fuel n k : nat) (st : dmstate) : option dmstate :=
  if all_inside n k (d_idx st) then
    match fuel with O => None | S fuel' => match dm_step n k st with None => None | Some st' => dm_loop fuel' n k st' end end
  else Some st.
(** dmmot.py:178-182: dual[_][i:] = dual[_][i]; IndexError (i = n) is caught *)
Definition fill (n : nat) (idx : nat -> nat) (dual : nat -> nat -> N) (c j : nat) : N :=
  if (Nat.ltb (idx c) n && Nat.leb (idx c) j)%bool then dual c (idx c) else dual c j.

Record dmresult := mkR { r_obj : N; r_x : list (list nat * N); r_dual : nat -> nat -> N; r_dualobj : N }.
(** dmmot_monge_1dgrid_loss, dmmot.py:138-203, for K = k+1 histograms (with no histogram min([])
    raises).  The gradients given to autograd are r_dual.  Simplification: the pass bound replaces
    an unbounded while (proved sufficient). *)
Definition dmmot_monge_1dgrid_loss (n k : nat) (A : nat -> nat -> N) : option dmresult :=
  match dm_loop (S k * n) n k (mkD A (fun _ => 0) [] n0 (fun _ _ => n0)) with
  | None => None
  | Some st => let dual := fill n (d_idx st) (d_dual st) in
      Some (mkR (d_obj st) (d_x st) dual (nsum (S k) (fun c => nsum n (fun j => nmul (A c j) (dual c j)))))
  end.

(** renormalize, dmmot.py:315-321; division by a zero sum is that of the arithmetic *)
Definition renormalize (n : nat) (A : nat -> nat -> N) : nat -> nat -> N :=
  fun c => let m := nmink (n - 1) (A c) in
           let v := if nltb m n0 then (fun j => nsub (A c j) m) else A c in
           fun j => ndiv (v j) (nsum n v).
(** dmmot_monge_1dgrid_optimize, dmmot.py:304-349 (printing and gradient norms omitted; the first
    dualIter at 328 only prints) *)
Fixpoint dm_optimize (niters n k : nat) (lr lr_decay : N) (A : nat -> nat -> N) : option (nat -> nat -> N) :=
  match niters with
  | O => Some (renormalize n A)
  | S m => let A1 := renormalize n A in
      match dmmot_monge_1dgrid_loss n k A1 with
      | None => None
      | Some r => dm_optimize m n k (nmul lr lr_decay) lr_decay (fun c j => nsub (A1 c j) (nmul (r_dual r c j) lr))
      end
  end.
End Dmmot.
