(** Model of partial_wasserstein_1d (/repo/ot/partial/partial_solvers.py:1533-1624) and of the
    routines it calls in /repo/ot/partial/partial_cython.pyx.

    Arrays are functions of the index; the value -1 that marks an absent index is None.  heapq is
    modelled by its contract: heappop returns the lexicographically smallest tuple of the heap, so
    the heap is a list of tuples.  np.argsort is Emd1d_model.argsort, [powf] is the power of line 95. *)
From Coq Require Import List Arith Bool ZArith.
From Verif Require Import Num Emd1d_model W1d_model.
Import ListNotations.

Section Pw1d.
Context {N : NumOps}.
Variable powf : N -> N -> N.
Notation cand := (N * nat * nat)%type.

Definition upd {A : Type} (f : nat -> A) (i : nat) (x : A) : nat -> A := fun k => if k =? i then x else f k.

(** arg_insert_in_sorted, lines 159-192; the loop body runs n_x + n_y times *)
Fixpoint arg_insert (nx ny : nat) (x y : nat -> N) (left ix iy : nat) : list nat :=
  match left with
  | O => []
  | S left' =>
      if ix =? nx then (nx + iy) :: arg_insert nx ny x y left' ix (S iy)
      else if iy =? ny then ix :: arg_insert nx ny x y left' (S ix) iy
      else if nleb (x ix) (y iy) then ix :: arg_insert nx ny x y left' (S ix) iy
      else (nx + iy) :: arg_insert nx ny x y left' ix (S iy)
  end.

(** insert_constant_values_float / _int, lines 326-365 *)
Fixpoint insert_constant {A : Type} (zero : A) (arr : nat -> A) (keep : nat -> bool) (i : nat) : A :=
  if keep i then arr i else match i with O => zero | S i' => insert_constant zero arr keep i' end.

(** what preprocess (195-213), compute_cumulative_sum_differences (286-323) and
    compute_rank_differences (368-411) leave for the rest: [pre_isx i] is
    sorted_distrib_indicator[i] == 0 *)
Record pre := mk_pre { pre_sx : list nat; pre_sy : list nat; pre_isx : nat -> bool; pre_z : nat -> N;
                       pre_cum : nat -> N; pre_rank : nat -> nat; pre_diff : nat -> Z }.
Definition preprocess (x y : list N) : pre :=
  let nx := length x in let ny := length y in
  let sx := argsort x in let sy := argsort y in
  let xs := map (fun k => nth k x n0) sx in let ys := map (fun k => nth k y n0) sy in
  let xy := arg_insert nx ny (fun i => nth i xs n0) (fun j => nth j ys n0) (nx + ny) 0 0 in
  let at_ := fun i => nth i xy 0 in
  let isx := fun i => at_ i <? nx in
  let z := fun i => nth (at_ i) (xs ++ ys) n0 in
  let cum := fun i => nth (at_ i) (cumsum xs ++ cumsum ys) n0 in
  let cx := insert_constant n0 cum isx in
  let cy := insert_constant n0 cum (fun i => negb (isx i)) in
  let rank := fun i => nth (at_ i) (seq 0 nx ++ seq 0 ny) 0 in
  let rx := insert_constant 0%Z (fun i => if isx i then (Z.of_nat (rank i) + 1)%Z else 0%Z) isx in
  let ry := insert_constant 0%Z (fun i => if isx i then 0%Z else (Z.of_nat (rank i) + 1)%Z) (fun i => negb (isx i)) in
  mk_pre sx sy isx z (fun i => nsub (cx i) (cy i)) rank (fun i => (rx i - ry i)%Z).

(** get_cost_w1, lines 76-81 *)
Definition get_cost_w1 (cum : nat -> N) (s e : nat) : N :=
  match s with O => cum e | S s' => nsub (cum e) (cum s') end.
(** get_cost_wp, lines 85-91: the points s .. e of each side, in order *)
Definition sub_z (z : nat -> N) (keep : nat -> bool) (s e : nat) : list N :=
  map z (filter keep (seq s (S e - s))).
Definition get_cost_wp (z : nat -> N) (isx : nat -> bool) (s e : nat) (p : N) : N :=
  fold_right nadd n0 (map (fun uv => powf (nabs (nsub (fst uv) (snd uv))) p)
    (combine (sub_z z isx s e) (sub_z z (fun i => negb (isx i)) s e))).

(** indexing an array of length 2 n with wraparound (compute_costs, line 95) *)
Definition wrap (n : nat) (r : Z) : nat := Z.to_nat (if (r <? 0)%Z then r + 2 * Z.of_nat n else r)%Z.

(** compute_costs, lines 96-152: the loop on idx_end *)
Record cstate := mk_cs { cs_heap : list cand; cs_idx : nat -> option nat; cs_cost : nat -> N;
                         cs_lx : nat -> option nat; cs_ly : nat -> option nat }.
Definition chain_cost (q : pre) (p_is_1 : bool) (p : N) (s e : nat) : N :=
  if p_is_1 then get_cost_w1 (pre_cum q) s e else get_cost_wp (pre_z q) (pre_isx q) s e p.
Definition costs_step (n : nat) (q : pre) (p_is_1 : bool) (p : N) (st : cstate) (e : nat) : cstate :=
  let r := pre_diff q e in
  let start := if pre_isx q e then cs_ly st (wrap n (r - 1)) else cs_lx st (wrap n (r + 1)) in
  let lx := if pre_isx q e then upd (cs_lx st) (wrap n r) (Some e) else cs_lx st in
  let ly := if pre_isx q e then cs_ly st else upd (cs_ly st) (wrap n r) (Some e) in
  match start with
  | None => mk_cs (cs_heap st) (cs_idx st) (cs_cost st) lx ly
  | Some s =>
      let c := nabs (chain_cost q p_is_1 p s e) in
      mk_cs (if e =? S s then (c, s, e) :: cs_heap st else cs_heap st)
            (upd (cs_idx st) e (Some s)) (upd (cs_cost st) e c) lx ly
  end.
Definition cs_init : cstate := mk_cs [] (fun _ => None) (fun _ => nopp n1) (fun _ => None) (fun _ => None).
Definition costs_loop (n : nat) (q : pre) (p_is_1 : bool) (p : N) : cstate :=
  fold_left (costs_step n q p_is_1 p) (seq 0 n) cs_init.

(** precompute_chain_costs_cumsum, lines 49-73 *)
Definition cumsum_step (st : cstate) (acc : nat -> N) (i : nat) : nat -> N :=
  match cs_idx st i with
  | None => acc
  | Some O => upd acc i (cs_cost st i)
  | Some (S s') => upd acc i (nadd (acc s') (cs_cost st i))
  end.
Definition chain_costs_cumsum (n : nat) (st : cstate) : nat -> N :=
  fold_left (cumsum_step st) (seq 0 n) (fun _ => n0).
(** compute_cost_for_chain, lines 39-46 *)
Definition compute_cost_for_chain (ccs : nat -> N) (s e : nat) : N :=
  match s with O => ccs e | S s' => nsub (ccs e) (ccs s') end.

(** insert_new_chain, lines 14-35 *)
Definition chains := ((nat -> option nat) * (nat -> option nat))%type.
Definition insert_new_chain (n : nat) (ch : chains) (i j : nat) : chains * nat * nat :=
  let (st, en) := ch in
  let i := match i with O => i | S i' => if i' <? n then match en i' with Some i0 => i0 | None => i end else i end in
  let j := if S j <? n then match st (S j) with Some j0 => j0 | None => j end else j in
  let (st, en) :=
    if i <? n then (upd st i (Some j), match st i with Some e => upd en e None | None => en end) else (st, en) in
  let (st, en) :=
    if j <? n then (match en j with Some s => upd st s None | None => st end, upd en j (Some i)) else (st, en) in
  ((st, en), i, j).

(** heapq.heappop: the smallest tuple, and the heap without it *)
Definition cand_ltb (a b : cand) : bool :=
  match a, b with (c, i, j), (c', i', j') =>
    nltb c c' || (neqb c c' && ((i <? i') || ((i =? i') && (j <? j')))) end.
Fixpoint heappop (h : list cand) : option (cand * list cand) :=
  match h with
  | [] => None
  | a :: h' => match heappop h' with
               | None => Some (a, [])
               | Some (b, r) => if cand_ltb b a then Some (b, a :: r) else Some (a, h')
               end
  end.

(** generate_solution_using_marginal_costs, lines 234-267: the while loop, run at most [fuel] times.
    Returns the inserted pairs and their marginal costs, in order. *)
Fixpoint gen_loop (fuel n : nat) (isx : nat -> bool) (ccs : nat -> N) (todo : nat) (heap : list cand)
    (active : nat -> bool) (ch : chains) (out : list cand) : res (list cand) :=
  match fuel with
  | O => OutOfFuel
  | S fuel' =>
      match heap, todo with
      | [], _ => Ok out
      | _, O => Ok out
      | _, S todo' =>
          match heappop heap with
          | None => Ok out
          | Some ((c, i, j), heap) =>
              if active i || active j then gen_loop fuel' n isx ccs todo heap active ch out
              else
                let go ch :=
                  match insert_new_chain n ch i j with
                  | (ch, ps, pe) =>
                      let active := upd (upd active i true) j true in
                      let out := out ++ [(c, i, j)] in
                      match ps with
                      | O => gen_loop fuel' n isx ccs todo' heap active ch out
                      | S ps' =>
                          if pe =? n - 1 then gen_loop fuel' n isx ccs todo' heap active ch out
                          else if Bool.eqb (isx ps') (isx (S pe)) then gen_loop fuel' n isx ccs todo' heap active ch out
                          else
                            let marginal := nsub (compute_cost_for_chain ccs ps' (S pe)) (compute_cost_for_chain ccs ps pe) in
                            gen_loop fuel' n isx ccs todo' ((marginal, ps', S pe) :: heap) active ch out
                      end
                  end in
                if j =? S i then go ch
                else
                  match snd ch (j - 1) with
                  | Some _ =>
                      let st := if S i <? n then upd (fst ch) (S i) None else fst ch in
                      let en := if j - 1 <? n then upd (snd ch) (j - 1) None else snd ch in
                      go (st, en)
                  | None => ValueError
                  end
          end
      end
  end.

(** lines 268-283: the index arrays have max_iter entries; the rows never filled are (0, 0) and
    cost 0.  An index left at -1 selects the last element (lines 493-494). *)
Definition pick (q : pre) (side : bool) (row : cand) : option nat :=
  match row with (_, a, b) =>
    if Bool.eqb (pre_isx q b) side then Some (pre_rank q b)
    else if Bool.eqb (pre_isx q a) side then Some (pre_rank q a) else None end.
Definition back (perm : list nat) (r : option nat) : nat :=
  match r with Some k => nth k perm 0 | None => nth (length perm - 1) perm 0 end.

(** partial_wasserstein_1d_cy, lines 416-495.  [p_is_1] is the test p == 1. *)
Definition partial_wasserstein_1d_cy (x y : list N) (max_iter : nat) (p_is_1 : bool) (p : N)
  : res (list nat * list nat * list N) :=
  let n := length x + length y in
  let q := preprocess x y in
  let st := costs_loop n q p_is_1 p in
  let ccs := chain_costs_cumsum n st in
  match gen_loop (S (length (cs_heap st) + max_iter)) n (pre_isx q) ccs max_iter (cs_heap st) (fun _ => false)
          (fun _ => None, fun _ => None) [] with
  | Ok out =>
      let rows := out ++ repeat (n0, 0, 0) (max_iter - length out) in
      Ok (map (fun r => back (pre_sx q) (pick q true r)) rows,
          map (fun r => back (pre_sy q) (pick q false r)) rows,
          map (fun r => fst (fst r)) rows)
  | ValueError => ValueError | AssertionError => AssertionError | IndexError => IndexError
  | OutOfBounds => OutOfBounds | OutOfFuel => OutOfFuel
  end.

(** partial_wasserstein_1d, partial_solvers.py:1603-1624 (the shape assertions are not modelled) *)
Definition partial_wasserstein_1d (x_a x_b : list N) (n_transported : option nat) (p_is_1 : bool) (p : N) :=
  let k := match n_transported with Some k => k | None => Nat.min (length x_a) (length x_b) end in
  partial_wasserstein_1d_cy x_a x_b k p_is_1 p.
End Pw1d.
