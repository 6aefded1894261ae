(** Data structures under the network simplex solver.
    - ot/lp/network_simplex_simple.h:505-530 (sequence, getArcID), 1310-1356 (reset):
      the internal numbering of arcs;
    - ot/lp/full_bipartitegraph.h:37-131 (FullBipartiteDigraphBase);
    - ot/lp/sparse_bipartitegraph.h:22-283 (SparseBipartiteDigraphBase, CSR);
    - ot/lp/network_simplex_simple.h:362-405 (PackedStateVector).
    Machine integers are unbounded here (node ids are [int] and arc ids int64_t in the code;
    in particular firstOut's product is an [int] product, :109-114).  The id -1
    (INVALID) is [None]. *)
From Coq Require Import List Arith Bool NArith Lia.
Import ListNotations.
From Verif Require Import NS_model.

(** *** arc mixing *)
(** network_simplex_simple.h:1310-1315 *)
Definition mix_k (A : nat) : nat := Nat.max (Nat.sqrt A) 10.
Definition sub_len (A : nat) : nat := A / mix_k A + 1.
Definition num_big (A : nat) : nat := A mod mix_k A.
Definition total_big (A : nat) : nat := sub_len A * num_big A.

(** sequence, network_simplex_simple.h:505-514 *)
Definition sequence (A k : nat) : nat :=
  let small := if Nat.ltb (total_big A) k then 1 else 0 in
  let k' := k - total_big A * small in
  let len2 := sub_len A - small in
  let num := k' / len2 + num_big A * small in
  let off := (k' mod len2) * mix_k A in
  off + num.

(** getArcID, network_simplex_simple.h:519-530 *)
Definition get_arc_id (mixing : bool) (A arc : nat) : nat :=
  let n := A - arc - 1 in if mixing then sequence A n else n.

(** reset, network_simplex_simple.h:1317-1343: the graph arcs are visited from A-1 down
    to 0 ([len] of them are left), [src]/[tgt] are the endpoint arrays being filled,
    [gs]/[gt] the (node-renumbered) endpoints of a graph arc *)
Fixpoint reset_mixing (len A i j : nat) (gs gt : nat -> nat) (st : (nat -> nat) * (nat -> nat))
  : (nat -> nat) * (nat -> nat) :=
  match len with
  | O => st
  | S a =>
    let st' := (upd (fst st) i (gs a), upd (snd st) i (gt a)) in
    let i' := i + mix_k A in
    if Nat.leb A i' then reset_mixing a A (S j) (S j) gs gt st'
    else reset_mixing a A i' j gs gt st'
  end.
(** the branch without mixing, :1344-1356 *)
Fixpoint reset_plain (len A i : nat) (gs gt : nat -> nat) (st : (nat -> nat) * (nat -> nat))
  : (nat -> nat) * (nat -> nat) :=
  match len with
  | O => st
  | S a => reset_plain a A (S i) gs gt (upd (fst st) i (gs a), upd (snd st) i (gt a))
  end.
Definition reset (mixing : bool) (A : nat) (gs gt : nat -> nat) : (nat -> nat) * (nat -> nat) :=
  let st := (fun _ => 0, fun _ => 0) in
  if mixing then reset_mixing A A 0 0 gs gt st else reset_plain A A 0 gs gt st.

(** *** FullBipartiteDigraph *)
(** arc / source / target, full_bipartitegraph.h:65-70, 78-79 *)
Definition fb_arc (n1 n2 s t : nat) : option nat :=
  if Nat.ltb s n1 && Nat.leb n1 t then Some (s * n2 + (t - n1)) else None.
Definition fb_source (n1 n2 a : nat) : nat := a / n2.
Definition fb_target (n1 n2 a : nat) : nat := a mod n2 + n1.
(** firstOut / nextOut / firstIn / nextIn, full_bipartitegraph.h:109-129.  [--arc] at 0
    gives -1. *)
Definition prev_id (a : nat) : option nat := match a with O => None | S k => Some k end.
Definition fb_first_out (n1 n2 s : nat) : option nat :=
  if Nat.leb n1 s then None else prev_id ((s + 1) * n2).
Definition fb_next_out (n2 a : nat) : option nat :=
  if Nat.eqb (a mod n2) 0 then prev_id 0 else prev_id a.
Definition fb_first_in (n1 n2 t : nat) : option nat :=
  if Nat.ltb t n1 then None else prev_id (n1 * n2 + S t - (n1 + n2)).
Definition fb_next_in (n2 a : nat) : option nat :=
  if Nat.ltb a n2 then None else Some (a - n2).

(** an iterator loop [for (first(a); a != INVALID; next(a))] *)
Fixpoint iterate (fuel : nat) (next : nat -> option nat) (a : option nat) : option (list nat) :=
  match a with
  | None => Some []
  | Some x => match fuel with
              | O => None
              | S k => option_map (cons x) (iterate k next (next x))
              end
  end.

(** *** SparseBipartiteDigraph *)
Definition edge := (nat * nat * nat)%type.   (* source, target, original arc id *)
(** the comparator of buildFromEdges, sparse_bipartitegraph.h:127-132 *)
Definition edge_lt (a b : edge) : bool :=
  match a, b with (sa, ta, _), (sb, tb, _) =>
    if negb (Nat.eqb sa sb) then Nat.ltb sa sb else Nat.ltb ta tb end.
(** std::sort; which order equivalent edges get is unspecified in C++, insertion sort
    fixes one (only parallel edges are equivalent) *)
Fixpoint insert_edge (x : edge) (l : list edge) : list edge :=
  match l with
  | [] => [x]
  | y :: r => if edge_lt x y then x :: y :: r else y :: insert_edge x r
  end.
Definition sort_edges (l : list edge) : list edge := fold_right insert_edge [] l.

(** :119-124 *)
Fixpoint index_edges (i : nat) (l : list (nat * nat)) : list edge :=
  match l with [] => [] | (s, t) :: r => (s, t, i) :: index_edges (S i) r end.

Record csr := mkCsr {
  sg_n1 : nat; sg_n2 : nat; sg_arcs : nat;
  sg_src : nat -> nat; sg_tgt : nat -> nat;
  sg_row : nat -> nat; sg_col : nat -> nat; sg_ids : nat -> nat }.

(** [while (current_row < limit) _row_ptr[++current_row] = i], :147-149 and 158-160; the
    number of rounds is limit - current_row *)
Fixpoint fill_rows (k : nat) (cur i : nat) (row : nat -> nat) : nat -> nat :=
  match k with O => row | S k' => fill_rows k' (S cur) i (upd row (S cur) i) end.

(** the loop :141-155 *)
Fixpoint build_loop (es : list edge) (i cur : nat) (g : csr) : nat * csr :=
  match es with
  | [] => (cur, g)
  | (s, t, o) :: r =>
    let row := fill_rows (s - cur) cur i (sg_row g) in
    build_loop r (S i) (Nat.max cur s)
      (mkCsr (sg_n1 g) (sg_n2 g) (sg_arcs g) (upd (sg_src g) o s) (upd (sg_tgt g) o t)
             row (upd (sg_col g) i t) (upd (sg_ids g) i o))
  end.

(** buildFromEdges, sparse_bipartitegraph.h:107-163.  Vectors start as zeros (resize). *)
Definition build_from_edges (n1 n2 : nat) (edges : list (nat * nat)) : csr :=
  let z := fun _ : nat => 0 in
  let g0 := mkCsr n1 n2 (length edges) z z z z z in
  let '(cur, g) := build_loop (sort_edges (index_edges 0 edges)) 0 0 g0 in
  mkCsr n1 n2 (length edges) (sg_src g) (sg_tgt g)
        (fill_rows (n1 - cur) cur (length edges) (sg_row g)) (sg_col g) (sg_ids g).

(** std::lower_bound over the positions [first, first+len): halving *)
Fixpoint lower_bound (fuel : nat) (v : nat -> nat) (first len x : nat) : nat :=
  match fuel with
  | O => first
  | S k =>
    match len with
    | O => first
    | _ => let half := len / 2 in
           if Nat.ltb (v (first + half)) x
           then lower_bound k v (S (first + half)) (len - half - 1) x
           else lower_bound k v first half x
    end
  end.

(** arc, sparse_bipartitegraph.h:166-187 *)
Definition sg_arc (g : csr) (s t : nat) : option nat :=
  if Nat.leb (sg_n1 g) s || Nat.ltb t (sg_n1 g) || Nat.leb (sg_n1 g + sg_n2 g) t then None
  else
    let start := sg_row g s in
    let stop := sg_row g (S s) in
    let pos := lower_bound (S (stop - start)) (sg_col g) start (stop - start) t in
    if negb (Nat.eqb pos stop) && Nat.eqb (sg_col g pos) t then Some (sg_ids g pos) else None.

(** build_in_arcs, :70-81: the arcs are appended in increasing order *)
Definition in_arcs_of (g : csr) (v : nat) : list nat :=
  filter (fun a => Nat.eqb (sg_tgt g a) v) (seq 0 (sg_arcs g)).
(** build_position_maps, :83-104: the position arrays, filled by loops *)
Definition out_pos (g : csr) : nat -> nat :=
  fold_left (fun m pos => upd m (sg_ids g pos) pos) (seq 0 (sg_arcs g)) (fun _ => 0).
Fixpoint set_positions (l : list nat) (pos : nat) (m : nat -> nat) : nat -> nat :=
  match l with [] => m | a :: r => set_positions r (S pos) (upd m a pos) end.
Definition in_pos (g : csr) : nat -> nat :=
  fold_left (fun m v => set_positions (in_arcs_of g v) 0 m) (seq 0 (sg_n1 g + sg_n2 g)) (fun _ => 0).
(** firstOut / nextOut / firstIn / nextIn, :230-282 *)
Definition sg_first_out (g : csr) (s : nat) : option nat :=
  if Nat.leb (sg_n1 g) s then None
  else if Nat.ltb (sg_row g s) (sg_row g (S s)) then Some (sg_ids g (sg_row g s)) else None.
Definition sg_next_out (g : csr) (a : nat) : option nat :=
  let pos := out_pos g a in
  if Nat.ltb (S pos) (sg_row g (S (sg_src g a))) then Some (sg_ids g (S pos)) else None.
Definition sg_first_in (g : csr) (t : nat) : option nat :=
  if Nat.leb (sg_n1 g + sg_n2 g) t || Nat.ltb t (sg_n1 g) then None
  else match in_arcs_of g t with [] => None | a :: _ => Some a end.
Definition sg_next_in (g : csr) (a : nat) : option nat :=
  nth_error (in_arcs_of g (sg_tgt g a)) (S (in_pos g a)).

(** *** PackedStateVector *)
Local Open Scope N_scope.
(** encode / the decoding in get, network_simplex_simple.h:378-386, 397-401 *)
Definition encode (s : astate) : N := match s with LOWER => 0 | TREE => 1 | UPPER => 2 end.
Definition decode (b : N) : astate := if b =? 0 then LOWER else if b =? 1 then TREE else UPPER.

(** _data is a vector of bytes; bytes are numbers below 256 (the 8 low bits are kept) *)
Record packed := mkPacked { pk_size : nat; pk_data : list N }.

Fixpoint set_nth (l : list N) (i : nat) (b : N) : list N :=
  match l, i with
  | [], _ => []
  | _ :: r, O => b :: r
  | x :: r, S k => x :: set_nth r k b
  end.

(** resize / clear / get / set / fill, :364-395 *)
Definition pk_resize (n : nat) : packed := mkPacked n (repeat 0 ((n + 3) / 4)%nat).
Definition pk_clear : packed := mkPacked 0 [].
Definition pk_get (p : packed) (i : nat) : astate :=
  decode (N.land (N.shiftr (nth (i / 4)%nat (pk_data p) 0) (N.of_nat (2 * (i mod 4)))) 3).
Definition set_bits (byte : N) (shift : N) (s : astate) : N :=
  (N.lor (N.land byte (N.lnot (N.shiftl 3 shift) 8)) (N.shiftl (encode s) shift)) mod 256.
Definition pk_set (p : packed) (i : nat) (s : astate) : packed :=
  mkPacked (pk_size p)
    (set_nth (pk_data p) (i / 4)%nat
       (set_bits (nth (i / 4)%nat (pk_data p) 0) (N.of_nat (2 * (i mod 4))) s)).
Fixpoint pk_fill_from (p : packed) (i count : nat) (s : astate) : packed :=
  match count with O => p | S k => pk_fill_from (pk_set p i s) (S i) k s end.
Definition pk_fill (p : packed) (count : nat) (s : astate) : packed := pk_fill_from p 0 count s.

(** the calls the solver makes *)
Inductive pk_op := OpResize (n : nat) | OpClear | OpSet (i : nat) (s : astate) | OpFill (c : nat) (s : astate).
Definition pk_step (p : packed) (o : pk_op) : packed :=
  match o with
  | OpResize n => pk_resize n
  | OpClear => pk_clear
  | OpSet i s => pk_set p i s
  | OpFill c s => pk_fill p c s
  end.
