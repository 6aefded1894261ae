(** Model of EMD_wrap (ot/lp/EMD_wrapper.cpp:206-298) in the full-support case:
    every weight is positive, so no arc mixing, dense cost pointer
    (make_setup_policy, EMD_wrapper.cpp:32-45).  This is the only case ot.emd
    reaches: it removes zero-weight points before calling the wrapper
    (_network_simplex.py:178-204, 441-474; see Duals_model.v). *)
From Coq Require Import List Arith Bool.
Import ListNotations.
From Verif Require Import Num NS_model.

Section EMD.
Context {N : NumOps}.

(** _node_id, network_simplex_simple.h:429 *)
Definition node_id (nodes k : nat) : nat := nodes - k - 1.
(** FullBipartiteDigraph::source/target, full_bipartitegraph.h *)
Definition gsource (m arc : nat) : nat := arc / m.
Definition gtarget (n m arc : nat) : nat := arc mod m + n.
(** internal arc ids run against the graph's: network_simplex_simple.h:519-530 and the
    no-mixing branch of reset() :1344-1356 *)
Definition dn_src (n m e : nat) : nat := node_id (n + m) (gsource m (n * m - e - 1)).
Definition dn_tgt (n m e : nat) : nat := node_id (n + m) (gtarget n m (n * m - e - 1)).
(** getCostForArc in dense mode, network_simplex_simple.h:982-1000; D is the row-major n x m matrix *)
Definition dn_cost (n m : nat) (D : nat -> N) (e : nat) : N := D (n * m - e - 1).
(** supplyMap, network_simplex_simple.h:1031-1041, with weights2 = -Y
    (EMD_wrapper.cpp:260-270) *)
Definition dn_supply (n m : nat) (a b : nat -> N) (u : nat) : N :=
  let k := n + m - u - 1 in if Nat.ltb k n then a k else nopp (b (k - n)).
(** firstIn/nextIn of the full bipartite graph as internal ids: the graph arcs
    (n-1)*m+j, ..., m+j, j *)
Definition dn_in (n m v : nat) : list nat :=
  let k := n + m - v - 1 in
  if Nat.ltb k n then []
  else map (fun i => n * m - ((n - 1 - i) * m + (k - n)) - 1) (seq 0 n).
(** setDenseCostMatrix, network_simplex_simple.h:926-937 *)
Definition dn_max (n m : nat) (D : nat -> N) : N := nmaxk (n * m - 1) D.

Record emd_out := mkEmdOut {
  eo_type : ptype; eo_G : nat -> nat -> N; eo_cost : N;
  eo_alpha : nat -> N; eo_beta : nat -> N }.

(** extract_dense_full_support, EMD_wrapper.cpp:82-115.  G comes in as zeros. *)
Definition ex_cost (n m : nat) (D f : nat -> N) : N :=
  fold_left (fun c e => if neqb (f e) n0 then c
                        else nadd c (nmul (f e) (D (n * m - e - 1))))
            (seq 0 (n * m)) n0.
Definition ex_G (n m : nat) (f : nat -> N) (i j : nat) : N :=
  let e := n * m - (i * m + j) - 1 in
  if neqb (f e) n0 then n0 else f e.

Definition emd_wrap (fuel n m : nat) (a b : nat -> N) (M : nat -> nat -> N) (max_iter : nat)
  : ans emd_out :=
  let D := fun k => M (k / m) (k mod m) in
  do r <- run fuel (n + m) (n * m) (dn_src n m) (dn_tgt n m) (dn_cost n m D)
              (dn_supply n m a b) (dn_max n m D) (dn_in n m) max_iter;
  match rs_type r with
  | OPTIMAL | MAX_ITER_REACHED =>
    Ret (mkEmdOut (rs_type r) (ex_G n m (rs_flow r)) (ex_cost n m D (rs_flow r))
           (fun i => nopp (rs_pi r (n + m - 1 - i)))
           (fun j => rs_pi r (n + m - 1 - (n + j))))
  | ty => Ret (mkEmdOut ty (fun _ _ => n0) n0 (fun _ => n0) (fun _ => n0))
  end.

End EMD.
