(** C07-C10: the data structures under the network simplex solver. *)
From Coq Require Import List Arith.
Import ListNotations.
From Verif Require Import NS_model Graph_model Graph_spec Graph_proofs.

(** C07.  For every number of arcs A and both numbering modes: arc ids map one-to-one onto the
    slots 0..A-1, and the endpoint arrays filled by reset() hold, at the slot of every arc,
    that arc's endpoints. *)
Theorem C07_arc_mixing : forall mixing A gs gt,
  (forall a, a < A -> get_arc_id mixing A a < A) /\
  (forall a a', a < A -> a' < A -> get_arc_id mixing A a = get_arc_id mixing A a' -> a = a') /\
  (forall i, i < A -> exists a, a < A /\ get_arc_id mixing A a = i) /\
  (forall a, a < A -> fst (reset mixing A gs gt) (get_arc_id mixing A a) = gs a /\
                     snd (reset mixing A gs gt) (get_arc_id mixing A a) = gt a).
Proof.
  intros mixing A gs gt. split; [apply id_range|]. split; [apply id_inj|]. split; [|apply reset_spec].
  apply inj_onto; [apply id_range|apply id_inj].
Qed.
Print Assumptions C07_arc_mixing.
Example arc_mixing_23 : map (get_arc_id true 23) (seq 0 23) =
  [19; 9; 18; 8; 17; 7; 16; 6; 15; 5; 14; 4; 13; 3; 22; 12; 2; 21; 11; 1; 20; 10; 0].
Proof. reflexivity. Qed.

(** C08.  Full bipartite graph with n1 sources 0..n1-1 and n2 targets n1..n1+n2-1. *)
Theorem C08_full_bipartite : forall n1 n2, 0 < n1 ->
  (forall s t, s < n1 -> n1 <= t < n1 + n2 ->
     exists a, fb_arc n1 n2 s t = Some a /\ a < n1 * n2 /\ fb_source n1 n2 a = s /\ fb_target n1 n2 a = t) /\
  (forall a, a < n1 * n2 -> fb_source n1 n2 a < n1 /\ n1 <= fb_target n1 n2 a < n1 + n2 /\
     fb_arc n1 n2 (fb_source n1 n2 a) (fb_target n1 n2 a) = Some a) /\
  (forall s, s < n1 -> exists l, iterate (S (n1 * n2)) (fb_next_out n2) (fb_first_out n1 n2 s) = Some l /\ NoDup l /\
     (forall a, In a l <-> a < n1 * n2 /\ fb_source n1 n2 a = s)) /\
  (forall t, n1 <= t < n1 + n2 -> exists l, iterate (S (n1 * n2)) (fb_next_in n2) (fb_first_in n1 n2 t) = Some l /\ NoDup l /\
     (forall a, In a l <-> a < n1 * n2 /\ fb_target n1 n2 a = t)).
Proof.
  intros n1 n2 Hn. split; [apply fb_arc_ok|]. split; [apply fb_arc_back|]. split; intros.
  - apply fb_out_list; auto.
  - apply fb_in_list; auto.
Qed.
Print Assumptions C08_full_bipartite.
Example full_bipartite_23 : iterate 7 (fb_next_in 3) (fb_first_in 2 3 3) = Some [4; 1].
Proof. reflexivity. Qed.

(** C09.  Sparse graph built from any edge list with sources below n1 and targets in
    n1..n1+n2-1 (parallel edges allowed, any order). *)
Theorem C09_sparse_graph : forall n1 n2 edges,
  (forall s t, In (s, t) edges -> s < n1 /\ n1 <= t < n1 + n2) ->
  let g := build_from_edges n1 n2 edges in
  (forall s t, match sg_arc g s t with
               | Some a => a < length edges /\ nth a edges (0, 0) = (s, t)
               | None => ~ In (s, t) edges end) /\
  (forall a, a < length edges -> (sg_src g a, sg_tgt g a) = nth a edges (0, 0)) /\
  (forall s, s < n1 -> exists l, iterate (S (length edges)) (sg_next_out g) (sg_first_out g s) = Some l /\ NoDup l /\
     (forall a, In a l <-> a < length edges /\ fst (nth a edges (0, 0)) = s)) /\
  (forall t, n1 <= t < n1 + n2 -> exists l, iterate (S (length edges)) (sg_next_in g) (sg_first_in g t) = Some l /\ NoDup l /\
     (forall a, In a l <-> a < length edges /\ snd (nth a edges (0, 0)) = t)).
Proof.
  intros n1 n2 edges Hok g. split; [apply arc_spec; auto|]. split; [|split].
  - intros a Ha. pose proof (build_ok n1 n2 edges Hok) as B. unfold g. rewrite (ok_src _ _ _ B), (ok_tgt _ _ _ B) by auto. now destruct (nth a edges (0, 0)).
  - intros s Hs. apply out_list; auto.
  - intros t Ht. apply in_list; auto.
Qed.
Print Assumptions C09_sparse_graph.
Example sparse_graph_5 :
  let g := build_from_edges 3 3 [(2, 4); (0, 5); (2, 3); (0, 3); (2, 5)] in
  map (fun p => sg_arc g (fst p) (snd p)) [(2, 4); (0, 5); (2, 3); (0, 3); (2, 5); (1, 4); (0, 4)]
  = [Some 0; Some 1; Some 2; Some 3; Some 4; None; None].
Proof. reflexivity. Qed.

(** C10.  Every sequence of in-bounds calls leaves the packed vector equal, at every index,
    to the plain array updated by the same calls. *)
Theorem C10_packed_states : forall l, ops_ok 0 l ->
  pk_size (fold_left pk_step l pk_clear) = fst (fold_left arr_step l (0, fun _ => LOWER)) /\
  forall j, pk_get (fold_left pk_step l pk_clear) j = snd (fold_left arr_step l (0, fun _ => LOWER)) j.
Proof.
  intros l H. apply pk_refines; auto; [split; cbn; auto|]. intro j. apply pk_clear_get.
Qed.
Print Assumptions C10_packed_states.
Example packed_ops_ok : ops_ok 0 [OpResize 9; OpFill 9 TREE; OpSet 8 UPPER; OpSet 3 LOWER] /\
  map (pk_get (fold_left pk_step [OpResize 9; OpFill 9 TREE; OpSet 8 UPPER; OpSet 3 LOWER] pk_clear)) [2; 3; 4; 8]
  = [TREE; LOWER; TREE; UPPER].
Proof. split; [cbn; repeat split; repeat constructor|reflexivity]. Qed.
