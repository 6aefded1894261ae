(** Model of /repo/ot/lp/solver_circle.py (one column: the code treats columns independently,
    except for the shared while loop of binary_search_circle, see below).
    [nfloor] is numpy's floor; x % 1 is x - floor x. *)
From Coq Require Import List Arith Bool.
From Verif Require Import Num Emd1d_model W1d_model.
Import ListNotations.

Section Circle.
Context {N : NumOps}.
Variable nfloor : N -> N.
Notation vec := (nat -> N).
Definition mod1 (x : N) : N := nsub x (nfloor x).
Definition nhalf : N := ndiv n1 (nadd n1 n1).

(** nx.argsort / nx.sort2 as a function (stable; numpy's default is not, see Emd1d_model) *)
Definition order (n : nat) (key : vec) : nat -> nat := let l := argsort_aux key n in fun k => nth k l 0.
(** nx.argmin, +inf as None: first minimal index, 0 when every entry is +inf *)
Fixpoint argmin_from (k i : nat) (best : nat) (bv : option N) (f : nat -> option N) : nat :=
  match k with
  | O => best
  | S k' => match f i, bv with
            | Some x, None => argmin_from k' (S i) i (Some x) f
            | Some x, Some y => if nltb x y then argmin_from k' (S i) i (Some x) f else argmin_from k' (S i) best bv f
            | None, _ => argmin_from k' (S i) best bv f
            end
  end.
Definition argmin (k : nat) (f : nat -> option N) : nat := argmin_from k 0 0 None f.

(** ** wasserstein1_circle, lines 474-534 *)
Definition cat (n : nat) (x y : vec) : vec := fun i => if Nat.ltb i n then x i else y (i - n).
Definition unif (n : nat) (w : option vec) : vec := match w with Some w => w | None => fun _ => ndiv n1 (nofnat n) end.
(** lines 524-534, on the sorted values and the cumulated signed weights *)
Definition w1c_from (k : nat) (zs cdf : vec) : N :=
  let t := order k cdf in
  let delta := fun i => nsub (if Nat.ltb (S i) k then zs (S i) else n1) (zs i) in
  let sw := fun l => nsub (nsum (S l) (fun i => delta (t i))) nhalf in
  let ind := argmin k (fun l => if nltb (sw l) n0 then None else Some (sw l)) in
  let levMed := cdf (t ind) in
  nsum k (fun i => nmul (delta i) (nabs (nsub (cdf i) levMed))).
(** lines 516-523, on the concatenated values and signed weights *)
Definition w1c_level (k : nat) (z e : vec) : N :=
  let s := order k z in
  w1c_from k (fun i => z (s i)) (fun i => nsum (S i) (fun t => e (s t))).
Definition wasserstein1_circle (n m : nat) (u v : vec) (uw vw : option vec) (require_sort : bool) : N :=
  let u := fun i => mod1 (u i) in
  let v := fun i => mod1 (v i) in
  let uw := unif n uw in
  let vw := unif m vw in
  let su := if require_sort then order n u else fun i => i in
  let sv := if require_sort then order m v else fun i => i in
  w1c_level (n + m) (cat n (fun i => u (su i)) (fun i => v (sv i))) (cat n (fun i => uw (su i)) (fun i => nopp (vw (sv i)))).

(** ** semidiscrete_wasserstein2_unif_circle, lines 680-705: the values are sorted, the weights are not *)
Definition semidiscrete (n : nat) (u : vec) (uw : option vec) : N :=
  let u := fun i => mod1 (u i) in
  let w := unif n uw in
  let s := order n u in
  let x := fun i => u (s i) in
  let cpt1 := nsum n (fun i => nmul (w i) (nmul (x i) (x i))) in
  let mean := nsum n (fun i => nmul (w i) (x i)) in
  let two := nadd n1 n1 in
  let ns := fun i => nsub (nsub n1 (w i)) (nmul two (nsum i w)) in
  let cpt2 := nsum n (fun i => nmul (nmul (x i) (w i)) (ns i)) in
  nadd (nadd (nsub cpt1 (nmul mean mean)) cpt2) (ndiv n1 (nofnat 12)).

(** ** linear_circular_embedding, lines 708-763; quantile_function (solver_1d.py:23-58) is called
    with the zero-padded cumulative weights *)
Definition embedding_mod (n : nat) (x : N) (u : vec) (uw : option vec) (require_sort : bool) : N :=
  let w := unif n uw in
  let s := if require_sort then order n u else fun i => i in
  let us := fun i => u (s i) in
  let ws := fun i => w (s i) in
  let cdf := n0 :: map (fun i => nsum (S i) ws) (seq 0 n) in
  let q := nadd (nsub x (nsum n (fun i => nmul (us i) (ws i)))) nhalf in
  mod1 (nsub (us (quantile_idx n cdf (mod1 q))) x).
Definition embedding (n : nat) (x : N) (u : vec) (uw : option vec) (require_sort : bool) : N :=
  embedding_mod n x (fun i => mod1 (u i)) uw require_sort.
Definition circ_gap (x y : N) : N := let d := nabs (nsub x y) in nmin d (nsub n1 d).
(** linear_circular_ot, lines 766-846: mean over the grid 0, 0.01, ..., 0.99 ([grid] points) *)
Definition linear_circular_ot (grid n m : nat) (u : vec) (v : option vec) (uw vw : option vec) : N :=
  let ts := fun k => ndiv (nofnat k) (nofnat grid) in
  let eu := fun k => embedding n (ts k) (fun i => mod1 (u i)) (Some (unif n uw)) true in
  let d := match v with
           | None => fun k => circ_gap (eu k) n0
           | Some v => fun k => circ_gap (eu k) (embedding m (ts k) v vw true)
           end in
  ndiv (nsum grid (fun k => nmul (d k) (d k))) (nofnat grid).

(** ** ot_cost_on_circle, lines 160-240 (sorted values, cumulative weights) *)
Variable powf : N -> N -> N.
Definition rot {A} (s : nat) (l : list A) : list A := skipn s l ++ firstn s l.
Definition hd1 (l : list N) : list N := match l with [] => [] | x :: _ => [nadd x n1] end.
Fixpoint map2 {A B C} (f : A -> B -> C) (l : list A) (l' : list B) : list C :=
  match l, l' with x :: r, y :: r' => f x y :: map2 f r r' | _, _ => [] end.
Definition shifted (theta : N) (v cv : list N) : list N * list N :=
  let fl := nfloor theta in
  let vt := map (fun c => nsub c (nsub theta fl)) cv in
  let neg := fun c => nltb c n0 in
  let v1 := map2 (fun c x => nadd x (if neg c then nadd fl n1 else fl)) vt v in
  let vt1 := if (existsb neg vt && existsb (fun c => negb (neg c)) vt)%bool then map (fun c => if neg c then nadd c n1 else c) vt else vt in
  let key := fun i => if neg (nth i vt n0) then None else Some (nth i vt1 n0) in
  let s := argmin (length vt) key in
  (rot s v1 ++ hd1 (rot s v1), rot s vt1).
Definition ot_cost_on_circle (theta : N) (u v cu cv : list N) (p : N) : N :=
  let (v2, vt2) := shifted theta v cv in
  let qs := vsort (cu ++ vt2) in
  (* lines 226-231: v_values is extended a second time; index at most m *)
  plan_value powf p u (v2 ++ hd1 v2) (quantile_plan (length u) (S (length v)) cu vt2 n0 qs).

(** ** binary_search_circle, lines 243-427, the search on one column.  [deriv] returns
    (dCp, dCm) of derivative_cost_on_circle; [cost] is ot_cost_on_circle.  [thousandth] is 0.001,
    [epsL] is eps / L.  None: still running after [fuel] iterations. *)
Fixpoint search (fuel : nat) (deriv : N -> N * N) (cost : N -> N) (epsL thousandth tm tp tc : N) : option N :=
  match fuel with
  | O => None
  | S fuel' =>
    let (dCp, dCm) := deriv tc in
    let done := nleb (nmul dCp dCm) n0 in
    let mask := (nltb (nsub tp tm) epsL && negb done)%bool in
    if mask then
      let dCptm := fst (deriv tm) in
      let dCmtp := snd (deriv tp) in
      Some (if nltb thousandth (nabs (nsub dCptm dCmtp))
            then ndiv (nsub (nadd (nsub (cost tp) (cost tm)) (nmul tm dCptm)) (nmul tp dCmtp)) (nsub dCptm dCmtp)
            else tc)
    else if done then Some tc
    else
      let tm' := if nltb dCp n0 then tc else tm in
      let tp' := if nltb dCp n0 then tp else tc in
      search fuel' deriv cost epsL thousandth tm' tp' (ndiv (nadd tm' tp') (nadd n1 n1))
  end.
(** lines 369-427 for one column with given derivative; sorting as in wasserstein_1d *)
Definition binary_search_circle (fuel : nat) (deriv : list N -> list N -> list N -> list N -> N -> N * N) (u v uw vw : list N) (p epsL thousandth tm tp : N) (require_sort : bool) : option N :=
  let u := map mod1 u in
  let v := map mod1 v in
  let pu := if require_sort then argsort u else seq 0 (length u) in
  let pv := if require_sort then argsort v else seq 0 (length v) in
  match take u pu, take v pv, take uw pu, take vw pv with
  | Some us, Some vs, Some ws, Some wv =>
      let cu := cumsum ws in
      let cv := cumsum wv in
      let cost := fun t => ot_cost_on_circle t us vs cu cv p in
      match search fuel (deriv us vs cu cv) cost epsL thousandth tm tp (ndiv (nadd tm tp) (nadd n1 n1)) with
      | Some t => Some (cost t)
      | None => None
      end
  | _, _, _, _ => None
  end.
(** wasserstein_circle, lines 537-634: assert p >= 1, then the binary search (also for p = 1) *)
End Circle.
