(** BSP-OT: bijections between two point clouds (ot/bsp/bsp_ot.py,
    ot/bsp/bsp_wrap.pyx, ot/bsp/bsp_wrapper.cpp,
    ot/bsp/BSP-OT_header_only.h).

    Integer arrays of length [n] are functions on [nat] read below [n]; the
    entry -1 of the C++ arrays (never read back) is the value [n].  The ground
    cost is a function [cost i j] of the index of the first point and of the
    index of the second one (makeCost, bsp_wrapper.cpp 15-31).  Arithmetic is
    the record [NumOps]: the C++ code works in single precision
    (BSP-OT_header_only.h 21). *)
From Coq Require Import List Arith Lia Bool.
From Verif Require Import Num Emd1d_model.
Import ListNotations.

Definition bmap := nat -> nat.

(** array write *)
Definition bupd {A} (f : nat -> A) (i : nat) (x : A) : nat -> A :=
  fun k => if k =? i then x else f k.

(** BijectiveMatching::getInverse, BSP-OT_header_only.h 814-819 *)
Definition get_inverse (n : nat) (T : bmap) : bmap :=
  fold_left (fun TI i => bupd TI (T i) i) (seq 0 n) (fun _ => n).

Section Merge.
Context {N : NumOps}.
Implicit Types cost : nat -> nat -> N.

(** BijectiveMatching::evalMatching, BSP-OT_header_only.h 754-763: the mean
    cost of the pairs (0 on an empty plan) *)
Definition eval_matching (n : nat) cost (T : bmap) : N :=
  match n with
  | O => n0
  | S _ => ndiv (nsum n (fun i => cost i (T i))) (nofnat n)
  end.

(** the arrays written by one round of MergePlansNoPar: rslt, rsltI, C, Tp, Cp *)
Record mst := mk_mst {
  m_T : bmap; m_TI : bmap; m_C : nat -> N; m_Tp : bmap; m_Cp : nat -> N }.

(** the loop [while (visited[j] == -1)], 933-939: the indices it visits in
    order, and the visited flags afterwards.  [None]: out of fuel. *)
Fixpoint walk (fuel : nat) (sig : bmap) (vis : nat -> bool) (j : nat) : option (list nat * (nat -> bool)) :=
  if vis j then Some ([], vis) else
  match fuel with
  | O => None
  | S f => match walk f sig (bupd vis j true) (sig j) with
           | None => None
           | Some (l, v) => Some (j :: l, v)
           end
  end.

(** the loops [do ... while (j != i0)], 943-952: the indices visited *)
Fixpoint orbit (fuel : nat) (sig : bmap) (i0 j : nat) : option (list nat) :=
  match fuel with
  | O => None
  | S f => if sig j =? i0 then Some [j]
           else match orbit f sig i0 (sig j) with None => None | Some l => Some (j :: l) end
  end.

(** body of the first do-while, 944-945: exchange the two plans at [j] *)
Definition swap_at (s : mst) (j : nat) : mst :=
  mk_mst (bupd (m_T s) j (m_Tp s j)) (m_TI s) (bupd (m_C s) j (m_Cp s j))
         (bupd (m_Tp s) j (m_T s j)) (bupd (m_Cp s) j (m_C s j)).

(** body of the second do-while, 950 *)
Definition reinv_at (s : mst) (j : nat) : mst :=
  mk_mst (m_T s) (bupd (m_TI s) (m_T s j) j) (m_C s) (m_Tp s) (m_Cp s).

(** body of the cycle loop, 920-958: [acc] is visited, the arrays and the
    cycles found so far *)
Definition cycle_step (n : nat) (sig : bmap) (acc : option ((nat -> bool) * mst * list (list nat))) (i : nat)
  : option ((nat -> bool) * mst * list (list nat)) :=
  match acc with
  | None => None
  | Some (vis, s, ccs) =>
    if vis i then acc
    else if sig i =? i then acc
    else match walk n sig vis i with
         | None => None
         | Some (cc, vis') =>
           let costT := fold_left (fun a j => nadd a (m_C s j)) cc n0 in
           let costTP := fold_left (fun a j => nadd a (m_Cp s j)) cc n0 in
           if nltb costTP costT
           then match orbit n sig i i with
                | None => None
                | Some l =>
                  let s1 := fold_left swap_at l s in
                  let s2 := fold_left reinv_at l s1 in
                  Some (vis', s2, ccs ++ [cc])
                end
           else Some (vis', s, ccs ++ [cc])
         end
  end.

(** exchange of one pair of assignments, 962-985 *)
Definition pair_step cost (s : mst) (a : nat) : mst :=
  let b := m_T s a in
  let bp := m_Tp s a in
  let ap := m_TI s bp in
  if (a =? ap) || (b =? bp) then s else
  let old_cost := nadd (m_C s a) (m_C s ap) in
  let cabp := m_Cp s a in
  if nltb old_cost cabp then s else
  let capb := cost ap b in
  if nltb (nadd cabp capb) old_cost
  then mk_mst (bupd (bupd (m_T s) a bp) ap b) (bupd (bupd (m_TI s) bp a) b ap)
              (bupd (bupd (m_C s) a cabp) ap capb) (m_Tp s) (m_Cp s)
  else s.

(** one round of MergePlansNoPar, 906-987 (with its default [cycle = true]):
    the plan [Tp] is merged into the current plan ([T], inverse [TI], costs [C]) *)
Definition merge_round (n : nat) cost (Tp T TI : bmap) (C : nat -> N) : option (bmap * bmap * (nat -> N)) :=
  let Tpi := get_inverse n Tp in
  let Cp := fun i => cost i (Tp i) in
  let sig := fun i => Tpi (T i) in
  match fold_left (cycle_step n sig) (seq 0 n) (Some ((fun _ => false), mk_mst T TI C Tp Cp, [])) with
  | None => None
  | Some (_, s, ccs) =>
    let s' := fold_left (fun s0 cc => fold_left (pair_step cost) cc s0) ccs s in
    Some (m_T s', m_TI s', m_C s')
  end.

Fixpoint merge_loop (n : nat) cost (l : list bmap) (T TI : bmap) (C : nat -> N) : option bmap :=
  match l with
  | [] => Some T
  | Tp :: l' => match merge_round n cost Tp T TI C with
                | None => None
                | Some (T', TI', C') => merge_loop n cost l' T' TI' C'
                end
  end.

(** what a call can do *)
Inductive mres :=
| MOk (T : bmap)
| MUndefined (* an array is read out of its bounds *)
| MFuel (* fuel of the model exhausted *)
.

(** MergePlansNoPar, 890-988.  [rank scores] is the order of the plans given by
    rankPlans (682-695): std::sort of the mean costs, whose order among equal
    costs is unspecified, hence a parameter.  [T0 = None] is the empty plan. *)
Definition merge_plans (n : nat) (rank : list N -> list nat) cost (plans : list bmap) (T0 : option bmap) : mres :=
  match plans with
  | [] => MUndefined (* plans[I[0]] at 894, plans[0] at 897 *)
  | p0 :: _ =>
    let I := rank (map (eval_matching n cost) plans) in
    let order := map (fun k => nth k plans p0) I in
    let go T l := match merge_loop n cost l T (get_inverse n T) (fun i => cost i (T i)) with
                  | None => MFuel | Some R => MOk R end in
    match T0 with
    | Some T => go T order
    | None => match order with [] => MUndefined | T :: l => go T l end
    end
  end.

(** merge_bijections_c, bsp_wrap.pyx 70-96, and MergeBijections,
    bsp_wrapper.cpp 127-146: [perms] is the flat C-ordered buffer of the array
    of shape (rows, cols); the number of plans handed to C++ is
    [plans.shape[1]], the number of columns; plan [i] is read at offset [i * n]. *)
Definition merge_bijections_c (n : nat) (rank : list N -> list nat) cost (rows cols : nat) (buf : nat -> nat) : mres :=
  let k := cols in
  if rows * cols <? k * n then MUndefined
  else merge_plans n rank cost (map (fun i j => buf (i * n + j)) (seq 0 k)) None.

(** shape and error behaviour of merge_bijections, bsp_ot.py 118-182 *)
Inductive bexn := BValueError | BBufferMismatch.
Inductive bres :=
| BRaise (e : bexn)
| BUndefined
| BFuel
| BRet (cost : N) (perm : bmap).

Definition shape_eqb (a b : list nat) : bool := if list_eq_dec Nat.eq_dec a b then true else false.

(** merge_bijections, bsp_ot.py 118-182: the returned cost is recomputed from
    the permutation, the value of the C++ code only feeds a warning (not
    modelled).  [cost] is the per-pair cost; 172-177. *)
Definition merge_bijections (shX shY : list nat) (rank : list N -> list nat) cost (rows cols : nat) (buf : nat -> nat) : bres :=
  if negb (shape_eqb shX shY) then BRaise BValueError
  else match shX with
       | [n; _] =>
         match merge_bijections_c n rank cost rows cols buf with
         | MUndefined => BUndefined
         | MFuel => BFuel
         | MOk T => BRet (ndiv (nsum n (fun i => cost i (T i))) (nofnat n)) T
         end
       | _ => BRaise BValueError
       end.

(** ** the BSP matchings

    partialBSPOT (1861-1876), gaussianPartialBSPOT (1818-1856) and
    partialOrthogonalBSPOT (1912-1930) recurse on a range of the two arrays
    idA and idB; the model recurses on the two lists of ids of the range (the
    two arrays are touched nowhere else).  They only differ in the direction
    [d] of the slice and in the pivot, which may depend on the random state, on
    the depth, on the previous slice and on the two ranges: [slice path la lb]
    gives the two keys (the projections computed at 1777-1780), and
    [pivot path la lb] the pivot minus [beg]; [path] is the list of turns
    (false: left) from the root.  [nth path key l k] is std::nth_element on the
    first and on the second array. *)
Definition keyfun := nat -> N.
Record bsp_choices := mk_choices {
  ch_slice : list bool -> list nat -> list nat -> keyfun * keyfun;
  ch_pivot : list bool -> list nat -> list nat -> nat;
  ch_nth : list bool -> keyfun -> list nat -> nat -> list nat }.

Fixpoint partial_bsp (fuel : nat) (ch : bsp_choices) (path : list bool) (la lb : list nat) : option (list nat * list nat) :=
  match fuel with
  | O => None
  | S f =>
    if length la =? 1 then Some (la, lb) else
    let k := ch_pivot ch path la lb in
    let '(ka, kb) := ch_slice ch path la lb in
    let la' := ch_nth ch path ka la k in
    let lb' := ch_nth ch path kb lb k in
    match partial_bsp f ch (path ++ [false]) (firstn k la') (firstn k lb'),
          partial_bsp f ch (path ++ [true]) (skipn k la') (skipn k lb') with
    | Some (a1, b1), Some (a2, b2) => Some (a1 ++ a2, b1 ++ b2)
    | _, _ => None
    end
  end.

(** slice of partialOrthogonalBSPOT, 1924-1925, before [d.normalize()] (which
    leaves the zero vector unchanged) *)
Definition orth_slice (d : nat) (g prev : nat -> N) : nat -> N :=
  let gp := nsum d (fun k => nmul (g k) (prev k)) in
  let pp := nsum d (fun k => nmul (prev k) (prev k)) in
  fun k => nsub (g k) (ndiv (nmul gp (prev k)) pp).

(** computeMatching / computeGaussianMatching, 1966-1979 and 2001-2008:
    plan[idA[i].id] = idB[i].id *)
Definition compute_matching (n : nat) (ch : bsp_choices) : option bmap :=
  match partial_bsp n ch [] (seq 0 n) (seq 0 n) with
  | None => None
  | Some (la, lb) => Some (fold_left (fun p ab => bupd p (fst ab) (snd ab)) (combine la lb) (fun _ => 0))
  end.

Fixpoint all_matchings (n : nat) (chs : list bsp_choices) : option (list bmap) :=
  match chs with
  | [] => Some []
  | c :: r => match compute_matching n c, all_matchings n r with
              | Some p, Some l => Some (p :: l)
              | _, _ => None
              end
  end.

(** compute_bspot_bijection, bsp_ot.py 9-115: [init] is initial_perm with its
    shape and whether its dtype is int32, the only one the Cython argument
    [np.ndarray\[int\]] (bsp_wrap.pyx 28) accepts; [chs] are the random choices of
    the [n_plans] matchings (bsp_wrapper.cpp 34-51).  The printed message, the
    warning and the returned [perms] are left out. *)
Record init_perm := mk_init { ip_shape : list nat; ip_int32 : bool; ip_perm : bmap }.

Definition compute_bspot (shX shY : list nat) (rank : list N -> list nat) cost (chs : list bsp_choices) (init : option init_perm) : bres :=
  if negb (shape_eqb shX shY) then BRaise BValueError
  else match shX with
       | [n; _] =>
         if match init with Some ip => negb (shape_eqb (ip_shape ip) [n]) | None => false end
         then BRaise BValueError
         else if match init with Some ip => negb (ip_int32 ip) | None => false end
         then BRaise BBufferMismatch
         else match all_matchings n chs with
              | None => BFuel
              | Some plans =>
                match merge_plans n rank cost plans (option_map ip_perm init) with
                | MUndefined => BUndefined
                | MFuel => BFuel
                | MOk T => BRet (ndiv (nsum n (fun i => cost i (T i))) (nofnat n)) T
                end
              end
       | _ => BRaise BValueError
       end.
End Merge.
Arguments mst N : clear implicits.
Arguments bsp_choices N : clear implicits.
Arguments bres N : clear implicits.
Arguments keyfun N : clear implicits.
