(** Model of the one-dimensional solver.
    /repo/ot/lp/emd_wrap.pyx:142-227 (emd_1d_sorted) and
    /repo/ot/lp/solver_1d.py:202-368 (emd_1d), 371-466 (emd2_1d). *)
From Coq Require Import List Arith Bool.
From Verif Require Import Num.
Import ListNotations.

(** Outcomes: normal return, Python exceptions, undefined behaviour (out-of-bounds
    access: the Cython function is compiled with boundscheck(False)), and the model's
    own out-of-fuel marker. *)
Inductive res (A : Type) : Type :=
| Ok (x : A)
| ValueError
| AssertionError
| IndexError
| OutOfBounds
| OutOfFuel.
Arguments Ok {A}. Arguments ValueError {A}. Arguments AssertionError {A}.
Arguments IndexError {A}. Arguments OutOfBounds {A}. Arguments OutOfFuel {A}.

(** metric strings accepted by emd_wrap.pyx:194-203; [MOther] is any other string *)
Inductive metric := SqEuclidean | CityBlock | Euclidean | Minkowski | MOther.

Section Emd1d.
Context {N : NumOps}.
(** [powf x p] models C's [pow]; left abstract here. *)
Variable powf : N -> N -> N.

(** emd_wrap.pyx:194-203 : ground cost of one pair *)
Definition ground (mt : metric) (p : N) (x y : N) : option N :=
  match mt with
  | SqEuclidean => Some (nmul (nsub x y) (nsub x y))
  | CityBlock | Euclidean => Some (nabs (nsub x y))
  | Minkowski => Some (powf (nabs (nsub x y)) p)
  | MOther => None
  end.

(** one transported chunk: value, row, column (G[cur_idx], indices[cur_idx,0..1]) *)
Definition entry := (N * nat * nat)%type.

(** emd_wrap.pyx:193-226, the [while True] loop.  State: i, w_i, j, w_j, cur_idx, cost.
    [n], [m] are the two lengths; arrays are read with bounds checks that return
    [OutOfBounds]; writing G[cur_idx] is out of bounds when cur_idx >= n+m-1. *)
Fixpoint loop (fuel : nat) (uw vw u v : list N) (mt : metric) (p : N)
    (i : nat) (wi : N) (j : nat) (wj : N) (cur : nat) (cost : N) (acc : list entry)
  : res (list entry * N) :=
  match fuel with
  | O => OutOfFuel
  | S fuel' =>
    let n := length uw in
    let m := length vw in
    match nth_error u i, nth_error v j with
    | Some ui, Some vj =>
      match ground mt p ui vj with
      | None => ValueError
      | Some mij =>
        if Nat.leb (n + m - 1) cur then OutOfBounds
        else if (nltb wi wj || Nat.eqb (S j) m)%bool then
          (* lines 204-212 *)
          let cost' := nadd cost (nmul mij wi) in
          let acc' := acc ++ [(wi, i, j)] in
          if Nat.eqb (S i) n then Ok (acc', cost')
          else match nth_error uw (S i) with
               | Some wi' => loop fuel' uw vw u v mt p (S i) wi' j (nsub wj wi) (S cur) cost' acc'
               | None => OutOfBounds
               end
        else
          (* lines 213-222 *)
          let cost' := nadd cost (nmul mij wj) in
          let acc' := acc ++ [(wj, i, j)] in
          if Nat.eqb (S j) m then Ok (acc', cost')
          else match nth_error vw (S j) with
               | Some wj' => loop fuel' uw vw u v mt p i (nsub wi wj) (S j) wj' (S cur) cost' acc'
               | None => OutOfBounds
               end
      end
    | _, _ => OutOfBounds
    end
  end.

(** emd_wrap.pyx:178-227.  u_weights[0] and v_weights[0] are read before any check. *)
Definition emd_1d_sorted (uw vw u v : list N) (mt : metric) (p : N) : res (list entry * N) :=
  match uw, vw with
  | w0 :: _, w1 :: _ =>
      loop (length uw + length vw) uw vw u v mt p 0 w0 0 w1 0 n0 []
  | _, _ => OutOfBounds
  end.

(** coo_matrix(...).todense(): duplicate coordinates are summed. *)
Fixpoint dense (es : list entry) (i j : nat) : N :=
  match es with
  | [] => n0
  | (w, i', j') :: es' =>
      if (Nat.eqb i' i && Nat.eqb j' j)%bool then nadd w (dense es' i j) else dense es' i j
  end.

(** insertion-based stable argsort (numpy's argsort returns some sorting permutation;
    which one among ties is not used by any theorem: see [emd_1d_with_perm]) *)
Fixpoint insert_idx (key : nat -> N) (x : nat) (l : list nat) : list nat :=
  match l with
  | [] => [x]
  | y :: l' => if nltb (key x) (key y) then x :: y :: l' else y :: insert_idx key x l'
  end.
Fixpoint argsort_aux (key : nat -> N) (k : nat) : list nat :=
  match k with O => [] | S k' => insert_idx key k' (argsort_aux key k') end.
Definition argsort (xs : list N) : list nat :=
  argsort_aux (fun i => nth i xs n0) (length xs).

(** numpy fancy indexing xs[perm]: IndexError when an index is out of range *)
Fixpoint take {A} (xs : list A) (perm : list nat) : option (list A) :=
  match perm with
  | [] => Some []
  | k :: perm' =>
      match nth_error xs k, take xs perm' with
      | Some x, Some l => Some (x :: l)
      | _, _ => None
      end
  end.

Fixpoint nofnat (k : nat) : N := match k with O => n0 | S k' => nadd (nofnat k') n1 end.

(** solver_1d.py:319-322: None or an empty array means uniform weights *)
Definition weights (w : option (list N)) (k : nat) : list N :=
  match w with
  | None | Some [] => repeat (ndiv n1 (nofnat k)) k
  | Some l => l
  end.

Definition lsum (l : list N) : N := fold_left nadd l n0.

(** solver_1d.py:332-359 for given sorting permutations *)
Definition emd_1d_with_perm (xa xb a b : list N) (mt : metric) (p : N) (pa pb : list nat)
  : res (list entry * N) :=
  let b' := map (fun y => ndiv (nmul y (lsum a)) (lsum b)) b in      (* line 332 *)
  match take a pa, take b' pb, take xa pa, take xb pb with
  | Some sa, Some sb, Some sxa, Some sxb =>
    match emd_1d_sorted sa sb sxa sxb mt p with
    | Ok (es, c) =>
        Ok (map (fun e => match e with (w, i, j) => (w, nth i pa 0, nth j pb 0) end) es, c)
    | ValueError => ValueError | AssertionError => AssertionError | IndexError => IndexError
    | OutOfBounds => OutOfBounds | OutOfFuel => OutOfFuel
    end
  | _, _, _, _ => IndexError
  end.

(** solver_1d.py:202-359.  [close] models numpy.testing.assert_almost_equal(decimal=6);
    the array library's conversions (float64, sparse/dense, backend) are not modelled. *)
Definition emd_1d (close : N -> N -> bool) (check_marginals : bool)
    (xa xb : list N) (a b : option (list N)) (mt : metric) (p : N) : res (list entry * N) :=
  match mt with
  | MOther => ValueError
  | _ =>
    let a' := weights a (length xa) in
    let b' := weights b (length xb) in
    if (negb check_marginals || close (lsum a') (lsum b'))%bool
    then emd_1d_with_perm xa xb a' b' mt p (argsort xa) (argsort xb)
    else AssertionError
  end.

(** solver_1d.py:371-466: emd2_1d returns the cost logged by emd_1d *)
Definition emd2_1d (close : N -> N -> bool) (check_marginals : bool)
    (xa xb : list N) (a b : option (list N)) (mt : metric) (p : N) : res N :=
  match emd_1d close check_marginals xa xb a b mt p with
  | Ok (_, c) => Ok c
  | ValueError => ValueError | AssertionError => AssertionError | IndexError => IndexError
  | OutOfBounds => OutOfBounds | OutOfFuel => OutOfFuel
  end.
End Emd1d.
