(** Model of parts of ot/utils.py: proj_simplex, projection_sparse_simplex,
    euclidean_distances, sparse_ot_dist, reduce_lazytensor, DataScaler. *)
From Coq Require Import List Arith Bool.
From Verif Require Import Num Emd1d_model.
Import ListNotations.

Section Model.
Context {N : NumOps}.

(** ** Simplex projections *)

(** utils.py:135-137 (sort, flip) for one column of [v]: position in the input of the k-th
    largest value.  The code sorts values; going through the permutation gives the same values.
    numpy's sort is modelled by the insertion argsort of Emd1d_model. *)
Definition desc (n : nat) (v : nat -> N) (k : nat) : nat :=
  nth (n - 1 - k) (argsort (map v (seq 0 n))) 0.

(** number of true entries of [p] on 0..k-1 (nx.sum(cond, 0), np.count_nonzero) *)
Fixpoint count (k : nat) (p : nat -> bool) : nat :=
  match k with O => 0 | S k' => count k' p + (if p k' then 1 else 0) end.

(** utils.py:138-142: cssv, cond, rho, theta from the descending values [u] (n of them).
    [cssv[rho - 1]] with rho = 0 reads the last element (python index -1). *)
Definition cssv (u : nat -> N) (z : N) (k : nat) : N := nsub (nsum (S k) u) z.
Definition simplex_rho (n : nat) (u : nat -> N) (z : N) : nat :=
  count n (fun k => nltb n0 (nsub (u k) (ndiv (cssv u z k) (nofnat (N:=N) (S k))))).
Definition simplex_theta (n : nat) (u : nat -> N) (z : N) : N :=
  let rho := simplex_rho n u z in
  let last := if Nat.eqb rho 0 then n - 1 else rho - 1 in
  ndiv (cssv u z last) (nofnat (N:=N) rho).

(** utils.py:97-147 on one column; also smooth.py:85-94 on one row *)
Definition proj_simplex (n : nat) (v : nat -> N) (z : N) : nat -> N :=
  let theta := simplex_theta n (fun k => v (desc n v k)) z in
  fun i => nmax (nsub (v i) theta) n0.

(** utils.py:195-229 on one row: the [max_nz] largest entries are projected, the others are 0.
    [max_nz] outside 1..n makes the broadcast on line 211 fail (None); the single-column case,
    where numpy broadcasts instead, is not modelled. *)
Definition projection_sparse_simplex (n : nat) (v : nat -> N) (max_nz : nat) (z : N) : option (nat -> N) :=
  if (Nat.leb 1 max_nz && Nat.leb max_nz n)%bool then
    let u := fun k => v (desc n v k) in
    let theta := simplex_theta max_nz u z in
    let write := fun (G : nat -> N) k =>
      let p := desc n v k in fun i => if Nat.eqb i p then nmax (nsub (u k) theta) n0 else G i in
    Some (fold_left write (seq 0 max_nz) (fun _ => n0))
  else None.

(** ** utils.py:270-307 euclidean_distances; [same] is the test [X is Y] of line 304.
    [sqrt_] is the backend's square root. *)
Definition euclidean_distances (sqrt_ : N -> N) (d : nat) (X Y : nat -> nat -> N) (squared same : bool)
  (i j : nat) : N :=
  let a2 := nsum d (fun k => nmul (X i k) (X i k)) in
  let b2 := nsum d (fun k => nmul (Y j k) (Y j k)) in
  let two := nadd n1 n1 in
  let c := nmul (nopp two) (nsum d (fun k => nmul (X i k) (Y j k))) in
  let c := nadd c a2 in
  let c := nadd c b2 in
  let c := nmax c n0 in
  let c := if squared then c else sqrt_ c in
  if same then nmul c (nsub n1 (if Nat.eqb i j then n1 else n0)) else c.

(** ** python range(0, n, step): None stands for the ValueError on step 0.
    Negative steps (an empty range, hence a silent 0) are not modelled. *)
Fixpoint range_from (fuel start n step : nat) : list nat :=
  match fuel with
  | O => []
  | S f => if Nat.ltb start n then start :: range_from f (start + step) n step else []
  end.
Definition range (n step : nat) : option (list nat) :=
  if Nat.eqb step 0 then None else Some (range_from n 0 n step).

Definition slice {A} (l : list A) (b e : nat) : list A := firstn (e - b) (skipn b l).

(** ** utils.py:310-397 sparse_ot_dist.
    [dist_idxs]: line 379-383; [pow_ x p] is [x ** p] of the backend, [inv p] = 1/p. *)
Inductive sp_metric := SqEuclidean | Minkowski.
Definition dist_idxs (pow_ : N -> N -> N) (p : N) (mt : sp_metric) (d : nat) (x1 x2 : nat -> nat -> N) (i j : nat) : N :=
  match mt with
  | SqEuclidean => nsum d (fun k => nmul (nsub (x1 i k) (x2 j k)) (nsub (x1 i k) (x2 j k)))
  | Minkowski => pow_ (nsum d (fun k => pow_ (nabs (nsub (x1 i k) (x2 j k))) p)) (ndiv n1 p)
  end.

Inductive sp_res (A : Type) := SpOk (x : A) | SpIndexError | SpValueError | SpAssert.
Arguments SpOk {A}. Arguments SpIndexError {A}. Arguments SpValueError {A}. Arguments SpAssert {A}.

(** one batch, lines 392-395: note [w[i[...]]], an index into the weights by sample number *)
Definition sp_batch (dist : nat -> nat -> N) (w : list N) (i j : list nat) : sp_res N :=
  match take w i with
  | None => SpIndexError
  | Some wi => SpOk (lsum (map (fun t => nmul (dist (fst (fst t)) (snd (fst t))) (snd t)) (combine (combine i j) wi)))
  end.

Fixpoint sp_loop (dist : nat -> nat -> N) (w : list N) (i j : list nat) (bs : nat) (starts : list nat) (d : N) : sp_res N :=
  match starts with
  | [] => SpOk d
  | b :: starts' =>
      match sp_batch dist w (slice i b (b + bs)) (slice j b (b + bs)) with
      | SpOk x => sp_loop dist w i j bs starts' (nadd d x)
      | e => e
      end
  end.

(** sample indices out of range of x1/x2 are not modelled: [dist] is total *)
Definition sparse_ot_dist (dist : nat -> nat -> N) (i j : list nat) (w : option (list N)) (batch_size : option nat) : sp_res N :=
  if negb (Nat.eqb (length i) (length j)) then SpAssert else
  if match w with Some w => negb (Nat.eqb (length w) (length i)) | None => false end then SpAssert else
  let w := match w with Some w => w | None => repeat (ndiv n1 (nofnat (N:=N) (length i))) (length i) end in
  let bs := match batch_size with Some b => b | None => length i end in
  match range (length i) bs with
  | None => SpValueError
  | Some starts => sp_loop dist w i j bs starts n0
  end.

(** ** utils.py:739-809 reduce_lazytensor.  The tensor is the list of its slices along the
    batched axis (rows for axis None and 1, columns for axis 0). *)
Section Lazy.
Context {A B : Type}.
(** lines 776-780 *)
Fixpoint reduce_all_loop (func : list A -> N) (a : list A) (bs : nat) (starts : list nat) (res : N) : N :=
  match starts with
  | [] => res
  | i :: starts' => reduce_all_loop func a bs starts' (nadd res (func (slice a i (i + bs))))
  end.
Definition reduce_all (func : list A -> N) (a : list A) (bs : nat) : option N :=
  match range (length a) bs with
  | None => None
  | Some starts => Some (reduce_all_loop func a bs starts n0)
  end.

(** slice assignment res[i : i+bs] = x; None is the ValueError on a length mismatch *)
Definition set_slice (res : list B) (i bs : nat) (x : list B) : option (list B) :=
  if Nat.eqb (length (slice res i (i + bs))) (length x)
  then Some (firstn i res ++ x ++ skipn (i + length x) res) else None.

(** lines 789-790 and 804-805 (numpy, torch, cupy) *)
Fixpoint reduce_axis_loop (func : list A -> list B) (a : list A) (bs : nat) (starts : list nat) (res : list B) : option (list B) :=
  match starts with
  | [] => Some res
  | i :: starts' =>
      match set_slice res i bs (func (slice a i (i + bs))) with
      | None => None
      | Some res' => reduce_axis_loop func a bs starts' res'
      end
  end.
Definition reduce_axis (zero : B) (func : list A -> list B) (a : list A) (bs : nat) : option (list B) :=
  match range (length a) bs with
  | None => None
  | Some starts => reduce_axis_loop func a bs starts (repeat zero (length a))
  end.
(** lines 783-787 and 798-802 (jax, tf): concatenation; an empty list of arrays raises *)
Definition reduce_axis_concat (func : list A -> list B) (a : list A) (bs : nat) : option (list B) :=
  match range (length a) bs with
  | None => None
  | Some [] => None
  | Some starts => Some (concat (map (fun i => func (slice a i (i + bs))) starts))
  end.
End Lazy.

(** ** utils.py:1590-1793 DataScaler *)
Inductive norm := Standard | MinMax | L2.
(** a data set: number of rows, entries (the feature count [d] is fixed) *)
Record data := mkdata { rows : nat; entry_ : nat -> nat -> N }.

(** fitted statistics per feature: (mean, std) or (min, max) *)
Record scaler := mkscaler { sc_norm : norm; sc_fitted : bool; sc_lo : nat -> N; sc_hi : nat -> N }.

Definition new_scaler (nm : norm) : scaler := mkscaler nm false (fun _ => n0) (fun _ => n0).

(** nx.concatenate(X, axis=0) *)
Definition concat2 (x y : data) : data :=
  mkdata (rows x + rows y) (fun i k => if Nat.ltb i (rows x) then entry_ x i k else entry_ y (i - rows x) k).
Fixpoint concat_data (l : list data) : data :=
  match l with [] => mkdata 0 (fun _ _ => n0) | x :: l' => concat2 x (concat_data l') end.

Inductive sc_res (A : Type) := ScOk (x : A) | ScRuntimeError | ScValueError.
Arguments ScOk {A}. Arguments ScRuntimeError {A}. Arguments ScValueError {A}.

Section Scaler.
Variable sqrt_ : N -> N.

Definition mean (X : data) (k : nat) : N := ndiv (nsum (rows X) (fun i => entry_ X i k)) (nofnat (N:=N) (rows X)).
(** population standard deviation (numpy default ddof=0) *)
Definition std (X : data) (k : nat) : N :=
  let mu := mean X k in
  sqrt_ (ndiv (nsum (rows X) (fun i => nmul (nsub (entry_ X i k) mu) (nsub (entry_ X i k) mu))) (nofnat (N:=N) (rows X))).

(** fit, 1645-1709, for a list of arrays (a single array is the one-element list).
    An array without rows is a ValueError in numpy for min/max and NaN for mean; both are
    outside the model, as are the backend check and the warnings. *)
Definition fit (s : scaler) (l : list data) : sc_res scaler :=
  match l with
  | [] => ScValueError
  | _ =>
    let X := concat_data l in
    match sc_norm s with
    | L2 => ScOk (mkscaler L2 true (sc_lo s) (sc_hi s))
    | Standard =>
        ScOk (mkscaler Standard true (mean X) (fun k => if neqb (std X k) n0 then n1 else std X k))
    | MinMax =>
        let mn := fun k => nmink (rows X - 1) (fun i => entry_ X i k) in
        let mx := fun k => nmaxk (rows X - 1) (fun i => entry_ X i k) in
        ScOk (mkscaler MinMax true mn (fun k => if neqb (mx k) (mn k) then nadd (mn k) n1 else mx k))
    end
  end.

(** _apply_transform, 1711-1756, on one array with [d] features *)
Definition apply_transform (d : nat) (s : scaler) (X : data) : data :=
  match sc_norm s with
  | Standard => mkdata (rows X) (fun i k => ndiv (nsub (entry_ X i k) (sc_lo s k)) (sc_hi s k))
  | MinMax => mkdata (rows X) (fun i k => ndiv (nsub (entry_ X i k) (sc_lo s k)) (nsub (sc_hi s k) (sc_lo s k)))
  | L2 => mkdata (rows X) (fun i k =>
      let nrm := sqrt_ (nsum d (fun k => nmul (entry_ X i k) (entry_ X i k))) in
      ndiv (entry_ X i k) (if neqb nrm n0 then n1 else nrm))
  end.

(** transform, 1758-1778 *)
Definition transform (d : nat) (s : scaler) (X : data) : sc_res data :=
  match sc_norm s with
  | L2 => ScOk (apply_transform d s X)
  | _ => if sc_fitted s then ScOk (apply_transform d s X) else ScRuntimeError
  end.

(** fit_transform, 1780-1793, on one array *)
Definition fit_transform (d : nat) (s : scaler) (X : data) : sc_res (scaler * data) :=
  match fit s [X] with
  | ScOk s' => ScOk (s', apply_transform d s' X)
  | ScRuntimeError => ScRuntimeError
  | ScValueError => ScValueError
  end.
End Scaler.
End Model.
Arguments SpOk {A}. Arguments SpIndexError {A}. Arguments SpValueError {A}. Arguments SpAssert {A}.
Arguments ScOk {A}. Arguments ScRuntimeError {A}. Arguments ScValueError {A}.
