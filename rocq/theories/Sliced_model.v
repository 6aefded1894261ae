(** Model of /repo/ot/sliced: _utils.py:52-65 (get_random_projections), _sliced_distances.py
    (sliced and max-sliced distances) and _sliced_plans.py (sliced plans, min and expected plan).
    X_s is n x d, X_t is m x d, projections is d x L.  The random draws are an arbitrary matrix.
    Not modelled: apply_scaler (DataScaler is Utils_model), the shape assertions, the sparse output
    format, the log. *)
From Coq Require Import List Arith Bool.
From Verif Require Import Num Emd1d_model W1d_model Utils_model Circle_model.
Import ListNotations.

Section Sliced.
Context {N : NumOps}.
(** [powf x p] is x ** p, [sq] the square root *)
Variables (powf : N -> N -> N) (sq ex lg : N -> N).
Notation mat := (nat -> nat -> N).

(** _utils.py:64 *)
Definition normalize_projections (d : nat) (Z : mat) : mat := fun t k => ndiv (Z t k) (sq (nsum d (fun t => nmul (Z t k) (Z t k)))).

(** nx.dot(X, projections), column k *)
Definition project (n d : nat) (X th : mat) (k : nat) : list N := map (fun i => nsum d (fun t => nmul (X i t) (th t k))) (seq 0 n).
(** _sliced_distances.py:115-118, nx.full(n, 1 / n) *)
Definition full_weights (n : nat) (w : option (list N)) : list N := match w with Some w => w | None => repeat (ndiv n1 (nofnat n)) n end.

(** a python list built by a comprehension: the first failure is raised *)
Fixpoint all_ok {A} (l : list (res A)) : res (list A) :=
  match l with
  | [] => Ok []
  | Ok x :: r => match all_ok r with Ok y => Ok (x :: y) | ValueError => ValueError | AssertionError => AssertionError | IndexError => IndexError | OutOfBounds => OutOfBounds | OutOfFuel => OutOfFuel end
  | ValueError :: _ => ValueError
  | AssertionError :: _ => AssertionError
  | IndexError :: _ => IndexError
  | OutOfBounds :: _ => OutOfBounds
  | OutOfFuel :: _ => OutOfFuel
  end.
Definition bind {A B} (x : res A) (f : A -> res B) : res B :=
  match x with Ok y => f y | ValueError => ValueError | AssertionError => AssertionError | IndexError => IndexError | OutOfBounds => OutOfBounds | OutOfFuel => OutOfFuel end.

(** wasserstein_1d on the L columns of projections (one column at a time, see W1d_model) *)
Definition slices (n m d L : nat) (X Y th : mat) (a b : list N) (p : N) : res (list (N * list entry)) :=
  all_ok (map (fun k => wasserstein_1d powf (project n d X th k) (project m d Y th k) (Some a) (Some b) p true) (seq 0 L)).

(** sliced_wasserstein_distance, 99-137, with given projections (d x L).  L is n_projections *)
Definition sliced_wasserstein_distance (n m d L : nat) (X Y th : mat) (a b : option (list N)) (p : N) : res N :=
  bind (slices n m d L X Y th (full_weights n a) (full_weights m b) p) (fun l =>
  Ok (powf (ndiv (lsum (map fst l)) (nofnat L)) (ndiv n1 p))).
(** max_sliced_wasserstein_distance, 223-258; max of an empty array raises ValueError *)
Definition max_sliced_wasserstein_distance (n m d L : nat) (X Y th : mat) (a b : option (list N)) (p : N) : res N :=
  bind (slices n m d L X Y th (full_weights n a) (full_weights m b) p) (fun l =>
  match L with O => ValueError | S L' => Ok (powf (nmaxk L' (fun k => nth k (map fst l) n0)) (ndiv n1 p)) end).

(** ** sliced_plans, _sliced_plans.py:72-185 *)
(** 85-88 (and utils.py:374-377) *)
Definition the_p (mt : metric) (p : N) : N := match mt with Euclidean => nadd n1 n1 | CityBlock => n1 | _ => p end.
Definition sp_of (mt : metric) : sp_metric := match mt with Emd1d_model.SqEuclidean => Utils_model.SqEuclidean | _ => Utils_model.Minkowski end.
Definition pair_dist (mt : metric) (p : N) (d : nat) (X Y : mat) : mat := dist_idxs powf (the_p mt p) (sp_of mt) d X Y.
(** sparse_ot_dist with its outcomes in [res]; its own assertions on the lengths cannot fire here *)
Definition sp_to_res {A} (x : sp_res A) : res A := match x with SpOk y => Ok y | SpIndexError => IndexError | SpValueError => ValueError | SpAssert => AssertionError end.
(** line 99 *)
Definition is_perm (n m : nat) (a b : list N) : bool :=
  let c := ndiv (lsum a) (nofnat n) in
  (Nat.eqb n m && forallb (fun x => neqb x c) a && forallb (fun x => neqb x c) b)%bool.
(** one direction: the plan and its cost, 116-174 *)
Definition sliced_plan (n m d : nat) (X Y th : mat) (a b : list N) (mt : metric) (p : N) (bs : option nat) (k : nat) : res (list entry * N) :=
  let D := pair_dist mt p d X Y in
  let x := project n d X th k in let y := project m d Y th k in
  if is_perm n m a b then
    let sigma := argsort x in let tau := argsort y in
    bind (sp_to_res (sparse_ot_dist D sigma tau None bs)) (fun c =>
    Ok (map (fun t => (fst (fst t), snd (fst t), snd t)) (combine (combine a sigma) tau), c))
  else
    bind (wasserstein_1d powf x y (Some a) (Some b) (the_p mt p) true) (fun r =>
    let es := snd r in
    bind (sp_to_res (sparse_ot_dist D (map (fun e => snd (fst e)) es) (map snd es) (Some (map (fun e => fst (fst e)) es)) bs)) (fun c =>
    Ok (es, c))).
(** nx.stack([]) raises ValueError *)
Definition sliced_plans (n m d L : nat) (X Y th : mat) (a b : option (list N)) (mt : metric) (p : N) (bs : option nat) : res (list (list entry * N)) :=
  match mt with
  | MOther => AssertionError
  | _ => bind (all_ok (map (sliced_plan n m d X Y th (full_weights n a) (full_weights m b) mt p bs) (seq 0 L))) (fun l =>
         match l with [] => ValueError | _ => Ok l end)
  end.

(** ** min_sliced_transport_plan, 318-352 *)
Definition min_sliced_transport_plan (n m d L : nat) (X Y th : mat) (a b : option (list N)) (mt : metric) (p : N) (bs : option nat) : res (mat * N) :=
  bind (sliced_plans n m d L X Y th a b mt p bs) (fun l =>
  let pos := argmin (length l) (fun k => Some (nth k (map snd l) n0)) in
  Ok (dense (nth pos (map fst l) []), nth pos (map snd l) n0)).

(** ** expected_sliced_plan, 474-521 *)
(** 488-496; nx.logsumexp is written as the log of the sum of exponentials *)
Definition slice_weights (L : nat) (beta : N) (costs : list N) : list N :=
  if neqb beta n0 then repeat (ndiv n1 (nofnat L)) L
  else let lf := map (fun c => nmul (nopp beta) c) costs in
       let lse := lg (lsum (map ex lf)) in
       map (fun f => ex (nsub f lse)) lf.
(** 498-502 *)
Definition mix_plans (ws : list N) (plans : list (list entry)) : list entry :=
  flat_map (fun wp => map (fun e => (nmul (fst (fst e)) (fst wp), snd (fst e), snd e)) (snd wp)) (combine ws plans).
(** dist(X_s, X_t, metric=metric, p=p), utils.py:460-490 *)
Definition full_dist (mt : metric) (p : N) (d : nat) (X Y : mat) : mat := fun i j =>
  match mt with
  | Emd1d_model.SqEuclidean => euclidean_distances sq d X Y true false i j
  | Euclidean => euclidean_distances sq d X Y false false i j
  | CityBlock => nsum d (fun t => nabs (nsub (X i t) (Y j t)))
  | _ => powf (nsum d (fun t => powf (nabs (nsub (X i t) (Y j t))) p)) (ndiv n1 p)
  end.
Definition expected_sliced_plan (n m d L : nat) (X Y th : mat) (a b : option (list N)) (mt : metric) (p beta : N) (bs : option nat) : res (mat * N) :=
  bind (sliced_plans n m d L X Y th a b mt p bs) (fun l =>
  let costs := map snd l in
  let ws := slice_weights L beta costs in
  let G := dense (mix_plans ws (map fst l)) in
  let cost := if neqb beta n0 then nsum n (fun i => nsum m (fun j => nmul (G i j) (full_dist mt p d X Y i j)))
              else lsum (map (fun cw => nmul (fst cw) (snd cw)) (combine costs ws)) in
  Ok (G, cost)).
End Sliced.
