(** Model of the stochastic Gromov-Wasserstein estimators, /repo/ot/gromov/_estimators.py 21-481.
    The random generator is a family of arbitrary answers (one per call, allowed to depend on the current plan); what
    numpy's Generator.choice guarantees about them is stated in the specifications, not here.  Probability vectors that
    numpy refuses are given by [prob_ok].  Sparse and dense plans are both functions; only the default number of samples
    depends on the format. *)
From Coq Require Import List Arith Bool.
From Verif Require Import Num Sinkhorn_model Emd1d_model.
Import ListNotations.

(** GUnbound: UnboundLocalError; GFailed: an exception of the 1-D solver *)
Inductive gout (A : Type) := GOk (x : A) | GValueError | GUnbound | GFailed.
Arguments GOk {A}. Arguments GValueError {A}. Arguments GUnbound {A}. Arguments GFailed {A}.

(** the indices drawn by one call of GW_distance_estimation (114-141): rows i and j, and per row the columns k and l *)
Record draws := Draws { d_i : nat -> nat; d_j : nat -> nat; d_k : nat -> nat -> nat; d_l : nat -> nat -> nat }.

Section Estim.
Context {N : NumOps}.
Definition evec := nat -> N.
Definition emat := nat -> nat -> N.
Variable loss : N -> N -> N.
Variable root : N -> N.
(** numpy's check of a probability vector: no NaN, non-negative, sum 1 up to a tolerance *)
Variable prob_ok : nat -> evec -> bool.
(** 103: int(5 * (n * log n) ** 0.5) *)
Variable heur : nat -> nat.

(** np.count_nonzero(p > 0) *)
Definition support_size (n : nat) (p : evec) : nat := length (filter (fun i => nltb n0 (p i)) (seq 0 n)).
(** Generator.choice(n, size, p, replace) accepts its arguments *)
Definition choice_ok (n size : nat) (p : evec) (replace : bool) : bool :=
  (prob_ok n p && (replace || (size <=? support_size n p)))%bool.
(** T[i, :] / sum(T[i, :]) *)
Definition row_prob (m : nat) (T : emat) (i : nat) : evec := fun k => ndiv (T i k) (nsum m (fun k => T i k)).

(** 143-157: list_value_sample *)
Definition sample_value (A B : emat) (d : draws) (r s c : nat) : N := loss (A (d_i d r) (d_j d s)) (B (d_k d r c) (d_l d s c)).
Definition sample_mean (A B : emat) (np nq : nat) (d : draws) : N :=
  ndiv (nsum np (fun r => nsum np (fun s => nsum nq (fun c => sample_value A B d r s c)))) (nmul (nmul (nat_num np) (nat_num np)) (nat_num nq)).
(** 154: nx.std(..., axis=2) ** 2 at one pair of rows *)
Definition sample_var (A B : emat) (nq : nat) (d : draws) (r s : nat) : N :=
  let mu := ndiv (nsum nq (fun c => sample_value A B d r s c)) (nat_num nq) in
  ndiv (nsum nq (fun c => nmul (nsub (sample_value A B d r s c) mu) (nsub (sample_value A B d r s c) mu))) (nat_num nq).
Definition sample_std (A B : emat) (np nq : nat) (d : draws) : N :=
  ndiv (root (nsum np (fun r => nsum np (fun s => sample_var A B nq d r s)))) (nmul (nat_num np) (nat_num np)).

(** 84-158.  GOk None is NaN (mean of an empty array).  With std=False only the first number is returned (the second is 0 here). *)
Definition gw_estimate (ns nt : nat) (C1 C2 : emat) (p q : evec) (T : emat) (sparse : bool) (nbp nbq : option nat) (std : bool) (d : draws) : gout (option (N * N)) :=
  let sw := ns <? nt in
  let n := if sw then nt else ns in
  let m := if sw then ns else nt in
  let A := if sw then C2 else C1 in
  let B := if sw then C1 else C2 in
  let P := if sw then q else p in
  let U := if sw then (fun i j => T j i) else T in
  let np := match nbp with None => if sparse then Nat.min (heur n) n else n | Some k => Nat.min k n end in
  let nq := let k := match nbq with None => 1 | Some k => k end in if std then Nat.max 2 k else k in
  if negb (choice_ok n np P false) then GValueError
  else if existsb (fun r => negb (choice_ok m nq (row_prob m U (d_i d r)) true && choice_ok m nq (row_prob m U (d_j d r)) true)) (seq 0 np) then GValueError
  else if nq =? 0 then GValueError                       (* 143: stack of an empty list *)
  else if np =? 0 then GOk None
  else GOk (Some (sample_mean A B np nq d, if std then sample_std A B np nq d else n0)).

(** ** pointwise_gromov_wasserstein, 161-305 *)
Variable powf : N -> N -> N.
Variable close : N -> N -> bool.
Definition to_list (n : nat) (x : evec) : list N := map x (seq 0 n).
(** 248, 262, 264: emd_1d(C1[i], C2[j], a=p, b=q, dense=False) with the default metric; tocsr sums repeated entries *)
Definition plan_1d (ns nt : nat) (C1 C2 : emat) (p q : evec) (i j : nat) : option emat :=
  match emd_1d powf close true (to_list ns (C1 i)) (to_list nt (C2 j)) (Some (to_list ns p)) (Some (to_list nt q)) SqEuclidean n1 with
  | Ok (es, _) => Some (dense es)
  | _ => None
  end.
(** backend.eliminate_zeros, numpy: backend.py 1446-1454 *)
Definition eliminate (thr : N) (T : emat) : emat :=
  if nltb n0 thr then fun i j => if nleb (nabs (T i j)) thr then n0 else T i j else T.
(** 261-268 *)
Definition pw_mix (alpha thr : N) (T new : emat) : emat :=
  if neqb alpha n1 then new else eliminate thr (fun i j => nadd (nmul (nsub n1 alpha) (T i j)) (nmul alpha (new i j))).

(** answers of the generator: rows and columns of the first plan, then row, column and estimation draws of iteration cpt *)
Record pw_draws := PwDraws { w_i0 : nat; w_j0 : nat; w_i : nat -> nat; w_j : nat -> emat -> nat; w_d : nat -> emat -> draws; w_log : emat -> draws }.

(** 251-290.  [best]: the lowest estimate (None: infinity) with its plan.  A finite estimate is below infinity; NaN is below nothing. *)
Definition better (e : option (N * N)) (best : option (N * emat)) : bool :=
  match e, best with
  | None, _ => false
  | Some _, None => true
  | Some (x, _), Some (y, _) => nltb x y
  end.
Fixpoint pw_loop (ns nt : nat) (C1 C2 : emat) (p q : evec) (alpha thr : N) (max_iter : nat) (w : pw_draws)
    (left cpt : nat) (T : emat) (best : option (N * emat)) : gout (option (N * emat)) :=
  match left with
  | O => GOk best
  | S left' =>
    let i := w_i w cpt in
    if negb (choice_ok nt 1 (row_prob nt T i) true) then GValueError
    else match plan_1d ns nt C1 C2 p q i (w_j w cpt T) with
    | None => GFailed
    | Some new =>
      let T' := pw_mix alpha thr T new in
      if ((cpt mod 10 =? 0) || (cpt =? max_iter - 1))%bool then
        match gw_estimate ns nt C1 C2 p q T' true None None false (w_d w cpt T') with
        | GOk e => pw_loop ns nt C1 C2 p q alpha thr max_iter w left' (S cpt) T' (if better e best then match e with Some (x, _) => Some (x, T') | None => best end else best)
        | GValueError => GValueError | GUnbound => GUnbound | GFailed => GFailed
        end
      else pw_loop ns nt C1 C2 p q alpha thr max_iter w left' (S cpt) T' best
    end
  end.
(** 230-305; the log is the last estimate, with its standard deviation *)
Definition pointwise_gw (ns nt : nat) (C1 C2 : emat) (p q : evec) (alpha : N) (max_iter : nat) (thr : N) (log : bool) (w : pw_draws)
    : gout (emat * option (option (N * N))) :=
  if negb (choice_ok ns 1 p true && choice_ok nt 1 q true) then GValueError
  else match plan_1d ns nt C1 C2 p q (w_i0 w) (w_j0 w) with
  | None => GFailed
  | Some T0 =>
    match pw_loop ns nt C1 C2 p q alpha thr max_iter w max_iter 0 T0 None with
    | GOk None => GUnbound
    | GOk (Some (_, T)) =>
        if log then
          match gw_estimate ns nt C1 C2 p q T true None None true (w_log w T) with
          | GOk e => GOk (T, Some e)
          | GValueError => GValueError | GUnbound => GUnbound | GFailed => GFailed
          end
        else GOk (T, None)
    | GValueError => GValueError | GUnbound => GUnbound | GFailed => GFailed
    end
  end.

(** ** sampled_gromov_wasserstein, 308-481 *)
(** 386-396: an int, or a pair *)
Inductive nb_grad := NbInt (k : nat) | NbPair (k l : nat).
Definition grad_sizes (ns : nat) (nb : nb_grad) : nat * nat :=
  match nb with
  | NbInt k => if ns <? k then (ns, k / ns) else (k, 1)
  | NbPair k l => (k, l)
  end.
(** draws of one iteration: rows, columns of the r-th row, and the coin of 421 (true: rand > 0.5) *)
Record sg_draws := SgDraws { s_i : nat -> nat; s_j : nat -> nat -> nat; s_coin : nat -> bool }.
(** 408-439: Lik before the division; [sym]: C_are_symmetric *)
Definition lik (C1 C2 : emat) (sym : bool) (np nq : nat) (d : sg_draws) : emat := fun k l =>
  nsum np (fun r =>
    ndiv (nsum nq (fun c => if (negb sym && s_coin d r)%bool then loss (C1 k (s_i d r)) (C2 l (s_j d r c)) else loss (C1 (s_i d r) k) (C2 (s_j d r c) l))) (nat_num nq)).
(** 441: nx.max over the whole matrix *)
Definition mat_max (n m : nat) (L : emat) : N :=
  fold_left (fun x y => nmax x y) (flat_map (fun i => map (L i) (seq 0 m)) (seq 0 n)) (L 0 0).
(** the OT solvers: [prox L T] is 447-457 (sinkhorn on L - epsilon * log T; None: a warning raised as an error), [emd_] is 459 *)
Variable prox : emat -> emat -> option emat.
Variable emd_ : emat -> emat.
(** 462: tolerance of the change, 10e-20 *)
Variable tiny : N.
Definition change (n m : nat) (T T' : emat) : N :=
  ndiv (nsum n (fun i => nsum m (fun j => nmul (nsub (T i j) (T' i j)) (nsub (T i j) (T' i j))))) (nmul (nat_num n) (nat_num m)).
Fixpoint sg_loop (ns nt : nat) (C1 C2 : emat) (p : evec) (sym : bool) (np nq : nat) (eps : N) (g : nat -> emat -> sg_draws)
    (left cpt low : nat) (T : emat) : gout emat :=
  match left with
  | O => GOk T
  | S left' =>
    let d := g cpt T in
    if negb (choice_ok ns np p false) then GValueError
    else if existsb (fun r => negb (choice_ok nt nq (row_prob nt T (s_i d r)) false)) (seq 0 np) then GValueError
    else
      let L := lik C1 C2 sym np nq d in
      let top := mat_max ns nt L in
      if neqb top n0 then sg_loop ns nt C1 C2 p sym np nq eps g left' (S cpt) low T
      else
        let L' := fun k l => ndiv (L k l) top in
        match (if nltb n0 eps then prox L' T else Some (emd_ L')) with
        | None => GOk T
        | Some T' =>
          if nleb (change ns nt T T') tiny then
            if 100 <? S low then GOk T' else sg_loop ns nt C1 C2 p sym np nq eps g left' (S cpt) (S low) T'
          else sg_loop ns nt C1 C2 p sym np nq eps g left' (S cpt) 0 T'
        end
  end.
Definition sampled_gw (ns nt : nat) (C1 C2 : emat) (p q : evec) (sym : bool) (nb : nb_grad) (eps : N) (max_iter : nat) (g : nat -> emat -> sg_draws) : gout emat :=
  sg_loop ns nt C1 C2 p sym (fst (grad_sizes ns nb)) (snd (grad_sizes ns nb)) eps g max_iter 0 0 (fun i j => nmul (p i) (q j)).
End Estim.
