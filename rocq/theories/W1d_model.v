(** Model of /repo/ot/lp/solver_1d.py:23-199 (quantile_function, wasserstein_1d), for one
    column of values (the code treats the columns of 2-d inputs independently). *)
From Coq Require Import List Arith Bool.
From Verif Require Import Num Emd1d_model.
Import ListNotations.

Section W1d.
Context {N : NumOps}.
Variable powf : N -> N -> N.

(** nx.cumsum (lines 152-153) *)
Fixpoint cumsum_from (s : N) (l : list N) : list N :=
  match l with [] => [] | x :: l' => nadd s x :: cumsum_from (nadd s x) l' end.
Definition cumsum (l : list N) : list N := cumsum_from n0 l.

(** nx.sort (line 155): modelled by insertion sort *)
Fixpoint insert_val (x : N) (l : list N) : list N :=
  match l with [] => [x] | y :: l' => if nltb x y then x :: y :: l' else y :: insert_val x l' end.
Fixpoint vsort (l : list N) : list N :=
  match l with [] => [] | x :: l' => insert_val x (vsort l') end.

(** nx.searchsorted(cws, q), side left (line 53): number of leading entries < q.
    numpy uses bisection; on the non-decreasing cws both give the same index. *)
Fixpoint searchsorted (cws : list N) (q : N) : nat :=
  match cws with [] => 0 | c :: r => if nltb c q then S (searchsorted r q) else 0 end.

(** quantile_function index, lines 43 and 53: clip(searchsorted, 0, n-1) *)
Definition quantile_idx (n : nat) (cws : list N) (q : N) : nat :=
  Nat.min (searchsorted cws q) (n - 1).

(** lines 152-190 after sorting: the plan in coordinates of the sorted samples.
    [prev] is the previous entry of the zero-padded qs. *)
Fixpoint quantile_plan (n m : nat) (cu cv : list N) (prev : N) (qs : list N) : list entry :=
  match qs with
  | [] => []
  | q :: qs' =>
      (nsub q prev, quantile_idx n cu q, quantile_idx m cv q) :: quantile_plan n m cu cv q qs'
  end.

(** lines 192-195 *)
Definition diff_cost (p : N) (x y : N) : N :=
  let d := nabs (nsub x y) in if neqb p n1 then d else powf d p.

Fixpoint plan_value (p : N) (u v : list N) (es : list entry) : N :=
  match es with
  | [] => n0
  | (w, i, j) :: es' => nadd (nmul w (diff_cost p (nth i u n0) (nth j v n0))) (plan_value p u v es')
  end.

(** lines 139-199 for given sorting permutations (require_sort=True: argsort;
    require_sort=False: the identity) and explicit weights *)
Definition wasserstein_1d_with_perm (u v uw vw : list N) (p : N) (pu pv : list nat)
  : res (N * list entry) :=
  match take u pu, take v pv, take uw pu, take vw pv with
  | Some u', Some v', Some uw', Some vw' =>
      let cu := cumsum uw' in
      let cv := cumsum vw' in
      let qs := vsort (cu ++ cv) in
      let es := quantile_plan (length u) (length v) cu cv n0 qs in
      Ok (plan_value p u' v' es,
          map (fun e => match e with (w, i, j) => (w, nth i pu 0, nth j pv 0) end) es)
  | _, _, _, _ => IndexError
  end.

(** lines 61-199 (line 123: assertion p >= 1) *)
Definition wasserstein_1d (u v : list N) (uw vw : option (list N)) (p : N) (require_sort : bool)
  : res (N * list entry) :=
  if nleb n1 p then
    let uw' := match uw with None => repeat (ndiv n1 (nofnat (length u))) (length u) | Some w => w end in
    let vw' := match vw with None => repeat (ndiv n1 (nofnat (length v))) (length v) | Some w => w end in
    if require_sort
    then wasserstein_1d_with_perm u v uw' vw' p (argsort u) (argsort v)
    else wasserstein_1d_with_perm u v uw' vw' p (seq 0 (length u)) (seq 0 (length v))
  else AssertionError.
End W1d.
