(** Model of emd_1d_dual_backprop (/repo/ot/lp/solver_1d.py:469-570) and of the one-dimensional
    unbalanced solver (/repo/ot/unbalanced/_solver_1d.py:15-307).

    Both run on torch or jax and obtain the 1-D dual potentials by automatic differentiation of
    wasserstein_1d with respect to the weights; the model writes out the reverse sweep of that
    function.  Missing operations ([powf], [ex] = exp, [lg] = log) are parameters. *)
From Coq Require Import List Arith Bool.
From Verif Require Import Num Emd1d_model W1d_model Duals_model.
Import ListNotations.

Section Backprop.
Context {N : NumOps}.
Variable powf : N -> N -> N.

(** an entry of the concatenated cumulative weights [cu ++ cv] (solver_1d.py:155): its value and
    where it comes from, (true, i) for cu_i and (false, j) for cv_j *)
Definition tag := (bool * nat)%type.
Definition tagged (cu cv : list N) : list (N * tag) :=
  combine cu (map (pair true) (seq 0 (length cu))) ++ combine cv (map (pair false) (seq 0 (length cv))).

(** nx.sort(nx.concatenate((u_cumweights, v_cumweights), 0), 0), line 155, together with the
    permutation that its backward pass uses.  The order of equal entries is the backend's choice
    (torch.sort and jnp.sort differ), so the sorter is a parameter of the model. *)
Variable tsort : list (N * tag) -> list (N * tag).

(** backward of the sum of delta_k * c_k with delta_k = q_k - q_(k-1), q_(-1) = 0 (lines 184-199):
    the derivative in q_k is c_k - c_(k+1), and c_k for the last one *)
Fixpoint dsteps (c : list N) : list N :=
  match c with
  | [] => []
  | x :: c' => match c' with [] => [x] | y :: _ => nsub x y :: dsteps c' end
  end.

(** backward of the sort (the derivative in q_k goes to the entry sorted in position k) and of
    nx.cumsum (lines 152-153: the derivative in the weight i is the sum of the derivatives in the
    cumulative weights i' >= i).  searchsorted (line 53) has derivative 0. *)
Fixpoint adj (side : bool) (i : nat) (ts : list (N * tag)) (ds : list N) : N :=
  match ts, ds with
  | (_, (s, k)) :: ts', d :: ds' =>
      nadd (if Bool.eqb s side && (i <=? k) then d else n0) (adj side i ts' ds')
  | _, _ => n0
  end.

(** lines 192-195: the costs met along the quantiles *)
Definition plan_costs (p : N) (u v : list N) (es : list (@entry N)) : list N :=
  map (fun e => match e with (_, i, j) => diff_cost powf p (nth i u n0) (nth j v n0) end) es.

(** gradients of wasserstein_1d in the weights, for sorted values *)
Definition grad_sorted (u v uw vw : list N) (p : N) : (nat -> N) * (nat -> N) :=
  let ts := tsort (tagged (cumsum uw) (cumsum vw)) in
  let es := quantile_plan (length u) (length v) (cumsum uw) (cumsum vw) n0 (map fst ts) in
  let ds := dsteps (plan_costs p u v es) in
  ((fun i => adj true i ts ds), (fun j => adj false j ts ds)).

(** position of k in a permutation: the backward of take_along_axis(u_weights, u_sorter, 0)
    (lines 146-150) sends the derivative in sorted position [pos_of i pu] to weight i *)
Fixpoint pos_of (i : nat) (pu : list nat) : nat :=
  match pu with [] => 0 | k :: pu' => if k =? i then 0 else S (pos_of i pu') end.

(** emd_1d_dual_backprop, lines 515-570, one column, explicit weights (lines 519-527 fill in
    uniform ones).  The assertion of line 513 (torch or jax) is the caller's. *)
Definition emd_1d_dual_backprop (u v uw vw : list N) (p : N) (require_sort : bool)
  : res ((nat -> N) * (nat -> N) * N) :=
  match wasserstein_1d powf u v (Some uw) (Some vw) p require_sort with
  | Ok (cost_output, _) =>
      let pu := if require_sort then argsort u else seq 0 (length u) in
      let pv := if require_sort then argsort v else seq 0 (length v) in
      match take u pu, take v pv, take uw pu, take vw pv with
      | Some u', Some v', Some uw', Some vw' =>
          let (f, g) := grad_sorted u' v' uw' vw' p in
          let (f, g) := center_ot_dual (length u) (length v)
                          (fun i => f (pos_of i pu)) (fun j => g (pos_of j pv))
                          (fun i => nth i uw n0) (fun j => nth j vw n0) in
          Ok (f, g, cost_output)
      | _, _, _, _ => IndexError
      end
  | ValueError => ValueError | AssertionError => AssertionError | IndexError => IndexError
  | OutOfBounds => OutOfBounds | OutOfFuel => OutOfFuel
  end.
End Backprop.

Section Uot.
Context {N : NumOps}.
Variables (powf : N -> N -> N) (ex lg : N -> N).
Variable tsort : list (N * tag) -> list (N * tag).
Variables (n m : nat).
Let vec := nat -> N.

(** a marginal relaxation parameter; None is float("inf") *)
Definition rho := option N.

(** nx.logsumexp, without its stabilising shift *)
Definition logsumexp1 (k : nat) (x : vec) : N := lg (nsum k (fun i => ex (x i))).

(** rescale_potentials, _solver_1d.py:49-69, one column *)
Definition rescale_potentials (f g a b : vec) (r1 r2 : rho) : N :=
  match r1, r2 with
  | None, None => n0
  | None, Some r2 =>
      nmul r2 (nsub (lg (nsum n a)) (logsumexp1 m (fun j => nadd (ndiv (nopp (g j)) r2) (lg (b j)))))
  | Some r1, None =>
      nmul r1 (nsub (logsumexp1 n (fun i => nadd (ndiv (nopp (f i)) r1) (lg (a i)))) (lg (nsum m b)))
  | Some r1, Some r2 =>
      nmul (ndiv (nmul r1 r2) (nadd r1 r2))
        (nsub (logsumexp1 n (fun i => nadd (ndiv (nopp (f i)) r1) (lg (a i))))
              (logsumexp1 m (fun j => nadd (ndiv (nopp (g j)) r2) (lg (b j)))))
  end.

(** lines 117-125 *)
Definition reweight (f a : vec) (r : rho) : vec :=
  match r with Some r => fun i => nmul (a i) (ex (ndiv (nopp (f i)) r)) | None => a end.

(** get_reweighted_marginal_uot, lines 110-133 *)
Definition get_reweighted (f g a b : vec) (r1 r2 : rho) : vec * vec * vec * vec * N :=
  let t := rescale_potentials f g a b r1 r2 in
  let f := fun i => nadd (f i) t in
  let g := fun j => nsub (g j) t in
  let ur := reweight f a r1 in
  let vr := reweight g b r2 in
  let full_mass := nsum n ur in
  let su := nsum n ur in
  let sv := nsum m vr in
  (f, g, fun i => ndiv (ur i) su, fun j => ndiv (vr j) sv, full_mass).

Definition tabv (k : nat) (f : vec) : list N := map f (seq 0 k).

(** the Frank-Wolfe loop, lines 245-262; [k] iterations remain, [i] is the loop counter *)
Fixpoint fw_loop (us vs : list N) (a b : vec) (r1 r2 : rho) (p : N) (k i : nat) (f g : vec) : res (vec * vec) :=
  match k with
  | O => Ok (f, g)
  | S k' =>
      match get_reweighted f g a b r1 r2 with
      | (f, g, ur, vr, _) =>
          match emd_1d_dual_backprop powf tsort us vs (tabv n ur) (tabv m vr) p false with
          | Ok (fd, gd, _) =>
              let t := ndiv (nadd n1 n1) (nadd (nadd n1 n1) (nofnat i)) in
              fw_loop us vs a b r1 r2 p k' (S i)
                (fun l => nadd (f l) (nmul t (nsub (fd l) (f l))))
                (fun l => nadd (g l) (nmul t (nsub (gd l) (g l))))
          | ValueError => ValueError | AssertionError => AssertionError | IndexError => IndexError
          | OutOfBounds => OutOfBounds | OutOfFuel => OutOfFuel
          end
      end
  end.

(** what one column of uot_1d computes: potentials, reweighted marginals, linear loss *)
Record uot_col := UotCol { uo_f : vec; uo_g : vec; uo_u : vec; uo_v : vec; uo_lin : N }.

(** uot_1d, lines 228-284, one column, require_sort=True *)
Definition uot_column (u v : list N) (a b : vec) (r1 r2 : rho) (p : N) (numItermax : nat) : res uot_col :=
  let pu := argsort u in
  let pv := argsort v in
  let us := map (fun k => nth k u n0) pu in
  let vs := map (fun k => nth k v n0) pv in
  let sa := fun k => a (nth k pu 0) in
  let sb := fun k => b (nth k pv 0) in
  match fw_loop us vs sa sb r1 r2 p numItermax 0 (fun _ => n0) (fun _ => n0) with
  | Ok (f, g) =>
      match get_reweighted f g sa sb r1 r2 with
      | (f, g, ur, vr, full_mass) =>
          match wasserstein_1d powf us vs (Some (tabv n ur)) (Some (tabv m vr)) p false with
          | Ok (loss, _) =>
              Ok (UotCol (fun i => f (pos_of i pu)) (fun j => g (pos_of j pv))
                         (fun i => nmul (ur (pos_of i pu)) full_mass)
                         (fun j => nmul (vr (pos_of j pv)) full_mass)
                         (nmul loss full_mass))
          | ValueError => ValueError | AssertionError => AssertionError | IndexError => IndexError
          | OutOfBounds => OutOfBounds | OutOfFuel => OutOfFuel
          end
      end
  | ValueError => ValueError | AssertionError => AssertionError | IndexError => IndexError
  | OutOfBounds => OutOfBounds | OutOfFuel => OutOfFuel
  end.

(** nx.kl_div(p, q, mass=True), backend.py:2594-2598 (its eps dropped), along axis 0 *)
Definition kl_mass (k : nat) (p q : vec) : N :=
  nadd (nsum k (fun i => nmul (p i) (lg (ndiv (p i) (q i))))) (nsum k (fun i => nsub (q i) (p i))).

(** total cost of column [q] among [K] columns, lines 286-297.  Without axis=0 (lines 289 and
    291) the divergence is summed over every column. *)
Definition uot_total (K : nat) (a b : vec) (r1 r2 : rho) (cols : nat -> uot_col) (q : nat) : N :=
  let lin := uo_lin (cols q) in
  match r1, r2 with
  | None, None => lin
  | None, Some r2 => nadd lin (nmul r2 (nsum K (fun q => kl_mass m (uo_v (cols q)) b)))
  | Some r1, None => nadd lin (nmul r1 (nsum K (fun q => kl_mass n (uo_u (cols q)) a)))
  | Some r1, Some r2 =>
      nadd (nadd lin (nmul r1 (kl_mass n (uo_u (cols q)) a))) (nmul r2 (kl_mass m (uo_v (cols q)) b))
  end.

Inductive uot_result := UotOk (cols : nat -> uot_col) (total : nat -> N) | UotNameError | UotFail.

Inductive uot_cost := Linear | Total | OtherCost.

Fixpoint all_cols (K : nat) (run : nat -> res uot_col) : option (nat -> uot_col) :=
  match K with
  | O => Some (fun _ => UotCol (fun _ => n0) (fun _ => n0) (fun _ => n0) (fun _ => n0) n0)
  | S K' =>
      match all_cols K' run, run K' with
      | Some c, Ok x => Some (fun q => if q =? K' then x else c q)
      | _, _ => None
      end
  end.

(** uot_1d, lines 207-307, for K columns sharing the weights a, b (lines 219-220, 224-225).
    With require_sort=False the sorted arrays of lines 231-238 are never assigned and line 248
    (or 265) raises; any other [returnCost] leaves out_loss unassigned at line 306/307. *)
Definition uot_1d (K : nat) (us vs : nat -> list N) (a b : vec) (r1 r2 : rho) (p : N)
    (require_sort : bool) (numItermax : nat) (returnCost : uot_cost) : uot_result :=
  if negb require_sort then UotNameError else
  match all_cols K (fun q => uot_column (us q) (vs q) a b r1 r2 p numItermax) with
  | Some cols =>
      match returnCost with
      | Linear => UotOk cols (fun q => uo_lin (cols q))
      | Total => UotOk cols (uot_total K a b r1 r2 cols)
      | OtherCost => UotNameError
      end
  | None => UotFail
  end.
End Uot.
