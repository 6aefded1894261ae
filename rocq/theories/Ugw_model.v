(** Model of unbalanced co-optimal transport / fused unbalanced Gromov-Wasserstein:
    /repo/ot/gromov/_utils.py (902-1290) and the block coordinate descent of
    /repo/ot/gromov/_unbalanced.py (355-452).  X is n x k (samples x features), Y is m x l; the
    sample plan is n x m, the feature plan k x l.  reg_marginals = inf is [None]. *)
From Coq Require Import List Arith Bool.
From Verif Require Import Num Optim_model Gw_model.
Import ListNotations.

Section Ugw.
Context {N : NumOps}.
(** [lg] logarithm, [sq] square root, [g] the 1e-16 of backend.kl_div *)
Variables (lg sq : N -> N) (g : N).

Inductive divergence := DKL | DL2.
Inductive regtype := Joint | Independent.
Definition xlogx (x : N) : N := nmul x (lg (if neqb x n0 then nadd x n1 else x)).

(** a measure is given with the way of summing over its entries *)
Definition kl_div {I} (s : (I -> N) -> N) (p q : I -> N) (mass : bool) : N :=                    (* backend.py:1542-1546 *)
  let v := s (fun i => nmul (p i) (lg (nadd (ndiv (p i) (q i)) g))) in
  if mass then nadd v (s (fun i => nsub (q i) (p i))) else v.
Definition sum1 (n : nat) (f : nat -> N) : N := nsum n f.
Definition sum2 (n m : nat) (f : nat * nat -> N) : N := nsum n (fun i => nsum m (fun j => f (i, j))).
Definition flat (A : gmat (N:=N)) : nat * nat -> N := fun ij => A (fst ij) (snd ij).

(** div_to_product, _utils.py:959-978; [pi1], [pi2] as passed (None: the marginals of pi) *)
Definition div_to_product (n m : nat) (pi : gmat) (a b : nat -> N) (pi1 pi2 : option (nat -> N)) (dv : divergence) (mass : bool) : N :=
  match dv with
  | DKL =>
      let p1 := match pi1 with Some p => p | None => rowsum m pi end in
      let p2 := match pi2 with Some p => p | None => csum n pi end in
      let res := nsub (nsub (sum2 n m (fun ij => xlogx (flat pi ij))) (nsum n (fun i => nmul (p1 i) (lg (a i))))) (nsum m (fun j => nmul (p2 j) (lg (b j)))) in
      if mass then nadd (nsub res (nsum n p1)) (nmul (nsum n a) (nsum m b)) else res
  | DL2 =>
      ndiv (nsub (nadd (sum2 n m (fun ij => nmul (flat pi ij) (flat pi ij))) (nmul (nsum n (fun i => nmul (a i) (a i))) (nsum m (fun j => nmul (b j) (b j)))))
                 (nmul two (nsum n (fun i => nmul (a i) (nsum m (fun j => nmul (pi i j) (b j))))))) two
  end.
(** div_between_product, 1026-1043 *)
Definition div_between_product {I J} (s : (I -> N) -> N) (t : (J -> N) -> N) (mu : I -> N) (nu : J -> N) (al : I -> N) (be : J -> N) (dv : divergence) : N :=
  match dv with
  | DKL => nadd (nadd (nmul (t nu) (kl_div s mu al true)) (nmul (s mu) (kl_div t nu be true))) (nmul (nsub (s mu) (s al)) (nsub (t nu) (t be)))
  | DL2 => ndiv (nadd (nsub (nmul (s (fun i => nmul (al i) (al i))) (t (fun j => nmul (be j) (be j))))
                            (nmul (nmul two (s (fun i => nmul (al i) (mu i)))) (t (fun j => nmul (be j) (nu j)))))
                      (nmul (s (fun i => nmul (mu i) (mu i))) (t (fun j => nmul (nu j) (nu j))))) two
  end.

Definition penal (rho : option N) (x : N) : N := match rho with None => n0 | Some r => if neqb r n0 then n0 else nmul r x end.
(** uot_cost_matrix, 1089-1112: local cost of the block of size n x m given the plan [pi] (k x l) of the other block *)
Definition uot_cost_matrix (k l : nat) (X Y : gmat) (M : option gmat) (pi : gmat) (a b : nat -> N) (rx ry : option N) (eps : N)
    (dv : divergence) (rt : regtype) : gmat (N:=N) := fun i j =>
  let p1 := rowsum l pi in let p2 := csum k pi in
  let c := nsub (nadd (nsum k (fun a => nmul (nmul (X i a) (X i a)) (p1 a))) (nsum l (fun b => nmul (nmul (Y j b) (Y j b)) (p2 b))))
                (nmul two (nsum l (fun b => nmul (nsum k (fun a => nmul (X i a) (pi a b))) (Y j b)))) in
  let c := match M with None => c | Some M => nadd c (M i j) end in
  match dv with
  | DL2 => c
  | DKL => let c := nadd c (penal rx (kl_div (sum1 k) p1 a false)) in
           let c := nadd c (penal ry (kl_div (sum1 l) p2 b false)) in
           match rt with
           | Joint => if nltb n0 eps then nadd c (nmul eps (div_to_product k l pi a b (Some p1) (Some p2) DKL false)) else c
           | Independent => c
           end
  end.

(** what is handed to ot.solve: cost, weights, reg, reference measure c, marginal penalties *)
Record uot_problem := mkUot { u_cost : gmat (N:=N); u_a : nat -> N; u_b : nat -> N; u_eps : N; u_c : gmat (N:=N); u_rx : option N; u_ry : option N }.
Definition scale_rho (x : N) (rho : option N) : option N := match rho with None => None | Some r => Some (nmul r x) end.
(** uot_parameters_and_measures, 1157-1178, divergence = "l2" *)
Definition l2_params (n m : nat) (pi : gmat) (wx wy : nat -> N) (wxy : gmat) (rx ry : option N) (eps : N) (rt : regtype) (cost : gmat) : uot_problem :=
  let p1 := rowsum m pi in let p2 := csum n pi in
  let q1 := nsum n (fun i => nmul (p1 i) (p1 i)) in let q2 := nsum m (fun j => nmul (p2 j) (p2 j)) in
  let q := sum2 n m (fun ij => nmul (flat pi ij) (flat pi ij)) in
  mkUot cost (fun i => ndiv (nmul (wx i) (nsum n (fun i => nmul (p1 i) (wx i)))) q1)
             (fun j => ndiv (nmul (wy j) (nsum m (fun j => nmul (p2 j) (wy j)))) q2)
             (match rt with Joint => nmul eps q | Independent => eps end)
             (match rt with Joint => fun i j => ndiv (nmul (wxy i j) (sum2 n m (fun ij => nmul (flat pi ij) (flat wxy ij)))) q | Independent => wxy end)
             (scale_rho q1 rx) (scale_rho q2 ry).

Record ugw_input := mkIn {
  gX : gmat (N:=N); gY : gmat (N:=N); gMs : option (gmat (N:=N)); gMf : option (gmat (N:=N));
  wxs : nat -> N; wys : nat -> N; wxf : nat -> N; wyf : nat -> N;
  grx : option N; gry : option N; eps_s : N; eps_f : N; grt : regtype; gdv : divergence }.
Variables (n m k l : nat) (inp : ugw_input).
Definition wxys : gmat (N:=N) := outer (wxs inp) (wys inp).
Definition wxyf : gmat (N:=N) := outer (wxf inp) (wyf inp).
(** 358-370: the feature problem.  Under "l2" line 367 takes the parameters from pi_feat. *)
Definition feat_problem (ps pf : gmat) : uot_problem :=
  let mass := sum2 n m (flat ps) in
  let cost := uot_cost_matrix n m (tr (gX inp)) (tr (gY inp)) (gMf inp) ps (wxs inp) (wys inp) (grx inp) (gry inp) (eps_s inp) (gdv inp) (grt inp) in
  match gdv inp with
  | DKL => mkUot cost (wxf inp) (wyf inp) (match grt inp with Joint => nmul mass (eps_f inp) | Independent => eps_f inp end) wxyf
                 (scale_rho mass (grx inp)) (scale_rho mass (gry inp))
  | DL2 => l2_params k l pf (wxf inp) (wyf inp) wxyf (grx inp) (gry inp) (eps_f inp) (grt inp) cost
  end.
(** 386-397: the sample problem; line 391 uses eps_feat, line 394 the parameters from pi_samp *)
Definition samp_problem (ps pf : gmat) : uot_problem :=
  let mass := sum2 k l (flat pf) in
  let cost := uot_cost_matrix k l (gX inp) (gY inp) (gMs inp) pf (wxf inp) (wyf inp) (grx inp) (gry inp) (eps_f inp) (gdv inp) (grt inp) in
  match gdv inp with
  | DKL => mkUot cost (wxs inp) (wys inp) (match grt inp with Joint => nmul mass (eps_f inp) | Independent => eps_f inp end) wxys
                 (scale_rho mass (grx inp)) (scale_rho mass (gry inp))
  | DL2 => l2_params n m ps (wxs inp) (wys inp) wxys (grx inp) (gry inp) (eps_s inp) (grt inp) cost
  end.
(** the inner solver (ot.solve with plan_init; potentials_init is not modelled, instead the
    solver may answer differently at each call: its first argument numbers the calls) *)
Definition inner_solver := nat -> uot_problem -> gmat (N:=N) -> gmat (N:=N).
Definition rescale (on : bool) (mass : N) (r c : nat) (pi : gmat) : gmat (N:=N) :=
  if on then (let z := sq (ndiv mass (sum2 r c (flat pi))) in fun i j => nmul z (pi i j)) else pi.       (* 383-384, 410-411 *)
Definition bcd_round (fs ss : inner_solver) (resc : bool) (it : nat) (ps pf : gmat) : gmat * gmat :=
  let pf' := rescale resc (sum2 n m (flat ps)) k l (fs it (feat_problem ps pf) pf) in
  let ps' := rescale resc (sum2 k l (flat pf')) n m (ss it (samp_problem ps pf') ps) in
  (ps', pf').
(** for idx in range(max_iter), 355-419: [left] rounds to go *)
Fixpoint bcd (left : nat) (fs ss : inner_solver) (resc : bool) (tol : N) (it : nat) (ps pf : gmat) : gmat * gmat :=
  match left with
  | O => (ps, pf)
  | S r => let '(ps', pf') := bcd_round fs ss resc it ps pf in
           if nltb (sum2 n m (fun ij => nabs (nsub (flat ps' ij) (flat ps ij)))) tol then (ps', pf')
           else bcd r fs ss resc tol (S it) ps' pf'
  end.
(** fused_unbalanced_across_spaces_cost, _utils.py:1230-1290 *)
Definition linear_cost (ps pf : gmat) : N :=
  let s1 := rowsum m ps in let s2 := csum n ps in let f1 := rowsum l pf in let f2 := csum k pf in
  nsub (nadd (nsum n (fun i => nmul (nsum k (fun a => nmul (nmul (gX inp i a) (gX inp i a)) (f1 a))) (s1 i)))
             (nsum m (fun j => nmul (nsum l (fun b => nmul (nmul (gY inp j b) (gY inp j b)) (f2 b))) (s2 j))))
       (nmul two (sum2 n m (fun ij => nmul (nsum l (fun b => nmul (nsum k (fun a => nmul (gX inp (fst ij) a) (pf a b))) (gY inp (snd ij) b))) (flat ps ij)))).
Definition add_lin (r c : nat) (x : N) (M : option gmat) (pi : gmat) : N :=
  match M with None => x | Some M => nadd x (sum2 r c (fun ij => nmul (flat pi ij) (flat M ij))) end.
Definition ucoot_cost (ps pf : gmat) : N :=
  let s1 := rowsum m ps in let s2 := csum n ps in let f1 := rowsum l pf in let f2 := csum k pf in
  let c := add_lin k l (add_lin n m (linear_cost ps pf) (gMs inp) ps) (gMf inp) pf in
  let c := nadd c (penal (grx inp) (div_between_product (sum1 n) (sum1 k) s1 f1 (wxs inp) (wxf inp) (gdv inp))) in
  let c := nadd c (penal (gry inp) (div_between_product (sum1 m) (sum1 l) s2 f2 (wys inp) (wyf inp) (gdv inp))) in
  match grt inp with
  | Joint => nadd c (penal (Some (eps_s inp)) (div_between_product (sum2 n m) (sum2 k l) (flat ps) (flat pf) (flat wxys) (flat wxyf) (gdv inp)))
  | Independent =>
      let c := nadd c (penal (Some (eps_s inp)) (div_to_product n m ps s1 s2 (Some (wxs inp)) (Some (wys inp)) (gdv inp) true)) in    (* 1266-1276 *)
      nadd c (penal (Some (eps_f inp)) (div_to_product k l pf f1 f2 (Some (wxf inp)) (Some (wyf inp)) (gdv inp) true))              (* 1278-1288 *)
  end.
End Ugw.

(** fused_unbalanced_across_spaces_divergence: with reg_type = "joint" eps_feat is overwritten by
    eps_samp (217-218); init_pi = None: the product measures (290-292).  M_samp, M_feat are already
    multiplied by alpha; the NaN test, the logs and the switch of solver are not modelled. *)
Definition joint_eps {N : NumOps} (inp : ugw_input (N:=N)) : ugw_input (N:=N) :=
  match grt inp with
  | Independent => inp
  | Joint => mkIn (gX inp) (gY inp) (gMs inp) (gMf inp) (wxs inp) (wys inp) (wxf inp) (wyf inp) (grx inp) (gry inp) (eps_s inp) (eps_s inp) Joint (gdv inp)
  end.
Definition fused_unbalanced_across_spaces_divergence {N : NumOps} (lg sq : N -> N) (g : N) (n m k l : nat) (inp : ugw_input (N:=N)) (fs ss : inner_solver (N:=N)) (resc : bool)
    (max_iter : nat) (tol : N) (init : option (gmat (N:=N)) * option (gmat (N:=N))) : gmat (N:=N) * gmat (N:=N) :=
  let inp := joint_eps inp in
  bcd lg sq g n m k l inp max_iter fs ss resc tol 0 (match fst init with Some p => p | None => wxys inp end) (match snd init with Some p => p | None => wxyf inp end).
