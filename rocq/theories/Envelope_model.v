(** Model of the gradients attached to transport values through nx.set_gradients:
    ot.emd2 (lp/_network_simplex.py:852-860, dense branch) and the entropic branch of ot.solve
    with grad='envelope' (solvers.py:475-494).  Automatic differentiation itself is not modelled:
    set_gradients attaches exactly the arrays given here (backend.py, set_gradients of torch and jax). *)
From Coq Require Import List Arith Bool.
From Verif Require Import Num Emd1d_model Emd_model Sinkhorn_model.

Section Env.
Context {N : NumOps}.
Notation vec := (nat -> N).
Notation mat := (nat -> nat -> N).
Definition centred (n : nat) (u : vec) : vec := fun i => nsub (u i) (ndiv (nsum n u) (nofnat n)).

Record grads := mk_grads { g_a : vec; g_b : vec; g_M : mat }.
(** _network_simplex.py:853-859; u, v, G as returned by the solver *)
Definition emd2_grads (n m : nat) (G : mat) (u v : vec) : grads := mk_grads (centred n u) (centred m v) G.

(** solvers.py:475-482; [eps] is the 1e-16 of line 478 and the default eps of kl_div (backend.py:1542-1546) *)
Definition entropic_value (ex lg : N -> N) (eps : N) (kl : bool) (n m : nat) (reg : N) (a b : vec) (M P : mat) : N :=
  let lin := nsum n (fun i => nsum m (fun j => nmul (M i j) (P i j))) in
  nadd lin (nmul reg (nsum n (fun i => nsum m (fun j =>
    if kl then nmul (P i j) (lg (nadd (ndiv (P i j) (nmul (a i) (b j))) eps)) else nmul (P i j) (lg (nadd (P i j) eps)))))).
(** solvers.py:484-494 with potentials = (log_u, log_v) and the plan of sinkhorn_log *)
Definition envelope_grads (ex : N -> N) (n m : nat) (reg : N) (M : mat) (lu lv : vec) : grads :=
  mk_grads (fun i => nmul reg (centred n lu i)) (fun j => nmul reg (centred m lv j))
           (lg_plan ex (fun i j => ndiv (nsub n0 (M i j)) reg) lu lv).
End Env.
