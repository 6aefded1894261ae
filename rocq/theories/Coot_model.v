(** CO-Optimal Transport: model of /repo/ot/coot.py (co_optimal_transport 161-326 and
    co_optimal_transport2 464-524).  X is n x d (nx_samp x nx_feat), Y is m x e.  The inner solvers are
    parameters: [emd] answers the plan and the duals of ot.emd (Emd_model), [skh] the plan and the
    scalings u, v of ot.sinkhorn (Sinkhorn_model) for the given eps and warm start; both receive the
    dimensions.  Not modelled: the two ValueErrors on malformed epsilon/alpha/method, the NaN warning,
    the printing. *)
From Coq Require Import List Arith Bool.
From Verif Require Import Num Optim_model.
Import ListNotations.

Section Coot.
Context {N : NumOps}.
Notation vec := (nat -> N).
Notation mat := (nat -> nat -> N).
Definition duals : Type := (vec * vec).
Variables (lg : N -> N) (tiny : N).
Variables (emd : nat -> nat -> vec -> vec -> mat -> mat * duals).
Variables (skh : nat -> nat -> vec -> vec -> mat -> N -> duals -> mat * duals).

(** nx.kl_div(p, q), backend.py:1542-1546 with mass=False; [tiny] is its eps = 1e-16 *)
Definition kl_div (n m : nat) (P Q : mat) : N :=
  nsum n (fun i => nsum m (fun j => nmul (P i j) (lg (nadd (ndiv (P i j) (Q i j)) tiny)))).

Section Problem.
Variables (n d m e : nat) (X Y : mat) (ws wf vs vf : vec).       (* wx_samp, wx_feat, wy_samp, wy_feat *)
Variables (eps_s eps_f al_s al_f : N) (Ms Mf : option mat).
(** lines 192-195: alpha * M, zero when M is None or alpha is 0 *)
Definition lin (al : N) (M : option mat) : N * mat :=
  match M with None => (n0, fun _ _ => n0) | Some M => if neqb al n0 then (n0, fun _ _ => n0) else (al, M) end.
(** line 214 *)
Definition xy_sqr : mat := fun i j =>
  nadd (nadd (nsum d (fun k => nmul (nmul (X i k) (X i k)) (wf k))) (nsum e (fun l => nmul (nmul (Y j l) (Y j l)) (vf l))))
       (nmul (fst (lin al_s Ms)) (snd (lin al_s Ms) i j)).
(** lines 215-219 *)
Definition xy_sqr_T : mat := fun k l =>
  nadd (nadd (nsum n (fun i => nmul (nmul (X i k) (X i k)) (ws i))) (nsum m (fun j => nmul (nmul (Y j l) (Y j l)) (vs j))))
       (nmul (fst (lin al_f Mf)) (snd (lin al_f Mf) k l)).
(** line 247: XY_sqr - 2 * X @ pi_feat @ Y.T *)
Definition cost_s (Pf : mat) : mat := fun i j =>
  nsub (xy_sqr i j) (nsum e (fun l => nmul (nsum d (fun k => nmul (nmul two (X i k)) (Pf k l))) (Y j l))).
(** line 267: XY_sqr_T - 2 * X.T @ pi_samp @ Y *)
Definition cost_f (Ps : mat) : mat := fun k l =>
  nsub (xy_sqr_T k l) (nsum m (fun j => nmul (nsum n (fun i => nmul (nmul two (X i k)) (Ps i j))) (Y j l))).
(** lines 248-265 and 268-285: one block; with eps < 0 neither branch is taken *)
Definition block (k l : nat) (a b : vec) (eps : N) (M P : mat) (dl : duals) : mat * duals :=
  if nltb n0 eps then let '(Q, (u, v)) := skh k l a b M eps dl in (Q, ((fun i => lg (u i)), (fun j => lg (v j))))
  else if neqb eps n0 then emd k l a b M
  else (P, dl).
(** lines 291-299 *)
Definition coot_value (Ps Pf : mat) : N :=
  let c := inner d e (cost_f Ps) Pf in
  let c := if neqb (fst (lin al_s Ms)) n0 then c else nadd c (nmul (fst (lin al_s Ms)) (inner n m (snd (lin al_s Ms)) Ps)) in
  let c := if neqb eps_s n0 then c else nadd c (nmul eps_s (kl_div n m Ps (outer ws vs))) in
  if neqb eps_f n0 then c else nadd c (nmul eps_f (kl_div d e Pf (outer wf vf))).

Record coot_out := mkCoot { co_s : mat; co_f : mat; co_ds : duals; co_df : duals; co_log : list N; co_it : nat }.
(** lines 243-303; [prev] is list_coot[-1], None for the initial inf.  None: idx % 0 (ZeroDivisionError) *)
Fixpoint coot_loop (left idx : nat) (tol_bcd tol_stop : N) (eval_bcd : nat) (prev : option N) (s : coot_out) : option coot_out :=
  match left with
  | O => Some s
  | S left' =>
      let '(Ps, ds) := block n m ws vs eps_s (cost_s (co_f s)) (co_s s) (co_ds s) in
      let '(Pf, df) := block d e wf vf eps_f (cost_f Ps) (co_f s) (co_df s) in
      match eval_bcd with
      | O => None
      | S _ =>
          if Nat.eqb (Nat.modulo idx eval_bcd) 0 then
            let err := nsum n (fun i => nsum m (fun j => nabs (nsub (Ps i j) (co_s s i j)))) in
            let c := coot_value Ps Pf in
            let s' := mkCoot Ps Pf ds df (co_log s ++ [c]) (S idx) in
            if (nltb err tol_bcd || match prev with None => false | Some p => nltb (nabs (nsub p c)) tol_stop end)%bool
            then Some s' else coot_loop left' (S idx) tol_bcd tol_stop eval_bcd (Some c) s'
          else coot_loop left' (S idx) tol_bcd tol_stop eval_bcd prev (mkCoot Ps Pf ds df (co_log s) (S idx))
      end
  end.
(** lines 222-237 *)
Definition coot_start (warm : option (mat * mat * duals * duals)) : coot_out :=
  match warm with
  | None => mkCoot (outer ws vs) (outer wf vf) ((fun _ => n0), (fun _ => n0)) ((fun _ => n0), (fun _ => n0)) [] 0
  | Some (Ps, Pf, ds, df) => mkCoot Ps Pf ds df [] 0
  end.
Definition co_optimal_transport (warm : option (mat * mat * duals * duals)) (nits_bcd : nat) (tol_bcd tol_stop : N) (eval_bcd : nat) : option coot_out :=
  coot_loop nits_bcd 0 tol_bcd tol_stop eval_bcd None (coot_start warm).

(** ** co_optimal_transport2, lines 503-518: the value and the gradients attached to
    (wx_samp, wx_feat, wy_samp, wy_feat, X, Y).  None: distances[-1] of an empty list (IndexError) *)
Record coot_grads := mkCootG { cg_ws : vec; cg_wf : vec; cg_vs : vec; cg_vf : vec; cg_X : mat; cg_Y : mat }.
Definition grad_X (Ps Pf : mat) : mat := fun i k =>
  nsub (nmul (nmul two (X i k)) (nmul (ws i) (wf k))) (nsum e (fun l => nmul (nsum m (fun j => nmul (nmul two (Ps i j)) (Y j l))) (Pf k l))).
Definition grad_Y (Ps Pf : mat) : mat := fun j l =>
  nsub (nmul (nmul two (Y j l)) (nmul (vs j) (vf l))) (nsum d (fun k => nmul (nsum n (fun i => nmul (nmul two (Ps i j)) (X i k))) (Pf k l))).
Definition co_optimal_transport2 (warm : option (mat * mat * duals * duals)) (nits_bcd : nat) (tol_bcd tol_stop : N) (eval_bcd : nat) : option (N * coot_grads * coot_out) :=
  match co_optimal_transport warm nits_bcd tol_bcd tol_stop eval_bcd with
  | None => None
  | Some s =>
      match rev (co_log s) with
      | [] => None
      | c :: _ => Some (c, mkCootG (fst (co_ds s)) (fst (co_df s)) (snd (co_ds s)) (snd (co_df s)) (grad_X (co_s s) (co_f s)) (grad_Y (co_s s) (co_f s)), s)
      end
  end.
End Problem.
End Coot.
