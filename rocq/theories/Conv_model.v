(** Model of ot/bregman/_convolutional.py: _get_convol_img_fn 23-51, _convolutional_barycenter2d
    165-228, _convolutional_barycenter2d_log 231-299, _convolutional_barycenter2d_debiased 401-469,
    _convolutional_barycenter2d_debiased_log 472-539.  A holds nh images of size w x h.  exp, log,
    sqrt and the standard deviation are parameters.  Not modelled: the name dispatch, the assertion
    on the number of weights, the backend test for jax and tf, printing and warnings; in the debiased
    version nx.squeeze (line 446) is taken to remove the added axis only (it removes more when an
    image has a single row or column). *)
From Coq Require Import List Arith Bool.
From Verif Require Import Num Emd1d_model Sinkhorn_model.
Import ListNotations.

Section Conv.
Context {N : NumOps}.
Notation vec := (nat -> N).
Notation img := (nat -> nat -> N).
Notation imgs := (nat -> nat -> nat -> N).
Variables (ex lg sq : N -> N) (std : nat -> vec -> N).
Variables (w h : nat) (reg : N).

(** linspace(0, 1, k), lines 27 and 31 *)
Definition lin01 (k i : nat) : N := if Nat.eqb k 1 then n0 else ndiv (nofnat (N:=N) i) (nofnat (N:=N) (k - 1)).
(** M1 and M2, lines 28-29 and 32-33: X[i,j] = t[i], Y[i,j] = t[j] *)
Definition cv_M (k i j : nat) : N :=
  let d := nsub (lin01 k i) (lin01 k j) in ndiv (nopp (nmul d d)) reg.
(** convol_imgs, lines 36-41: along the first image axis, then along the second *)
Definition convol (X : imgs) : imgs :=
  let kx := fun k i l => nsum w (fun j => nmul (ex (cv_M w i j)) (X k j l)) in
  fun k l i => nsum h (fun j => nmul (ex (cv_M h i j)) (kx k l j)).
(** convol_imgs in the log domain, lines 46-49, one image *)
Definition convol_log (X : img) : img :=
  let L1 := fun i l => logsumexp ex lg w (fun j => nadd (cv_M w i j) (X j l)) in
  fun l i => logsumexp ex lg h (fun j => nadd (cv_M h i j) (L1 l j)).

Variables (nh : nat) (A : imgs) (wt : vec).
(** weights=None: lines 185-188, 259-262, 419-422, 495-498 *)
Definition cv_weights (o : option vec) : vec := match o with Some w => w | None => fun _ => ndiv n1 (nofnat (N:=N) nh) end.

(** ** _convolutional_barycenter2d and its debiased version *)
Section Plain.
Variables (stab : N).
Record cst := mkCst { cs_bar : img; cs_U : imgs; cs_V : imgs; cs_KU : imgs; cs_c : img }.
(** lines 193-202 and 427-437: bar is uniform, U = V = 1, c = 1 *)
Definition cv_start : cst :=
  let one := fun _ _ _ => n1 in
  mkCst (fun _ _ => ndiv n1 (nofnat (N:=N) (w * h))) one one (convol one) (fun _ _ => n1).
(** lines 204-206, 439-441 *)
Definition cv_V (s : cst) : imgs := fun k i j => ndiv (cs_bar s i j) (cs_KU s k i j).
Definition cv_U (s : cst) : imgs := let KV := convol (cv_V s) in fun k i j => ndiv (A k i j) (KV k i j).
(** line 208, and the exponential of line 443 *)
Definition cv_gbar (KU : imgs) : img := fun i j => ex (nsum nh (fun k => nmul (wt k) (lg (nadd (KU k i j) stab)))).
(** lines 204-208 *)
Definition cv_step (s : cst) : cst :=
  let KU := convol (cv_U s) in mkCst (cv_gbar KU) (cv_U s) (cv_V s) KU (cs_c s).
(** line 446, 10 times *)
Definition cd_c1 (bar c : img) : img := fun i j => sq (ndiv (nmul (c i j) (bar i j)) (convol (fun _ => c) 0 i j)).
Fixpoint cd_c (k : nat) (bar c : img) : img := match k with O => c | S k' => cd_c k' bar (cd_c1 bar c) end.
(** lines 439-446 *)
Definition cd_step (s : cst) : cst :=
  let KU := convol (cv_U s) in
  let bar := fun i j => nmul (cs_c s i j) (cv_gbar KU i j) in
  mkCst bar (cv_U s) (cv_V s) KU (cd_c 10 bar (cs_c s)).
(** lines 210, 449 *)
Definition cv_err (s : cst) : N := nsum w (fun i => nsum h (fun j => std nh (fun k => nmul (cs_V s k i j) (cs_KU s k i j)))).
(** the loops 203-217 ([late] always true) and 438-459 ([late ii] is ii > 20) *)
Fixpoint cv_loop (step : cst -> cst) (late : nat -> bool) (thr : N) (left ii : nat) (s : cst) (errs : list N) : cst * list N * exit :=
  match left with
  | O => (s, errs, MaxIter)
  | S left' =>
      let s' := step s in
      if Nat.eqb (Nat.modulo ii 10) 9 then
        let err := cv_err s' in
        if (nltb err thr && late ii)%bool then (s', errs ++ [err], Converged ii)
        else cv_loop step late thr left' (S ii) s' (errs ++ [err])
      else cv_loop step late thr left' (S ii) s' errs
  end.
(** the result; with log and no iteration the index read at lines 223 and 464 is unbound *)
Definition guard_log {T : Type} (log : bool) (it : nat) (x : T) : option T := if (log && Nat.eqb it 0)%bool then None else Some x.
Definition conv_barycenter2d (it : nat) (thr : N) (log : bool) : option (cst * list N * exit) :=
  guard_log log it (cv_loop cv_step (fun _ => true) thr it 0 cv_start []).
Definition conv_barycenter2d_debiased (it : nat) (thr : N) (log : bool) : option (cst * list N * exit) :=
  guard_log log it (cv_loop cd_step (fun ii => Nat.ltb 20 ii) thr it 0 cv_start []).
End Plain.

(** ** the log-domain versions *)
Section Log.
Variables (stab half : N).
(** lines 271, 276-279 and 507, 513-516 *)
Definition cl_f (G : imgs) : imgs := fun k i j => nsub (lg (nadd (A k i j) stab)) (convol_log (G k) i j).
Definition cl_KU (G : imgs) : imgs := fun k => convol_log (cl_f G k).
Definition cl_bar (G : imgs) : img := fun i j => nsum nh (fun k => nmul (wt k) (cl_KU G k i j)).
(** lines 282, 522 *)
Definition cl_err (G : imgs) : N := nsum w (fun i => nsum h (fun j => std nh (fun k => ex (nadd (G k i j) (cl_KU G k i j))))).
(** last evaluated G, its log_bar, the errors and the way the loop ended *)
Record cl_out := mkCl { cl_G : imgs; cl_c0 : img; cl_logbar : img; cl_errs : list N; cl_exit : exit }.
(** lines 274-290; None: log_bar is unbound *)
Fixpoint cl_loop (thr : N) (left ii : nat) (G : imgs) (last : option (imgs * img)) (errs : list N) : option cl_out :=
  match left with
  | O => match last with None => None | Some (G0, b) => Some (mkCl G0 (fun _ _ => n0) b errs MaxIter) end
  | S left' =>
      let b := cl_bar G in
      let G' := fun k i j => nsub (b i j) (cl_KU G k i j) in
      if Nat.eqb (Nat.modulo ii 10) 9 then
        let err := cl_err G in
        if nltb err thr then Some (mkCl G (fun _ _ => n0) b (errs ++ [err]) (Converged ii))
        else cl_loop thr left' (S ii) G' (Some (G, b)) (errs ++ [err])
      else cl_loop thr left' (S ii) G' (Some (G, b)) errs
  end.
Definition conv_barycenter2d_log (it : nat) (thr : N) : option cl_out := cl_loop thr it 0 (fun _ _ _ => n0) None [].
(** line 519, 10 times *)
Definition cl_c1 (b c : img) : img := fun i j => nmul half (nsub (nadd (c i j) (b i j)) (convol_log c i j)).
Fixpoint cl_c (k : nat) (b c : img) : img := match k with O => c | S k' => cl_c k' b (cl_c1 b c) end.
(** lines 511-530; log_bar starts at 0 (line 508), [cl_c0] is the c added to the last log_bar *)
Fixpoint cld_loop (thr : N) (left ii : nat) (G : imgs) (c : img) (last : imgs * img * img) (errs : list N) : cl_out :=
  match left with
  | O => let '(G0, c0, b) := last in mkCl G0 c0 b errs MaxIter
  | S left' =>
      let b := fun i j => nadd (cl_bar G i j) (c i j) in
      let c' := cl_c 10 b c in
      let G' := fun k i j => nsub (b i j) (cl_KU G k i j) in
      if Nat.eqb (Nat.modulo ii 10) 9 then
        let err := cl_err G in
        if (nltb err thr && Nat.ltb 20 ii)%bool then mkCl G c b (errs ++ [err]) (Converged ii)
        else cld_loop thr left' (S ii) G' c' (G, c, b) (errs ++ [err])
      else cld_loop thr left' (S ii) G' c' (G, c, b) errs
  end.
Definition conv_barycenter2d_debiased_log (it : nat) (thr : N) (log : bool) : option cl_out :=
  let z := fun _ _ => n0 in
  guard_log log it (cld_loop thr it 0 (fun _ _ _ => n0) z (fun _ _ _ => n0, z, z) []).
(** lines 297-299, 537-539 *)
Definition cl_result (o : cl_out) : img := fun i j => ex (cl_logbar o i j).
End Log.
End Conv.
Arguments cs_bar {N}. Arguments cs_U {N}. Arguments cs_V {N}. Arguments cs_KU {N}. Arguments cs_c {N}. Arguments mkCst {N}.
Arguments cl_G {N}. Arguments cl_c0 {N}. Arguments cl_logbar {N}. Arguments cl_errs {N}. Arguments cl_exit {N}. Arguments mkCl {N}.
