(** Linear unmixing on a dictionary of structures: model of /repo/ot/gromov/_dictionary.py,
    gromov_wasserstein_linear_unmixing 333-409, _cg_gromov_wasserstein_unmixing 472-515, _linesearch_gromov_wasserstein_unmixing 561-581,
    fused_gromov_wasserstein_linear_unmixing 960-1056, _cg_fused_gromov_wasserstein_unmixing 1144-1207 and
    _linesearch_fused_gromov_wasserstein_unmixing 1281-1316.
    The loops of the plain and of the fused version are the same code apart from the features; they are written once, with the gradient, the
    line search coefficients and the transport solver as arguments.  Parameters: the transport solver (gromov_wasserstein or
    fused_gromov_wasserstein with G0 = T), [big] (10**15) and [small] (10**(-15), in the fused functions 10**(-12)).
    Not modelled: the dictionary learning loops (19-238, 584-866) and Adam. *)
From Coq Require Import List Arith Bool.
From Verif Require Import Num Emd1d_model Optim_model Sinkhorn_model.
Import ListNotations.

Section Gdict.
Context {N : NumOps}.
Notation vec := (nat -> N).
Notation mat := (nat -> nat -> N).
Variables (ns nt D e : nat) (C : mat) (Cd : nat -> mat) (Y : mat) (Yd : nat -> mat) (q : vec) (reg alpha : N) (small big : N).

(** unmixing, Cembedded, Yembedded *)
Record ust := mkU { u_w : vec; u_C : mat; u_Y : mat }.
Definition s2 (a b : nat) (f : mat) : N := nsum a (fun k => nsum b (fun l => f k l)).
(** np.sum(w[:, None, None] * Cdict, axis=0) *)
Definition embed (w : vec) (Z : nat -> mat) : mat := fun k l => nsum D (fun d => nmul (w d) (Z d k l)).
(** 475, 1147: np.transpose(C.dot(T)).dot(T) *)
Definition tct (T : mat) : mat := fun k l => nsum ns (fun i => nmul (nsum ns (fun j => nmul (C i j) (T j k))) (T i l)).
Definition const_q : mat := fun k l => nmul (q k) (q l).
(** 480-485 *)
Definition gw_grad (T : mat) (s : ust) : vec := fun d =>
  nsub (nmul two (s2 nt nt (fun k l => nmul (Cd d k l) (nsub (nmul (u_C s k l) (const_q k l)) (tct T k l))))) (nmul (nmul two reg) (u_w s d)).
(** 1153-1167 *)
Definition fgw_grad (T : mat) (s : ust) : vec := fun d =>
  nmul (nsub (nadd (nmul alpha (s2 nt nt (fun k l => nmul (Cd d k l) (nsub (nmul (u_C s k l) (const_q k l)) (tct T k l)))))
                   (nmul (nsub n1 alpha) (s2 nt e (fun k f => nmul (Yd d k f) (nsub (nmul (q k) (u_Y s k f)) (nsum ns (fun i => nmul (T i k) (Y i f))))))))
             (nmul reg (u_w s d))) two.
(** 488-490, 1170-1172: uniform on the smallest entries of the gradient *)
Definition um_dir (g : vec) : vec :=
  let mn := nmink (D - 1) g in
  let ind := fun d => if neqb (g d) mn then n1 else n0 in
  fun d => ndiv (ind d) (nsum D ind).
(** 564-569, 1284-1289: a and b of the structures *)
Definition ls_C (T : mat) (s : ust) (x : vec) : N * N :=
  let Cx := embed x Cd in
  let df := fun k l => nsub (Cx k l) (u_C s k l) in
  let tx := s2 nt nt (fun k l => nmul (nmul (df k l) (Cx k l)) (const_q k l)) in
  let tw := s2 nt nt (fun k l => nmul (nmul (df k l) (u_C s k l)) (const_q k l)) in
  (nsub tx tw, nmul two (nsub tw (s2 nt nt (fun k l => nmul (df k l) (tct T k l))))).
(** 1292-1299: a and b of the features *)
Definition ls_Y (T : mat) (s : ust) (x : vec) : N * N :=
  let df := fun k f => nsub (embed x Yd k f) (u_Y s k f) in
  (s2 ns nt (fun i k => nmul (nsum e (fun f => nmul n1 (nmul (df k f) (df k f)))) (T i k)),
   nmul two (s2 ns nt (fun i k => nmul (T i k) (nsub (nsum e (fun f => nmul n1 (nmul (u_Y s k f) (df k f)))) (nsum e (fun f => nmul (Y i f) (df k f))))))).
(** 570-572, 1303-1305 *)
Definition ls_reg (s : ust) (x : vec) (ab : N * N) : N * N :=
  if neqb reg n0 then ab
  else (nsub (fst ab) (nmul reg (nsum D (fun d => nmul (nsub (x d) (u_w s d)) (nsub (x d) (u_w s d))))),
        nsub (snd ab) (nmul (nmul two reg) (nsum D (fun d => nmul (u_w s d) (nsub (x d) (u_w s d)))))).
Definition gw_ls (T : mat) (s : ust) (x : vec) : N * N := ls_reg s x (ls_C T s x).
Definition fgw_ls (T : mat) (s : ust) (x : vec) : N * N :=                                       (* 1301-1302 *)
  ls_reg s x (nadd (nmul alpha (fst (ls_C T s x))) (nmul (nsub n1 alpha) (fst (ls_Y T s x))),
              nadd (nmul alpha (snd (ls_C T s x))) (nmul (nsub n1 alpha) (snd (ls_Y T s x)))).
(** 574-579, 1306-1311 *)
Definition um_gamma (a b : N) : N :=
  if nltb n0 a then nmin n1 (nmax n0 (ndiv (nopp b) (nmul two a)))
  else if nltb (nadd a b) n0 then n1 else n0.

Section Loops.
Variables (grad : mat -> ust -> vec) (ls : mat -> ust -> vec -> N * N) (solve : ust -> mat -> mat * N) (tol tol_outer : N) (max_iter : nat).
(** 480-501, 1151-1198: one iteration; the second component is the new loss *)
Definition um_step (T : mat) (s : ust) (loss : N) : ust * N :=
  let x := um_dir (grad T s) in
  let '(a, b) := ls T s x in
  let g := um_gamma a b in
  (mkU (fun d => nadd (u_w s d) (nmul g (nsub (x d) (u_w s d))))
       (fun k l => nadd (u_C s k l) (nmul g (nsub (embed x Cd k l) (u_C s k l))))
       (fun k f => nadd (u_Y s k f) (nmul g (nsub (embed x Yd k f) (u_Y s k f)))),
   nadd loss (nadd (nmul a (nmul g g)) (nmul b g))).
(** 503-509, 400-405 *)
Definition crit (prev cur : N) : N := ndiv (nabs (nsub prev cur)) (if neqb prev n0 then small else nabs prev).
(** 477-512: None is the infinite criterion; the boolean says that the criterion stopped the loop *)
Fixpoint um_loop (left : nat) (T : mat) (c : option N) (s : ust) (loss : N) : ust * N * bool :=
  if match c with None => true | Some c => nltb tol c end then
    match left with
    | O => (s, loss, false)
    | S left' => let '(s', loss') := um_step T s loss in um_loop left' T (Some (crit loss loss')) s' loss'
    end
  else (s, loss, true).
(** 356-409; the regularisation of the starting loss 377-379 *)
Fixpoint bcd_loop (left : nat) (c : option N) (s : ust) (T : mat) (loss : N) : ust * mat * N :=
  if match c with None => true | Some c => nltb tol_outer c end then
    match left with
    | O => (s, T, loss)
    | S left' =>
        let '(T', dist) := solve s T in
        let l0 := if neqb reg n0 then dist else nsub dist (nmul reg (nsum D (fun d => nmul (u_w s d) (u_w s d)))) in
        let '(s', loss', _) := um_loop max_iter T' None s l0 in
        bcd_loop left' (Some (crit loss loss')) s' T' loss'
    end
  else (s, T, loss).
(** 344-355, 971-988 *)
Definition um_start : ust := let w := fun _ => ndiv n1 (nofnat D) in mkU w (embed w Cd) (embed w Yd).
Definition unmixing (p : vec) (max_outer : nat) : ust * mat * N := bcd_loop max_outer None um_start (fun i k => nmul (p i) (q k)) big.
End Loops.
(** 990-1000: the feature cost of the fused solver *)
Definition feat_cost (s : ust) : mat := fun i k =>
  nsub (nadd (nsum e (fun f => nmul (nmul (Y i f) (Y i f)) n1)) (nsum e (fun f => nmul n1 (nmul (u_Y s k f) (u_Y s k f)))))
       (nmul two (nsum e (fun f => nmul (Y i f) (u_Y s k f)))).
Definition gw_unmixing (gw : mat -> mat -> mat * N) (tol tol_outer : N) (max_iter : nat) (p : vec) (max_outer : nat) :=
  unmixing gw_grad gw_ls (fun s T => gw (u_C s) T) tol tol_outer max_iter p max_outer.
Definition fgw_unmixing (fgw : mat -> mat -> mat -> mat * N) (tol tol_outer : N) (max_iter : nat) (p : vec) (max_outer : nat) :=
  unmixing fgw_grad fgw_ls (fun s T => fgw (feat_cost s) (u_C s) T) tol tol_outer max_iter p max_outer.
End Gdict.
