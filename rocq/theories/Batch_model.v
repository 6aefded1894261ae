(** Model of /repo/ot/batch/_linear.py and /repo/ot/batch/_quadratic.py.  A batch of B problems is a
    function of q < B.  Structure matrices carry d features per entry (a 3D input is the case d = 1,
    the code appends an axis of length one, _quadratic.py:122-130).  The Bregman projections are those
    of Sinkhorn_model.  Gradient tracking (detach) is the identity on values and is not modelled. *)
From Coq Require Import List Arith Bool String.
From Verif Require Import Num Optim_model Gw_model Emd1d_model Sinkhorn_model.
Import ListNotations.

Section Batch.
Context {N : NumOps}.
Variables (lg ex sq : N -> N).
(** exceptions: ValueError, or a local name read before assignment *)
Inductive berr := ValueErr | Unbound.
Inductive res (A : Type) := Ok (x : A) | Raise (e : berr).
Arguments Ok {A} _. Arguments Raise {A} _.

(** ** _linear.py: cost matrices between the rows of X (n x d) and Y (m x d) *)
Section Dist.
Variable d : nat.
(** dist_lp_batch, 45-51 (called with q = 1, line 228); [pw] is the power; [p1] tells p = 1 *)
Definition dist_lp (pw : N -> N -> N) (p : N) (X Y : gmat (N:=N)) : gmat (N:=N) := fun i j =>
  let s := nsum d (fun e => pw (nabs (nsub (X i e) (Y j e))) p) in
  if neqb n1 p then s else pw s (ndiv n1 p).
(** dist_euclidean_batch, 77-85 *)
Definition dist_euclidean (squared : bool) (X Y : gmat (N:=N)) : gmat (N:=N) := fun i j =>
  let s := nsub (nadd (nsum d (fun e => nmul (X i e) (X i e))) (nsum d (fun e => nmul (Y j e) (Y j e))))
                (nmul two (nsum d (fun e => nmul (X i e) (Y j e)))) in
  if squared then s else sq s.
(** dist_kl_batch, 111-120; logits_X=True (114-115) is never passed by dist_batch and is not modelled *)
Definition dist_kl (eps : N) (X Y : gmat (N:=N)) : gmat (N:=N) := fun i j =>
  nsub (nsum d (fun e => nmul (Y j e) (lg (nadd (Y j e) eps)))) (nsum d (fun e => nmul (Y j e) (lg (nadd (X i e) eps)))).
(** dist_batch, 221-233: the metric after lower(); [eps] is 1e-10 *)
Definition dist_batch (eps : N) (pw : N -> N -> N) (p : N) (metric : string) (X : gmat (N:=N)) (Y : option (gmat (N:=N))) : res (gmat (N:=N)) :=
  let Y := match Y with Some Y => Y | None => X end in
  if String.eqb metric "sqeuclidean" then Ok (dist_euclidean true X Y)
  else if String.eqb metric "euclidean" then Ok (dist_euclidean false X Y)
  else if String.eqb metric "minkowski" then Ok (dist_lp pw p X Y)
  else if String.eqb metric "kl" then Ok (dist_kl eps X Y)
  else Raise ValueErr.
End Dist.
(** loss_linear_batch, 145-147; loss_linear_samples_batch, 174-175, with its default metric "l2" *)
Definition loss_linear (n m : nat) (M T : gmat (N:=N)) : N := inner n m M T.
Definition default_metric : string := "l2".
Definition loss_linear_samples (n m d : nat) (eps : N) (pw : N -> N -> N) (metric : option string) (X Y T : gmat (N:=N)) : res N :=
  match dist_batch d eps pw two (match metric with Some s => s | None => default_metric end) X (Some Y) with
  | Ok M => Ok (loss_linear n m M T) | Raise e => Raise e end.

Section Solve.
Variables (B n m : nat).
Definition bmat : Type := nat -> nat -> nat -> N.
Definition bvec : Type := nat -> nat -> N.
Definition uniform (k : nat) : bvec := fun _ _ => ndiv n1 (nofnat k).
Definition given (k : nat) (w : option bvec) : bvec := match w with Some w => w | None => uniform k end.

(** entropy_batch, _utils.py:20-22 *)
Definition entropy_b (tiny : N) (T : gmat (N:=N)) : N := nopp (nsum n (fun i => nsum m (fun j => nmul (T i j) (lg (nadd (T i j) tiny))))).
(** solve_batch, 308-357: the plans, the linear values, the values, the potentials and the exit of the
    projection.  [last] is grad="last_step"; the tests on solver and reg_type follow the order of the
    code: the plan is computed before an unknown reg_type leaves [value] unbound (339-345). *)
Record lres := mk_lres { l_plan : bmat; l_lin : nat -> N; l_value : nat -> N; l_pot : bs (N:=N); l_exit : exit }.
Definition solve_batch (norm : nat -> (nat -> N) -> N) (tiny tol : N) (solver reg_type : string) (last : bool) (reg : N) (M : bmat) (a b : option bvec) (max_iter : nat) : res lres :=
  let a := given n a in let b := given m b in
  let fin (r : option (bs (N:=N) * exit)) (plan : bs (N:=N) -> bmat) : res lres :=
    match r with
    | None => Raise Unbound                                              (* n_iters, _utils.py:160, 290 *)
    | Some (s, e) =>
        let T := plan s in
        let lin := fun q => loss_linear n m (M q) (T q) in
        if String.eqb reg_type "entropy"
        then Ok (mk_lres T lin (fun q => nadd (lin q) (nmul reg (nopp (entropy_b tiny (T q))))) s e)
        else if String.eqb reg_type "kl"
        then Ok (mk_lres T lin (fun q => nadd (lin q) (nmul reg (nsum n (fun i => nsum m (fun j =>
               nmul (T q i j) (lg (nadd (ndiv (T q i j) (nmul (a q i) (b q j))) tiny))))))) s e)
        else Raise Unbound
    end in
  if String.eqb solver "log_sinkhorn"
  then let K := fun q i j => ndiv (nopp (M q i j)) reg in
       fin (bregman_log_projection_batch B n m a b norm tol ex lg K max_iter last) (bl_T ex K)
  else if String.eqb solver "sinkhorn"
  then let K := fun q i j => ex (ndiv (nopp (M q i j)) reg) in
       fin (bregman_projection_batch B n m a b norm tol K max_iter last) (bp_T K)
  else Raise ValueErr.

(** ** _quadratic.py *)
Definition fmat : Type := nat -> nat -> nat -> N.       (* entry (i, k), feature e *)
Inductive bloss := BSq | BKl (logits : bool).
Section Tensor.
Variables (d : nat) (tiny : N) (l : bloss).
(** tensor_batch, 108-150 *)
Definition b_f1 (C : fmat) : gmat (N:=N) := fun i k => match l with BSq => nsum d (fun e => nmul (C i k e) (C i k e)) | BKl _ => n0 end.
Definition b_f2 (C : fmat) : gmat (N:=N) := fun i k =>
  match l with BSq => nsum d (fun e => nmul (C i k e) (C i k e)) | BKl _ => nsum d (fun e => nmul (C i k e) (lg (nadd (C i k e) tiny))) end.
Definition b_h1 (C : fmat) : fmat := fun i k e =>
  match l with BSq => nmul two (C i k e) | BKl true => C i k e | BKl false => lg (nadd (C i k e) tiny) end.
Definition b_h2 (C : fmat) : fmat := C.
(** compute_const_from_marginals, 581-590 *)
Definition b_const (F1 F2 : gmat (N:=N)) (a b : nat -> N) : gmat (N:=N) := fun i j =>
  nadd (nsum n (fun k => nmul (F1 i k) (a k))) (nsum m (fun c => nmul (F2 j c) (b c))).
(** compute_tensor_batch, 504-532 *)
Record btens := mk_btens { t_const : gmat (N:=N); t_h1 : fmat; t_h2 : fmat; t_f1 : gmat (N:=N); t_f2 : gmat (N:=N) }.
Definition symf (sym : bool) (F : gmat (N:=N)) : gmat (N:=N) := if sym then F else fun i k => nmul half_ (nadd (F i k) (F k i)).
Definition tensor_batch (sym : bool) (a b : nat -> N) (C1 C2 : fmat) : btens :=
  let F1 := symf sym (b_f1 C1) in let F2 := symf sym (b_f2 C2) in
  mk_btens (b_const F1 F2 a b) (b_h1 C1) (b_h2 C2) F1 F2.
(** tensor_product_batch, 535-572 *)
Definition b_dot (H1 H2 : fmat) (T : gmat (N:=N)) : gmat (N:=N) := fun i j =>
  nsum d (fun e => nsum m (fun c => nmul (nsum n (fun k => nmul (H1 i k e) (T k c))) (H2 j c e))).
Definition ftr (H : fmat) : fmat := fun i k e => H k i e.
Definition tensor_product_batch (L : btens) (T : gmat (N:=N)) (recompute sym : bool) : gmat (N:=N) := fun i j =>
  let c := if recompute then b_const (t_f1 L) (t_f2 L) (fun i => nsum m (fun j => T i j)) (fun j => nsum n (fun i => T i j)) i j else t_const L i j in
  let dot := b_dot (t_h1 L) (t_h2 L) T i j in
  let dot := if sym then dot else ndiv (nadd dot (b_dot (ftr (t_h1 L)) (ftr (t_h2 L)) T i j)) two in
  nsub c dot.
(** loss_quadratic_batch, 193-198 *)
Definition loss_quadratic (L : btens) (T : gmat (N:=N)) (recompute sym : bool) : N := inner n m (tensor_product_batch L T recompute sym) T.
(** loss_quadratic_samples_batch, 258-266; symmetric=None is falsy *)
Definition loss_quadratic_samples (a b : nat -> N) (C1 C2 : fmat) (T : gmat (N:=N)) (symmetric : option bool) (recompute : bool) : N :=
  let sym := match symmetric with Some s => s | None => false end in
  loss_quadratic (tensor_batch sym a b C1 C2) T recompute sym.

(** nx.allclose(C, transpose(C)) over the whole batch, 411-414, with the default rtol (1e-5) and atol *)
Fixpoint alln (k : nat) (f : nat -> bool) : bool := match k with O => true | S k' => (alln k' f && f k')%bool end.
Definition close_b (rtol atol x y : N) : bool := nleb (nabs (nsub x y)) (nadd atol (nmul rtol (nabs y))).
Definition batch_symmetric (rtol atol : N) (k : nat) (C : nat -> fmat) : bool :=
  alln B (fun q => alln k (fun i => alln k (fun j => alln d (fun e => close_b rtol atol (C q i j e) (C q j i e))))).
(** solve_gromov_batch, 401-498.  [last] is never requested of the inner projection (454).
    [alpha_ok] of 443-446; M given with a wrong shape (439-442) is not modelled. *)
Record qst := mk_qst { q_T : bmat; q_log : bmat; q_pot : bs (N:=N) }.
Record qres := mk_qres { r_plan : bmat; r_lin : nat -> N; r_quad : nat -> N; r_value : nat -> N; r_pot : bs (N:=N); r_iter : nat }.
Definition q_cost (alpha : N) (M : bmat) (L : nat -> btens) (sym : bool) (T : bmat) : bmat := fun q i j =>
  nadd (nmul (nsub n1 alpha) (M q i j)) (nmul (nmul two alpha) (tensor_product_batch (L q) (T q) false sym i j)).      (* 460-462 *)
Section Loop.
Variables (norm : nat -> (nat -> N) -> N) (tol tol_inner : N) (max_inner : nat) (reg alpha : N) (M : bmat) (L : nat -> btens) (sym : bool) (a b : bvec).
Definition q_kernel (T logT : bmat) : bmat := fun q i j => nadd (ndiv (nopp (q_cost alpha M L sym T q i j)) reg) (logT q i j).   (* 463 *)
Definition q_step (T logT : bmat) : option qst :=
  let K := q_kernel T logT in
  match bregman_log_projection_batch B n m a b norm tol_inner ex lg K max_inner false with
  | None => None
  | Some (s, _) => let logT' := fun q i j => nadd (nadd (K q i j) (b_f s q i)) (b_g s q j) in
                   Some (mk_qst (bl_T ex K s) logT' s)
  end.
Definition q_err (T T' : bmat) : N :=                                                                                  (* 469 *)
  nmaxk (B - 1) (fun q => ndiv (nsum n (fun i => nsum m (fun j => nabs (nsub (T q i j) (T' q i j))))) (nmul (nofnat n) (nofnat m))).
(** the for loop: the last state and the last value of [iter] *)
Fixpoint q_loop (left it : nat) (T logT : bmat) : option (qst * nat) :=
  match left with
  | O => None
  | S left' =>
      match q_step T logT with
      | None => None
      | Some s => if nltb (q_err T (q_T s)) tol then Some (s, it)
                  else match left' with O => Some (s, it) | _ => q_loop left' (S it) (q_T s) (q_log s) end
      end
  end.
End Loop.
Definition solve_gromov_batch (norm : nat -> (nat -> N) -> N) (rtol atol tol tol_inner : N) (max_iter max_inner : nat) (reg : N) (a b : option bvec) (C1 C2 : nat -> fmat)
    (symmetric : option bool) (M : option bmat) (alpha : option N) (T_init : option bmat) : res qres :=
  let a := given n a in let b := given m b in
  let sym := match symmetric with Some s => s | None => (batch_symmetric rtol atol n C1 && batch_symmetric rtol atol m C2)%bool end in
  let L := fun q => tensor_batch sym (a q) (b q) (C1 q) (C2 q) in
  let go (M : bmat) (alpha : N) : res qres :=
    let T0 := match T_init with Some T => T | None => fun q i j => ndiv (nmul (a q i) (b q j)) (sq (nmul (nsum n (a q)) (nsum m (b q)))) end in   (* 450-452 *)
    let log0 := fun q i j => lg (nadd (T0 q i j) tiny) in                                                              (* 457 *)
    match q_loop norm tol tol_inner max_inner reg alpha M L sym a b max_iter 0 T0 log0 with
    | None => Raise Unbound
    | Some (s, it) =>
        let lin := fun q => loss_linear n m (M q) (q_T s q) in
        let quad := fun q => loss_quadratic (L q) (q_T s q) true sym in
        Ok (mk_qres (q_T s) (fun q => nmul (lin q) (nsub n1 alpha)) (fun q => nmul (quad q) alpha)
                    (fun q => nadd (nmul (nsub n1 alpha) (lin q)) (nmul alpha (quad q))) (q_pot s) it)
    end in
  match M, alpha with
  | None, None => go (fun _ _ _ => n0) n1
  | Some M, Some al => if (nltb al n0 || nltb n1 al)%bool then Raise ValueErr else go M al
  | _, _ => Raise ValueErr
  end.
End Tensor.
End Solve.
End Batch.
Arguments Ok {A} _. Arguments Raise {A} _.
