(** Gaussian transport: model of /repo/ot/gaussian.py (Bures-Wasserstein map, distance, fixed-point and
    gradient barycenters, Gaussian Gromov-Wasserstein) and of LinearTransport (/repo/ot/da.py:943-1040).
    Matrices are functions of two indices, dimension d; nx.sqrtm, nx.inv, nx.norm, nx.sqrt and nx.eigh are
    parameters.  Batched inputs are one call per (pair of) matrices.  Not modelled: the finiteness warning
    (189-193), the logs, the stochastic variants (622-635, 643-650). *)
From Coq Require Import List Arith Bool.
From Verif Require Import Num Emd1d_model Optim_model Utils_model Da_model.
Import ListNotations.

Section Gaussian.
Context {N : NumOps}.
Notation vec := (nat -> N).
Notation mat := (nat -> nat -> N).
Variables (sqrtm inv : nat -> mat -> mat) (sq : N -> N) (norm : nat -> mat -> N).
Definition eye : mat := fun i j => if Nat.eqb i j then n1 else n0.
(** utils.dots(A, B, C) and x @ A *)
Definition dots3 (d : nat) (A B C : mat) : mat := mdot d (mdot d A B) C.
Definition vdot (d : nat) (x : vec) (A : mat) : vec := fun j => nsum d (fun i => nmul (x i) (A i j)).

(** bures_wasserstein_mapping, 75-93 *)
Definition bures_A (d : nat) (Cs Ct : mat) : mat :=
  let Cs12 := sqrtm d Cs in let Cs12inv := inv d Cs12 in
  let M0 := sqrtm d (dots3 d Cs12 Ct Cs12) in dots3 d Cs12inv M0 Cs12inv.
Definition bures_wasserstein_mapping (d : nat) (ms mt : vec) (Cs Ct : mat) : mat * vec :=
  let A := bures_A d Cs Ct in (A, fun j => nsub (mt j) (vdot d ms A j)).

(** the empirical moments, 165-182 (and 421-438, 875-889): w is the n x 1 weight vector *)
Definition emp_w (n : nat) (w : option vec) : vec := match w with Some w => w | None => fun _ => ndiv n1 (nofnat n) end.
Definition emp_mean (n : nat) (w : vec) (X : mat) (bias : bool) : vec :=
  fun t => if bias then ndiv (nsum n (fun i => nmul (w i) (X i t))) (nsum n w) else n0.
Definition centre (X : mat) (mu : vec) (bias : bool) : mat := fun i t => if bias then nsub (X i t) (mu t) else X i t.
Definition emp_cov (n : nat) (w : vec) (X : mat) (reg : N) (bias : bool) : mat :=
  let Xc := centre X (emp_mean n w X bias) bias in
  fun s t => nadd (ndiv (nsum n (fun i => nmul (nmul (Xc i s) (w i)) (Xc i t))) (nsum n w)) (nmul reg (eye s t)).
(** empirical_bures_wasserstein_mapping, 159-200 *)
Definition empirical_mapping (n m d : nat) (xs xt : mat) (reg : N) (ws wt : option vec) (bias : bool) : mat * vec :=
  let ws := emp_w n ws in let wt := emp_w m wt in
  bures_wasserstein_mapping d (emp_mean n ws xs bias) (emp_mean m wt xt bias) (emp_cov n ws xs reg bias) (emp_cov m wt xt reg bias).

(** bures_distance, 247-265 *)
Definition bures_sq (d : nat) (Cs Ct : mat) : N :=
  let Cs12 := sqrtm d Cs in let S := sqrtm d (dots3 d Cs12 Ct Cs12) in
  trace d (fun i j => nsub (nadd (Cs i j) (Ct i j)) (nmul two (S i j))).
Definition bures_distance (d : nat) (Cs Ct : mat) : N := sq (nmax (bures_sq d Cs Ct) n0).
(** bures_wasserstein_distance, 338-354; nx.norm of a vector *)
Definition vnorm (d : nat) (x : vec) : N := sq (nsum d (fun i => nmul (x i) (x i))).
Definition bures_wasserstein_distance (d : nat) (ms mt : vec) (Cs Ct : mat) : N :=
  let bw := bures_distance d Cs Ct in let nm := vnorm d (fun i => nsub (ms i) (mt i)) in
  sq (nmax (nadd (nmul nm nm) (nmul bw bw)) n0).
(** empirical_bures_wasserstein_distance, 416-447 *)
Definition empirical_distance (n m d : nat) (xs xt : mat) (reg : N) (ws wt : option vec) (bias : bool) : N :=
  let ws := emp_w n ws in let wt := emp_w m wt in
  bures_wasserstein_distance d (emp_mean n ws xs bias) (emp_mean m wt xt bias) (emp_cov n ws xs reg bias) (emp_cov m wt xt reg bias).

(** bures_barycenter_fixpoint, 505-534.  C is the stack of k matrices *)
Definition bar_init (k : nat) (C : nat -> mat) (w : vec) : mat := fun i j => ndiv (nsum k (fun p => nmul (C p i j) (w p))) (nofnat k).
Definition fix_new (k d : nat) (C : nat -> mat) (w : vec) (Cb : mat) : mat :=
  let Cb12 := sqrtm d Cb in fun i j => nsum k (fun p => nmul (sqrtm d (dots3 d Cb12 (C p) Cb12) i j) (w p)).
(** the result: Cb, the last diff and it; None when the loop body never ran (diff is unbound: NameError) *)
Fixpoint fix_loop (left it k d : nat) (C : nat -> mat) (w : vec) (eps : N) (Cb : mat) (last : option (mat * N * nat)) : option (mat * N * nat) :=
  match left with
  | O => match last with None => None | Some (_, diff, i) => Some (Cb, diff, i) end
  | S left' =>
      let Cnew := fix_new k d C w Cb in
      let diff := norm d (fun i j => nsub (Cb i j) (Cnew i j)) in
      if nleb diff eps then Some (Cb, diff, it) else fix_loop left' (S it) k d C w eps Cnew (Some (Cb, diff, it))
  end.
Definition bar_w (k : nat) (w : option vec) : vec := match w with Some w => w | None => fun _ => ndiv n1 (nofnat k) end.
Definition bures_barycenter_fixpoint (k d : nat) (C : nat -> mat) (w : option vec) (num_iter : nat) (eps : N) : option (mat * N * nat) :=
  let w := bar_w k w in fix_loop num_iter 0 k d C w eps (bar_init k C w) None.
(** bures_wasserstein_barycenter, 758-762: the mean *)
Definition bar_mean (k : nat) (m : nat -> vec) (w : option vec) : vec := fun t => nsum k (fun p => nmul (m p t) (bar_w k w p)).

(** one deterministic step of bures_barycenter_gradient_descent, 619-641, and utils.exp_bures (1561-1563) *)
Definition exp_bures (d : nat) (Sg S : mat) : mat := let C := fun i j => nadd (eye i j) (S i j) in dots3 d C Sg C.
Definition bw_grad (k d : nat) (C : nat -> mat) (w : vec) (Cb : mat) : mat :=
  let Cb12 := sqrtm d Cb in let Cb12_ := inv d Cb12 in
  fun i j => nsub (eye i j) (nsum k (fun p => nmul (dots3 d Cb12_ (sqrtm d (dots3 d Cb12 (C p) Cb12)) Cb12_ i j) (w p))).
Definition gd_step (k d : nat) (C : nat -> mat) (w : vec) (step : N) (Cb : mat) : mat :=
  exp_bures d Cb (fun i j => nmul (nopp step) (bw_grad k d C w Cb i j)).

(** the deterministic loop, 618-659, 670: L_diff is kept newest first; the result is the iterate *)
Definition mean_last (l : list N) : N := ndiv (fold_right nadd n0 (firstn 100 l)) (nofnat (length (firstn 100 l))).
Fixpoint gd_loop (left k d : nat) (C : nat -> mat) (w : vec) (step eps : N) (Cb : mat) (L : list N) : mat :=
  match left with
  | O => Cb
  | S left' =>
      let Cnew := gd_step k d C w step Cb in
      let L' := norm d (fun i j => nsub (Cb i j) (Cnew i j)) :: L in
      if nleb (mean_last L') eps then Cb else gd_loop left' k d C w step eps Cnew L'
  end.
Definition bures_barycenter_gd (k d : nat) (C : nat -> mat) (w : option vec) (num_iter : nat) (eps step : N) : mat :=
  let w := bar_w k w in gd_loop num_iter k d C w step eps (bar_init k C w) [].

(** gaussian_gromov_wasserstein_distance, 940-961: ds, dt are the sorted (decreasing) eigenvalues of the
    larger and the smaller covariance; [m >= n] *)
Definition gw_value (m n : nat) (ds dt : vec) : N :=
  let t := nsub (nsum m ds) (nsum n dt) in let four := nadd two two in let eight := nadd four four in
  sq (nadd (nadd (nmul four (nmul t t)) (nmul eight (nsum n (fun i => nmul (nsub (ds i) (dt i)) (nsub (ds i) (dt i))))))
           (nmul eight (nsum (m - n) (fun i => nmul (ds (n + i)%nat) (ds (n + i)%nat))))).
(** [eig k C] are the eigenvalues of C, sorted decreasingly *)
Definition gaussian_gw_distance (eig : nat -> mat -> vec) (ks kt : nat) (Cs Ct : mat) : N :=
  if Nat.ltb ks kt then gw_value kt ks (eig kt Ct) (eig ks Cs) else gw_value ks kt (eig ks Cs) (eig kt Ct).
(** gaussian_gromov_wasserstein_mapping, 1070-1105: m = dimension of the source, n of the target; U are the
    eigenvectors in the columns.  Both branches put the ratio on the first min(m, n) diagonal places *)
Definition gw_diag (m n : nat) (ds dt sg : vec) : mat :=
  fun i j => if (Nat.eqb i j && Nat.ltb i (Nat.min m n))%bool then ndiv (nmul (sg i) (sq (dt i))) (sq (ds i)) else n0.
Definition gw_map (m n : nat) (mus mut : vec) (ds dt sg : vec) (Us Ut : mat) : mat * vec :=
  let A := mdot n (mdot m Us (gw_diag m n ds dt sg)) (transp Ut) in (A, fun j => nsub (mut j) (vdot m mus A j)).

(** the signs chosen by sign_eigs="skewness" in empirical_gaussian_gromov_wasserstein_mapping, 1198-1202: Xs and
    Xt are the centred samples (ns of dimension m, nt of dimension n) *)
Definition nsign (x : N) : N := if nltb x n0 then nopp n1 else if nltb n0 x then n1 else n0.
Definition skewness (k d : nat) (w : vec) (X U : mat) (j : nat) : N :=
  nsum k (fun i => let y := nsum d (fun t => nmul (X i t) (U t j)) in nmul (nmul (nmul y y) y) (w i)).
Definition skew_signs (ns nt m n : nat) (ws wt : vec) (Xs Xt Us Ut : mat) : vec :=
  fun j => nsign (nmul (skewness nt n wt Xt Ut j) (skewness ns m ws Xs Us j)).
(** LinearTransport, da.py:970-972, 1005, 1038 *)
Definition lt_inverse (d : nat) (A : mat) (B : vec) : mat * vec := let A1 := inv d A in (A1, fun j => nopp (vdot d B A1 j)).
Definition lt_apply (d : nat) (AB : mat * vec) (x : vec) : vec := fun j => nadd (vdot d x (fst AB) j) (snd AB j).
End Gaussian.
