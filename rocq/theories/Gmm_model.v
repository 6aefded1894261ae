(** Gaussian mixture transport: model of /repo/ot/gmm.py (all functions).  A mixture is a number of components,
    their means (nat -> vec), covariances (nat -> mat) and weights (vec), in dimension d.  nx.sqrtm, nx.inv,
    nx.sqrt, nx.norm, nx.exp, the log-determinant and the constant log(2 pi) are parameters, like the exact solvers
    emd and emd2 and the random generator.  The asserts on shapes hold by typing (one dimension d, one component
    number per mixture) and are not modelled. *)
From Coq Require Import List Arith Bool String.
From Verif Require Import Num Emd1d_model Optim_model Utils_model Da_model Fsb_model Gaussian_model.
Import ListNotations.

Section Gmm.
Context {N : NumOps}.
Notation vec := (nat -> N).
Notation mat := (nat -> nat -> N).
Variables (sqrtm inv : nat -> mat -> mat) (sq : N -> N) (norm : nat -> mat -> N).
Variables (ex : N -> N) (logdet : nat -> mat -> N) (lg2pi : N).
Variables (emd : nat -> nat -> vec -> vec -> mat -> mat) (emd2 : nat -> nat -> vec -> vec -> mat -> N).

(** gaussian_logpdf, 39-48, at one point x *)
Definition gaussian_logpdf (d : nat) (x m : vec) (C : mat) : N :=
  let diff := fun t => nsub (x t) (m t) in
  let inv_C := inv d C in
  let z := nsum d (fun t => nmul (diff t) (vdot d diff inv_C t)) in
  nmul (nopp (ndiv n1 two)) (nadd (nadd (nmul (nofnat d) lg2pi) (logdet d C)) z).
(** gaussian_pdf, 71 *)
Definition gaussian_pdf (d : nat) (x m : vec) (C : mat) : N := ex (gaussian_logpdf d x m C).
(** gmm_pdf, 96-103 *)
Definition gmm_pdf (k d : nat) (x : vec) (m : nat -> vec) (C : nat -> mat) (w : vec) : N :=
  nsum k (fun p => nmul (w p) (gaussian_pdf d x (m p) (C p))).

(** dist_bures_squared, 134-157: entry (i, j); dist(metric="sqeuclidean") is Fsb_model.sq_cost *)
Definition dist_bures_squared (d : nat) (m_s m_t : nat -> vec) (C_s C_t : nat -> mat) : mat := fun i j =>
  let D_means := sq_cost d m_s m_t i j in
  let Cs12 := sqrtm d (C_s i) in
  let C := sqrtm d (dots3 d Cs12 (C_t j) Cs12) in
  let D_covs := nsub (nadd (trace d (C_s i)) (trace d (C_t j))) (nmul two (trace d C)) in
  nmax (nadd D_means D_covs) n0.
(** gmm_ot_loss, 196-203, and gmm_ot_plan, 242-249 (log=False) *)
Definition gmm_ot_loss (ks kt d : nat) (m_s m_t : nat -> vec) (C_s C_t : nat -> mat) (w_s w_t : vec) : N :=
  emd2 ks kt w_s w_t (dist_bures_squared d m_s m_t C_s C_t).
Definition gmm_ot_plan (ks kt d : nat) (m_s m_t : nat -> vec) (C_s C_t : nat -> mat) (w_s w_t : vec) : mat :=
  emd ks kt w_s w_t (dist_bures_squared d m_s m_t C_s C_t).

(** nx.where(plan > 0), 315 and 341: the pairs in row-major order *)
Definition where_pos (ks kt : nat) (plan : mat) : list (nat * nat) :=
  flat_map (fun i => map (fun j => (i, j)) (filter (fun j => nltb n0 (plan i j)) (seq 0 kt))) (seq 0 ks).
(** A @ x *)
Definition mvec (d : nat) (A : mat) (x : vec) : vec := fun s => nsum d (fun t => nmul (A s t) (x t)).

(** gmm_ot_apply_map, method "bary", 309-330, on one sample x *)
Definition bary_point (ks kt d : nat) (m_s m_t : nat -> vec) (C_s C_t : nat -> mat) (w_s : vec) (plan : mat) (x : vec) : vec :=
  let logpdf := fun k => gaussian_logpdf d x (m_s k) (C_s k) in
  fold_left (fun (out : vec) (ij : nat * nat) =>
      let (i, j) := ij in
      let A := bures_A sqrtm inv d (C_s i) (C_t j) in
      let b := fun t => nsub (m_t j t) (mvec d A (m_s i) t) in
      let T_ij_x := fun t => nadd (vdot d x A t) (b t) in
      let denom := nsum ks (fun k => nmul (w_s k) (ex (nsub (logpdf k) (logpdf i)))) in
      fun t => nadd (out t) (ndiv (nmul (plan i j) (T_ij_x t)) denom))
    (where_pos ks kt plan) (fun _ => n0).

(** gmm_ot_apply_map, any other method, 333-369.  [choice s k p] is the s-th call rng.choice(k, p=p): None when
    numpy refuses p.  A and b stay zero outside the support of the plan (337-347) *)
Definition rand_A (d : nat) (C_s C_t : nat -> mat) (plan : mat) (i j : nat) : mat :=
  if nltb n0 (plan i j) then bures_A sqrtm inv d (C_s i) (C_t j) else fun _ _ => n0.
Definition rand_b (d : nat) (m_s m_t : nat -> vec) (C_s C_t : nat -> mat) (plan : mat) (i j : nat) : vec :=
  if nltb n0 (plan i j) then fun t => nsub (m_t j t) (mvec d (rand_A d C_s C_t plan i j) (m_s i) t) else fun _ => n0.
(** p_mat reshaped, 356-362 *)
Definition rand_p (ks kt d : nat) (m_s : nat -> vec) (C_s : nat -> mat) (w_s : vec) (plan : mat) (x : vec) : vec :=
  let log_g := fun k => gaussian_logpdf d x (m_s k) (C_s k) in
  let p_mat := fun i j => ndiv (plan i j) (nsum ks (fun k => nmul (w_s k) (ex (nsub (log_g k) (log_g i))))) in
  fun ij => p_mat (Nat.div ij kt) (Nat.modulo ij kt).
Definition rand_point (choice : nat -> nat -> vec -> option nat) (s ks kt d : nat) (m_s m_t : nat -> vec) (C_s C_t : nat -> mat) (w_s : vec) (plan : mat) (x : vec) : option vec :=
  match choice s (ks * kt)%nat (rand_p ks kt d m_s C_s w_s plan x) with
  | None => None
  | Some ij =>
      let i := Nat.div ij kt in let j := Nat.modulo ij kt in
      Some (fun t => nadd (mvec d (rand_A d C_s C_t plan i j) x t) (rand_b d m_s m_t C_s C_t plan i j t))
  end.
Fixpoint rand_loop (left s : nat) (f : nat -> option vec) : option (list vec) :=
  match left with
  | O => Some []
  | S left' => match f s with
               | None => None
               | Some y => match rand_loop left' (S s) f with None => None | Some ys => Some (y :: ys) end
               end
  end.
(** gmm_ot_apply_map, 298-369: n samples x i; the method is only compared with "bary" (308) *)
Definition gmm_ot_apply_map (choice : nat -> nat -> vec -> option nat) (n ks kt d : nat) (x : nat -> vec) (m_s m_t : nat -> vec) (C_s C_t : nat -> mat) (w_s w_t : vec) (plan : option mat) (method : string) : option (list vec) :=
  let plan := match plan with Some p => p | None => gmm_ot_plan ks kt d m_s m_t C_s C_t w_s w_t end in
  if String.eqb method "bary" then Some (map (fun i => bary_point ks kt d m_s m_t C_s C_t w_s plan (x i)) (seq 0 n))
  else rand_loop n 0 (fun i => rand_point choice i ks kt d m_s m_t C_s C_t w_s plan (x i)).

(** gmm_ot_plan_density, 414-442, at one pair (x, y) *)
Definition gmm_ot_plan_density (ks kt d : nat) (x y : vec) (m_s m_t : nat -> vec) (C_s C_t : nat -> mat) (w_s w_t : vec) (plan : option mat) (atol : N) : N :=
  let plan := match plan with Some p => p | None => gmm_ot_plan ks kt d m_s m_t C_s C_t w_s w_t end in
  nsum ks (fun k0 => nsum kt (fun k1 =>
    let Ab := bures_wasserstein_mapping sqrtm inv d (m_s k0) (m_t k1) (C_s k0) (C_t k1) in
    let Tx := fun t => nadd (vdot d x (fst Ab) t) (snd Ab t) in
    let out := nmul (plan k0 k1) (gaussian_pdf d x (m_s k0) (C_s k0)) in
    nmul out (nmul (if nltb (vnorm sq d (fun t => nsub (Tx t) (y t))) atol then n1 else n0) n1))).

(** bures_wasserstein_barycenter (gaussian.py:754-838) with its default method "fixed_point"; num_iter and eps
    are its defaults (1000 and 1e-7), parameters here.  None: num_iter = 0 *)
Definition bw_barycenter (num_iter : nat) (eps : N) (k d : nat) (m : nat -> vec) (C : nat -> mat) (w : option vec) : option (vec * mat) :=
  match bures_barycenter_fixpoint sqrtm norm k d C w num_iter eps with
  | None => None
  | Some (Cb, _, _) => Some (bar_mean k m w, Cb)
  end.

(** gmm_barycenter_fixed_point, 513-587 *)
Inductive gerr := UnknownMethod | InnerError.
Inductive gres (A : Type) := GOk (x : A) | GErr (e : gerr).
Arguments GOk {A}. Arguments GErr {A}.
Section Bary.
Variables (num_iter : nat) (eps : N).
Variables (K n d : nat) (kk : nat -> nat) (means_list : nat -> nat -> vec) (covs_list : nat -> nat -> mat) (w_list : nat -> vec) (weights : option vec) (w_bar : vec).
Definition upd {A} (f : nat -> A) (i : nat) (x : A) : nat -> A := fun p => if Nat.eqb p i then x else f p.
(** the inner loop over k of the "bures" projection, 566-572: means_selection_i and covs_selection_i *)
Fixpoint bures_sel (left k : nat) (pi : nat -> mat) (i : nat) (ms : nat -> vec) (cs : nat -> mat) : option ((nat -> vec) * (nat -> mat)) :=
  match left with
  | O => Some (ms, cs)
  | S left' =>
      match bw_barycenter num_iter eps (kk k) d (means_list k) (covs_list k) (Some (fun j => nmul (ndiv n1 (w_bar i)) (pi k i j))) with
      | None => None
      | Some (m, C) => bures_sel left' (S k) pi i (upd ms k m) (upd cs k C)
      end
  end.
(** 555-575 *)
Definition selection (method : string) (pi : nat -> mat) (i : nat) : gres ((nat -> vec) * (nat -> mat)) :=
  if String.eqb method "euclidean" then
    GOk (fun k t => nsum (kk k) (fun j => nmul (nmul (nofnat n) (pi k i j)) (means_list k j t)),
         fun k s t => nmul (nsum (kk k) (fun j => nmul (pi k i j) (covs_list k j s t))) (nofnat n))
  else if String.eqb method "bures" then
    match bures_sel K 0 pi i (fun _ _ => n0) (fun _ _ _ => n0) with None => GErr InnerError | Some r => GOk r end
  else GErr UnknownMethod.
(** the loop over i, 551-579: means and covs are updated in place *)
Fixpoint comp_loop (left i : nat) (method : string) (pi : nat -> mat) (means : nat -> vec) (covs : nat -> mat) : gres ((nat -> vec) * (nat -> mat)) :=
  match left with
  | O => GOk (means, covs)
  | S left' =>
      match selection method pi i with
      | GErr e => GErr e
      | GOk (ms, cs) =>
          match bw_barycenter num_iter eps K d ms cs weights with
          | None => GErr InnerError
          | Some (m, C) => comp_loop left' (S i) method pi (upd means i m) (upd covs i C)
          end
      end
  end.
(** the iterations, 526-583; the list holds means_its and covs_its after the initial ones *)
Fixpoint gmm_loop (iterations : nat) (method : string) (means : nat -> vec) (covs : nat -> mat) : gres ((nat -> vec) * (nat -> mat) * list ((nat -> vec) * (nat -> mat))) :=
  match iterations with
  | O => GOk (means, covs, [])
  | S it =>
      let pi := fun k => gmm_ot_plan n (kk k) d means (means_list k) covs (covs_list k) w_bar (w_list k) in
      match comp_loop n 0 method pi means covs with
      | GErr e => GErr e
      | GOk (means', covs') =>
          match gmm_loop it method means' covs' with
          | GErr e => GErr e
          | GOk (m, c, l) => GOk (m, c, (means', covs') :: l)
          end
      end
  end.
End Bary.
(** Simplification: the code works on the caller's arrays means_init and covs_init themselves (521, 577), so after
    the call they hold the returned values; the model returns them only once. *)
Definition gmm_barycenter_fixed_point (num_iter : nat) (eps : N) (K n d : nat) (kk : nat -> nat) (means_list : nat -> nat -> vec) (covs_list : nat -> nat -> mat) (w_list : nat -> vec)
  (means_init : nat -> vec) (covs_init : nat -> mat) (weights w_bar : option vec) (iterations : nat) (method : string) : gres ((nat -> vec) * (nat -> mat) * list ((nat -> vec) * (nat -> mat))) :=
  let wb := match w_bar with Some w => w | None => fun _ => ndiv n1 (nofnat n) end in
  match gmm_loop num_iter eps K n d kk means_list covs_list w_list weights wb iterations method means_init covs_init with
  | GErr e => GErr e
  | GOk (m, c, l) => GOk (m, c, (means_init, covs_init) :: l)
  end.
End Gmm.
Arguments GOk {A}. Arguments GErr {A}.
