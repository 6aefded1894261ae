(** Domain adaptation: model of /repo/ot/da.py (BaseTransport, SinkhornTransport, sinkhorn_lpl1_mm,
    sinkhorn_l1l2_gl, emd_laplace) and of the label helpers of /repo/ot/utils.py. *)
From Coq Require Import List ZArith Bool.
From Verif Require Import Num Emd1d_model Optim_model Circle_model Utils_model Sinkhorn_model Weak_model.
Import ListNotations.

Section Da.
Context {N : NumOps}.
Notation vec := (nat -> N).
Notation mat := (nat -> nat -> N).

(** ** BaseTransport.fit with labels, da.py:597-621 *)
(** floats that the correction can produce *)
Inductive ext := Fin (x : N) | Inf | NaN.
(** x * limit_max for x >= 0: 0 * inf is nan *)
Definition ext_scale (x : N) (l : ext) : ext :=
  match l with Fin y => Fin (nmul x y) | Inf => if neqb x n0 then NaN else Inf | NaN => NaN end.
(** nx.nan_to_num(c, -np.inf), line 620: the second positional argument of backend.py:1598 is [copy], so
    nan becomes the default 0.0 and inf the largest float [big] *)
Definition nan_to_num_pos (big : N) (x : ext) : N := match x with Fin y => y | Inf => big | NaN => n0 end.
(** lines 603-605: (ys == -1), as a number *)
Definition missing (y : nat -> Z) (i : nat) : N := if Z.eqb (y i) (-1) then n1 else n0.
Definition missing_labels (ys yt : nat -> Z) : mat := fun i j => nmul (missing ys i) (missing yt j).
(** line 608 *)
Definition label_match (ys yt : nat -> Z) (i j : nat) : N := if Z.eqb (ys i - yt j) 0 then n0 else n1.
(** lines 617-620 *)
Definition cost_correction (big : N) (ys yt : nat -> Z) (limit : ext) : mat :=
  fun i j => nan_to_num_pos big (ext_scale (nmul (label_match ys yt i j) (missing_labels ys yt i j)) limit).
(** result of fit: the attributes cost_ and limit_max; [None] is the AttributeError of a class that never
    sets limit_max (EMDLaplaceTransport, lines 1756-1770).  [C] is the normalised distance matrix. *)
Definition fit_cost (big : N) (n m : nat) (C : mat) (labels : option ((nat -> Z) * (nat -> Z))) (limit : option ext) : option (mat * option ext) :=
  match labels with
  | None => Some (C, limit)
  | Some (ys, yt) =>
      match limit with
      | None => None
      | Some l =>
          let l := match l with Fin x => Fin (nmul x (nmaxk (n * m - 1) (fun k => C (k / m)%nat (k mod m)%nat))) | _ => l end in
          Some ((fun i j => nmax (C i j) (cost_correction big ys yt l i j)), Some l)
      end
  end.

(** ** BaseTransport.transform, da.py:686-725 *)
(** coupling / coupling.sum(1)[:, None] with nan, inf and -inf set to 0 *)
Definition row_norm (m : nat) (G : mat) : mat := fun i j => let s := nsum m (fun k => G i k) in if neqb s n0 then n0 else ndiv (G i j) s.
Definition bary_map (m : nat) (G Xt : mat) : mat := fun i t => nsum m (fun j => nmul (row_norm m G i j) (Xt j t)).
Definition array_equal (d n : nat) (X : mat) (n' : nat) (X' : mat) : bool :=
  Nat.eqb n n' && forallb (fun i => forallb (fun t => neqb (X i t) (X' i t)) (seq 0 d)) (seq 0 n).
(** lines 710-719: nearest training sample and translation *)
Definition nearest (d n : nat) (Xs X : mat) (i : nat) : nat := argmin n (fun k => Some (sqd d X Xs i k)).
Definition oos_point (m d n : nat) (G Xs Xt X : mat) (i : nat) : nat -> N :=
  fun t => let k := nearest d n Xs X i in nsub (nadd (bary_map m G Xt k t) (X i t)) (Xs k t).
(** the transported samples as the list of their rows; [None] is an exception (step 0, nothing to concatenate) *)
Definition base_transform (n m d : nat) (G Xs Xt : mat) (n' : nat) (X : mat) (batch_size : nat) : option (list (nat -> N)) :=
  if array_equal d n Xs n' X then Some (map (bary_map m G Xt) (seq 0 n'))
  else reduce_axis_concat (map (oos_point m d n G Xs Xt X)) (seq 0 n') batch_size.
(** inverse_transform, lines 792-830: the same with the transposed coupling *)
Definition transp (G : mat) : mat := fun j i => G i j.
Definition base_inverse (n m d : nat) (G Xs Xt : mat) (n' : nat) (X : mat) (batch_size : nat) : option (list (nat -> N)) :=
  if array_equal d m Xt n' X then Some (map (bary_map n (transp G) Xs) (seq 0 n'))
  else reduce_axis_concat (map (oos_point n d m (transp G) Xt Xs X)) (seq 0 n') batch_size.

(** ** SinkhornTransport.transform, out_of_sample_map = 'continuous', da.py:1348-1372: [dst X] is the
    (normalised) distance matrix to the training targets *)
Section Cont.
Variables (ex : N -> N) (reg : N).
Definition cont_kernel (M : mat) (g : vec) : mat := fun i j => ex (nadd (ndiv (nopp (M i j)) reg) (g j)).
Definition cont_point (m : nat) (M : mat) (g : vec) (Xt : mat) (i : nat) : nat -> N :=
  fun t => ndiv (nsum m (fun j => nmul (cont_kernel M g i j) (Xt j t))) (nsum m (fun j => cont_kernel M g i j)).
Definition cont_transform (m : nat) (M : mat) (g : vec) (Xt : mat) (n' batch_size : nat) : option (list (nat -> N)) :=
  reduce_axis_concat (map (cont_point m M g Xt)) (seq 0 n') batch_size.
End Cont.

(** ** labels: utils.py:610-657 *)
Definition label_normalization (n : nat) (y : nat -> Z) : nat -> Z :=
  let mn := fold_right Z.min (y 0%nat) (map y (seq 0 n)) in if Z.eqb mn 0 then y else fun i => (y i - mn)%Z.
(** nx.unique: sorted, without repetition *)
Fixpoint insert_z (x : Z) (l : list Z) : list Z :=
  match l with [] => [x] | y :: r => if Z.ltb x y then x :: l else if Z.eqb x y then l else y :: insert_z x r end.
Definition unique (n : nat) (y : nat -> Z) : list Z := fold_right insert_z [] (map y (seq 0 n)).
Fixpoint index_of (x : Z) (l : list Z) : nat := match l with [] => 0%nat | y :: r => if Z.eqb x y then 0%nat else S (index_of x r) end.
(** eye(n_labels)[labels_idx] *)
Definition masks (n : nat) (y : nat -> Z) : mat := fun i k => if Nat.eqb (index_of (y i) (unique n y)) k then n1 else n0.
(** transform_labels, da.py:753-765: row j of the result for the target j *)
Definition transform_labels (n m : nat) (G : mat) (ys : nat -> Z) : mat :=
  fun j k => let y := label_normalization n ys in nsum n (fun i => nmul (masks n y i k) (row_norm n (transp G) j i)).
(** inverse_transform_labels, da.py:848-859 *)
Definition inverse_transform_labels (n m : nat) (G : mat) (yt : nat -> Z) : mat :=
  fun i k => let y := label_normalization m yt in nsum m (fun j => nmul (masks m y j k) (row_norm m G i j)).

(** ** sinkhorn_lpl1_mm, da.py:150-190.  [lab i] is labels_idx; [isq x] is x ** (p - 1) with p = 0.5;
    [skh Mreg] is the plan of the inner sinkhorn; [None] is the NameError on numItermax = 0 *)
Section Mm.
Variables (isq : N -> N) (skh : mat -> mat) (eps half : N).
Variables (n L : nat) (lab : nat -> nat) (M : mat) (eta : N).
Definition cls_sum (T : mat) (c j : nat) : N := nsum n (fun i => if Nat.eqb (lab i) c then T i j else n0).
(** lines 179-185; the product with the one-hot matrix picks the class of i *)
Definition mm_W (T : mat) : mat :=
  fun i j => nmul half (isq (nadd (nsum L (fun c => nmul (cls_sum T c j) (if Nat.eqb (lab i) c then n1 else n0))) eps)).
Fixpoint mm_loop (k : nat) (W : mat) (last : option mat) : option mat :=
  match k with
  | O => last
  | S k' => let T := skh (fun i j => nadd (M i j) (nmul eta (W i j))) in mm_loop k' (mm_W T) (Some T)
  end.
Definition sinkhorn_lpl1_mm (numItermax : nat) : option mat := mm_loop numItermax (fun _ _ => n0) None.
End Mm.

(** ** sinkhorn_l1l2_gl, da.py:298-306 *)
Section Gl.
Variables (sq : N -> N) (eps : N) (n m L : nat) (lab : nat -> nat).
Definition cls_norm (G : mat) (c j : nat) : N := sq (nsum n (fun i => if Nat.eqb (lab i) c then nmul (G i j) (G i j) else n0)).
Definition gl_f (G : mat) : N := nsum m (fun j => nsum L (fun c => cls_norm G c j)).
Definition gl_df (G : mat) : mat :=
  fun i j => nsum L (fun c => ndiv (nmul (G i j) (if Nat.eqb (lab i) c then n1 else n0)) (nmax (cls_norm G c j) eps)).
End Gl.

(** ** emd_laplace, da.py:483-517; [sS], [sT] are the similarity matrices *)
Section Lap.
Variables (n m d : nat) (xs xt : mat) (sS sT : mat) (alpha : N).
(** utils.py:52-56 *)
Definition laplacian (k : nat) (x : mat) : mat := fun i j => nsub (if Nat.eqb i j then nsum k (fun l => x l i) else n0) (x i j).
Definition mdot (k : nat) (A B : mat) : mat := fun i j => nsum k (fun l => nmul (A i l) (B l j)).
Definition madd (A B : mat) : mat := fun i j => nadd (A i j) (B i j).
Definition trace (k : nat) (A : mat) : N := nsum k (fun i => A i i).
Definition lS := laplacian n sS.
Definition lT := laplacian m sT.
(** dots multiplies from the left *)
Definition lap_f (G : mat) : N :=
  nadd (nmul alpha (trace d (mdot m (mdot n (mdot n (mdot m (transp xt) (transp G)) lS) G) xt)))
       (nmul (nsub n1 alpha) (trace d (mdot n (mdot m (mdot m (mdot n (transp xs) G) lT) (transp G)) xs))).
Definition ls2 := madd lS (transp lS).
Definition lt2 := madd lT (transp lT).
Definition lap_df (G : mat) : mat :=
  fun i j => nadd (nmul alpha (mdot m (mdot n ls2 G) (mdot d xt (transp xt)) i j))
                  (nmul (nsub n1 alpha) (mdot m (mdot n (mdot d xs (transp xs)) G) lt2 i j)).
(** lines 495-498 *)
Definition lap_M (disp : bool) (eta : N) (M : mat) : mat :=
  if disp then fun i j =>
    nadd (nadd (M i j) (nmul (ndiv (nmul (nopp eta) alpha) (nofnat n)) (mdot d (mdot n ls2 xs) (transp xt) i j)))
         (nmul (ndiv (nmul (nopp eta) (nsub n1 alpha)) (nofnat m)) (mdot m (mdot d xs (transp xt)) lt2 i j))
  else M.
(** cg(a, b, M, reg=eta, f, df, G0=None); [lp] is emd, [ls] the default line search *)
Definition emd_laplace (fuel : nat) (a b : vec) (M : mat) (disp : bool) (eta : N) (lp : mat -> mat)
    (search : (N -> N) -> N -> N -> N -> option N * N) (numItermax : nat) (stopThr stopThr2 : N) : option cg_state :=
  generic_conditional_gradient fuel n m a b (lap_M disp eta M) eta lap_f lap_df lp (armijo_ls search n m) None numItermax stopThr stopThr2.
End Lap.
End Da.
Arguments ext : clear implicits.
