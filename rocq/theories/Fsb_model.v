(** Free-support barycenters: ot/lp/_barycenter_solvers.py:160-789.  The exact solver emd is a
    parameter [emd n m a b M]; the theorems assume that it returns an optimal plan. *)
From Coq Require Import Arith Bool List.
Import ListNotations.
From Verif Require Import Num Utils_model Emd1d_model Glue_model Gw_model.

Section Fsb.
Context {N : NumOps}.
Notation vec := (nat -> N).
Notation mat := (nat -> nat -> N).
Variable emd : nat -> nat -> vec -> vec -> mat -> mat.

(** dist(X, Y), default metric sqeuclidean (utils.py:400-475 calls euclidean_distances with squared=True) *)
Definition sq_cost (d : nat) (X Y : mat) : mat := euclidean_distances (fun x => x) d X Y true false.

(** ** free_support_barycenter, lines 160-286.  p measures (zip stops at the shortest list; the
    lists are taken of the same length p): sizes m i, locations Y i (m i x d), weights a i. *)
Section Free.
Variables (k d p : nat) (b : vec) (m : nat -> nat) (Y : nat -> mat) (a : nat -> vec) (w : vec).
(** T_i, lines 261-262 *)
Definition fsb_plan (X : mat) (i : nat) : mat := emd k (m i) b (a i) (sq_cost d X (Y i)).
(** T_sum, lines 256-265 *)
Definition fsb_step (X : mat) : mat := fun r t =>
  nsum p (fun i => nmul (ndiv (nmul (w i) n1) (b r)) (nsum (m i) (fun s => nmul (fsb_plan X i r s) (Y i s t)))).
(** line 267 *)
Definition displacement (X X' : mat) : N := nsum k (fun r => nsum d (fun t => nmul (nsub (X' r t) (X r t)) (nsub (X' r t) (X r t)))).
(** lines 255-280; the list is log["displacement_square_norms"] *)
Fixpoint fsb_loop (numItermax : nat) (stopThr disp : N) (X : mat) : mat * list N :=
  match numItermax with
  | O => (X, [])
  | S it => if nltb stopThr disp then
              let X' := fsb_step X in let disp' := displacement X X' in
              let r := fsb_loop it stopThr disp' X' in (fst r, disp' :: snd r)
            else (X, [])
  end.
End Free.
(** default b and weights: lines 243-246 *)
Definition uniform (k : nat) : vec := fun _ => ndiv n1 (nofnat (N:=N) k).
Definition odflt {A} (o : option A) (x : A) : A := match o with Some y => y | None => x end.
Definition free_support_barycenter (k d p : nat) (m : nat -> nat) (Y : nat -> mat) (a : nat -> vec) (X_init : mat) (b weights : option vec) (numItermax : nat) (stopThr : N) : mat * list N :=
  fsb_loop k d p (odflt b (uniform k)) m Y a (odflt weights (uniform p)) numItermax stopThr (nadd stopThr n1) X_init.

(** ** generalized_free_support_barycenter, lines 289-424.  P i is (q i x d), X i is (m i x q i);
    [inv_sqrtm d A] is nx.inv(nx.sqrtm(A)); Y_init is given (None draws it at random). *)
Variable inv_sqrtm : nat -> mat -> mat.
Definition gen_A (d p : nat) (q : nat -> nat) (P : nat -> mat) (weights : vec) (eps : N) : mat := fun s t =>
  nadd (nmul eps (if Nat.eqb s t then n1 else n0)) (nsum p (fun i => nmul (weights i) (nsum (q i) (fun u => nmul (P i u s) (P i u t))))).
Definition gen_Z (d : nat) (q : nat -> nat) (P X : nat -> mat) (B : mat) (i : nat) : mat := fun r t =>
  nsum d (fun s => nmul (nsum (q i) (fun u => nmul (X i r u) (P i u s))) (B t s)).
Definition generalized_free_support_barycenter (k d p : nat) (m q : nat -> nat) (X : nat -> mat) (a : nat -> vec) (P : nat -> mat) (Y_init : mat) (b weights : option vec) (numItermax : nat) (stopThr eps : N) : mat * list N :=
  let wts := odflt weights (uniform p) in
  let B := inv_sqrtm d (gen_A d p q P wts eps) in
  (* the weights are not passed on, lines 402-412 *)
  let out := free_support_barycenter k d p m (gen_Z d q P X B) a Y_init (Some (odflt b (uniform k))) None numItermax stopThr in
  (fun r t => nsum d (fun s => nmul (fst out r s) (B t s)), snd out).

(** ** free_support_barycenter_generic_costs, lines 494-789, with a given ground_bary.
    Points of the barycenter live in any type; [c k x j] is cost_list[k](x, measure_locations[k][j]).
    ground_bary works row by row, [gb J] on the points measure_locations[k][J_k]. *)
Section Generic.
Variables (Pt : Type) (x0 : Pt) (K : nat) (m : nat -> nat) (w : nat -> vec) (c : nat -> Pt -> nat -> N).
Definition gen_plans (n : nat) (X : nat -> Pt) (a : vec) : list (nat * mat) := map (fun k => (m k, emd n (m k) a (w k) (fun i j => c k (X i) j))) (seq 0 K).
(** ot_barycenter_energy, lines 427-491 (emd2 is the cost of the plan of emd) *)
Definition ot_barycenter_energy (n : nat) (X : nat -> Pt) (a : vec) : N :=
  nsum K (fun k => nsum n (fun i => nsum (m k) (fun j => nmul (c k (X i) j) (emd n (m k) a (w k) (fun i j => c k (X i) j) i j)))).
Record measure := mkM { ms_n : nat; ms_X : nat -> Pt; ms_a : vec }.
(** one iteration of method="true_fixed_point", lines 720-748 (without clean_measure) *)
Definition fixed_point_step (gb : list nat -> Pt) (mu : measure) : option measure :=
  match NorthWestMMGluing (ms_n mu) (gen_plans (ms_n mu) (ms_X mu) (ms_a mu)) None with
  | None => None
  | Some (dct, _) => Some (mkM (length dct) (fun e => match nth_error dct e with Some en => gb (fst en) | None => x0 end) (fun e => match nth_error dct e with Some en => snd en | None => n0 end))
  end.
(** the loop, lines 719-771: iterates, V_list and whether the exit status is "Stationary Point" *)
Fixpoint generic_loop (step : measure -> option measure) (numItermax : nat) (stopThr V : N) (mu : measure) : option (measure * list N * bool) :=
  match numItermax with
  | O => Some (mu, [], false)
  | S it => match step mu with
            | None => None
            | Some nu => let V' := ot_barycenter_energy (ms_n nu) (ms_X nu) (ms_a nu) in
                if nltb (nsub V V') stopThr then Some (nu, [V'], true)
                else match generic_loop step it stopThr V' nu with None => None | Some (r, l, s) => Some (r, V' :: l, s) end
            end
  end.
Definition generic_costs (step : measure -> option measure) (numItermax : nat) (stopThr : N) (mu : measure) : option (measure * list N * bool) :=
  let V := ot_barycenter_energy (ms_n mu) (ms_X mu) (ms_a mu) in
  match numItermax with
  | O => Some (mu, [], false)
  | S _ => match generic_loop step numItermax stopThr V mu with None => None | Some (r, l, s) => Some (r, V :: l, s) end
  end.
End Generic.
(** one iteration of method="L2_barycentric_proj", lines 731-739, for points on the line:
    Y_perm[k] is the barycentric projection of the k-th plan, then ground_bary of the K projections *)
Definition l2proj_step (K : nat) (m : nat -> nat) (w : nat -> vec) (Yl : nat -> vec) (c1 : nat -> N -> N -> N) (gb : (nat -> N) -> N) (mu : measure N) : option (measure N) :=
  let n := ms_n _ mu in let a := ms_a _ mu in
  Some (mkM N n (fun i => gb (fun k => nsum (m k) (fun j => nmul (nmul (ndiv n1 (a i)) (emd n (m k) a (w k) (fun i j => c1 k (ms_X _ mu i) (Yl k j)) i j)) (Yl k j)))) a).
End Fsb.
