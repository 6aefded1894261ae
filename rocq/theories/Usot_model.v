(** Sliced unbalanced transport: model of /repo/ot/unbalanced/_sliced.py:17-414.  Samples X_s (n x d) and X_t
    (m x d), given projections (d x K; the random ones of get_random_projections are Sliced_model's, an arbitrary
    matrix here).  The assertion on the backend (93, 302) is the caller's, the log dictionary only adds what the
    records below hold. *)
From Coq Require Import List Arith Bool.
From Verif Require Import Num Emd1d_model W1d_model Duals_model Utils_model Circle_model Sliced_model Uot1d_model.
Import ListNotations.

Section Usot.
Context {N : NumOps}.
Variables (powf : N -> N -> N) (ex lg : N -> N).
Variable tsort : list (N * tag) -> list (N * tag).
Notation vec := (nat -> N).
Notation mat := (nat -> nat -> N).

(** nx.mean over the K directions *)
Definition dmean (K : nat) (x : nat -> N) : N := ndiv (nsum K x) (nofnat K).
(** nx.full(n, 1 / n), 105-108 and 316-319 *)
Definition weights_or (n : nat) (w : option vec) : vec := match w with Some w => w | None => fun _ => ndiv n1 (nofnat n) end.

Inductive sures := SuOk (res : N) (cols : nat -> @uot_col N) (projected_uot : nat -> N) | SuValueError | SuFail.
(** sliced_unbalanced_ot, 91-146; d_s and d_t are the two dimensions *)
Definition sliced_unbalanced_ot (n m d_s d_t K : nat) (X Y th : mat) (a b : option vec) (r1 r2 : @rho N) (p : N) (numItermax : nat) : sures :=
  if negb (d_s =? d_t) then SuValueError else
  match uot_1d powf ex lg tsort n m K (project n d_s X th) (project m d_s Y th) (weights_or n a) (weights_or m b) r1 r2 p true numItermax Total with
  | UotOk cols projected_uot => SuOk (dmean K projected_uot) cols projected_uot
  | _ => SuFail
  end.

(** one direction: sorted projections and sorters, 333-342.  rev_sorter = argsort(sorter) is the inverse permutation, [pos_of] *)
Record slice := Slice { sl_us : list N; sl_vs : list N; sl_pu : list nat; sl_pv : list nat }.
Definition mk_slice (u v : list N) : slice :=
  let pu := argsort u in let pv := argsort v in
  Slice (map (fun k => nth k u n0) pu) (map (fun k => nth k v n0) pv) pu pv.

Section Run.
Variables (n m K : nat) (sl : nat -> slice) (a b : vec) (r1 r2 : @rho N) (p : N).

(** get_reweighted_marginals_usot, 197-221: translated potentials; the marginals of direction q, sorted and
    normalised; the mass of the first one *)
Definition usot_transl (f g : vec) : vec * vec :=
  let t := rescale_potentials ex lg n m f g a b r1 r2 in
  (fun i => nadd (f i) t, fun j => nsub (g j) t).
Definition usot_a (f : vec) (q : nat) : vec := fun l => reweight ex f a r1 (nth l (sl_pu (sl q)) 0).
Definition usot_b (g : vec) (q : nat) : vec := fun l => reweight ex g b r2 (nth l (sl_pv (sl q)) 0).
Definition usot_mass (f : vec) (q : nat) : N := nsum n (usot_a f q).
Definition usot_an (f : vec) (q : nat) : list N := tabv n (fun l => ndiv (usot_a f q l) (nsum n (usot_a f q))).
Definition usot_bn (g : vec) (q : nat) : list N := tabv m (fun l => ndiv (usot_b g q l) (nsum m (usot_b g q))).

(** the Frank-Wolfe loop, 348-368; [k] iterations remain, [i] is the loop counter *)
Fixpoint usot_loop (k i : nat) (f g : vec) : res (vec * vec) :=
  match k with
  | O => Ok (f, g)
  | S k' =>
      let (f, g) := usot_transl f g in
      bind (all_ok (map (fun q => emd_1d_dual_backprop powf tsort (sl_us (sl q)) (sl_vs (sl q)) (usot_an f q) (usot_bn g q) p false) (seq 0 K)))
        (fun l =>
          let fd := fun q => fst (fst (nth q l ((fun _ => n0), (fun _ => n0), n0))) in
          let gd := fun q => snd (fst (nth q l ((fun _ => n0), (fun _ => n0), n0))) in
          let t := ndiv (nadd n1 n1) (nadd (nadd n1 n1) (nofnat i)) in
          usot_loop k' (S i)
            (fun x => nadd (f x) (nmul t (nsub (dmean K (fun q => fd q (pos_of x (sl_pu (sl q))))) (f x))))
            (fun x => nadd (g x) (nmul t (nsub (dmean K (fun q => gd q (pos_of x (sl_pv (sl q))))) (g x)))))
  end.
End Run.

(** what unbalanced_sliced_ot returns, with the entries of its log *)
Record usot_out := UsotOut { us_a : vec; us_b : vec; us_loss : N; us_sot : N; us_1d : nat -> N; us_mass : nat -> N }.
(** unbalanced_sliced_ot, 300-414 *)
Definition unbalanced_sliced_ot (n m d_s d_t K : nat) (X Y th : mat) (a b : option vec) (r1 r2 : @rho N) (p : N) (numItermax : nat) : res usot_out :=
  if negb (d_s =? d_t) then ValueError else
  let a := weights_or n a in let b := weights_or m b in
  let sl := fun q => mk_slice (project n d_s X th q) (project m d_s Y th q) in
  bind (usot_loop n m K sl a b r1 r2 p numItermax 0 (fun _ => n0) (fun _ => n0)) (fun fg =>
  let (f, g) := usot_transl n m a b r1 r2 (fst fg) (snd fg) in
  bind (all_ok (map (fun q => wasserstein_1d powf (sl_us (sl q)) (sl_vs (sl q)) (Some (usot_an n sl a r1 f q)) (Some (usot_bn m sl b r2 g q)) p false) (seq 0 K)))
    (fun l =>
      let ot_loss := fun q => nth q (map fst l) n0 in
      let full_mass := usot_mass n sl a r1 f in
      let sot_loss := dmean K (fun q => nmul (ot_loss q) (full_mass q)) in
      let ar := reweight ex f a r1 in
      let br := reweight ex g b r2 in
      let uot_loss :=
        match r1, r2 with
        | None, None => sot_loss
        | None, Some r2 => nadd sot_loss (nmul r2 (kl_mass lg m br b))
        | Some r1, None => nadd sot_loss (nmul r1 (kl_mass lg n ar a))
        | Some r1, Some r2 => nadd (nadd sot_loss (nmul r1 (kl_mass lg n ar a))) (nmul r2 (kl_mass lg m br b))
        end in
      Ok (UsotOut ar br uot_loss sot_loss ot_loss full_mass))).
End Usot.
