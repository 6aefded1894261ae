(** Model of the unbalanced solvers of /repo/ot/unbalanced/_sinkhorn.py (sinkhorn_knopp_unbalanced
    702-818, sinkhorn_stabilized_unbalanced 964-1118, sinkhorn_unbalanced_translation_invariant
    1235-1401) and /repo/ot/unbalanced/_mm.py (mm_unbalanced 126-210).
    Single target histogram, no printing.  [pw], [ex], [lg] are x**y, exp and log; [bad] is
    isnan-or-isinf; a marginal penalty is [None] for float("inf").  [guard] is the 1e-16 added to
    denominators. *)
From Coq Require Import List Arith Bool.
From Verif Require Import Num Sinkhorn_model.
Import ListNotations.

Section Unb.
Context {N : NumOps}.
Variables (n m : nat) (a b : nat -> N) (ex lg : N -> N) (pw : N -> N -> N) (bad : N -> bool).
Definition half : N := ndiv n1 (nadd n1 n1).
Definition vmax (k : nat) (f : nat -> N) : N := nmaxk (k - 1) f.
(** max|x - y| / max(max|x|, max|y|, 1), 775-780 *)
Definition rel_err (k : nat) (x y : nat -> N) : N :=
  ndiv (vmax k (fun i => nabs (nsub (x i) (y i))))
       (nmax (nmax (vmax k (fun i => nabs (x i))) (vmax k (fun i => nabs (y i)))) n1).
(** fi = reg_m / (reg_m + reg), 1 for an infinite penalty; 747-748 *)
Definition fi (reg : N) (rm : option N) : N := match rm with Some r => ndiv r (nadd r reg) | None => n1 end.
(** the reference measure: 735-744 *)
Definition ref_c (entropy : bool) (c : option (nat -> nat -> N)) (i j : nat) : N :=
  if entropy then n1 else match c with Some c => c i j | None => nmul (a i) (b j) end.

(** ** sinkhorn_knopp_unbalanced *)
Section Knopp.
Variables (K : nat -> nat -> N) (f1 f2 stopThr : N).
Definition un_Kv (v : nat -> N) (i : nat) : N := nsum m (fun j => nmul (K i j) (v j)).
Definition un_Ktu (u : nat -> N) (j : nat) : N := nsum n (fun i => nmul (K i j) (u i)).
Definition un_u (v : nat -> N) (i : nat) : N := pw (ndiv (a i) (un_Kv v i)) f1.                 (* 756-757 *)
Definition un_v (u : nat -> N) (j : nat) : N := pw (ndiv (b j) (un_Ktu u j)) f2.                (* 758-759 *)
Definition un_bad (u v : nat -> N) : bool :=                                                    (* 761-767 *)
  (any m (fun j => neqb (un_Ktu u j) n0) || any n (fun i => bad (u i)) || any m (fun j => bad (v j)))%bool.
Definition un_err (u v u' v' : nat -> N) : N := nmul half (nadd (rel_err n u' u) (rel_err m v' v)). (* 775-781 *)
Fixpoint un_loop (left ii : nat) (u v : nat -> N) (errs : list N) : sk :=
  match left with
  | O => mk_sk u v errs MaxIter
  | S left' =>
      let u' := un_u v in let v' := un_v u' in
      if un_bad u' v' then mk_sk u v errs (NumErr ii)                                           (* 768-773 *)
      else let err := un_err u v u' v' in
        if nltb err stopThr then mk_sk u' v' (errs ++ [err]) (Converged ii)                     (* 788-789 *)
        else un_loop left' (S ii) u' v' (errs ++ [err])
  end.
End Knopp.
(** K = exp(-M/reg) * c, 745 *)
Definition un_K (reg : N) (M c : nat -> nat -> N) (i j : nat) : N := nmul (ex (ndiv (nopp (M i j)) reg)) (c i j).
Definition sinkhorn_knopp_unbalanced (reg : N) (rm1 rm2 : option N) (M c : nat -> nat -> N) (stopThr : N)
    (numItermax : nat) (warm : option ((nat -> N) * (nat -> N))) : sk :=
  let K := un_K reg M c in
  let '(u, v) := match warm with None => (fun _ => n1, fun _ => n1) | Some w => w end in
  un_loop K (fi reg rm1) (fi reg rm2) stopThr numItermax 0 u v [].

(** nx.kl_div(p, q) (mass=False, its eps dropped), backend.py:1542-1546, and log["total_cost"],
    806-814 *)
Definition kl_nomass (k : nat) (p q : nat -> N) : N := nsum k (fun i => nmul (p i) (lg (ndiv (p i) (q i)))).
Definition kl_nomass2 (P c : nat -> nat -> N) : N := nsum n (fun i => nsum m (fun j => nmul (P i j) (lg (ndiv (P i j) (c i j))))).
Definition log_total_cost (reg : N) (rm1 rm2 : option N) (M c P : nat -> nat -> N) : N :=
  let t := nadd (nsum n (fun i => nsum m (fun j => nmul (P i j) (M i j)))) (nmul reg (kl_nomass2 P c)) in
  let t := match rm1 with Some r => nadd t (nmul r (kl_nomass n (fun i => nsum m (fun j => P i j)) a)) | None => t end in
  match rm2 with Some r => nadd t (nmul r (kl_nomass m (fun j => nsum n (fun i => P i j)) b)) | None => t end.

(** several target histograms, b : (dim_b, n_hists): one column each, common stopping test; the
    kernel ignores c and reg_type (741-742); the result is einsum("ik,ij,jk,ij->k"), 795 *)
Section Hists.
Variables (nh : nat) (bs : nat -> nat -> N) (K : nat -> nat -> N) (f1 f2 stopThr : N).
Definition uh_step (k : nat) (v : nat -> N) : (nat -> N) * (nat -> N) :=
  let u := fun i => pw (ndiv (a i) (un_Kv K v i)) f1 in (u, fun j => pw (ndiv (bs k j) (un_Ktu K u j)) f2).
Definition max2 (k : nat) (f : nat -> nat -> N) : N := nmaxk (nh - 1) (fun h => vmax k (f h)).
Definition rel_err2 (k : nat) (x y : nat -> nat -> N) : N :=
  ndiv (max2 k (fun h i => nabs (nsub (x h i) (y h i))))
       (nmax (nmax (max2 k (fun h i => nabs (x h i))) (max2 k (fun h i => nabs (y h i)))) n1).
Fixpoint uh_loop (left : nat) (u v : nat -> nat -> N) : (nat -> nat -> N) * (nat -> nat -> N) * nat :=  (* scalings, iterations left *)
  match left with
  | O => (u, v, O)
  | S left' =>
      let u' := fun h => fst (uh_step h (v h)) in let v' := fun h => snd (uh_step h (v h)) in
      if any nh (fun h => un_bad K (u' h) (v' h)) then (u, v, left)
      else if nltb (nmul half (nadd (rel_err2 n u' u) (rel_err2 m v' v))) stopThr then (u', v', left')
      else uh_loop left' u' v'
  end.
End Hists.
Definition knopp_unbalanced_hists (nh : nat) (bs : nat -> nat -> N) (reg : N) (rm1 rm2 : option N) (M : nat -> nat -> N)
    (stopThr : N) (numItermax : nat) (h : nat) : N :=
  let K := fun i j => ex (ndiv (nopp (M i j)) reg) in
  let '(u, v, _) := uh_loop nh bs K (fi reg rm1) (fi reg rm2) stopThr numItermax (fun _ _ => n1) (fun _ _ => n1) in
  nsum n (fun i => nsum m (fun j => nmul (nmul (nmul (u h i) (K i j)) (v h j)) (M i j))).

(** ** sinkhorn_stabilized_unbalanced *)
Section Stab.
Variables (M0 : nat -> nat -> N) (reg : N) (rm1 rm2 : option N) (tau stopThr guard : N).
Record us := mk_us { us_al : N; us_be : N; us_u : nat -> N; us_v : nat -> N }.
(** alpha and beta are vectors all of whose entries are equal (they start at 0 and only receive
    scalars, 1041-1042): one number each.  K = exp((alpha + beta - M0)/reg), 1008, 1043 *)
Definition us_K (s : us) (i j : nat) : N := ex (ndiv (nsub (nadd (us_al s) (us_be s)) (M0 i j)) reg).
Definition us_f (x : N) (rm : option N) : N := match rm with Some r => ex (ndiv (nopp x) (nadd reg r)) | None => n1 end. (* 1025-1026 *)
Definition us_update (s : us) : us :=                                                            (* 1024-1033 *)
  let u := fun i => nmul (pw (ndiv (a i) (nadd (un_Kv (us_K s) (us_v s) i) guard)) (fi reg rm1)) (us_f (us_al s) rm1) in
  let v := fun j => nmul (pw (ndiv (b j) (nadd (un_Ktu (us_K s) u j) guard)) (fi reg rm2)) (us_f (us_be s) rm2) in
  mk_us (us_al s) (us_be s) u v.
Definition us_big (s : us) : bool := (any n (fun i => nltb tau (us_u s i)) || any m (fun j => nltb tau (us_v s j)))%bool. (* 1035 *)
Definition us_absorb (s : us) : us :=                                                            (* 1041-1044: u is kept *)
  mk_us (nadd (us_al s) (nmul reg (lg (vmax n (us_u s))))) (nadd (us_be s) (nmul reg (lg (vmax m (us_v s))))) (us_u s) (fun _ => n1).
Fixpoint us_loop (left cpt : nat) (err : N) (s : us) : us * N :=
  if nltb stopThr err then                                                                       (* 1020 *)
    match left with
    | O => (s, err)
    | S left' =>
        let s1 := us_update s in let absorbing := us_big s1 in
        let s2 := if absorbing then us_absorb s1 else s1 in
        if (any m (fun j => neqb (un_Ktu (us_K s) (us_u s1) j) n0) || any n (fun i => bad (us_u s2 i)) || any m (fun j => bad (us_v s2 j)))%bool
        then (mk_us (us_al s2) (us_be s2) (us_u s) (us_v s), err)                                (* 1047-1059 *)
        else
          let err := if ((Nat.eqb (Nat.modulo cpt 10) 0 && negb absorbing) || Nat.eqb cpt 0)%bool
                     then rel_err n (us_u s2) (us_u s) else err in                               (* 1060-1065 *)
          us_loop left' (S cpt) err s2
    end
  else (s, err).
(** exp(logu + logv - M0/reg), 1084-1085, 1104 *)
Definition us_plan (s : us) (i j : nat) : N :=
  ex (nsub (nadd (nadd (ndiv (us_al s) reg) (lg (us_u s i))) (nadd (ndiv (us_be s) reg) (lg (us_v s j)))) (ndiv (M0 i j) reg)).
Definition sinkhorn_stabilized_unbalanced (numItermax : nat) : us * N :=
  us_loop numItermax 0 n1 (mk_us n0 n0 (fun _ => n1) (fun _ => n1)).
End Stab.

(** ** sinkhorn_unbalanced_translation_invariant *)
Section TI.
Variables (K : nat -> nat -> N) (reg : N) (rm1 rm2 : option N) (stopThr : N).
Definition ti_k1 : N := match rm1, rm2 with
  | Some r1, Some r2 => ndiv (nmul reg r1) (nmul (nadd reg r1) (nadd r1 r2)) | _, _ => n0 end.   (* 1286-1290; with rm2 = inf the quotient is 0 *)
Definition ti_k2 : N := match rm1, rm2 with
  | Some r1, Some r2 => ndiv (nmul reg r2) (nmul (nadd reg r2) (nadd r1 r2)) | _, _ => n0 end.   (* 1291-1295 *)
Definition ti_kr1 : N := match rm1 with Some r => ndiv (nmul ti_k1 r) reg | None => n0 end.      (* 1297 *)
Definition ti_kr2 : N := match rm2 with Some r => ndiv (nmul ti_k2 r) reg | None => n0 end.
Definition ti_xi1 : N := match rm1, rm2 with                                                     (* 1300-1314 *)
  | Some r1, Some r2 => ndiv (nmul r2 reg) (nmul r1 (nadd (nadd reg r1) r2))
  | Some r1, None => ndiv reg r1 | None, _ => n0 end.
Definition ti_xi2 : N := match rm1, rm2 with
  | Some r1, Some r2 => ndiv (nmul r1 reg) (nmul r2 (nadd (nadd reg r1) r2))
  | None, Some r2 => ndiv reg r2 | _, None => n0 end.
Definition ti_fi12 : N := match rm1, rm2 with
  | Some r1, Some r2 => ndiv (nmul r1 r2) (nadd r1 r2) | Some r1, None => r1 | None, Some r2 => r2 | None, None => n1 end.
Definition ti_xr1 : N := match rm1 with Some r => ndiv (nmul ti_xi1 r) reg | None => n0 end.     (* 1316 *)
Definition ti_xr2 : N := match rm2 with Some r => ndiv (nmul ti_xi2 r) reg | None => n0 end.
Definition ti_ratio (rm : option N) : N := match rm with Some r => ndiv reg r | None => n0 end.  (* 1319-1320 *)
(** sum(w * x ** p) *)
Definition ti_sum (k : nat) (w x : nat -> N) (p : N) : N := nsum k (fun i => nmul (w i) (pw (x i) p)).
Definition ti_u (v_ : nat -> N) : nat -> N :=                                                    (* 1328-1330 *)
  let s := pw (ti_sum m b v_ (ti_ratio rm2)) ti_kr2 in                                           (* sic: no minus sign *)
  let hat := fun i => nmul (pw (ndiv (a i) (un_Kv K v_ i)) (fi reg rm1)) s in
  let q := pw (ti_sum n a hat (nopp (ti_ratio rm1))) (nopp ti_xr1) in
  fun i => nmul (hat i) q.
Definition ti_v (u_ : nat -> N) : nat -> N :=                                                    (* 1332-1334 *)
  let s := pw (ti_sum n a u_ (nopp (ti_ratio rm1))) ti_kr1 in
  let hat := fun j => nmul (pw (ndiv (b j) (un_Ktu K u_ j)) (fi reg rm2)) s in
  let q := pw (ti_sum m b hat (nopp (ti_ratio rm2))) (nopp ti_xr2) in
  fun j => nmul (hat j) q.
Definition ti_t (u_ v_ : nat -> N) : N :=                                                        (* 1350-1352 *)
  pw (ndiv (ti_sum n a u_ (nopp (ti_ratio rm1))) (ti_sum m b v_ (nopp (ti_ratio rm2)))) (ndiv ti_fi12 reg).
Fixpoint ti_loop (left ii : nat) (u v u_ v_ : nat -> N) (errs : list N) : sk :=
  match left with
  | O => mk_sk u v errs MaxIter
  | S left' =>
      let u_' := ti_u v_ in let v_' := ti_v u_' in
      if (any m (fun j => neqb (un_Ktu K u_' j) n0) || any n (fun i => bad (u_' i)) || any m (fun j => bad (v_' j)))%bool
      then mk_sk u v errs (NumErr ii)                                                            (* 1336-1348 *)
      else
        let t := ti_t u_' v_' in
        let u' := fun i => nmul (u_' i) t in let v' := fun j => ndiv (v_' j) t in               (* 1354-1355 *)
        let err := un_err u v u' v' in
        if nltb err stopThr then mk_sk u' v' (errs ++ [err]) (Converged ii)
        else ti_loop left' (S ii) u' v' u_' v_' (errs ++ [err])
  end.
Definition sinkhorn_ti (numItermax : nat) (warm : option ((nat -> N) * (nat -> N))) : sk :=
  let '(u, v) := match warm with None => (fun _ => n1, fun _ => n1) | Some w => w end in
  ti_loop numItermax 0 u v u v [].
End TI.

(** ** mm_unbalanced *)
Section MM.
Variables (M c : nat -> nat -> N) (reg r1 r2 guard stopThr : N) (norm2 : nat -> nat -> (nat -> nat -> N) -> N).
Definition mm_R (G : nat -> nat -> N) (i : nat) : N := nsum m (fun j => G i j).
Definition mm_C (G : nat -> nat -> N) (j : nat) : N := nsum n (fun i => G i j).
(** div = "kl": 149-151, 162-165 *)
Definition mm_S : N := nadd (nadd reg r1) r2.
Definition mm_Kkl (i j : nat) : N :=
  nmul (nmul (nmul (pw (a i) (ndiv r1 mm_S)) (pw (b j) (ndiv r2 mm_S))) (pw (c i j) (ndiv reg mm_S))) (ex (ndiv (nopp (M i j)) mm_S)).
Definition mm_kl (G : nat -> nat -> N) (i j : nat) : N :=
  let Gd := nadd (nmul (pw (mm_R G i) (ndiv r1 mm_S)) (pw (mm_C G j) (ndiv r2 mm_S))) guard in
  ndiv (nmul (mm_Kkl i j) (pw (G i j) (nadd (ndiv r1 mm_S) (ndiv r2 mm_S)))) Gd.
(** div = "l2": 153-154, 167-173 *)
Definition mm_Kl2 (i j : nat) : N := nmax (nsub (nadd (nadd (nmul r1 (a i)) (nmul r2 (b j))) (nmul reg (c i j))) (M i j)) n0.
Definition mm_l2 (G : nat -> nat -> N) (i j : nat) : N :=
  let Gd := nadd (nadd (nadd (nmul r1 (mm_R G i)) (nmul r2 (mm_C G j))) (nmul reg (G i j))) guard in
  ndiv (nmul (mm_Kl2 i j) (G i j)) Gd.
Inductive div := KL | L2.
Definition mm_step (d : div) (G : nat -> nat -> N) : nat -> nat -> N := match d with KL => mm_kl G | L2 => mm_l2 G end.
Fixpoint mm_loop (d : div) (left : nat) (G : nat -> nat -> N) : (nat -> nat -> N) * bool :=      (* true: stopped at 181-182 *)
  match left with
  | O => (G, false)
  | S left' => let G' := mm_step d G in
      if nltb (norm2 n m (fun i j => nsub (G' i j) (G i j))) stopThr then (G', true) else mm_loop d left' G'
  end.
Definition mm_unbalanced (d : div) (numItermax : nat) (G0 : option (nat -> nat -> N)) : (nat -> nat -> N) * bool :=
  mm_loop d numItermax (match G0 with Some G => G | None => fun i j => nmul (a i) (b j) end).   (* 136 *)
End MM.
End Unb.
