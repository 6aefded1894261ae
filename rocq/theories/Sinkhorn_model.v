(** Model of the balanced entropic solvers of /repo/ot/bregman/_sinkhorn.py (sinkhorn_knopp
    588-687, sinkhorn_log 797-918, greenkhorn 1025-1102, sinkhorn_stabilized 1220-1368,
    sinkhorn_epsilon_scaling 1481-1566), of the batched projections of /repo/ot/batch/_utils.py
    (46-290) and of the entropic branch of ot.solve (/repo/ot/solvers.py:428-474).
    Single target histogram (n_hists = 0) and no verbose printing.  exp, log and the l2 norm are
    parameters; logsumexp is the log of the sum of exponentials (its max-shift is a rounding
    measure only). *)
From Coq Require Import List Arith Bool.
From Verif Require Import Num.
Import ListNotations.

Section Sinkhorn.
Context {N : NumOps}.

Fixpoint nat_num (k : nat) : N := match k with O => n0 | S k' => nadd (nat_num k') n1 end.
Fixpoint any (k : nat) (p : nat -> bool) : bool := match k with O => false | S k' => (any k' p || p k')%bool end.

(** how the for-loops end: at the test of iteration [ii], on a numerical problem at [ii], or by
    exhausting range(numItermax), in which case the for-else warning is issued *)
Inductive exit := Converged (ii : nat) | NumErr (ii : nat) | MaxIter.
Record sk := mk_sk { sk_u : nat -> N; sk_v : nat -> N; sk_err : list N; sk_exit : exit }.
(** log["niter"] = ii: unbound (None) when the loop body never ran *)
Definition niter (numItermax : nat) (o : sk) : option nat :=
  match sk_exit o with Converged ii | NumErr ii => Some ii
  | MaxIter => match numItermax with O => None | S k => Some k end end.

Section Knopp.
Variables (n m : nat) (a b : nat -> N) (norm : nat -> (nat -> N) -> N) (nan : N -> bool) (stopThr : N).

(** the plan u.reshape((-1, 1)) * K * v.reshape((1, -1)), 683-687 *)
Definition scaled (K : nat -> nat -> N) (u v : nat -> N) (i j : nat) : N := nmul (nmul (u i) (K i j)) (v j).

(** ** sinkhorn_knopp; K = exp(-M/reg) *)
Section K.
Variable (K : nat -> nat -> N).
Definition KtU (u : nat -> N) (j : nat) : N := nsum n (fun i => nmul (K i j) (u i)).          (* 629 *)
Definition kp_v (u : nat -> N) (j : nat) : N := ndiv (b j) (KtU u j).                          (* 630 *)
Definition kp_u (v : nat -> N) (i : nat) : N :=                                                (* 623, 631 *)
  ndiv n1 (nsum m (fun j => nmul (nmul (ndiv n1 (a i)) (K i j)) (v j))).
Definition kp_bad (u u' v' : nat -> N) : bool :=                                               (* 633-639 *)
  (any m (fun j => neqb (KtU u j) n0) || any n (fun i => nan (u' i)) || any m (fun j => nan (v' j)))%bool.
(** norm(einsum("i,ij,j->j", u, K, v) - b), 653-654 *)
Definition kp_err (u v : nat -> N) : N :=
  norm m (fun j => nsub (nsum n (fun i => scaled K u v i j)) (b j)).
Fixpoint kp_loop (left ii : nat) (u v : nat -> N) (errs : list N) : sk :=
  match left with
  | O => mk_sk u v errs MaxIter
  | S left' =>
      let v' := kp_v u in let u' := kp_u v' in
      if kp_bad u u' v' then mk_sk u v errs (NumErr ii)                                        (* 640-645 *)
      else if Nat.eqb (Nat.modulo ii 10) 0 then                                                (* 646 *)
        let err := kp_err u' v' in
        if nltb err stopThr then mk_sk u' v' (errs ++ [err]) (Converged ii)                    (* 655-659 *)
        else kp_loop left' (S ii) u' v' (errs ++ [err])
      else kp_loop left' (S ii) u' v' errs
  end.
(** warm start None: u = 1/dim_a, v = 1/dim_b, 611-617 *)
Definition kp_init (k : nat) : nat -> N := fun _ => ndiv n1 (nat_num k).
Definition sinkhorn_knopp (numItermax : nat) (warm : option ((nat -> N) * (nat -> N))) : sk :=
  match warm with
  | None => kp_loop numItermax 0 (kp_init n) (kp_init m) []
  | Some (u, v) => kp_loop numItermax 0 u v []           (* already exponentiated, 618-619 *)
  end.
End K.

(** ** sinkhorn_log; Mr = -M/reg *)
Section L.
Variables (ex lg : N -> N) (Mr : nat -> nat -> N).
Definition logsumexp (k : nat) (f : nat -> N) : N := lg (nsum k (fun i => ex (f i))).
Definition lg_v (u : nat -> N) (j : nat) : N := nsub (lg (b j)) (logsumexp n (fun i => nadd (Mr i j) (u i))).   (* 881 *)
Definition lg_u (v : nat -> N) (i : nat) : N := nsub (lg (a i)) (logsumexp m (fun j => nadd (Mr i j) (v j))).   (* 882 *)
Definition lg_plan (u v : nat -> N) (i j : nat) : N := ex (nadd (nadd (Mr i j) (u i)) (v j)).                   (* 870-874, 918 *)
Definition lg_err (u v : nat -> N) : N := norm m (fun j => nsub (nsum n (fun i => lg_plan u v i j)) (b j)).     (* 889-890 *)
Fixpoint lg_loop (left ii : nat) (u v : nat -> N) (errs : list N) : sk :=
  match left with
  | O => mk_sk u v errs MaxIter
  | S left' =>
      let v' := lg_v u in let u' := lg_u v' in
      if Nat.eqb (Nat.modulo ii 10) 0 then
        let err := lg_err u' v' in
        if nltb err stopThr then mk_sk u' v' (errs ++ [err]) (Converged ii)
        else lg_loop left' (S ii) u' v' (errs ++ [err])
      else lg_loop left' (S ii) u' v' errs
  end.
Definition sinkhorn_log (numItermax : nat) (warm : option ((nat -> N) * (nat -> N))) : sk :=
  match warm with
  | None => lg_loop numItermax 0 (fun _ => n0) (fun _ => n0) []
  | Some (u, v) => lg_loop numItermax 0 u v []
  end.

(** ** the entropic branch of ot.solve with grad='last_step', solvers.py:442-474.
    [LsValueError]: max_iter = 0; [LsUnbound]: the variable ii of sinkhorn_log is unbound. *)
Inductive ls := LsValueError | LsUnbound | LsPlan (P : nat -> nat -> N) (u v : nat -> N).
Definition solve_last_step (max_iter : nat) : ls :=
  match max_iter with
  | O => LsValueError
  | S it =>
      let o := sinkhorn_log it None in
      match niter it o with
      | None => LsUnbound
      | Some _ => let v := lg_v (sk_u o) in let u := lg_u (sk_v o) in
                  LsPlan (lg_plan u v) u v
      end
  end.
End L.
End Knopp.

(** ** greenkhorn *)
Section Green.
Variables (n m : nat) (a b : nat -> N) (K : nat -> nat -> N) (stopThr : N).
Record gs := mk_gs { g_u : nat -> N; g_v : nat -> N; g_G : nat -> nat -> N; g_viol : nat -> N; g_viol2 : nat -> N }.
Definition set (i : nat) (x : N) (f : nat -> N) : nat -> N := fun k => if Nat.eqb k i then x else f k.
(** index of the first maximum of f 0 .. f k *)
Fixpoint argmaxk (k : nat) (f : nat -> N) : nat :=
  match k with O => 0 | S k' => let i := argmaxk k' f in if nltb (f i) (f k) then k else i end.
Definition gk_init (u v : nat -> N) : gs :=                                                     (* 1049-1052 *)
  let G := scaled K u v in
  mk_gs u v G (fun i => nsub (nsum m (fun j => G i j)) (a i)) (fun j => nsub (nsum n (fun i => G i j)) (b j)).
Definition gk_i1 (s : gs) : nat := argmaxk (n - 1) (fun i => nabs (g_viol s i)).                (* 1060 *)
Definition gk_i2 (s : gs) : nat := argmaxk (m - 1) (fun j => nabs (g_viol2 s j)).               (* 1061 *)
Definition gk_row (s : gs) (i1 : nat) : gs :=                                                   (* 1067-1073 *)
  let old := g_u s i1 in
  let nw := ndiv (a i1) (nsum m (fun j => nmul (K i1 j) (g_v s j))) in
  mk_gs (set i1 nw (g_u s)) (g_v s)
    (fun i j => if Nat.eqb i i1 then nmul (nmul nw (K i1 j)) (g_v s j) else g_G s i j)
    (set i1 (nsub (nsum m (fun j => nmul (nmul nw (K i1 j)) (g_v s j))) (a i1)) (g_viol s))
    (fun j => nadd (g_viol2 s j) (nmul (nmul (K i1 j) (nsub nw old)) (g_v s j))).
Definition gk_col (s : gs) (i2 : nat) : gs :=                                                   (* 1075-1082 *)
  let old := g_v s i2 in
  let nw := ndiv (b i2) (nsum n (fun i => nmul (K i i2) (g_u s i))) in
  mk_gs (g_u s) (set i2 nw (g_v s))
    (fun i j => if Nat.eqb j i2 then nmul (nmul (g_u s i) (K i i2)) nw else g_G s i j)
    (fun i => nadd (g_viol s i) (nmul (nmul (nadd (nopp old) nw) (K i i2)) (g_u s i)))
    (set i2 (nsub (nmul nw (nsum n (fun i => nmul (K i i2) (g_u s i)))) (b i2)) (g_viol2 s)).
Definition gk_step (s : gs) : gs :=                                                             (* 1066-1082 *)
  if nltb (nabs (g_viol2 s (gk_i2 s))) (nabs (g_viol s (gk_i1 s))) then gk_row s (gk_i1 s) else gk_col s (gk_i2 s).
Definition gk_thr (s : gs) : N := nmax (nabs (g_viol s (gk_i1 s))) (nabs (g_viol2 s (gk_i2 s))). (* 1064 *)
Fixpoint gk_loop (left ii : nat) (s : gs) : gs * exit :=
  match left with
  | O => (s, MaxIter)
  | S left' =>
      let s' := gk_step s in
      if nleb (gk_thr s) stopThr then (s', Converged ii) else gk_loop left' (S ii) s'           (* 1084-1085 *)
  end.
Definition greenkhorn (numItermax : nat) (u v : nat -> N) : gs * exit := gk_loop numItermax 0 (gk_init u v).
End Green.

(** ** sinkhorn_stabilized *)
Section Stab.
Variables (n m : nat) (a b : nat -> N) (norm : nat -> (nat -> N) -> N) (nan : N -> bool) (ex lg : N -> N)
  (M : nat -> nat -> N) (reg tau stopThr : N) (period : nat).
Record ss := mk_ss { s_al : nat -> N; s_be : nat -> N; s_u : nat -> N; s_v : nat -> N }.
Definition get_K (al be : nat -> N) (i j : nat) : N :=                                          (* 1258-1260 *)
  ex (ndiv (nopp (nsub (nsub (M i j) (al i)) (be j))) reg).
Definition get_Gamma (s : ss) (i j : nat) : N :=                                                (* 1262-1268 *)
  ex (nadd (nadd (ndiv (nopp (nsub (nsub (M i j) (s_al s i)) (s_be s j))) reg) (lg (s_u s i))) (lg (s_v s j))).
Definition st_update (s : ss) : ss :=                                                           (* 1278-1279 *)
  let K := get_K (s_al s) (s_be s) in
  let v := fun j => ndiv (b j) (nsum n (fun i => nmul (K i j) (s_u s i))) in
  let u := fun i => ndiv (a i) (nsum m (fun j => nmul (K i j) (v j))) in
  mk_ss (s_al s) (s_be s) u v.
Definition st_big (s : ss) : bool :=                                                            (* 1282 *)
  (nltb tau (nmaxk (n - 1) (fun i => nabs (s_u s i))) || nltb tau (nmaxk (m - 1) (fun j => nabs (s_v s j))))%bool.
Definition st_absorb (s : ss) : ss :=                                                           (* 1289-1295 *)
  mk_ss (fun i => nadd (s_al s i) (nmul reg (lg (s_u s i)))) (fun j => nadd (s_be s j) (nmul reg (lg (s_v s j))))
        (fun _ => ndiv n1 (nat_num n)) (fun _ => ndiv n1 (nat_num m)).
Definition st_step (s : ss) : ss := let s' := st_update s in if st_big s' then st_absorb s' else s'.
Definition st_err (s : ss) : N := norm m (fun j => nsub (nsum n (fun i => get_Gamma s i j)) (b j)). (* 1308-1309 *)
Fixpoint st_loop (left ii : nat) (err : N) (s : ss) : ss * exit :=
  match left with
  | O => (s, MaxIter)
  | S left' =>
      let s' := st_step s in
      let err' := if Nat.eqb (Nat.modulo ii period) 0 then st_err s' else err in                (* 1298 *)
      if nleb err' stopThr then (s', Converged ii)                                              (* 1318-1319 *)
      else if (any n (fun i => nan (s_u s' i)) || any m (fun j => nan (s_v s' j)))%bool
      then (mk_ss (s_al s') (s_be s') (s_u s) (s_v s), NumErr ii)                               (* 1321-1327 *)
      else st_loop left' (S ii) err' s'
  end.
Definition st_init (al be : nat -> N) : ss := mk_ss al be (fun _ => ndiv n1 (nat_num n)) (fun _ => ndiv n1 (nat_num m)).
Definition sinkhorn_stabilized (numItermax : nat) (al be : nat -> N) : ss * exit := st_loop numItermax 0 n1 (st_init al be).
(** log["alpha"], log["beta"], 1344-1345 *)
Definition st_alpha (s : ss) (i : nat) : N := nadd (s_al s i) (nmul reg (lg (s_u s i))).
Definition st_beta (s : ss) (j : nat) : N := nadd (s_be s j) (nmul reg (lg (s_v s j))).
End Stab.

(** ** sinkhorn_epsilon_scaling: numItermin = 35; [get_reg] is 1510-1511, err 1538-1541 *)
Section Eps.
Variables (n m : nat) (a b : nat -> N) (norm : nat -> (nat -> N) -> N) (nan : N -> bool) (ex lg : N -> N)
  (M : nat -> nat -> N) (get_reg : nat -> N) (tau stopThr : N) (inner period : nat).
Definition ep_inner (ii : nat) (al be : nat -> N) : ss * exit :=
  sinkhorn_stabilized n m a b norm nan ex lg M (get_reg ii) tau stopThr 20 inner al be.
Definition ep_err (G : nat -> nat -> N) : N :=
  let r := norm m (fun j => nsub (nsum n (fun i => G i j)) (b j)) in
  let c := norm n (fun i => nsub (nsum m (fun j => G i j)) (a i)) in
  nadd (nmul r r) (nmul c c).
Fixpoint ep_loop (left ii : nat) (err : N) (al be : nat -> N) (G : nat -> nat -> N) : (nat -> nat -> N) * exit :=
  match left with
  | O => (G, MaxIter)
  | S left' =>
      let s := fst (ep_inner ii al be) in
      let G' := get_Gamma ex lg M (get_reg ii) s in
      let err' := if Nat.eqb (Nat.modulo ii period) 0 then ep_err G' else err in
      if (nleb err' stopThr && Nat.ltb 35 ii)%bool then (G', Converged ii)                      (* 1550-1551 *)
      else ep_loop left' (S ii) err' (st_alpha lg (get_reg ii) s) (st_beta lg (get_reg ii) s) G'
  end.
Definition sinkhorn_epsilon_scaling (numItermax : nat) (al be : nat -> N) (G0 : nat -> nat -> N) :=
  ep_loop (Nat.max 35 numItermax) 0 n1 al be G0.
End Eps.

(** ** batched projections: [K q i j] for batch element q < B.  [None] when n_iters is unbound
    (max_iter = 0). *)
Section Batch.
Variables (B n m : nat) (a b : nat -> nat -> N) (norm : nat -> (nat -> N) -> N) (tol : N).
Record bs := mk_bs { b_f : nat -> nat -> N; b_g : nat -> nat -> N }.
Section BK.
Variable (K : nat -> nat -> nat -> N).
Definition bp_f (g : nat -> nat -> N) (q i : nat) : N := ndiv (a q i) (nsum m (fun j => nmul (K q i j) (g q j))).   (* 142 *)
Definition bp_g (f : nat -> nat -> N) (q j : nat) : N := ndiv (b q j) (nsum n (fun i => nmul (K q i j) (f q i))).   (* 143 *)
Definition bp_T (s : bs) (q i j : nat) : N := nmul (nmul (K q i j) (b_f s q i)) (b_g s q j).                        (* 145, 157 *)
Definition bp_err (T : nat -> nat -> nat -> N) : N :=                                                               (* 146-147 *)
  nmaxk (B - 1) (fun q => norm n (fun i => nsub (nsum m (fun j => T q i j)) (a q i))).
Fixpoint bp_loop (left ii : nat) (s : bs) : bs * exit :=
  match left with
  | O => (s, MaxIter)
  | S left' =>
      let f := bp_f (b_g s) in let s' := mk_bs f (bp_g f) in
      if (Nat.eqb (Nat.modulo ii 10) 0 && nltb (bp_err (bp_T s')) tol)%bool then (s', Converged ii)
      else bp_loop left' (S ii) s'
  end.
Definition bregman_projection_batch (max_iter : nat) (last_step : bool) : option (bs * exit) :=
  let r := bp_loop max_iter 0 (mk_bs (fun _ _ => n1) (fun _ _ => n1)) in
  match max_iter with
  | O => None
  | _ => Some (if last_step then let f := bp_f (b_g (fst r)) in (mk_bs f (bp_g f), snd r) else r)                   (* 151-155 *)
  end.
End BK.
Section BL.
Variables (ex lg : N -> N) (L : nat -> nat -> nat -> N).
Definition bl_u (v : nat -> nat -> N) (q i : nat) : N := nsub (lg (a q i)) (logsumexp ex lg m (fun j => nadd (L q i j) (v q j))).
Definition bl_v (u : nat -> nat -> N) (q j : nat) : N := nsub (lg (b q j)) (logsumexp ex lg n (fun i => nadd (L q i j) (u q i))).
Definition bl_T (s : bs) (q i j : nat) : N := ex (nadd (nadd (L q i j) (b_f s q i)) (b_g s q j)).
Fixpoint bl_loop (left ii : nat) (s : bs) : bs * exit :=
  match left with
  | O => (s, MaxIter)
  | S left' =>
      let u := bl_u (b_g s) in let s' := mk_bs u (bl_v u) in
      if (Nat.eqb (Nat.modulo ii 10) 0 && nltb (bp_err (bl_T s')) tol)%bool then (s', Converged ii)
      else bl_loop left' (S ii) s'
  end.
Definition bregman_log_projection_batch (max_iter : nat) (last_step : bool) : option (bs * exit) :=
  let r := bl_loop max_iter 0 (mk_bs (fun _ _ => n0) (fun _ _ => n0)) in
  match max_iter with
  | O => None
  | _ => Some (if last_step then let u := bl_u (b_g (fst r)) in (mk_bs u (bl_v u), snd r) else r)
  end.
End BL.
End Batch.
End Sinkhorn.
