(** Model of the entropic Gromov-Wasserstein solvers of /repo/ot/gromov/_bregman.py.  C1 is n x n,
    C2 is m x m, plans are n x m; init_matrix, gwloss and gwggrad are those of Gw_model.  The
    argument checks (unknown solver, loss_fun, stop_criterion, lists of lists) that raise ValueError
    and the printing are not modelled. *)
From Coq Require Import List Arith Bool.
From Verif Require Import Num Optim_model Gw_model Gwbar_model.
Import ListNotations.

Section Egw.
Context {N : NumOps}.
Variables (n m : nat) (lg ex : N -> N) (tiny : N) (l : gwl) (sym : bool) (C1 C2 : gmat (N:=N)) (p q : nat -> N).
Variables (eps : N) (norm : gmat (N:=N) -> N) (tol : N).
Inductive egw_solver := PGD | PPA.
(** 201-207: the gradient, [gw_df] of Gw_model *)
Definition egw_grad : gmat -> gmat := gw_df n m lg tiny l sym C1 C2 p q.
(** 1187-1193: the fused gradient *)
Definition fgw_grad (alpha : N) (M T : gmat (N:=N)) : gmat (N:=N) := fun i j =>
  let g := gwggrad n m (constC n m lg tiny l C1 C2 p q) (hC1 l C1) (hC2 lg tiny l C2) T i j in
  let gt := gwggrad n m (constC n m lg tiny l (tr C1) (tr C2) p q) (hC1 l (tr C1)) (hC2 lg tiny l (tr C2)) T i j in
  if sym then nadd (nmul alpha g) (nmul (nsub n1 alpha) (M i j))
  else nadd (nmul (nmul alpha half_) (nadd g gt)) (nmul (nsub n1 alpha) (M i j)).
(** 209-210, 1195-1196: the cost given to sinkhorn *)
Definition egw_cost (sv : egw_solver) (gr : gmat -> gmat) (T : gmat (N:=N)) : gmat (N:=N) :=
  match sv with PGD => gr T | PPA => fun i j => nsub (gr T i j) (nmul eps (lg (T i j))) end.

(** 186-242, 1172-1228.  [sk w M] is the call sinkhorn(p, q, M, epsilon, warmstart=w): the plan and
    the scalings (u, v).  mu and nu are only carried when warmstart=True; err starts at 1 and is only
    recomputed at iterations divisible by 10. *)
Definition warm_t : Type := option ((nat -> N) * (nat -> N)).
Record egw_st := mk_egw { e_T : gmat (N:=N); e_warm : warm_t; e_err : N; e_errs : list N }.
Definition egw_step (sv : egw_solver) (gr : gmat -> gmat) (sk : warm_t -> gmat -> gmat * ((nat -> N) * (nat -> N))) (cpt : nat) (s : egw_st) : egw_st :=
  let r := sk (e_warm s) (egw_cost sv gr (e_T s)) in
  let T' := fst r in
  let w' := match e_warm s with
            | None => None
            | Some _ => Some (fun i => nmul eps (lg (fst (snd r) i)), fun j => nmul eps (lg (snd (snd r) j)))   (* 223-224 *)
            end in
  if Nat.eqb (Nat.modulo cpt 10) 0
  then let e := norm (fun i j => nsub (T' i j) (e_T s i j)) in mk_egw T' w' e (e_errs s ++ [e])
  else mk_egw T' w' (e_err s) (e_errs s).
Fixpoint egw_loop (sv : egw_solver) (gr : gmat -> gmat) (sk : warm_t -> gmat -> gmat * ((nat -> N) * (nat -> N))) (left cpt : nat) (s : egw_st) : egw_st :=
  match left with
  | O => s
  | S left' => if nltb tol (e_err s) then egw_loop sv gr sk left' (S cpt) (egw_step sv gr sk cpt s) else s
  end.
(** 173-193: the start *)
Definition egw_start (logN1 logN2 : N) (G0 : option gmat) (warmstart : bool) : egw_st :=
  mk_egw (match G0 with Some G => G | None => fun i j => nmul (p i) (q j) end)
         (if warmstart then Some (fun _ => nsub n0 logN1, fun _ => nsub n0 logN2) else None) n1 [].
(** entropic_gromov_wasserstein, 173-253: the plan and gw_dist *)
Definition entropic_gromov_wasserstein (sv : egw_solver) (sk : warm_t -> gmat -> gmat * ((nat -> N) * (nat -> N))) (logN1 logN2 : N)
    (G0 : option gmat) (warmstart : bool) (max_iter : nat) : gmat (N:=N) * N :=
  let T := e_T (egw_loop sv egw_grad sk max_iter 0 (egw_start logN1 logN2 G0 warmstart)) in
  (T, gwloss n m (constC n m lg tiny l C1 C2 p q) (hC1 l C1) (hC2 lg tiny l C2) T).
(** entropic_fused_gromov_wasserstein, 1161-1241: the plan and fgw_dist *)
Definition fgw_dist (alpha : N) (M T : gmat) : N :=
  nadd (nmul (nsub n1 alpha) (inner n m M T)) (nmul alpha (gwloss n m (constC n m lg tiny l C1 C2 p q) (hC1 l C1) (hC2 lg tiny l C2) T)).
Definition entropic_fused_gromov_wasserstein (sv : egw_solver) (sk : warm_t -> gmat -> gmat * ((nat -> N) * (nat -> N))) (logN1 logN2 : N)
    (alpha : N) (M : gmat) (G0 : option gmat) (warmstart : bool) (max_iter : nat) : gmat (N:=N) * N :=
  let T := e_T (egw_loop sv (fgw_grad alpha M) sk max_iter 0 (egw_start logN1 logN2 G0 warmstart)) in (T, fgw_dist alpha M T).
(** entropic_fused_gromov_wasserstein2, 1396-1398 (and 1782-1784): quad_loss and lin_loss *)
Definition fgw2_losses (alpha : N) (M : gmat) (r : gmat * N) : N * N :=
  let lin := inner n m (fst r) M in (nsub (snd r) (nmul (nsub n1 alpha) lin), nmul lin (nsub n1 alpha)).

(** ** BAPG_gromov_wasserstein, 543-617 *)
Definition dot3 (A T B : gmat (N:=N)) : gmat (N:=N) := fun i j => nsum m (fun c => nmul (nsum n (fun k => nmul (A i k) (T k c))) (B c j)).
(** 543-567 *)
Definition bapg_df (marginal_loss : bool) (T : gmat (N:=N)) : gmat (N:=N) :=
  if marginal_loss then egw_grad T
  else if sym then fun i j => nmul two (nopp (dot3 (hC1 l C1) T (tr (hC2 lg tiny l C2)) i j))
  else fun i j => nadd (nopp (dot3 (hC1 l C1) T (hC2 lg tiny l (tr C2)) i j)) (nopp (dot3 (hC1 l (tr C1)) T (hC2 lg tiny l C2) i j)).
(** 1561-1585: the fused version *)
Definition bapg_fused_df (marginal_loss : bool) (alpha : N) (M T : gmat (N:=N)) : gmat (N:=N) :=
  if marginal_loss then fgw_grad alpha M T
  else if sym then fun i j => nadd (nmul (nmul two alpha) (nopp (dot3 (hC1 l C1) T (tr (hC2 lg tiny l C2)) i j))) (nmul (nsub n1 alpha) (M i j))
  else fun i j => nadd (nmul alpha (nadd (nopp (dot3 (hC1 l C1) T (hC2 lg tiny l (tr C2)) i j)) (nopp (dot3 (hC1 l (tr C1)) T (hC2 lg tiny l C2) i j))))
                       (nmul (nsub n1 alpha) (M i j)).
(** 579-586, 1597-1604: the multiplicative step, then the rows or the columns rescaled *)
Definition bapg_mult (df : gmat -> gmat) (T : gmat (N:=N)) : gmat (N:=N) := fun i j => nmul (T i j) (ex (ndiv (nopp (df T i j)) eps)).
Definition bapg_rows (df : gmat -> gmat) (T : gmat (N:=N)) : gmat (N:=N) := fun i j =>
  nmul (ndiv (p i) (nsum m (fun k => bapg_mult df T i k))) (bapg_mult df T i j).
Definition bapg_cols (df : gmat -> gmat) (T : gmat (N:=N)) : gmat (N:=N) := fun i j =>
  nmul (ndiv (q j) (nsum n (fun k => bapg_mult df T k j))) (bapg_mult df T i j).
(** 575-601: [None] for err is the initial 1e15, taken to be above every tol *)
Fixpoint bapg_loop (df : gmat -> gmat) (left cpt : nat) (T : gmat (N:=N)) (err : option N) : gmat (N:=N) :=
  match left with
  | O => T
  | S left' =>
      if match err with None => true | Some e => nltb tol e end
      then let T' := bapg_cols df (bapg_rows df T) in
           bapg_loop df left' (S cpt) T' (if Nat.eqb (Nat.modulo cpt 10) 0 then Some (norm (fun i j => nsub (T' i j) (T i j))) else err)
      else T
  end.
(** the plan, gw_dist and, without marginal_loss, loss = gw_dist - sum(constC * T); 609-613 *)
Definition BAPG_gromov_wasserstein (marginal_loss : bool) (G0 : option gmat) (max_iter : nat) : gmat (N:=N) * N * option N :=
  let T := bapg_loop (bapg_df marginal_loss) max_iter 0 (match G0 with Some G => G | None => fun i j => nmul (p i) (q j) end) None in
  let d := gwloss n m (constC n m lg tiny l C1 C2 p q) (hC1 l C1) (hC2 lg tiny l C2) T in
  (T, d, if marginal_loss then None else Some (nsub d (inner n m (constC n m lg tiny l C1 C2 p q) T))).
(** 1587-1637 *)
Definition BAPG_fused_gromov_wasserstein (marginal_loss : bool) (alpha : N) (M : gmat) (G0 : option gmat) (max_iter : nat) : gmat (N:=N) * N * option N :=
  let T := bapg_loop (bapg_fused_df marginal_loss alpha M) max_iter 0 (match G0 with Some G => G | None => fun i j => nmul (p i) (q j) end) None in
  let d := fgw_dist alpha M T in
  (T, d, if marginal_loss then None else Some (nsub d (nmul alpha (inner n m (constC n m lg tiny l C1 C2 p q) T)))).
End Egw.

(** ** Barycenters.  S spaces with [ns s] points, K points in the barycenter; [solve s C G0] is the
    entropic_gromov_wasserstein call for space s: plan and gw_dist. *)
Section Bary.
Context {N : NumOps}.
Variables (S K : nat) (ns : nat -> nat) (lg ex : N -> N) (floor : N) (l : gwl) (p : nat -> N) (lam : nat -> N) (Cs : nat -> gmat (N:=N)) (tol : N).
Inductive stop_c := ByBarycenter | ByLoss.
Definition new_C (Ts : nat -> gmat) : gmat := update_barycenter_structure S ns lg ex l false false floor lam Ts Cs (Shared p).
(** 976, 2091-2093: None is nan, which compares as false *)
Definition rel_err (curr prev : N) : option N := if neqb prev n0 then None else Some (ndiv (nabs (nsub curr prev)) prev).
Definition gt_tol (e : option N) : bool := match e with None => false | Some e => nltb tol e end.
Section Gw.
Variables (solve : nat -> gmat (N:=N) -> option (gmat (N:=N)) -> gmat (N:=N) * N) (norm : gmat (N:=N) -> N) (crit : stop_c) (warmstartT : bool).
Record gb_st := mk_gb { g_C : gmat (N:=N); g_T : option (nat -> gmat (N:=N)); g_err : option N; g_loss : N }.
Definition gb_step (s : gb_st) : gb_st :=
  let res := fun k => solve k (g_C s) (if warmstartT then match g_T s with None => None | Some T => Some (T k) end else None) in   (* 920-957 *)
  let Ts := fun k => fst (res k) in
  let C' := new_C Ts in                                                                                      (* 965-967 *)
  match crit with
  | ByBarycenter => mk_gb C' (Some Ts) (Some (norm (fun i j => nsub (C' i j) (g_C s i j)))) (g_loss s)       (* 971 *)
  | ByLoss => let cur := nsum S (fun k => snd (res k)) in mk_gb C' (Some Ts) (rel_err cur (g_loss s)) cur    (* 962, 976 *)
  end.
Fixpoint gb_loop (left : nat) (s : gb_st) : gb_st :=
  match left with O => s | Datatypes.S left' => if gt_tol (g_err s) then gb_loop left' (gb_step s) else s end.
(** entropic_gromov_barycenters, 895-994, from the initial structure C0 (init_C, or a random one);
    [big] is the initial 1e15 of err and curr_loss *)
Definition entropic_gromov_barycenters (big : N) (C0 : gmat) (max_iter : nat) : gb_st :=
  gb_loop max_iter (mk_gb C0 None (Some big) big).
End Gw.

(** entropic_fused_gromov_barycenters, 1947-2113; [solve s M C G0] is entropic_fused_gromov_wasserstein,
    [dist_ X Y] is ot.dist of the rows (K x ns s), d the number of features *)
Section Fgw.
Variables (solve : nat -> gmat (N:=N) -> gmat (N:=N) -> option (gmat (N:=N)) -> gmat (N:=N) * N) (norm : gmat (N:=N) -> N) (dist_ : nat -> gmat (N:=N) -> gmat (N:=N) -> gmat (N:=N)).
Variables (Ys : nat -> gmat (N:=N)) (crit : stop_c) (warmstartT fixed_structure fixed_features : bool).
(** f_X is the local X of 2059: [None] before the first update *)
Record fb_st := mk_fb { f_C : gmat (N:=N); f_Y : gmat (N:=N); f_X : option (gmat (N:=N)); f_Ms : nat -> gmat (N:=N); f_T : option (nat -> gmat (N:=N)); f_loss : N; f_it : nat }.
(** one iteration; the boolean tells whether it ends with a break *)
Definition fb_step (s : fb_st) : fb_st * bool :=
  let res := fun k => solve k (f_Ms s k) (f_C s) (if warmstartT then match f_T s with None => None | Some T => Some (T k) end else None) in   (* 2007-2049 *)
  let Ts := fun k => fst (res k) in
  let X := if fixed_features then f_X s else Some (update_barycenter_feature S ns false false lam Ts Ys (Shared p)) in            (* 2058-2061 *)
  let Ms := match fixed_features, X with false, Some X => fun k => dist_ k X (Ys k) | _, _ => f_Ms s end in                       (* 2063 *)
  let C' := if fixed_structure then f_C s else new_C Ts in                                                                         (* 2065-2068 *)
  let Y' := f_Y s in                                                            (* no assignment to Y in the loop *)
  match crit with
  | ByBarycenter =>
      let ef := if fixed_features then n0 else norm (fun i j => nsub (Y' i j) (f_Y s i j)) in                                      (* 2072-2074 *)
      let es := if fixed_structure then n0 else norm (fun i j => nsub (C' i j) (f_C s i j)) in                                     (* 2075-2076 *)
      (mk_fb C' Y' X Ms (Some Ts) (f_loss s) (Datatypes.S (f_it s)), (nleb ef tol || nleb es tol)%bool)                                       (* 2088 *)
  | ByLoss =>
      let cur := nsum S (fun k => snd (res k)) in                                                                                   (* 2055 *)
      (mk_fb C' Y' X Ms (Some Ts) cur (Datatypes.S (f_it s)), match rel_err cur (f_loss s) with None => false | Some e => nleb e tol end)      (* 2091-2104 *)
  end.
Fixpoint fb_loop (left : nat) (s : fb_st) : fb_st :=
  match left with O => s | Datatypes.S left' => let r := fb_step s in if snd r then fst r else fb_loop left' (fst r) end.
(** init_C and init_Y: C0, Y0 (zeros when init_Y is None, 1971-1975) *)
Definition entropic_fused_gromov_barycenters (big : N) (C0 : gmat) (Y0 : option gmat) (max_iter : nat) : fb_st :=
  let Y := match Y0 with Some Y => Y | None => fun _ _ => n0 end in
  fb_loop max_iter (mk_fb C0 Y None (fun k => dist_ k Y (Ys k)) None big 0).
End Fgw.
End Bary.
