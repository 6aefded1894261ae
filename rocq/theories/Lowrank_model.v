(** Low rank transport: model of /repo/ot/lowrank.py.  Modelled: _init_lr_sinkhorn 75-115 ('random'
    and 'deterministic'), compute_lr_sqeuclidean_matrix 183-203, _LR_Dysktra 252-319,
    lowrank_sinkhorn 418-527, sinkhorn_low_rank_kernel 652-730, and the dense content of
    utils.get_lowrank_lazytensor (utils.py:812-851).  Parameters: exp, log, sqrt, abs of a normal
    draw (the arrays [rnd]) and the cube root [cb] of line 285.  [tiny] is 1e-16.  Not modelled: the
    'kmeans' init (scikit-learn), the 'theory' step size (gamma is then the constant given here as
    [GConst]), kernel_nystroem, the printing. *)
From Coq Require Import List Arith Bool.
From Verif Require Import Num Emd1d_model Optim_model Sinkhorn_model.
Import ListNotations.

Section Lowrank.
Context {N : NumOps}.
Notation vec := (nat -> N).
Notation mat := (nat -> nat -> N).
Variables (ex lg sq cb : N -> N) (tiny : N).

(** ** compute_lr_sqeuclidean_matrix; X is n x d, the factors are n x (d+2) and m x (d+2) *)
Definition sqn (d : nat) (X : mat) (i : nat) : N := nsum d (fun k => nmul (X i k) (X i k)).
Definition lr_M1 (d : nat) (X : mat) : mat := fun i k =>                                        (* 190-192 *)
  match k with O => sqn d X i | S O => n1 | S (S k) => nmul (nopp two) (X i k) end.
Definition lr_M2 (d : nat) (Y : mat) : mat := fun j k =>                                        (* 195-197 *)
  match k with O => n1 | S O => sqn d Y j | S (S k) => Y j k end.
Definition max2 (n k : nat) (A : mat) : N := nmaxk (n - 1) (fun i => nmaxk (k - 1) (fun t => A i t)).
Definition lr_cost_factors (n m d : nat) (X Y : mat) (rescale : bool) : mat * mat :=
  let M1 := lr_M1 d X in let M2 := lr_M2 d Y in
  if rescale then                                                                              (* 199-201 *)
    ((fun i k => ndiv (M1 i k) (sq (max2 n (d + 2) M1))), (fun j k => ndiv (M2 j k) (sq (max2 m (d + 2) M2))))
  else (M1, M2).

(** ** _init_lr_sinkhorn; the triple is (Q, R, g) *)
Definition init_random (n m r : nat) (a b : vec) (rg : vec) (rQ rR : mat) : mat * mat * vec :=  (* 78-88 *)
  let g := fun k => nadd (rg k) n1 in let Q := fun i k => nadd (rQ i k) n1 in let R := fun j k => nadd (rR j k) n1 in
  ((fun i k => nmul (Q i k) (ndiv (a i) (nsum r (Q i)))),
   (fun j k => nmul (R j k) (ndiv (b j) (nsum r (R j)))),
   (fun k => ndiv (g k) (nsum r g))).
Definition ramp (n : nat) : vec := fun i => ndiv (nofnat (S i)) (nsum n (fun i => nofnat (S i))). (* 95-96 *)
Definition rest (l : N) (a a1 : vec) : vec := fun i => ndiv (nsub (a i) (nmul l (a1 i))) (nsub n1 l). (* 97 *)
Definition two_term (l : N) (a1 g1 a2 g2 : vec) : mat := fun i k =>                             (* 108-110 *)
  nadd (nmul l (nmul (a1 i) (g1 k))) (nmul (nsub n1 l) (nmul (a2 i) (g2 k))).
Definition init_det (n m r : nat) (a b : vec) : mat * mat * vec :=                              (* 92-115 *)
  let g : vec := fun _ => ndiv n1 (nofnat r) in
  let l := ndiv (nmin (nmin (nmink (n - 1) a) (nmink (r - 1) g)) (nmink (m - 1) b)) two in
  (two_term l (ramp n) (ramp r) (rest l a (ramp n)) (rest l g (ramp r)),
   two_term l (ramp m) (ramp r) (rest l b (ramp m)) (rest l g (ramp r)), g).

(** ** _LR_Dysktra; eps1 is n x r, eps2 is m x r *)
Section Dykstra.
Variables (n m r : nat) (eps1 eps2 : mat) (eps3 p1 p2 : vec) (alpha stopThr : N).
Record dyk := mkDyk { d_g : vec; d_q31 : vec; d_q32 : vec; d_v1 : vec; d_v2 : vec; d_q1 : vec; d_q2 : vec;
                      d_err : N; d_u : option (vec * vec) }.      (* d_u is None while u1, u2 are unbound *)
Definition ones : vec := fun _ => n1.
Definition dyk_init : dyk := mkDyk eps3 ones ones ones ones ones ones n1 None.                  (* 258-265 *)
Definition mvr (A : mat) (v : vec) : vec := fun i => nsum r (fun k => nmul (A i k) (v k)).      (* A @ v *)
Definition mtv (l : nat) (A : mat) (u : vec) : vec := fun k => nsum l (fun i => nmul (A i k) (u i)). (* A.T @ u *)
Definition dyk_step (s : dyk) : dyk :=
  let u1 := fun i => ndiv (p1 i) (mvr eps1 (d_v1 s) i) in                                       (* 274 *)
  let u2 := fun j => ndiv (p2 j) (mvr eps2 (d_v2 s) j) in
  let g_ := fun k => nmax alpha (nmul (d_g s k) (d_q31 s k)) in                                 (* 278, 280 *)
  let q31 := fun k => ndiv (nmul (d_g s k) (d_q31 s k)) (g_ k) in                               (* 279 *)
  let prod1 := fun k => nmul (nmul (d_v1 s k) (d_q1 s k)) (mtv n eps1 u1 k) in                  (* 283 *)
  let prod2 := fun k => nmul (nmul (d_v2 s k) (d_q2 s k)) (mtv m eps2 u2 k) in
  let g := fun k => cb (nmul (nmul (nmul (g_ k) (d_q32 s k)) (prod1 k)) (prod2 k)) in           (* 285 *)
  let v1 := fun k => ndiv (g k) (mtv n eps1 u1 k) in                                            (* 288 *)
  let v2 := fun k => ndiv (g k) (mtv m eps2 u2 k) in
  mkDyk g q31 (fun k => ndiv (nmul (g_ k) (d_q32 s k)) (g k)) v1 v2                             (* 294, 297-298 *)
    (fun k => ndiv (nmul (d_v1 s k) (d_q1 s k)) (v1 k))                                         (* 292 *)
    (fun k => ndiv (nmul (d_v2 s k) (d_q2 s k)) (v2 k))
    (nadd (nsum n (fun i => nabs (nsub (nmul (u1 i) (mvr eps1 v1 i)) (p1 i))))                  (* 301-303 *)
          (nsum m (fun j => nabs (nsub (nmul (u2 j) (mvr eps2 v2 j)) (p2 j)))))
    (Some (u1, u2)).
(** lines 271-313; the boolean says that the loop ended by break (no warning) *)
Fixpoint dyk_loop (left : nat) (s : dyk) : dyk * bool :=
  match left with
  | O => (s, false)
  | S left' => if nltb stopThr (d_err s) then dyk_loop left' (dyk_step s) else (s, true)
  end.
Record lr_out := mkLr { l_Q : mat; l_R : mat; l_g : vec; l_conv : bool }.
(** lines 315-319; None: u1 is unbound (UnboundLocalError) *)
Definition lr_dykstra (numItermax : nat) : option lr_out :=
  let '(s, c) := dyk_loop numItermax dyk_init in
  match d_u s with
  | None => None
  | Some (u1, u2) => Some (mkLr (fun i k => nmul (nmul (u1 i) (eps1 i k)) (d_v1 s k))
                                (fun j k => nmul (nmul (u2 j) (eps2 j k)) (d_v2 s k)) (d_g s) c)
  end.
End Dykstra.

(** ** lowrank_sinkhorn *)
Inductive gam := GRescale | GConst (g : N).                                                     (* 453-463 *)
Section Main.
Variables (n m c r : nat) (a b : vec) (M1 M2 : mat) (reg alpha stopThr : N) (gi : gam) (numItermax : nat).
Definition fac_mul (l : nat) (A B Z : mat) : mat := fun i k =>                                  (* 470-471: A (B^T Z) *)
  nsum c (fun t => nmul (A i t) (nsum l (fun j => nmul (B j t) (Z j k)))).
Definition lr_omega (Q CR_ : mat) : vec := fun k => nsum n (fun i => nmul (Q i k) (CR_ i k)).    (* 481 *)
Definition lr_gamma (Q R : mat) (g : vec) : N :=                                                (* 484-488 *)
  match gi with
  | GConst x => x
  | GRescale =>
      let CR_ := fac_mul m M1 M2 R in let CQ_ := fac_mul n M2 M1 Q in
      let sqr := fun x => nmul x x in
      let n_1 := sqr (max2 n r (fun i k => nabs (nadd (nmul (CR_ i k) (ndiv n1 (g k))) (nmul reg (lg (Q i k)))))) in
      let n_2 := sqr (max2 m r (fun j k => nabs (nadd (nmul (CQ_ j k) (ndiv n1 (g k))) (nmul reg (lg (R j k)))))) in
      let n_3 := sqr (nmaxk (r - 1) (fun k => nabs (nmul (nopp (lr_omega Q CR_ k)) (ndiv n1 (g k))))) in
      ndiv (nofnat 10) (nmax (nmax n_1 n_2) n_3)
  end.
Definition lr_eps1 (gm : N) (Q R : mat) (g : vec) : mat := fun i k =>                           (* 490 *)
  ex (nsub (nmul (nopp gm) (nmul (fac_mul m M1 M2 R i k) (ndiv n1 (g k)))) (nmul (nsub (nmul gm reg) n1) (lg (Q i k)))).
Definition lr_eps2 (gm : N) (Q R : mat) (g : vec) : mat := fun j k =>                           (* 491 *)
  ex (nsub (nmul (nopp gm) (nmul (fac_mul n M2 M1 Q j k) (ndiv n1 (g k)))) (nmul (nsub (nmul gm reg) n1) (lg (R j k)))).
Definition lr_eps3 (gm : N) (Q R : mat) (g : vec) : vec := fun k =>                             (* 492 *)
  ex (nsub (ndiv (nmul gm (lr_omega Q (fac_mul m M1 M2 R) k)) (nmul (g k) (g k))) (nmul (nsub (nmul gm reg) n1) (lg (g k)))).
Definition lr_step (Q R : mat) (g : vec) : option lr_out :=
  let gm := lr_gamma Q R g in
  match lr_dykstra n m r (lr_eps1 gm Q R g) (lr_eps2 gm Q R g) (lr_eps3 gm Q R g) a b alpha stopThr numItermax with
  | None => None
  | Some o => Some (mkLr (fun i k => nadd (l_Q o i k) tiny) (fun j k => nadd (l_R o j k) tiny)   (* 498-500 *)
                         (fun k => nadd (l_g o k) tiny) (l_conv o))
  end.
(** lines 468-500; the last component is diag_g = 1/g computed at the start of the last iteration *)
Fixpoint lr_loop (left : nat) (s : lr_out) (dg : vec) : option (lr_out * vec) :=
  match left with
  | O => Some (s, dg)
  | S left' => match lr_step (l_Q s) (l_R s) (l_g s) with
               | None => None
               | Some s' => lr_loop left' s' (fun k => ndiv n1 (l_g s k))
               end
  end.
(** get_lowrank_lazytensor(Q, R, 1/g): the entry (i, j) *)
Definition lr_plan (Q R : mat) (d : vec) : mat := fun i j => nsum r (fun k => nmul (nmul (Q i k) (d k)) (R j k)).
(** lines 509-511 *)
Definition lr_value_linear (Q R : mat) (dg : vec) : N :=
  nsum c (fun t => nsum r (fun k => nmul (nsum n (fun i => nmul (M1 i t) (Q i k))) (nsum m (fun j => nmul (M2 j t) (nmul (R j k) (dg k)))))).
Definition lr_value (Q R : mat) (g dg : vec) : N :=                                             (* 514-517 *)
  let e := fun x => nmul x (lg (nadd x tiny)) in
  nadd (lr_value_linear Q R dg)
       (nmul reg (nadd (nadd (nsum n (fun i => nsum r (fun k => e (Q i k)))) (nsum r (fun k => e (g k))))
                       (nsum m (fun j => nsum r (fun k => e (R j k)))))).
End Main.
Inductive lr_res := LrValueError | LrTypeError | LrUnbound | LrOk (o : lr_out) (P : mat) (value value_linear : N).
(** lines 418-527; [init n m r a b] is the chosen initialisation, [gi] the step size rule.  The message of
    the second ValueError formats 1/rank, which raises TypeError when rank is None (line 442). *)
Definition lowrank_sinkhorn (n m d : nat) (X Y : mat) (a b : option vec) (reg : N) (rank : option nat) (alpha : N)
    (rescale : bool) (init : nat -> vec -> vec -> mat * mat * vec) (gi : gam) (numItermax : nat) (stopThr : N) : lr_res :=
  let a := match a with Some a => a | None => fun _ => ndiv n1 (nofnat n) end in
  let b := match b with Some b => b | None => fun _ => ndiv n1 (nofnat m) end in
  let r := match rank with None => Nat.min n m | Some k => Nat.min (Nat.min n m) k end in
  if Nat.eqb r 0 then LrValueError
  else if nltb (ndiv n1 (nofnat r)) alpha then (match rank with None => LrTypeError | Some _ => LrValueError end)
  else
    let '(M1, M2) := lr_cost_factors n m d X Y rescale in
    let '(Q, R, g) := init r a b in
    match lr_loop n m (d + 2) r a b M1 M2 reg alpha stopThr gi numItermax 100 (mkLr Q R g false) (fun _ => n0) with
    | None => LrUnbound
    | Some (o, dg) => LrOk o (lr_plan r (l_Q o) (l_R o) (fun k => ndiv n1 (l_g o k)))
                           (lr_value n m (d + 2) r M1 M2 reg (l_Q o) (l_R o) (l_g o) dg)
                           (lr_value_linear n m (d + 2) r M1 M2 (l_Q o) (l_R o) dg)
    end.

(** ** sinkhorn_low_rank_kernel; K1 is n x r, K2 is m x r *)
Section Kernel.
Variables (n m r : nat) (a b : vec) (norm : nat -> vec -> N) (nan inf : N -> bool) (stopThr : N) (K1 K2 : mat).
Definition lk_ktu (u : vec) : vec := fun j => nsum r (fun k => nmul (K2 j k) (nsum n (fun i => nmul (K1 i k) (u i)))).  (* 678 *)
Definition lk_kv (v : vec) : vec := fun i => nsum r (fun k => nmul (K1 i k) (nsum m (fun j => nmul (K2 j k) (v j)))).   (* 680 *)
Definition lk_v (u : vec) : vec := fun j => ndiv (b j) (lk_ktu u j).
Definition lk_u (v : vec) : vec := fun i => ndiv (a i) (lk_kv v i).
Definition lk_bad (u u' v' : vec) : bool :=                                                     (* 683-689 *)
  (existsb (fun j => neqb (lk_ktu u j) n0) (seq 0 m) || existsb (fun i => nan (u' i)) (seq 0 n) ||
   existsb (fun j => nan (v' j)) (seq 0 m) || existsb (fun i => inf (u' i)) (seq 0 n) || existsb (fun j => inf (v' j)) (seq 0 m))%bool.
Definition lk_err (u v : vec) : N := norm m (fun j => nsub (nmul (v j) (lk_ktu u j)) (b j)).     (* 699-702 *)
Fixpoint lk_loop (left ii : nat) (u v : vec) (errs : list N) : sk :=
  match left with
  | O => mk_sk u v errs MaxIter
  | S left' =>
      let v' := lk_v u in let u' := lk_u v' in
      if lk_bad u u' v' then mk_sk u v errs (NumErr ii)
      else if Nat.eqb (Nat.modulo ii 10) 0 then
        let err := lk_err u' v' in
        if nltb err stopThr then mk_sk u' v' (errs ++ [err]) (Converged ii)
        else lk_loop left' (S ii) u' v' (errs ++ [err])
      else lk_loop left' (S ii) u' v' errs
  end.
Definition sinkhorn_low_rank_kernel (numItermax : nat) (warm : option (vec * vec)) : sk :=
  match warm with
  | None => lk_loop numItermax 0 (kp_init n) (kp_init m) []
  | Some (u, v) => lk_loop numItermax 0 u v []           (* already exponentiated, 672 *)
  end.
(** lines 724-726: the entries of get_lowrank_lazytensor(u*K1, v*K2) *)
Definition lk_plan (u v : vec) : mat := fun i j => nsum r (fun k => nmul (nmul (u i) (K1 i k)) (nmul (v j) (K2 j k))).
End Kernel.
End Lowrank.
