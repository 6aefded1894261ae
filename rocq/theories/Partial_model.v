(** Model of /repo/ot/partial/partial_solvers.py: partial_wasserstein_lagrange (20-184),
    partial_wasserstein (187-328) on top of the emd model, the linear oracle of
    /repo/ot/optim.py:768-786 (partial_cg), and the two Dykstra solvers of entropic partial
    transport (562-647, 650-813). *)
From Coq Require Import List Arith Bool PArith.
From Verif Require Import Num NS_model NS_emd_model Duals_model Emd_model.
Import ListNotations.

Section Partial.
Context {N : NumOps}.

(** ** Problems with dummy points *)

(** nx.concatenate((a, x * ones)): n values followed by copies of x *)
Definition ext_vec (n : nat) (a : nat -> N) (x : N) (i : nat) : N := if Nat.ltb i n then a i else x.
(** the block matrix [[M, 0], [0, K]], 302-311 / optim.py:770-772 *)
Definition ext_mat (n m : nat) (M : nat -> nat -> N) (K : N) (i j : nat) : N :=
  if Nat.ltb i n then (if Nat.ltb j m then M i j else n0)
  else (if Nat.ltb j m then n0 else K).

Fixpoint nofnat_ (k : nat) : N := match k with O => n0 | S k' => nadd (nofnat_ k') n1 end.
Definition mat_max (n m : nat) (M : nat -> nat -> N) : N := nmaxk (n - 1) (fun i => nmaxk (m - 1) (fun j => M i j)).

(** what the functions hand back: the plan alone, the plan with the log, or an exception.
    [PEmd] passes on a failure of the emd model itself (out of fuel, uninitialised arc). *)
Inductive pret :=
| Plan (G : nat -> nat -> N)
| PlanLog (G : nat -> nat -> N) (c : N) (u v : nat -> N)
| PValueError
| PEmd.
Definition pack (log : bool) (G : nat -> nat -> N) (c : N) (u v : nat -> N) : pret :=
  if log then PlanLog G c u v else Plan G.

(** check_result (emd_wrap.pyx:30-41) gives a warning unless the status is OPTIMAL *)
Definition no_warning (t : ptype) : bool := match t with NS_model.OPTIMAL => true | _ => false end.

(** ** partial_wasserstein_lagrange, 125-184 *)
Definition lagrange_solve (fuel it : nat) (cd : bool) (n m : nat) (a b : nat -> N) (M : nat -> nat -> N)
    (reg_m : N) (nb : nat) (log : bool) : pret :=
  let eps := ndiv n1 (nofpos 100000000000000000000%positive) in                      (* 141 *)
  let Ms := fun i j => nsub (M i j) reg_m in                                         (* 146 *)
  let ix := flatnonzero n (fun i => nltb (nmink (m - 1) (fun j => Ms i j)) eps) in   (* 150 *)
  let iy := flatnonzero m (fun j => nltb (nmink (n - 1) (fun i => Ms i j)) eps) in   (* 151 *)
  let n' := length ix in let m' := length iy in
  let a' := fun k => a (nth k ix 0) in let b' := fun l => b (nth l iy 0) in
  let Me := ext_mat n' m' (fun k l => Ms (nth k ix 0) (nth l iy 0)) n0 in            (* 154-155 *)
  let sa := nsum n a in let sb := nsum m b in
  let ae := ext_vec n' a' (ndiv (nadd (nsub sa (nsum n' a')) sb) (nofnat_ nb)) in    (* 157-159 *)
  let be := ext_vec m' b' (ndiv (nadd (nsub sb (nsum m' b')) sa) (nofnat_ nb)) in    (* 160-162 *)
  match emd fuel it cd (n' + nb) (m' + nb) ae be Me with                             (* 164-166 *)
  | Ret o =>
      let G := fun i j => match index_of i ix, index_of j iy with                    (* 167-168 *)
                          | Some k, Some l => eo_G o k l | _, _ => n0 end in
      if no_warning (eo_type o)                                                      (* 173-176 *)
      then pack log G (nsum n (fun i => nsum m (fun j => nmul (G i j) (M i j)))) (eo_alpha o) (eo_beta o)
      else PValueError
  | _ => PEmd
  end.
Definition partial_wasserstein_lagrange (fuel it : nat) (cd : bool) (n m : nat) (a b : nat -> N) (M : nat -> nat -> N)
    (reg_m : option N) (nb : nat) (log : bool) : pret :=
  let one := nadd n1 (ndiv n1 (nofpos 1000000000000000%positive)) in
  if (nltb one (nsum n a) || nltb one (nsum m b))%bool then PValueError              (* 129-130 *)
  else
    let reg_m := match reg_m with None => nadd (mat_max n m M) n1 | Some r => r end in  (* 132-133 *)
    if nltb reg_m (nopp (mat_max n m M)) then Plan (fun _ _ => n0)                   (* 134-135: log ignored *)
    else lagrange_solve fuel it cd n m a b M reg_m nb log.

(** ** partial_wasserstein, 282-328; [None] weights are the empty lists of the API *)
Definition uniform (k : nat) : nat -> N := fun _ => ndiv n1 (nofnat_ k).
Definition partial_wasserstein (fuel it : nat) (cd : bool) (n m : nat) (oa ob : option (nat -> N))
    (M : nat -> nat -> N) (om : option N) (nb : nat) (log : bool) : pret :=
  let a := match oa with Some a => a | None => uniform n end in
  let b := match ob with Some b => b | None => uniform m end in
  match om with
  | None => partial_wasserstein_lagrange fuel it cd n m a b M None 1 log             (* 288-289 *)
  | Some w =>
      if nltb w n0 then PValueError                                                  (* 290-291 *)
      else if nltb (nmin (nsum n a) (nsum m b)) w then PValueError                   (* 292-296 *)
      else
        let be := ext_vec m b (ndiv (nsub (nsum n a) w) (nofnat_ nb)) in             (* 298-299 *)
        let ae := ext_vec n a (ndiv (nsub (nsum m b) w) (nofnat_ nb)) in             (* 300-301 *)
        let Me := ext_mat n m M (nmul (mat_max n m M) (nadd n1 n1)) in               (* 302-311 *)
        match emd fuel it cd (n + nb) (m + nb) ae be Me with                         (* 313-315 *)
        | Ret o =>
            if no_warning (eo_type o)                                                (* 317-320 *)
            then pack log (eo_G o) (nsum n (fun i => nsum m (fun j => nmul (M i j) (eo_G o i j)))) (eo_alpha o) (eo_beta o)
            else PValueError
        | _ => PEmd
        end
  end.

(** ** lp_solver of partial_cg, optim.py:768-786 (warn=True).  [M] is the linear cost of the
    whole problem, [Mi] the current gradient. *)
Definition partial_lp (fuel it : nat) (n m : nat) (ae be : nat -> N) (nb : nat) (M Mi : nat -> nat -> N) : pret :=
  let K := nmul (mat_max n m M) (nofpos 100%positive) in
  match emd fuel it true (n + nb) (m + nb) ae be (ext_mat n m Mi K) with
  | Ret o => if no_warning (eo_type o) then Plan (eo_G o) else PValueError
  | _ => PEmd
  end.

(** ** entropic partial transport *)
Section Dykstra.
Variables (n m : nat) (a b : nat -> N) (w : N).
Definition tot (K : nat -> nat -> N) : N := nsum n (fun i => nsum m (fun j => K i j)).
Record dstate := mkd { dK : nat -> nat -> N; dq1 : nat -> nat -> N; dq2 : nat -> nat -> N; dq3 : nat -> nat -> N }.
(** 600-614: K0 is exp(-M/reg) *)
Definition d_init (K0 : nat -> nat -> N) : dstate :=
  let s := ndiv w (tot K0) in
  mkd (fun i j => nmul (K0 i j) s) (fun _ _ => n1) (fun _ _ => n1) (fun _ _ => n1).
(** 617-628 *)
Definition d_step (s : dstate) : dstate :=
  let Kprev := dK s in
  let Kq := fun i j => nmul (Kprev i j) (dq1 s i j) in
  let K1 := fun i j => nmul (nmin (ndiv (a i) (nsum m (fun j => Kq i j))) n1) (Kq i j) in
  let q1 := fun i j => ndiv (nmul (dq1 s i j) (Kprev i j)) (K1 i j) in
  let K1q := fun i j => nmul (K1 i j) (dq2 s i j) in
  let K2 := fun i j => nmul (K1q i j) (nmin (ndiv (b j) (nsum n (fun i => K1q i j))) n1) in
  let q2 := fun i j => ndiv (nmul (dq2 s i j) (K1 i j)) (K2 i j) in
  let K2q := fun i j => nmul (K2 i j) (dq3 s i j) in
  let c := ndiv w (tot K2q) in
  let K := fun i j => nmul (K2q i j) c in
  let q3 := fun i j => ndiv (nmul (dq3 s i j) (K2 i j)) (K i j) in
  mkd K q1 q2 q3.
(** the loop 616-642.  [err] is nx.norm(Kprev - K), [bad] the NaN/inf test of 630; [left] counts
    down from numItermax, so cpt = numItermax - left. *)
Variables (err : (nat -> nat -> N) -> (nat -> nat -> N) -> N) (bad : (nat -> nat -> N) -> bool) (stopThr : N).
Fixpoint d_loop (left cpt : nat) (e : N) (s : dstate) : dstate :=
  match left with
  | O => s
  | S left' =>
      if nltb stopThr e then
        let s' := d_step s in
        if bad (dK s') then s'
        else d_loop left' (S cpt) (if Nat.eqb (Nat.modulo cpt 10) 0 then err (dK s) (dK s') else e) s'
      else s
  end.

(** the log-domain variant, 733-808.  [ex], [lg] are exp and log; nx.logsumexp is written as the
    log of the sum of exponentials (its max-shift is a rounding measure).  [LK = L0] is -M/reg. *)
Variables (ex lg : N -> N).
Definition lse (k : nat) (f : nat -> N) : N := lg (nsum k (fun j => ex (f j))).
Definition lse2 (L : nat -> nat -> N) : N := lg (tot (fun i j => ex (L i j))).
Definition l_init (L0 : nat -> nat -> N) : dstate :=
  mkd (fun i j => nsub (nadd (L0 i j) (lg w)) (lse2 L0)) (fun _ _ => n0) (fun _ _ => n0) (fun _ _ => n0).
Definition l_step (s : dstate) : dstate :=
  let LKprev := dK s in
  let LKq := fun i j => nadd (LKprev i j) (dq1 s i j) in
  let LK1 := fun i j => nadd (nmin (nsub (lg (a i)) (lse m (fun j => LKq i j))) n0) (LKq i j) in
  let Lq1 := fun i j => nsub (nadd (dq1 s i j) (LKprev i j)) (LK1 i j) in
  let LK1q := fun i j => nadd (LK1 i j) (dq2 s i j) in
  let LK2 := fun i j => nadd (LK1q i j) (nmin (nsub (lg (b j)) (lse n (fun i => LK1q i j))) n0) in
  let Lq2 := fun i j => nsub (nadd (dq2 s i j) (LK1 i j)) (LK2 i j) in
  let LK2q := fun i j => nadd (LK2 i j) (dq3 s i j) in
  let LK := fun i j => nsub (nadd (LK2q i j) (lg w)) (lse2 LK2q) in
  let Lq3 := fun i j => nsub (nadd (dq3 s i j) (LK2 i j)) (LK i j) in
  mkd LK Lq1 Lq2 Lq3.
Fixpoint l_loop (left cpt : nat) (e : N) (s : dstate) : dstate :=
  match left with
  | O => s
  | S left' =>
      if nltb stopThr e then
        let s' := l_step s in
        if bad (dK s') then s'
        else l_loop left' (S cpt) (if Nat.eqb (Nat.modulo cpt 10) 0 then err (dK s) (dK s') else e) s'
      else s
  end.
End Dykstra.

(** 580-613, 643-647: [K0] is the matrix exp(-M/reg) *)
Definition entropic_partial_wasserstein (n m : nat) (a b : nat -> N) (K0 : nat -> nat -> N) (ow : option N)
   (err : (nat -> nat -> N) -> (nat -> nat -> N) -> N) (bad : (nat -> nat -> N) -> bool) (stopThr : N) (numItermax : nat)
   : option (nat -> nat -> N) :=
  let mx := nmin (nsum n a) (nsum m b) in
  let w := match ow with None => nmul mx n1 | Some w => w end in
  if nltb w n0 then None else if nltb mx w then None
  else Some (dK (d_loop n m a b w err bad stopThr numItermax 0 n1 (d_init n m w K0))).
(** 741-757, 808-813: [L0] is -M/reg *)
Definition entropic_partial_wasserstein_logscale (ex lg : N -> N) (n m : nat) (a b : nat -> N) (L0 : nat -> nat -> N) (ow : option N)
   (err : (nat -> nat -> N) -> (nat -> nat -> N) -> N) (bad : (nat -> nat -> N) -> bool) (stopThr : N) (numItermax : nat)
   : option (nat -> nat -> N) :=
  let mx := nmin (nsum n a) (nsum m b) in
  let w := match ow with None => nmul mx n1 | Some w => w end in
  if nltb w n0 then None else if nltb mx w then None
  else Some (fun i j => ex (dK (l_loop n m a b w err bad stopThr ex lg numItermax 0 n1 (l_init n m w ex lg L0)) i j)).
End Partial.

