(** Entropic unbalanced barycenters: model of /repo/ot/unbalanced/_sinkhorn.py:1404-1826
    (barycenter_unbalanced_stabilized, barycenter_unbalanced_sinkhorn, barycenter_unbalanced).
    A has dim rows and H columns (the histograms).  [pw], [ex], [lg] are x**y, exp and log, [bad] is isnan-or-isinf,
    [guard] the 1e-16 added to denominators by the stabilized version.  No printing; of the log only the error
    list, niter and the scalings themselves (not their log(. + 1e-300)). *)
From Coq Require Import List Arith Bool String Ascii.
From Verif Require Import Num Sinkhorn_model Emd1d_model Unb_model.
Import ListNotations.

Section Ubary.
Context {N : NumOps}.
Variables (ex lg : N -> N) (pw : N -> N -> N) (bad : N -> bool).
Variables (dim H : nat).
Notation vec := (nat -> N).
Notation mat := (nat -> nat -> N).

(** weights, 1482-1485 and 1643-1646: a given array comes with its length *)
Definition ub_weights (w : option (nat * vec)) : option vec :=
  match w with
  | None => Some (fun _ => ndiv n1 (nofnat H))
  | Some (l, w) => if l =? H then Some w else None
  end.

(** nx.dot(K, v), nx.dot(K.T, u) *)
Definition ub_Kv (K v : mat) : mat := fun i h => nsum dim (fun j => nmul (K i j) (v j h)).
Definition ub_Ktu (K u : mat) : mat := fun j h => nsum dim (fun i => nmul (K i j) (u i h)).
Definition any2 (f : nat -> nat -> bool) : bool := any dim (fun i => any H (f i)).
(** 1531-1537 and 1673-1679 *)
Definition ub_bad (Ktu u v : mat) : bool :=
  (any2 (fun j h => neqb (Ktu j h) n0) || any2 (fun i h => bad (u i h)) || any2 (fun j h => bad (v j h)))%bool.

(** ** barycenter_unbalanced_sinkhorn *)
Section Plain.
Variables (A K : mat) (w : vec) (f stopThr : N).
(** 1665-1671 *)
Definition ub_u (v : mat) : mat := let Kv := ub_Kv K v in fun i h => pw (ndiv (A i h) (Kv i h)) f.
Definition ub_q (u : mat) : vec := let Ktu := ub_Ktu K u in
  fun j => pw (nsum H (fun h => nmul (pw (Ktu j h) (nsub n1 f)) (w h))) (ndiv n1 (nsub n1 f)).
Definition ub_v (u : mat) (q : vec) : mat := let Ktu := ub_Ktu K u in fun j h => pw (ndiv (q j) (Ktu j h)) f.
Record ub_state := UbState { st_u : mat; st_v : mat; st_q : vec; st_errs : list N; st_i : option nat; st_err : N; st_numerr : bool }.
(** 1660-1697: i is the loop counter, [st_i] what it holds after the loop (None: never assigned) *)
Fixpoint ub_loop (left i : nat) (s : ub_state) : ub_state :=
  match left with
  | O => s
  | S left' =>
      let u := ub_u (st_v s) in
      let q := ub_q u in
      let v := ub_v u q in
      if ub_bad (ub_Ktu K u) u v then UbState (st_u s) (st_v s) (st_q s) (st_errs s) (Some i) (st_err s) true
      else
        let err := rel_err dim q (st_q s) in
        let s' := UbState u v q (st_errs s ++ [err]) (Some i) err false in
        if (nltb err stopThr && (10 <? i))%bool then s' else ub_loop left' (S i) s'
  end.
End Plain.

Inductive ub_res := UbOk (s : ub_state) | UbAssert | UbUnbound.
(** log["niter"] = i (1702, 1559) raises UnboundLocalError when the loop never ran *)
Definition ub_return (log : bool) (s : ub_state) : ub_res :=
  match log, st_i s with true, None => UbUnbound | _, _ => UbOk s end.
Definition ub_kernel (M : mat) (reg : N) : mat := fun i j => ex (ndiv (nopp (M i j)) reg).
(** u starts as a (dim, 1) array of ones (1656) that is only returned if the first iteration fails or none runs *)
Definition barycenter_unbalanced_sinkhorn (A M : mat) (reg reg_m : N) (w : option (nat * vec)) (numItermax : nat) (stopThr : N) (log : bool) : ub_res :=
  match ub_weights w with
  | None => UbAssert
  | Some w =>
      let f := ndiv reg_m (nadd reg_m reg) in
      ub_return log (ub_loop A (ub_kernel M reg) w f stopThr numItermax 0 (UbState (fun _ _ => n1) (fun _ _ => n1) (fun _ => n1) [] None n1 false))
  end.

(** ** barycenter_unbalanced_stabilized *)
Section Stab.
Variables (A M : mat) (w : vec) (reg reg_m tau guard stopThr : N).
Let f := ndiv reg_m (nadd reg_m reg).
Record ub_stab := UbStab { ss_al : vec; ss_be : vec; ss_K : mat; ss_u : mat; ss_v : mat; ss_q : vec; ss_errs : list N; ss_i : option nat; ss_err : N; ss_absorbed : bool }.
(** 1506-1518 *)
Definition fac (al : vec) : vec := fun i => ex (ndiv (nopp (al i)) (nadd reg reg_m)).
Definition ss_newu (s : ub_stab) : mat := let Kv := ub_Kv (ss_K s) (ss_v s) in
  fun i h => nmul (pw (ndiv (A i h) (nadd (Kv i h) guard)) f) (fac (ss_al s) i).
Definition ss_newq (s : ub_stab) (u : mat) : vec := let Ktu := ub_Ktu (ss_K s) u in
  fun j => pw (nsum H (fun h => nmul (nmul (pw (Ktu j h) (nsub n1 f)) (fac (ss_be s) j)) (w h))) (ndiv n1 (nsub n1 f)).
Definition ss_newv (s : ub_stab) (u : mat) (q : vec) : mat := let Ktu := ub_Ktu (ss_K s) u in
  fun j h => nmul (pw (ndiv (q j) (nadd (Ktu j h) guard)) f) (fac (ss_be s) j).
(** 1519-1525; the flag [ss_absorbed] is the local [absorbing] of this iteration *)
Definition absorb (s : ub_stab) (u v : mat) (q : vec) (i : nat) : ub_stab :=
  if (any2 (fun i h => nltb tau (u i h)) || any2 (fun j h => nltb tau (v j h)))%bool then
    let al := fun i => nadd (ss_al s i) (nmul reg (lg (nmaxk (H - 1) (u i)))) in
    let be := fun j => nadd (ss_be s j) (nmul reg (lg (nmaxk (H - 1) (v j)))) in
    UbStab al be (fun i j => ex (ndiv (nsub (nadd (al i) (be j)) (M i j)) reg)) u (fun _ _ => n1) q (ss_errs s) (Some i) (ss_err s) true
  else UbStab (ss_al s) (ss_be s) (ss_K s) u v q (ss_errs s) (Some i) (ss_err s) false.
(** 1505-1551.  The isnan/isinf test looks at v after the absorption *)
Fixpoint ss_loop (left i : nat) (s : ub_stab) : ub_stab :=
  match left with
  | O => s
  | S left' =>
      let u := ss_newu s in
      let q := ss_newq s u in
      let v := ss_newv s u q in
      let s1 := absorb s u v q i in
      if ub_bad (ub_Ktu (ss_K s) u) (ss_u s1) (ss_v s1) then
        UbStab (ss_al s1) (ss_be s1) (ss_K s1) (ss_u s1) (ss_v s1) (ss_q s) (ss_errs s1) (Some i) (ss_err s1) (ss_absorbed s1)
      else if ((Nat.modulo i 10 =? 0) && negb (ss_absorbed s1) || (i =? 0))%bool then
        let err := rel_err dim q (ss_q s) in
        let s2 := UbStab (ss_al s1) (ss_be s1) (ss_K s1) (ss_u s1) (ss_v s1) (ss_q s1) (ss_errs s1 ++ [err]) (Some i) err (ss_absorbed s1) in
        if nltb err stopThr then s2 else ss_loop left' (S i) s2
      else ss_loop left' (S i) s1
  end.
(** 1492-1504 *)
Definition ss_init : ub_stab :=
  UbStab (fun _ => n0) (fun _ => n0) (ub_kernel M reg) (fun _ _ => ndiv n1 (nofnat dim)) (fun _ _ => ndiv n1 (nofnat dim)) (fun _ => ndiv n1 (nofnat dim)) [] None n1 false.
End Stab.
Inductive ub_sres := UbsOk (s : ub_stab) | UbsAssert | UbsUnbound.
Definition barycenter_unbalanced_stabilized (A M : mat) (reg reg_m : N) (w : option (nat * vec)) (tau guard : N) (numItermax : nat) (stopThr : N) (log : bool) : ub_sres :=
  match ub_weights w with
  | None => UbsAssert
  | Some w =>
      let s := ss_loop A M w reg reg_m tau guard stopThr numItermax 0 (ss_init M reg) in
      match log, ss_i s with true, None => UbsUnbound | _, _ => UbsOk s end
  end.

(** ** barycenter_unbalanced, 1784-1826.  tau is left at its default, a parameter here *)
Inductive ub_any := AnyQ (q : vec) | AnyAssert | AnyUnbound | AnyUnknown.
Definition plain_any (r : ub_res) : ub_any := match r with UbOk s => AnyQ (st_q s) | UbAssert => AnyAssert | UbUnbound => AnyUnbound end.
Definition stab_any (r : ub_sres) : ub_any := match r with UbsOk s => AnyQ (ss_q s) | UbsAssert => AnyAssert | UbsUnbound => AnyUnbound end.
(** [lower] is method.lower() *)
Definition barycenter_unbalanced (lower : string) (A M : mat) (reg reg_m : N) (w : option (nat * vec)) (tau guard : N) (numItermax : nat) (stopThr : N) (log : bool) : ub_any :=
  if String.eqb lower "sinkhorn" then plain_any (barycenter_unbalanced_sinkhorn A M reg reg_m w numItermax stopThr log)
  else if String.eqb lower "sinkhorn_stabilized" then stab_any (barycenter_unbalanced_stabilized A M reg reg_m w tau guard numItermax stopThr log)
  else if (String.eqb lower "sinkhorn_reg_scaling" || String.eqb lower "sinkhorn_translation_invariant")%bool then
    plain_any (barycenter_unbalanced_sinkhorn A M reg reg_m w numItermax stopThr log)
  else AnyUnknown.
End Ubary.
