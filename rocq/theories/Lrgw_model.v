(** Low rank Gromov-Wasserstein: model of /repo/ot/gromov/_lowrank.py, _flat_product_operator 43-57 and
    lowrank_gromov_wasserstein_samples 178-343, on top of Lowrank_model (cost factors, _LR_Dysktra, random start, lazy plan).
    Parameters: exp, log, sqrt, the cube root, the Frobenius norm [nrm] and the starting point [init]; [tiny] is 1e-16.
    Simplified: rank is a natural number; warnings are the boolean results; C2 is stored transposed. *)
From Coq Require Import List Arith Bool.
From Verif Require Import Num Emd1d_model Optim_model Sinkhorn_model Lowrank_model.
Import ListNotations.

Section Lrgw.
Context {N : NumOps}.
Notation vec := (nat -> N).
Notation mat := (nat -> nat -> N).
Variables (ex lg sq cb : N -> N) (nrm : nat -> nat -> mat -> N) (tiny : N).

(** 46-57: row i is the flattened outer product of row i of X with itself; X has k columns *)
Definition flat_product (k : nat) (X : mat) : mat := fun i s => nmul (X i (s / k)) (X i (s mod k)).

Inductive gl_init := GlRescale | GlTheory | GlOther.
Section Main.
Variables (n m cA cB r : nat) (a b : vec) (A1 A2 B1 B2 : mat) (reg alpha stopThr thr_d : N) (gi : gl_init) (it_d : nat).
Definition four : N := nadd two two.
(** 241-242, 307-308: n x r *)
Definition gl_C1 (Q : mat) (g : vec) : mat := fun i k =>
  nmul (nopp four) (nsum cA (fun t => nmul (A1 i t) (nsum n (fun i' => nmul (A2 i' t) (nmul (Q i' k) (ndiv n1 (g k))))))).
(** 243-244, 309-310: the transpose of C2, m x r *)
Definition gl_C2 (R : mat) : mat := fun j k => nsum cB (fun t => nmul (nsum m (fun j' => nmul (R j' k) (B1 j' t))) (B2 j t)).
(** 222-224 and 261-265; CR and CQ are C1 (C2 R) and C2^T (C1^T Q), 248-258 *)
Definition gl_gamma (Q R : mat) (g : vec) : N :=
  match gi with
  | GlRescale =>
      let C1 := gl_C1 Q g in let C2 := gl_C2 R in
      let CR := fac_mul r m C1 C2 R in let CQ := fac_mul r n C2 C1 Q in
      let sqr := fun x => nmul x x in
      let d := fun k => ndiv n1 (g k) in
      let n_1 := sqr (max2 n r (fun i k => nabs (nadd (nmul (CR i k) (d k)) (nmul reg (lg (Q i k)))))) in
      let n_2 := sqr (max2 m r (fun j k => nabs (nadd (nmul (CQ j k) (d k)) (nmul reg (lg (R j k)))))) in
      let n_3 := sqr (nmaxk (r - 1) (fun k => nabs (nmul (nopp (lr_omega n Q CR k)) (nmul (d k) (d k))))) in
      ndiv (nofnat 10) (nmax (nmax n_1 n_2) n_3)
  | _ =>
      let L := ndiv (nmul (nmul (nofnat 27) (nrm n cA A1)) (nrm n cA A2)) (nmul (nmul alpha alpha) (nmul alpha alpha)) in
      ndiv n1 (nmul two L)
  end.
(** backend.py kl_div *)
Definition kl1 (p q : N) : N := nmul p (lg (nadd (ndiv p q) tiny)).
Definition gl_err (gm : N) (Q R : mat) (g : vec) (Q' R' : mat) (g' : vec) : N :=                (* 286-289 *)
  let c := nmul (ndiv n1 gm) (ndiv n1 gm) in
  let s2 := fun l (X Y : mat) => nadd (nsum l (fun i => nsum r (fun k => kl1 (X i k) (Y i k)))) (nsum l (fun i => nsum r (fun k => kl1 (Y i k) (X i k)))) in
  nadd (nadd (nmul c (s2 n Q Q')) (nmul c (s2 m R R')))
       (nmul c (nadd (nsum r (fun k => kl1 (g k) (g' k))) (nsum r (fun k => kl1 (g' k) (g k))))).
(** 235-294; the kernels K1, K2, K3 (267-269) have the form of those of lowrank_sinkhorn for the cost C1 C2 *)
Definition gl_step (Q R : mat) (g : vec) : option (lr_out * N) :=
  let C1 := gl_C1 Q g in let C2 := gl_C2 R in
  let gm := gl_gamma Q R g in
  match lr_dykstra cb n m r (lr_eps1 ex lg m r C1 C2 reg gm Q R g) (lr_eps2 ex lg n r C1 C2 reg gm Q R g)
                   (lr_eps3 ex lg n m r C1 C2 reg gm Q R g) a b alpha thr_d it_d with
  | None => None
  | Some o => Some (mkLr (fun i k => nadd (l_Q o i k) tiny) (fun j k => nadd (l_R o j k) tiny) (fun k => nadd (l_g o k) tiny) (l_conv o),
                    gl_err gm (l_Q o) (l_R o) (l_g o) Q R g)
  end.
(** 232-304: the state is (Q, R, g), err and diag_g, which is unbound before the first iteration; the boolean says that the loop ended by break *)
Fixpoint gl_loop (left : nat) (s : lr_out) (err : N) (dg : option vec) : option (lr_out * option vec * bool) :=
  match left with
  | O => Some (s, dg, false)
  | S left' =>
      if nltb stopThr err then
        match gl_step (l_Q s) (l_R s) (l_g s) with
        | None => None
        | Some (s', err') => gl_loop left' s' err' (Some (fun k => ndiv n1 (l_g s k)))
        end
      else Some (s, dg, true)
  end.
(** 316-321 *)
Definition gl_const (l c : nat) (X1 X2 : mat) (w : vec) : N :=
  nsum l (fun i => nmul (nsum (c * c) (fun s => nmul (flat_product c X1 i s) (nsum l (fun i' => nmul (flat_product c X2 i' s) (w i'))))) (w i)).
(** 307-325 *)
Definition gl_value_quad (Q R : mat) (g dg : vec) : N :=
  let G := fac_mul r m (gl_C1 Q g) (gl_C2 R) R in
  nadd (nadd (gl_const n cA A1 A2 a) (gl_const m cB B1 B2 b))
       (ndiv (nsum r (fun k => nsum n (fun i => nmul (Q i k) (nmul (G i k) (dg k))))) two).
(** 327-333 *)
Definition gl_value (Q R : mat) (g dg : vec) : N :=
  let e := fun x => nmul x (lg (nadd x tiny)) in
  if neqb reg n0 then gl_value_quad Q R g dg
  else nadd (gl_value_quad Q R g dg)
            (nmul reg (nadd (nadd (nsum n (fun i => nsum r (fun k => e (Q i k)))) (nsum r (fun k => e (g k)))) (nsum m (fun j => nsum r (fun k => e (R j k)))))).
End Main.

Inductive gl_res := GlValueError | GlTypeError | GlNotImplemented | GlUnbound | GlOk (o : lr_out (N:=N)) (P : mat) (value value_quad : N) (stopped : bool).
(** 179-343; X is n x dX, Y is m x dY; cost_factorized_X* comes with its number of columns.  The message of the second
    ValueError formats 1/rank, which raises TypeError when rank is None (line 202). *)
Definition lowrank_gw (n m dX dY : nat) (X Y : mat) (a b : option vec) (reg : N) (rank : option nat) (alpha : N) (gi : gl_init) (rescale : bool)
    (fX fY : option (nat * (mat * mat))) (init : nat -> vec -> vec -> mat * mat * vec) (stopThr : N) (numItermax : nat) (thr_d : N) (it_d : nat) : gl_res :=
  let a := match a with Some a => a | None => fun _ => ndiv n1 (nofnat n) end in
  let b := match b with Some b => b | None => fun _ => ndiv n1 (nofnat m) end in
  let r := match rank with None => Nat.min n m | Some k => Nat.min (Nat.min n m) k end in
  if Nat.eqb r 0 then GlValueError
  else if nltb (ndiv n1 (nofnat r)) alpha then (match rank with None => GlTypeError | Some _ => GlValueError end)
  else
    let '(cA, (A1, A2)) := match fX with Some f => f | None => ((dX + 2)%nat, lr_cost_factors sq n n dX X X rescale) end in
    let '(cB, (B1, B2)) := match fY with Some f => f | None => ((dY + 2)%nat, lr_cost_factors sq m m dY Y Y rescale) end in
    let '(Q, R, g) := init r a b in
    match gi with
    | GlOther => GlNotImplemented
    | _ =>
        match gl_loop n m cA cB r a b A1 A2 B1 B2 reg alpha stopThr thr_d gi it_d numItermax (mkLr Q R g false) n1 None with
        | None => GlUnbound
        | Some (_, None, _) => GlUnbound
        | Some (o, Some dg, st) =>
            GlOk o (lr_plan r (l_Q o) (l_R o) (fun k => ndiv n1 (l_g o k)))
                 (gl_value n m cA cB r a b A1 A2 B1 B2 reg (l_Q o) (l_R o) (l_g o) dg)
                 (gl_value_quad n m cA cB r a b A1 A2 B1 B2 (l_Q o) (l_R o) (l_g o) dg) st
        end
    end.
End Lrgw.
