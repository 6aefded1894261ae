(** Model of ot/bregman/_dictionary.py: unmix.  The dictionary D is d x k, M is
    d x d, M0 is k x p and h0 has p entries (the documentation gives h0 the
    length k; lines 131 and 140 use it as a vector of length p).  exp, log and the norm
    are parameters, [lo] is the 1e-10 of projR and projC. *)
From Coq Require Import List Arith Bool.
From Verif Require Import Num Bary_model.
Import ListNotations.

Section Unmix.
Context {N : NumOps}.
Notation vec := (nat -> N).
Notation mat := (nat -> nat -> N).
Variables (ex lg : N -> N) (norm : nat -> vec -> N) (lo : N).
Variables (d k p : nat).
Variables (a : vec) (D M M0 : mat) (h0 : vec) (reg reg0 alpha : N).

Inductive um_exit := UmConverged (ii : nat) | UmMaxIter.
(** the returned h, the recorded errors, how the loop ended *)
Record um := mk_um { um_h : vec; um_err : list N; um_end : um_exit }.
Inductive um_res := UmOk (r : um) | UmValueError | UmUnbound.

(** K and K0, lines 118 and 121 *)
Definition um_K : mat := fun i j => ex (ndiv (nopp (M i j)) reg).
Definition um_K0 : mat := fun r c => ex (ndiv (nopp (M0 r c)) reg0).

(** row sums *)
Definition rows (m : nat) (G : mat) : vec := fun i => nsum m (fun j => G i j).

(** lines 130-131 *)
Definition um_C (K : mat) : mat := projC d lo K a.
Definition um_C0 (K0 : mat) : mat := projC k lo K0 h0.
(** line 134 *)
Definition um_inv (new : vec) : vec := fun i => nsum k (fun r => nmul (D i r) (new r)).
(** line 137 *)
Definition um_delta (other inv_new : vec) : vec :=
  fun i => ex (nadd (nmul alpha (lg (other i))) (nmul (nsub n1 alpha) (lg (inv_new i)))).
(** line 139: D.T @ (delta / inv_new) multiplies the rows *)
Definition um_scale (delta inv_new : vec) (K0 : mat) : mat :=
  fun r c => nmul (nsum d (fun i => nmul (D i r) (ndiv (delta i) (inv_new i)))) (K0 r c).
(** one iteration, lines 130-139 *)
Definition um_step (K K0 : mat) : mat * mat * vec :=
  let K := um_C K in
  let K0 := um_C0 K0 in
  let new := rows p K0 in
  let inv_new := um_inv new in
  let other := rows d K in
  let delta := um_delta other inv_new in
  (projR d lo K delta, um_scale delta inv_new K0, new).

(** line 140, x has k entries, old has q: broadcasting of two vectors *)
Definition um_diff (x : vec) (q : nat) (old : vec) : option N :=
  if Nat.eqb q k then Some (norm k (fun i => nsub (x i) (old i)))
  else if Nat.eqb q 1 then Some (norm k (fun i => nsub (x i) (old 0)))
  else if Nat.eqb k 1 then Some (norm q (fun i => nsub (x 0) (old i)))
  else None.

(** lines 129-150 *)
Fixpoint um_loop (left ii : nat) (stopThr : N) (K K0 : mat) (q : nat) (old : vec) (errs : list N) : um_res :=
  match left with
  | O => UmOk (mk_um (rows p K0) errs UmMaxIter)
  | S left' =>
      let '(K', K0', new) := um_step K K0 in
      match um_diff (rows p K0') q old with
      | None => UmValueError
      | Some err =>
          if nltb err stopThr then UmOk (mk_um (rows p K0') (errs ++ [err]) (UmConverged ii))
          else um_loop left' (S ii) stopThr K' K0' k new (errs ++ [err])
      end
  end.

(** the whole function; with log and no iteration line 159 reads an unset variable *)
Definition unmix (numItermax : nat) (stopThr : N) (log : bool) : um_res :=
  match um_loop numItermax 0 stopThr um_K um_K0 p h0 [] with
  | UmOk r => if (log && Nat.eqb numItermax 0)%bool then UmUnbound else UmOk r
  | e => e
  end.
End Unmix.
Arguments um_h {N}. Arguments um_err {N}. Arguments um_end {N}. Arguments UmOk {N}. Arguments UmValueError {N}. Arguments UmUnbound {N}.
