(** Model of /repo/ot/optim.py: line searches, the generic conditional gradient loop and
    the semi-relaxed linear oracle.  Matrices are functions of two indices with explicit
    dimensions n x m. *)
From Coq Require Import List Arith Bool.
Import ListNotations.
From Verif Require Import Num.

Section Optim.
Context {N : NumOps}.

Definition two : N := nadd n1 n1.

(** solve_1d_linesearch_quad, optim.py:926-951.  Python's max(0.0, x) keeps 0.0 on ties and
    min(1.0, x) keeps 1.0. *)
Definition solve_1d_linesearch_quad (a b : N) : N :=
  if nltb n0 a then
    let x := ndiv (nopp b) (nmul two a) in
    nmin n1 (nmax n0 x)
  else if nltb (nadd a b) n0 then n1 else n0.

(** np.clip(x, lo, hi) with hi possibly None *)
Definition clip (lo : N) (hi : option N) (x : N) : N :=
  let y := nmax x lo in match hi with None => y | Some h => nmin y h end.

(** line_search_armijo, optim.py:85-140.  [fline t] is f(xk + t * pk) and [derphi0] the
    value of line 127.  scipy's scalar_search_armijo is the parameter [search]: it receives
    the (clipped) function, phi0, derphi0 and amin and answers a step or None, with the last
    function value (scipy is not part of the repository).  The call counter is dropped. *)
Definition line_search_armijo
    (search : (N -> N) -> N -> N -> N -> option N * N)
    (fline : N -> N) (old_fval : option N) (derphi0 alpha_min : N) (alpha_max : option N)
  : N * N :=
  let phi := fun t => fline (clip alpha_min alpha_max t) in
  let phi0 := match old_fval with None => phi n0 | Some v => v end in
  match search phi phi0 derphi0 alpha_min with
  | (None, _) => (n0, phi0)
  | (Some al, phi1) => (clip alpha_min alpha_max al, phi1)
  end.

(** *** generic_conditional_gradient, optim.py:311-409, with reg2 = None *)
Definition gmat := nat -> nat -> N.
Definition inner (n m : nat) (A B : gmat) : N :=
  nsum n (fun i => nsum m (fun j => nmul (A i j) (B i j))).
(** cost(G), line 325 *)
Definition cg_cost (n m : nat) (M : gmat) (reg : N) (f : gmat -> N) (G : gmat) : N :=
  nadd (inner n m M G) (nmul reg (f G)).

(** lines 316-320 *)
Definition outer (a b : nat -> N) : gmat := fun i j => nmul (a i) (b j).

(** what the line search sees (line 364) and answers (lines 365-372): step, cost at the new
    point and possibly the new gradient *)
Definition line_search_t := (gmat -> N) -> gmat -> gmat -> gmat -> N -> gmat -> N * N * option gmat.

Record cg_state := mkCg {
  cg_G : gmat; cg_val : N; cg_grad : option gmat; cg_it : nat; cg_log : list N }.

(** one round of the while loop, lines 349-388: the new state and the flag [loop] *)
Definition cg_step (n m : nat) (M : gmat) (reg : N) (f : gmat -> N) (df : gmat -> gmat)
    (lp : gmat -> gmat) (ls : line_search_t) (numItermax : nat) (stopThr stopThr2 : N)
    (s : cg_state) : cg_state * bool :=
  let it := S (cg_it s) in
  let old := cg_val s in
  let dfG := match cg_grad s with None => df (cg_G s) | Some g => g end in
  let Mi := fun i j => nadd (M i j) (nmul reg (dfG i j)) in
  let Gc := lp Mi in
  let dG := fun i j => nsub (Gc i j) (cg_G s i j) in
  let '(alpha, c, g') := ls (cg_cost n m M reg f) (cg_G s) dG Mi old dfG in
  let G' := fun i j => nadd (cg_G s i j) (nmul alpha (dG i j)) in
  let stop_it := Nat.leb numItermax it in
  let absd := nabs (nsub c old) in
  (* a relative change of nan never triggers *)
  let rel := if neqb c n0 then false else nltb (ndiv absd (nabs c)) stopThr in
  let stop_c := orb rel (nltb absd stopThr2) in
  (mkCg G' c g' it (cg_log s ++ [c]), negb (orb stop_it stop_c)).

Fixpoint cg_loop (fuel : nat) (n m : nat) (M : gmat) (reg : N) (f : gmat -> N) (df : gmat -> gmat)
    (lp : gmat -> gmat) (ls : line_search_t) (numItermax : nat) (stopThr stopThr2 : N)
    (s : cg_state) : option cg_state :=
  match fuel with
  | O => None
  | S k =>
    let '(s', continue) := cg_step n m M reg f df lp ls numItermax stopThr stopThr2 s in
    if continue then cg_loop k n m M reg f df lp ls numItermax stopThr stopThr2 s' else Some s'
  end.

Definition generic_conditional_gradient (fuel n m : nat) (a b : nat -> N) (M : gmat) (reg : N)
    (f : gmat -> N) (df : gmat -> gmat) (lp : gmat -> gmat) (ls : line_search_t)
    (G0 : option gmat) (numItermax : nat) (stopThr stopThr2 : N) : option cg_state :=
  let G := match G0 with None => outer a b | Some g => g end in
  let c := cg_cost n m M reg f G in
  cg_loop fuel n m M reg f df lp ls numItermax stopThr stopThr2 (mkCg G c None 0 [c]).

(** the line search of the quadratic losses of POT: steps from solve_1d_linesearch_quad, new
    cost by the quadratic expansion (e.g. ot/gromov/_gw.py:857-946); [qa G D] and [qb G D] are
    the coefficients computed from the point and the direction, [gr] is how the new gradient
    is obtained, if it is *)
Definition quad_line_search (qa qb : gmat -> gmat -> N) (gr : N -> gmat -> gmat -> option gmat) : line_search_t :=
  fun _ G D _ c _ =>
    let a := qa G D in
    let b := qb G D in
    let al := solve_1d_linesearch_quad a b in
    (al, nadd c (nadd (nmul a (nmul al al)) (nmul b al)), gr al G D).

(** *** lp_solver of semirelaxed_cg, optim.py:637-646; [margin] is the constant 1e-15 *)
Definition sr_mask (m : nat) (margin : N) (Mi : gmat) : gmat :=
  fun i j => if nleb (Mi i j) (nadd (nmink (m - 1) (Mi i)) margin) then n1 else n0.
Definition semirelaxed_lp (m : nat) (margin : N) (a : nat -> N) (Mi : gmat) : gmat :=
  let Gc := sr_mask m margin Mi in
  fun i j => nmul (Gc i j) (ndiv (a i) (nsum m (Gc i))).
End Optim.
