(** Model of ot/unbalanced/_lbfgs.py: the function handed to
    scipy.optimize.minimize, lbfgsb_unbalanced and lbfgsb_unbalanced2.

    The logarithm [lg] and the constant [tiny] (1e-16 in the code) are
    parameters; scipy's minimiser is an oracle returning a point, the value
    reported with it being the value of the function there.  Conversions
    between backends are not modelled: all arrays are numpy arrays. *)
From Coq Require Import List Arith Bool String Ascii.
From Verif Require Import Num Sinkhorn_model.
Import ListNotations.

Section Lbfgs.
Context {N : NumOps}.
Variable lg : N -> N.
Variable tiny half : N.

Notation vec := (nat -> N).
Notation mat := (nat -> nat -> N).

(** nx.kl_div(p, q, mass=True), backend.py:1542-1546, on vectors *)
Definition kl_vec (n : nat) (p q : vec) : N :=
  nadd (nsum n (fun i => nmul (p i) (lg (nadd (ndiv (p i) (q i)) tiny)))) (nsum n (fun i => nsub (q i) (p i))).
(** the same on matrices *)
Definition kl_mat (m n : nat) (P Q : mat) : N :=
  nadd (nsum m (fun i => nsum n (fun j => nmul (P i j) (lg (nadd (ndiv (P i j) (Q i j)) tiny)))))
       (nsum m (fun i => nsum n (fun j => nsub (Q i j) (P i j)))).

Definition sq (x : N) : N := nmul x x.
(** np.sign *)
Definition sgn (x : N) : N := if nltb x n0 then nsub n0 n1 else if nltb n0 x then n1 else n0.

(** regularisation after the tests of lbfgsb_unbalanced *)
Inductive rdiv :=
| RKl | REntropy | RL2
| RCustom (f : mat -> N) (df : mat -> mat).
Inductive mdiv := MKl | ML2 | MTv.

(** reg_kl, reg_entropy, reg_l2 and the tuple, _lbfgs.py:63-92 *)
Definition reg_fun (m n : nat) (c : mat) (rd : rdiv) (G : mat) : N :=
  match rd with
  | RKl => kl_mat m n G c
  | REntropy => nsub (nsum m (fun i => nsum n (fun j => nmul (G i j) (lg (nadd (G i j) tiny))))) (nsum m (fun i => nsum n (fun j => G i j)))
  | RL2 => nmul half (nsum m (fun i => nsum n (fun j => sq (nsub (G i j) (c i j)))))
  | RCustom f _ => f G
  end.
(** grad_kl, grad_entropy, grad_l2, 66-92 *)
Definition grad_reg (c : mat) (rd : rdiv) (G : mat) : mat :=
  match rd with
  | RKl => fun i j => lg (nadd (ndiv (G i j) (c i j)) tiny)
  | REntropy => fun i j => lg (nadd (G i j) tiny)
  | RL2 => fun i j => nsub (G i j) (c i j)
  | RCustom _ df => df G
  end.

Definition rowsum (n : nat) (G : mat) : vec := fun i => nsum n (fun j => G i j).
Definition colsum (m : nat) (G : mat) : vec := fun j => nsum m (fun i => G i j).

(** marg_kl, marg_l2, marg_tv for one marginal [r] of [k] entries against [q] *)
Definition marg1 (md : mdiv) (k : nat) (r q : vec) : N :=
  match md with
  | MKl => kl_vec k r q
  | ML2 => nmul half (nsum k (fun i => sq (nsub (r i) (q i))))
  | MTv => nsum k (fun i => nabs (nsub (r i) (q i)))
  end.
(** grad_marg_*, 99-122, for one marginal *)
Definition gmarg1 (md : mdiv) (r q : vec) : vec :=
  match md with
  | MKl => fun i => lg (nadd (ndiv (r i) (q i)) tiny)
  | ML2 => fun i => nsub (r i) (q i)
  | MTv => fun i => sgn (nsub (r i) (q i))
  end.

(** _func, 134-146: value and gradient *)
Definition uot_value (m n : nat) (a b : vec) (c M : mat) (reg r1 r2 : N) (rd : rdiv) (md : mdiv) (G : mat) : N :=
  let v := nadd (nsum m (fun i => nsum n (fun j => nmul (G i j) (M i j))))
    (nadd (nmul r1 (marg1 md m (rowsum n G) a)) (nmul r2 (marg1 md n (colsum m G) b))) in
  if nltb n0 reg then nadd v (nmul reg (reg_fun m n c rd G)) else v.
Definition uot_grad (m n : nat) (a b : vec) (c M : mat) (reg r1 r2 : N) (rd : rdiv) (md : mdiv) (G : mat) : mat :=
  fun i j =>
    let g := nadd (M i j) (nadd (nmul r1 (gmarg1 md (rowsum n G) a i)) (nmul r2 (gmarg1 md (colsum m G) b j))) in
    if nltb n0 reg then nadd g (nmul reg (grad_reg c rd G i j)) else g.

(** ** arguments *)
(** str.lower on ASCII *)
Definition lower_char (ch : ascii) : ascii :=
  let k := nat_of_ascii ch in if (65 <=? k) && (k <=? 90) then ascii_of_nat (k + 32) else ch.
Fixpoint lower (s : string) : string :=
  match s with EmptyString => EmptyString | String ch s' => String (lower_char ch) (lower s') end.

(** reg_div as passed: a string, a tuple of two functions, or anything else *)
Inductive rarg := RaStr (s : string) | RaTuple (f : mat -> N) (df : mat -> mat) | RaOther.

Inductive uexn := UValueError | UIndexError | UTypeError.
Inductive ures (A : Type) := UOk (x : A) | UExn (e : uexn).
Arguments UOk {A}. Arguments UExn {A}.

(** reg_m as passed: float or int, indexable object, or something without length *)
Inductive parg := PScalar (x : N) | PList (l : list N) | PNoLen.
(** get_parameter_pair, utils.py:854-883 *)
Definition get_parameter_pair (p : parg) : ures (N * N) :=
  match p with
  | PScalar x => UOk (x, x)
  | PList [x] => UOk (x, x)
  | PList [x; y] => UOk (x, y)
  | PList [] => UExn UIndexError
  | PList _ => UExn UValueError
  | PNoLen => UExn UTypeError
  end.

(** regm_div.lower() in [...], 271-275 *)
Definition check_regm (s : string) : ures mdiv :=
  let s := lower s in
  if String.eqb s "kl" then UOk MKl else if String.eqb s "l2" then UOk ML2 else if String.eqb s "tv" then UOk MTv
  else UExn UValueError.
(** reg_div, 277-284 and the dispatch 81-92: what is neither a string nor a
    tuple goes to the last branch *)
Definition check_reg (r : rarg) : ures rdiv :=
  match r with
  | RaStr s =>
      let s := lower s in
      if String.eqb s "kl" then UOk RKl else if String.eqb s "entropy" then UOk REntropy
      else if String.eqb s "l2" then UOk RL2 else UExn UValueError
  | RaTuple f df => UOk (RCustom f df)
  | RaOther => UOk RL2
  end.

(** weights: None stands for an empty array, 295-298 *)
Definition weights (n : nat) (a : option vec) : vec :=
  match a with Some a => a | None => fun _ => ndiv n1 (nat_num n) end.

(** scipy.optimize.minimize(fun, x0, bounds=[0, inf)): value and gradient
    functions and starting point to the returned point *)
Definition minimiser := (mat -> N) -> (mat -> mat) -> mat -> mat.

Record ulog := mk_ulog { u_plan : mat; u_cost : N; u_total : N }.

(** lbfgsb_unbalanced with log=True, 270-334 *)
Definition lbfgsb_unbalanced (opt : minimiser) (m n : nat) (a b : option vec) (M : mat) (reg : N) (reg_m : parg)
  (c : option mat) (reg_div : rarg) (regm_div : string) (G0 : option mat) : ures ulog :=
  match check_regm regm_div with
  | UExn e => UExn e
  | UOk md =>
    match check_reg reg_div with
    | UExn e => UExn e
    | UOk rd =>
      match get_parameter_pair reg_m with
      | UExn e => UExn e
      | UOk (r1, r2) =>
        let a := weights m a in
        let b := weights n b in
        let G0 := match G0 with Some G0 => G0 | None => fun i j => nmul (a i) (b j) end in
        let c := match c with Some c => c | None => fun i j => nmul (a i) (b j) end in
        let f := uot_value m n a b c M reg r1 r2 rd md in
        let G := opt f (uot_grad m n a b c M reg r1 r2 rd md) G0 in
        UOk (mk_ulog G (nsum m (fun i => nsum n (fun j => nmul (G i j) (M i j)))) (f G))
      end
    end
  end.

(** lbfgsb_unbalanced2, 460-487 *)
Definition lbfgsb_unbalanced2 (opt : minimiser) (m n : nat) (a b : option vec) (M : mat) (reg : N) (reg_m : parg)
  (c : option mat) (reg_div : rarg) (regm_div : string) (G0 : option mat) (returnCost : string) : ures N :=
  match lbfgsb_unbalanced opt m n a b M reg reg_m c reg_div regm_div G0 with
  | UExn e => UExn e
  | UOk l =>
      if String.eqb returnCost "linear" then UOk (u_cost l)
      else if String.eqb returnCost "total" then UOk (u_total l)
      else UExn UValueError
  end.

End Lbfgs.
Arguments UOk {A}. Arguments UExn {A}.
Arguments RaOther {N}. Arguments RaStr {N}. Arguments PNoLen {N}.
Arguments RKl {N}. Arguments REntropy {N}. Arguments RL2 {N}.
Arguments u_plan {N}. Arguments u_cost {N}. Arguments u_total {N}.
