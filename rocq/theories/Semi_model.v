(** Model of ot/stochastic.py: semi-dual entropic transport (SAG, averaged SGD), the dual SGD over
    random batches, and the dual losses and plans for entropic and quadratic regularization.
    The random draws (rng.randint, rng.choice) are arbitrary lists of indices given as arguments.
    [ex], [lg], [sq] are numpy's exp, log and sqrt. *)
From Coq Require Import List Arith Bool.
From Verif Require Import Num Emd1d_model Optim_model.
Import ListNotations.

Section Semi.
Context {N : NumOps}.
Variables ex lg sq : N -> N.
Notation vec := (nat -> N).
Notation mat := (nat -> nat -> N).
Variables (n m : nat) (a b : vec) (M : mat) (reg : N).

(** coordinate_grad_semi_dual, lines 69-72 *)
Definition exp_beta (beta : vec) (i j : nat) : N := nmul (ex (ndiv (nsub n0 (nsub (M i j) (beta j))) reg)) (b j).
Definition khi (beta : vec) (i j : nat) : N := ndiv (exp_beta beta i j) (nsum m (exp_beta beta i)).
Definition coordinate_grad (beta : vec) (i : nat) : vec := fun j => nsub (b j) (khi beta i j).

(** sag_entropic_transport, lines 136-148; one iteration with the sampled index i *)
Record sag := mk_sag { s_beta : vec; s_stored : mat; s_sum : vec }.
Definition sag_init : sag := mk_sag (fun _ => n0) (fun _ _ => n0) (fun _ => n0).
Definition sag_step (lr : N) (s : sag) (i : nat) : sag :=
  let g := fun j => nmul (a i) (coordinate_grad (s_beta s) i j) in                                   (* 144 *)
  let sm := fun j => nadd (s_sum s j) (nsub (g j) (s_stored s i j)) in                               (* 145 *)
  mk_sag (fun j => nadd (s_beta s j) (nmul (nmul lr (ndiv n1 (nofnat n))) (sm j)))                   (* 147 *)
         (fun i' => if Nat.eqb i' i then g else s_stored s i')                                       (* 146 *)
         sm.
Definition sag_run (lr : N) (idx : list nat) : sag := fold_left (sag_step lr) idx sag_init.

(** averaged_sgd_entropic_transport, lines 213-224 *)
Record asgd := mk_asgd { d_beta : vec; d_ave : vec; d_k : nat }.
Definition asgd_init : asgd := mk_asgd (fun _ => n0) (fun _ => n0) 0.
Definition asgd_step (lr : N) (s : asgd) (i : nat) : asgd :=
  let k := S (d_k s) in
  let beta := fun j => nadd (d_beta s j) (nmul (ndiv lr (sq (nofnat k))) (coordinate_grad (d_beta s) i j)) in
  mk_asgd beta (fun j => nadd (nmul (ndiv n1 (nofnat k)) (beta j)) (nmul (nsub n1 (ndiv n1 (nofnat k))) (d_ave s j))) k.
Definition asgd_run (lr : N) (idx : list nat) : asgd := fold_left (asgd_step lr) idx asgd_init.

(** c_transform_entropic, lines 275-279 *)
Definition c_transform (beta : vec) (i : nat) : N :=
  let r := fun j => nsub (M i j) (beta j) in
  let min_r := nmink (m - 1) r in
  nsub min_r (nmul reg (lg (nsum m (fun j => nmul (ex (ndiv (nsub n0 (nsub (r j) min_r)) reg)) (b j))))).
(** the plan of solve_semi_dual_entropic (lines 360-364) and solve_dual_entropic (lines 595-599) *)
Definition dual_plan (alpha beta : vec) : mat :=
  fun i j => nmul (nmul (ex (ndiv (nsub (nadd (alpha i) (beta j)) (M i j)) reg)) (a i)) (b j).
(** solve_semi_dual_entropic, lines 351-372, as a function of the potential found by the method *)
Definition semi_dual_plan (beta : vec) : mat := dual_plan (c_transform beta) beta.

(** batch_grad_dual, lines 443-462; the batches are lists of indices *)
Definition lsum (l : list nat) (f : nat -> N) : N := fold_right (fun i s => nadd (f i) s) n0 l.
Definition inb (l : list nat) (i : nat) : bool := existsb (Nat.eqb i) l.
Definition batch_G (alpha beta : vec) (i j : nat) : N := nsub n0 (dual_plan alpha beta i j).
Definition batch_grad_dual (alpha beta : vec) (ba bb : list nat) : vec * vec :=
  ((fun i => if inb ba i then nadd (ndiv (nmul (a i) (nofnat (length bb))) (nofnat m)) (lsum bb (fun j => batch_G alpha beta i j)) else n0),
   (fun j => if inb bb j then nadd (ndiv (nmul (b j) (nofnat (length ba))) (nofnat n)) (lsum ba (fun i => batch_G alpha beta i j)) else n0)).
(** sgd_entropic_regularization, lines 523-536; draws: the list of pairs of batches *)
Definition sgd_step (lr : N) (s : vec * vec * nat) (d : list nat * list nat) : vec * vec * nat :=
  let '(al, be, it) := s in let '(ba, bb) := d in
  let k := sq (nofnat (S it)) in
  let '(ga, gb) := batch_grad_dual al be ba bb in
  ((fun i => if inb ba i then nadd (al i) (nmul (ndiv lr k) (ga i)) else al i),
   (fun j => if inb bb j then nadd (be j) (nmul (ndiv lr k) (gb j)) else be j), S it).
Definition sgd_run (lr : N) (draws : list (list nat * list nat)) : vec * vec * nat :=
  fold_left (sgd_step lr) draws ((fun _ => n0), (fun _ => n0), 0).

(** loss_dual_entropic, lines 667-669, and plan_dual_entropic, lines 725-727; M is the computed metric *)
Definition loss_dual_entropic (u v : vec) : N :=
  nadd (nadd (nsum n (fun i => nmul (u i) (a i))) (nsum m (fun j => nmul (v j) (b j))))
       (nsum n (fun i => nsum m (fun j => nmul (nmul (a i) (nmul (nsub n0 reg) (ex (ndiv (nsub (nadd (u i) (v j)) (M i j)) reg)))) (b j)))).
Definition plan_dual_entropic (u v : vec) : mat := fun i j => nmul (nmul (a i) (ex (ndiv (nsub (nadd (u i) (v j)) (M i j)) reg))) (b j).
(** loss_dual_quadratic, lines 783-785, and plan_dual_quadratic, lines 841-843 *)
Definition pos_part (u v : vec) (i j : nat) : N := nmax (nsub (nadd (u i) (v j)) (M i j)) n0.
Definition four_reg : N := nmul (nofnat 4) reg.
Definition two_reg : N := nmul (nofnat 2) reg.
Definition loss_dual_quadratic (u v : vec) : N :=
  nadd (nadd (nsum n (fun i => nmul (u i) (a i))) (nsum m (fun j => nmul (v j) (b j))))
       (nsum n (fun i => nsum m (fun j => nmul (nmul (a i) (nmul (ndiv (nsub n0 n1) four_reg) (nmul (pos_part u v i j) (pos_part u v i j)))) (b j)))).
Definition plan_dual_quadratic (u v : vec) : mat := fun i j => nmul (nmul (a i) (nmul (ndiv n1 two_reg) (pos_part u v i j))) (b j).
End Semi.
