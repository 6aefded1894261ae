(** Model of ot/solvers.py: solve_gromov (606-1352).  The fourteen solvers it calls are one parameter
    [run]; [gargs] holds exactly the arguments passed, an absent keyword being None (the solver then
    uses its own default).  The log function and the 1e-16 of the entropy are parameters.  Not
    modelled: verbose, n_threads, backend detection, warnings, the log kept in the result. *)
From Coq Require Import String ZArith Bool.
From Verif Require Import Num Lbfgs_model.
Local Open Scope string_scope.

Section SG.
Context {N : NumOps}.
Notation vec := (nat -> N).
Notation mat := (nat -> nat -> N).
Variables (lg : N -> N) (tiny : N) (nat_num : nat -> N) (tol9 tol7 : N).
Variables (na nb : nat).

Inductive gsolver := GW2 | EMD2 | FGW2 | SRGW2 | SRFGW2 | PGW2 | PFGW2 | EGW2 | SINK | EFGW2 | ESRGW2 | ESRFGW2 | EPGW2 | EPFGW2.
Inductive gloss := SquareLoss | KlLoss.
(** the arguments of a call; g_C the two structure matrices, g_b absent for the semi-relaxed solvers,
    g_eps the keyword epsilon or reg *)
Record gargs := mkG { g_M : option mat; g_C : option (mat * mat); g_a : vec; g_b : option vec; g_loss : option gloss;
  g_eps : option N; g_alpha : option N; g_m : option N; g_sym : option bool; g_method : option string; g_iter : Z; g_tol : option N; g_G0 : option mat }.
(** what a solver returns: value, and from its log T (or G), lin_loss, quad_loss, u, v, warning *)
Record gout := mkO { o_val : N; o_plan : mat; o_lin : N; o_quad : N; o_u : vec; o_v : vec; o_warn : option string }.
(** OTResult *)
Record gres := mkR { r_pot : option (vec * vec); r_value : option N; r_lin : option N; r_quad : option N; r_plan : mat; r_status : option string }.
Inductive gexn := GNotImplemented | GValueError | GTypeError.
Inductive gans := GOk (r : gres) | GExn (e : gexn).

Variable run : gsolver -> gargs -> gout.
Variables (Ca Cb : mat) (M : option mat) (a0 b0 : option vec) (loss : string) (symmetric : option bool) (alpha : option N).
Variables (reg : option N) (reg_type : string) (unbalanced : option N) (unbalanced_type : string).
Variables (method : option string) (max_iter : option Z) (plan_init : option mat) (tol : option N).

(** lines 857-860 *)
Definition sg_a : vec := match a0 with Some a => a | None => fun _ => ndiv n1 (nat_num na) end.
Definition sg_b : vec := match b0 with Some b => b | None => fun _ => ndiv n1 (nat_num nb) end.
(** lines 871-875 *)
Definition sg_loss : option gloss :=
  if String.eqb (lower loss) "l2" then Some SquareLoss else if String.eqb (lower loss) "kl" then Some KlLoss else None.
Definition is_alpha (x : N) : bool := match alpha with Some v => neqb v x | None => false end.
Definition iter_or (d : Z) : Z := match max_iter with Some k => k | None => d end.
Definition tol_or (d : N) : option N := Some (match tol with Some t => t | None => d end).
Definition method_or (d : string) : option string := Some (match method with Some s => s | None => d end).
Definition vsum (k : nat) (x : vec) : N := nsum k x.
(** reg * sum(plan * log(plan + 1e-16)) *)
Definition sg_ent (r : N) (T : mat) : N := nmul r (nsum na (fun i => nsum nb (fun j => nmul (T i j) (lg (nadd (T i j) tiny))))).
(** status, line 934 *)
Definition sg_status (w : option string) : option string := Some (match w with Some s => s | None => "Converged" end).
(** no linear term: M is None or alpha == 1 *)
Definition no_lin : bool := match M with None => true | Some _ => is_alpha n1 end.
(** arithmetic on alpha = None inside the fused solvers, and M = None in (1 - alpha) * M, raise TypeError *)
Definition with_lin (k : mat -> N -> gans) : gans :=
  match M, alpha with Some m, Some al => k m al | _, _ => GExn GTypeError end.
(** value_linear of the unregularised problems without linear term, lines 911-912, 988-989 *)
Definition lin0 : option N := if is_alpha n1 then Some n0 else None.

(** lines 877-964: exact balanced *)
Definition sg_exact (l : gloss) : gans :=
  if no_lin then
    let o := run GW2 (mkG None (Some (Ca, Cb)) sg_a (Some sg_b) (Some l) None None None symmetric None (iter_or 10000) (tol_or tol9) plan_init) in
    GOk (mkR (Some (o_u o, o_v o)) (Some (o_val o)) lin0 (Some (o_val o)) (o_plan o) None)
  else if is_alpha n0 then
    let o := run EMD2 (mkG M None sg_a (Some sg_b) None None None None None None (iter_or 1000000) None None) in
    GOk (mkR (Some (o_u o, o_v o)) (Some (o_val o)) (Some (o_val o)) (Some n0) (o_plan o) (sg_status (o_warn o)))
  else with_lin (fun m al =>
    let o := run FGW2 (mkG (Some m) (Some (Ca, Cb)) sg_a (Some sg_b) (Some l) None (Some al) None symmetric None (iter_or 10000) (tol_or tol9) plan_init) in
    GOk (mkR (Some (o_u o, o_v o)) (Some (o_val o)) (Some (o_lin o)) (Some (o_quad o)) (o_plan o) None)).
(** lines 966-1020: semi-relaxed *)
Definition sg_semi (l : gloss) : gans :=
  if no_lin then
    let o := run SRGW2 (mkG None (Some (Ca, Cb)) sg_a None (Some l) None None None symmetric None (iter_or 10000) (tol_or tol9) plan_init) in
    GOk (mkR None (Some (o_val o)) lin0 (Some (o_val o)) (o_plan o) None)
  else with_lin (fun m al =>
    let o := run SRFGW2 (mkG (Some m) (Some (Ca, Cb)) sg_a None (Some l) None (Some al) None symmetric None (iter_or 10000) (tol_or tol9) plan_init) in
    GOk (mkR None (Some (o_val o)) (Some (o_lin o)) (Some (o_quad o)) (o_plan o) None)).
(** lines 1022-1085: partial; the mass must not exceed that of a or b *)
Definition too_much (u : N) : bool := (nltb (vsum na sg_a) u || nltb (vsum nb sg_b) u)%bool.
Definition sg_partial (l : gloss) (u : N) : gans :=
  if too_much u then GExn GValueError
  else if no_lin then
    let o := run PGW2 (mkG None (Some (Ca, Cb)) sg_a (Some sg_b) (Some l) None None (Some u) symmetric None (iter_or 1000) (tol_or tol7) plan_init) in
    GOk (mkR None (Some (o_val o)) None (Some (o_val o)) (o_plan o) None)
  else with_lin (fun m al =>
    let o := run PFGW2 (mkG (Some m) (Some (Ca, Cb)) sg_a (Some sg_b) (Some l) None (Some al) (Some u) symmetric None (iter_or 1000) (tol_or tol7) plan_init) in
    GOk (mkR None (Some (o_val o)) (Some (o_lin o)) (Some (o_quad o)) (o_plan o) None)).
Definition entropy_type : bool := String.eqb (lower reg_type) "entropy".
(** lines 1097-1205: regularised, balanced; the call at 1176-1192 has no epsilon *)
Definition sg_reg (l : gloss) (r : N) : gans :=
  if (entropy_type && no_lin)%bool then
    let o := run EGW2 (mkG None (Some (Ca, Cb)) sg_a (Some sg_b) (Some l) (Some r) None None symmetric (method_or "PGD") (iter_or 1000) (tol_or tol9) plan_init) in
    GOk (mkR None (Some (nadd (o_val o) (sg_ent r (o_plan o)))) (Some n0) (Some (o_val o)) (o_plan o) None)
  else if (entropy_type && is_alpha n0)%bool then
    let o := run SINK (mkG M None sg_a (Some sg_b) None (Some r) None None None None (iter_or 1000) (tol_or tol9) None) in
    let lin := match M with Some m => nsum na (fun i => nsum nb (fun j => nmul (m i j) (o_plan o i j))) | None => n0 end in
    GOk (mkR (Some (o_u o, o_v o)) (Some (nadd lin (sg_ent r (o_plan o)))) (Some lin) None (o_plan o) None)
  else if entropy_type then with_lin (fun m al =>
    let o := run EFGW2 (mkG (Some m) (Some (Ca, Cb)) sg_a (Some sg_b) (Some l) None (Some al) None symmetric (method_or "PGD") (iter_or 1000) (tol_or tol9) plan_init) in
    GOk (mkR None (Some (nadd (o_val o) (sg_ent r (o_plan o)))) (Some (o_lin o)) (Some (o_quad o)) (o_plan o) None))
  else GExn GNotImplemented.
(** lines 1207-1260: regularised, semi-relaxed; the call at 1242-1255 has no epsilon *)
Definition sg_reg_semi (l : gloss) (r : N) : gans :=
  if (entropy_type && no_lin)%bool then
    let o := run ESRGW2 (mkG None (Some (Ca, Cb)) sg_a None (Some l) (Some r) None None symmetric None (iter_or 1000) (tol_or tol9) plan_init) in
    GOk (mkR None (Some (nadd (o_val o) (sg_ent r (o_plan o)))) (Some n0) (Some (o_val o)) (o_plan o) None)
  else with_lin (fun m al =>
    let o := run ESRFGW2 (mkG (Some m) (Some (Ca, Cb)) sg_a None (Some l) None (Some al) None symmetric None (iter_or 1000) (tol_or tol9) plan_init) in
    GOk (mkR None (Some (nadd (o_val o) (sg_ent r (o_plan o)))) (Some (o_lin o)) (Some (o_quad o)) (o_plan o) None)).
(** lines 1262-1329: regularised, partial; reg_type is not read *)
Definition sg_reg_partial (l : gloss) (r u : N) : gans :=
  if too_much u then GExn GValueError
  else if no_lin then
    let o := run EPGW2 (mkG None (Some (Ca, Cb)) sg_a (Some sg_b) (Some l) (Some r) None (Some u) symmetric None (iter_or 1000) (tol_or tol7) plan_init) in
    GOk (mkR None (Some (nadd (o_val o) (sg_ent r (o_plan o)))) None (Some (o_val o)) (o_plan o) None)
  else with_lin (fun m al =>
    let o := run EPFGW2 (mkG (Some m) (Some (Ca, Cb)) sg_a (Some sg_b) (Some l) (Some r) (Some al) (Some u) symmetric None (iter_or 1000) (tol_or tol7) plan_init) in
    GOk (mkR None (Some (nadd (o_val o) (sg_ent r (o_plan o)))) (Some (o_lin o)) (Some (o_quad o)) (o_plan o) None)).

(** line 877 *)
Definition is_exact : bool := match reg with None => true | Some r => neqb r n0 end.
(** lines 871-1351 *)
Definition solve_gromov : gans :=
  match sg_loss with
  | None => GExn GNotImplemented
  | Some l =>
      let semi := String.eqb (lower unbalanced_type) "semirelaxed" in
      let part := String.eqb (lower unbalanced_type) "partial" in
      match (if semi then None else unbalanced), semi with
      | None, false => if is_exact then sg_exact l else match reg with Some r => sg_reg l r | None => GExn GTypeError end
      | _, true => if is_exact then sg_semi l else match reg with Some r => sg_reg_semi l r | None => GExn GTypeError end
      | Some u, false =>
          if part then if is_exact then sg_partial l u else match reg with Some r => sg_reg_partial l r u | None => GExn GTypeError end
          else GExn GNotImplemented
      end
  end.
End SG.
Arguments mkG {N}. Arguments g_M {N}. Arguments g_C {N}. Arguments g_a {N}. Arguments g_b {N}. Arguments g_loss {N}. Arguments g_eps {N}. Arguments g_alpha {N}. Arguments g_m {N}.
Arguments o_val {N}. Arguments o_plan {N}. Arguments o_lin {N}. Arguments o_quad {N}. Arguments o_u {N}. Arguments o_v {N}. Arguments o_warn {N}. Arguments mkO {N}.
Arguments r_pot {N}. Arguments r_value {N}. Arguments r_lin {N}. Arguments r_quad {N}. Arguments r_plan {N}. Arguments r_status {N}. Arguments mkR {N}.
Arguments GOk {N}. Arguments GExn {N}.
