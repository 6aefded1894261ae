(** Model of ot/solvers.py: solve (57-603).  The seven solvers it calls are one parameter [run];
    [sargs] holds exactly the arguments passed, an absent keyword being None.  exp and log are
    parameters, tiny is the 1e-16 of the entropy and of kl_div.  unbalanced is a pair of weights (a
    scalar is repeated by the solvers).  detach and set_gradients do not change values (C94 is about
    the gradients).  Not modelled: verbose, n_threads, backend detection, batches, the log kept in
    the result. *)
From Coq Require Import String ZArith Bool.
From Verif Require Import Num Lbfgs_model.
Local Open Scope string_scope.

Section SV.
Context {N : NumOps}.
Notation vec := (nat -> N).
Notation mat := (nat -> nat -> N).
Variables (ex lg : N -> N) (tiny : N) (nat_num : nat -> N) (tol9 tol12 : N).
Variables (na nb : nat).

Inductive ssolver := SEmd | SMM | SLbfgs | SCg | SSink | SSmooth | SUnb.
(** reg_type: a name, or a pair (f, df) *)
Inductive rtype := RName (s : string) | RPair (f : mat -> N) (df : mat -> mat).
Record sargs := mkS { s_M : mat; s_a : vec; s_b : vec; s_reg : option N; s_regm : option (N * N); s_c : option mat;
  s_rt : option rtype; s_div : option string; s_iter : Z; s_tol : option N; s_G0 : option mat; s_warm : option (vec * vec); s_method : option string }.
(** plan, and from the log: cost, total_cost or last loss, potentials, warning *)
Record sout := mkSO { so_plan : mat; so_cost : N; so_total : N; so_u : vec; so_v : vec; so_warn : option string }.
Record sres := mkSR { sr_pot : option (vec * vec); sr_value : N; sr_lin : N; sr_plan : mat; sr_status : option string }.
Inductive sexn := SNotImplemented | SValueError.
Inductive sans := SOk (r : sres) | SExn (e : sexn).
Inductive gmode := GAuto | GEnvelope | GLast | GDetach.

Variable run : ssolver -> sargs -> sout.
Variables (M : mat) (a0 b0 : option vec) (reg0 : option N) (c0 : option mat) (rt : rtype) (unb : option (N * N)) (uty : string).
Variables (method : option string) (max_iter : option Z) (G0 : option mat) (warm : option (vec * vec)) (tol : option N) (grad : gmode).

(** lines 302-310 *)
Definition so_a : vec := match a0 with Some a => a | None => fun _ => ndiv n1 (nat_num na) end.
Definition so_b : vec := match b0 with Some b => b | None => fun _ => ndiv n1 (nat_num nb) end.
Definition so_ab : mat := fun i j => nmul (so_a i) (so_b j).
Definition so_c : mat := match c0 with Some c => c | None => so_ab end.
Definition so_reg : N := match reg0 with Some r => r | None => n0 end.
Definition so_iter (d : Z) : Z := match max_iter with Some k => k | None => d end.
Definition so_tol (d : N) : option N := Some (match tol with Some t => t | None => d end).
Definition so_status (w : option string) : option string := Some (match w with Some s => s | None => "Converged" end).
Definition rname (s : string) : bool := match rt with RName t => String.eqb (lower t) s | RPair _ _ => false end.
Definition uname (s : string) : bool := String.eqb (lower uty) s.
(** reg_type lowered when it is a string, lines 381-382, 557-558 *)
Definition rt_low : rtype := match rt with RName t => RName (lower t) | RPair f df => RPair f df end.
(** nx.sum(M * plan) *)
Definition so_lin (P : mat) : N := nsum na (fun i => nsum nb (fun j => nmul (M i j) (P i j))).
Definition so_ent (P : mat) : N := nsum na (fun i => nsum nb (fun j => nmul (P i j) (lg (nadd (P i j) tiny)))).
(** nx.kl_div(plan, a b^T) *)
Definition so_kl (P : mat) : N := nsum na (fun i => nsum nb (fun j => nmul (P i j) (lg (nadd (ndiv (P i j) (so_ab i j)) tiny)))).
Definition so_sq (P : mat) : N := nsum na (fun i => nsum nb (fun j => nmul (P i j) (P i j))).

(** lines 321-339 *)
Definition sv_exact : sans :=
  let o := run SEmd (mkS M so_a so_b None None None None None (so_iter 1000000) None None warm None) in
  SOk (mkSR (Some (so_u o, so_v o)) (so_cost o) (so_cost o) (so_plan o) (so_status (so_warn o))).
(** lines 341-365 *)
Definition sv_mm (u : N * N) : sans :=
  let o := run SMM (mkS M so_a so_b (Some so_reg) (Some u) (Some so_c) None (Some uty) (so_iter 1000) (so_tol tol12) G0 None None) in
  SOk (mkSR None (so_total o) (so_cost o) (so_plan o) None).
(** lines 366-391 and 556-583 *)
Definition sv_lbfgs (u : N * N) : sans :=
  let o := run SLbfgs (mkS M so_a so_b (Some so_reg) (Some u) (Some so_c) (Some rt_low) (Some uty) (so_iter 1000) (so_tol tol12) G0 None None) in
  SOk (mkSR None (so_total o) (so_cost o) (so_plan o) None).
(** lines 402-426 *)
Definition sv_cg : sans :=
  let o := run SCg (mkS M so_a so_b (Some so_reg) None None (Some rt) None (so_iter 1000) (so_tol tol9) G0 None None) in
  SOk (mkSR (Some (so_u o, so_v o)) (so_total o) (so_lin (so_plan o)) (so_plan o) None).
(** lines 463-474: one more update of v from u and of u from the old v *)
Definition last_v (u : vec) : vec := fun j => nsub (lg (so_b j)) (lg (nsum na (fun i => ex (nadd (ndiv (nopp (M i j)) so_reg) (u i))))).
Definition last_u (v : vec) : vec := fun i => nsub (lg (so_a i)) (lg (nsum nb (fun j => ex (nadd (ndiv (nopp (M i j)) so_reg) (v j))))).
Definition last_plan (u v : vec) : mat := fun i j => ex (nadd (nadd (ndiv (nopp (M i j)) so_reg) (u i)) (v j)).
(** lines 428-494; the reference measure c is not used *)
Definition sv_sink : sans :=
  let it := so_iter 1000 in
  let last := match grad with GLast => true | _ => false end in
  if (last && Z.eqb it 0)%bool then SExn SValueError
  else
    let it := if last then (it - 1)%Z else it in
    let o := run SSink (mkS M so_a so_b (Some so_reg) None None None None it (so_tol tol9) None None None) in
    let '(u, v, P) := if last then (last_u (so_v o), last_v (so_u o), last_plan (last_u (so_v o)) (last_v (so_u o))) else (so_u o, so_v o, so_plan o) in
    let lin := so_lin P in
    let value := if rname "entropy" then nadd lin (nmul so_reg (so_ent P)) else nadd lin (nmul so_reg (so_kl P)) in
    SOk (mkSR (Some (u, v)) value lin P None).
(** lines 496-514 *)
Definition sv_l2 : sans :=
  let o := run SSmooth (mkS M so_a so_b (Some so_reg) None None None None (so_iter 1000) (so_tol tol9) None None None) in
  SOk (mkSR (Some (so_u o, so_v o)) (nadd (so_lin (so_plan o)) (nmul so_reg (so_sq (so_plan o)))) (so_lin (so_plan o)) (so_plan o) None).
(** lines 525-552 *)
Definition sv_unb (u : N * N) : sans :=
  let o := run SUnb (mkS M so_a so_b (Some so_reg) (Some u) (Some so_c) (Some rt) None (so_iter 1000) (so_tol tol9) None warm method) in
  SOk (mkSR (Some (so_u o, so_v o)) (so_total o) (so_cost o) (so_plan o) None).

(** lines 319-603 *)
Definition solve : sans :=
  if neqb so_reg n0 then
    match unb with
    | None => sv_exact
    | Some u => if (uname "kl" || uname "l2")%bool then sv_mm u else if uname "tv" then sv_lbfgs u else SExn SNotImplemented
    end
  else
    match unb, rt with
    | None, RPair _ _ => sv_cg
    | None, RName _ => if (rname "entropy" || rname "kl")%bool then sv_sink else if rname "l2" then sv_l2 else SExn SNotImplemented
    | Some u, _ =>
        if (rname "kl" && uname "kl")%bool then sv_unb u
        else if ((match rt with RPair _ _ => true | _ => rname "kl" || rname "l2" || rname "entropy" end) && (uname "kl" || uname "l2" || uname "tv"))%bool then sv_lbfgs u
        else SExn SNotImplemented
    end.
End SV.
Arguments mkS {N}. Arguments s_M {N}. Arguments s_a {N}. Arguments s_b {N}. Arguments s_reg {N}. Arguments s_regm {N}. Arguments s_c {N}. Arguments s_rt {N}. Arguments s_div {N}. Arguments s_method {N}.
Arguments mkSO {N}. Arguments so_plan {N}. Arguments so_cost {N}. Arguments so_total {N}. Arguments so_u {N}. Arguments so_v {N}. Arguments so_warn {N}.
Arguments mkSR {N}. Arguments sr_pot {N}. Arguments sr_value {N}. Arguments sr_lin {N}. Arguments sr_plan {N}. Arguments sr_status {N}.
Arguments SOk {N}. Arguments SExn {N}. Arguments RName {N}. Arguments RPair {N}.
