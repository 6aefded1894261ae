(** Model of ot/solvers.py: solve_sample (1353-2023).  The cost matrix function, the solvers behind
    solve and the eight sample solvers are parameters; [largs] holds exactly the arguments passed to a
    sample solver, an absent keyword being None.  Lazy plans are matrices.  Simplified: X_a and X_b are
    given (not None), the 1d method is modelled for one dimension (it treats dimensions separately).
    Not modelled: verbose, n_threads, backend detection, exceptions of the called solvers, the log kept
    in the result. *)
From Coq Require Import String Ascii ZArith Bool List.
From Verif Require Import Num Lbfgs_model Solve_model.
Import ListNotations.
Local Open Scope string_scope.

(** str.split("_") *)
Fixpoint split_us (s : string) : list string :=
  match s with
  | "" => [""]
  | String x t => if Ascii.eqb x "_"%char then "" :: split_us t
                  else match split_us t with h :: q => String x h :: q | [] => [String x ""] end
  end.
(** lines 43-54 *)
Definition lst_method_lazy : list string :=
  ["1d"; "gaussian"; "lowrank"; "nystroem"; "factored"; "geomloss"; "geomloss_auto"; "geomloss_tensorized"; "geomloss_online"; "geomloss_multiscale"].
Definition in_list (s : string) (l : list string) : bool := existsb (String.eqb s) l.

Section SA.
Context {N : NumOps}.
Notation vec := (nat -> N).
Notation mat := (nat -> nat -> N).
Variables (ex lg : N -> N) (tiny : N) (nat_num : nat -> N) (tol9 tol12 tol7 tol6 : N).
Variables (na nb : nat).

Inductive lsolver := LEmd | L1d | LGauss | LFactored | LLowrank | LNystroem | LGeomloss | LSink.
Record largs := mkL { l_Xa : mat; l_Xb : mat; l_a : option vec; l_b : option vec; l_metric : option string; l_p : option nat; l_reg : option N;
  l_iter : option Z; l_tol : option N; l_rank : option nat; l_batch : option nat; l_scaling : option N; l_backend : option string;
  l_warm : option (vec * vec); l_seed : option nat }.
(** the value returned, and from the log: plan (G or lazy_plan), value and value_linear, the two costs
    of the factored solver, potentials, blur, warning *)
Record lout := mkLO { lo_ret : N; lo_plan : mat; lo_value : N; lo_lin : N; lo_costa : N; lo_costb : N; lo_u : vec; lo_v : vec; lo_blur : N; lo_warn : option string }.
Record pres := mkP { p_pot : option (vec * vec); p_value : option N; p_lin : option N; p_plan : option mat; p_lazy : option mat; p_status : option string }.
Inductive pexn := PNotImplemented | PValueError | PUnboundLocal.
Inductive pans := POk (r : pres) | PExn (e : pexn).

Variable dist : mat -> mat -> string -> mat.
Variable run : ssolver -> sargs (N:=N) -> sout (N:=N).
Variable lrun : lsolver -> largs -> lout.
Variables (Xa Xb : mat) (a b : option vec) (metric : string) (reg : option N) (c : option mat) (rt : rtype (N:=N)) (unb : option (N * N)) (uty : string).
Variables (lazy : option bool) (batch : option nat) (method : option string) (max_iter : option Z) (G0 : option mat) (rank : nat) (scaling : N).
Variables (warm : option (vec * vec)) (tol : option N) (grad : gmode) (seed : option nat).

Definition od {A} (o : option A) (d : A) : option A := Some (match o with Some x => x | None => d end).
Definition truthy (o : option bool) : bool := match o with Some x => x | None => false end.
(** reg is None or reg == 0 *)
Definition no_reg : bool := match reg with None => true | Some r => neqb r n0 end.
(** lines 1728-1730: the method is one of the list, so lazy0 is defined and lazy becomes True *)
Definition listed : bool := match method with Some s => in_list (lower s) lst_method_lazy | None => false end.
Definition low_method : string := match method with Some s => lower s | None => "" end.
Definition sq_metric : bool := String.eqb (lower metric) "sqeuclidean".

(** lines 1732-1757 *)
Definition p_dense : pans :=
  match solve ex lg tiny nat_num tol9 tol12 na nb run (dist Xa Xb metric) a b reg c rt unb uty method max_iter G0 warm tol grad with
  | SExn SNotImplemented => PExn PNotImplemented
  | SExn SValueError => PExn PValueError
  | SOk r => POk (mkP (sr_pot r) (Some (sr_value r)) (Some (sr_lin r)) (Some (sr_plan r)) None (sr_status r))
  end.
(** lines 1767-1791 *)
Definition p_emd : pans :=
  let o := lrun LEmd (mkL Xa Xb a b (Some metric) None None (od max_iter 100000%Z) None None None None None warm None) in
  POk (mkP (Some (lo_u o, lo_v o)) (Some (lo_ret o)) (Some (lo_ret o)) (Some (lo_plan o)) None (so_status (lo_warn o))).
(** lines 1808-1820 *)
Definition p_1d : pans :=
  let go p := let o := lrun L1d (mkL Xa Xb a b None (Some p) None None None None None None None None None) in
              POk (mkP None (Some (lo_ret o)) (Some (lo_ret o)) None None None) in
  if String.eqb metric "sqeuclidean" then go 2
  else if (String.eqb metric "euclidean" || String.eqb metric "cityblock")%bool then go 1
  else PExn PNotImplemented.
(** lines 1822-1835: neither a nor b is passed *)
Definition p_gauss : pans :=
  if sq_metric then
    let o := lrun LGauss (mkL Xa Xb None None None None (od reg tol6) None None None None None None None None) in
    let v := nmul (lo_ret o) (lo_ret o) in
    POk (mkP None (Some v) (Some v) None None None)
  else PExn PNotImplemented.
(** if not lazy0: plan = lazy_plan[:] *)
Definition keep (P : mat) : option mat := if truthy lazy then None else Some P.
(** lines 1837-1868: neither a nor b is passed *)
Definition p_fact : pans :=
  if sq_metric then
    let o := lrun LFactored (mkL Xa Xb None None None None (od reg n0) (od max_iter 100%Z) (od tol tol7) (Some rank) None None None None None) in
    let v := nadd (lo_costa o) (lo_costb o) in
    POk (mkP None (Some v) (Some v) (keep (lo_plan o)) (Some (lo_plan o)) None)
  else PExn PNotImplemented.
(** lines 1870-1899 *)
Definition p_lowrank : pans :=
  if sq_metric then
    let o := lrun LLowrank (mkL Xa Xb a b None None (od reg n0) (od max_iter 2000%Z) (od tol tol7) (Some rank) None None None None None) in
    POk (mkP None (Some (lo_value o)) (Some (lo_lin o)) (keep (lo_plan o)) (Some (lo_plan o)) None)
  else PExn PNotImplemented.
(** lines 1901-1930 *)
Definition p_nys : pans :=
  if sq_metric then
    let o := lrun LNystroem (mkL Xa Xb a b None None (od reg n1) (od max_iter 1000%Z) (od tol tol7) (Some rank) None None None None seed) in
    POk (mkP None (Some (lo_ret o)) None (keep (lo_plan o)) (Some (lo_plan o)) None)
  else PExn PNotImplemented.
(** lines 1932-1965; lazy0 is not defined when the method is not in the list *)
Definition p_geom : pans :=
  let go backend :=
    let o := lrun LGeomloss (mkL Xa Xb a b (Some metric) None reg None None None None (Some scaling) (Some backend) None None) in
    if listed then
      let q := nmul (lo_blur o) (lo_blur o) in
      POk (mkP (Some ((fun i => ndiv (lo_u o i) q), (fun j => ndiv (lo_v o j) q))) (Some (lo_ret o)) None (keep (lo_plan o)) (Some (lo_plan o)) None)
    else PExn PUnboundLocal in
  match split_us low_method with
  | [_; backend] => go backend
  | _ => if listed then go (match lazy with None => "auto" | Some true => "online" | Some false => "tensorized" end) else PExn PUnboundLocal
  end.
(** lines 1967-2011 *)
Definition p_sink : pans :=
  if no_reg then PExn PNotImplemented
  else match unb with
  | Some _ => PExn PNotImplemented
  | None =>
      let o := lrun LSink (mkL Xa Xb a b (Some metric) None reg (od max_iter 1000%Z) (od tol tol9) None (od batch 100) None None None None) in
      POk (mkP (Some (lo_u o, lo_v o)) None (Some (lo_ret o)) None (Some (lo_plan o)) None)
  end.
(** lines 1728-2023 *)
Definition solve_sample : pans :=
  if negb (listed || truthy lazy) then p_dense
  else if (match method with None => true | _ => false end && no_reg && match unb with None => true | _ => false end)%bool then p_emd
  else if String.eqb low_method "1d" then p_1d
  else if String.eqb low_method "gaussian" then p_gauss
  else if String.eqb low_method "factored" then p_fact
  else if String.eqb low_method "lowrank" then p_lowrank
  else if String.eqb low_method "nystroem" then p_nys
  else if prefix "geomloss" low_method then p_geom
  else p_sink.
End SA.
Arguments mkL {N}. Arguments mkLO {N}. Arguments mkP {N}. Arguments POk {N}. Arguments PExn {N}.
Arguments l_Xa {N}. Arguments l_Xb {N}. Arguments l_a {N}. Arguments l_b {N}. Arguments l_metric {N}. Arguments l_p {N}. Arguments l_reg {N}.
Arguments l_rank {N}. Arguments l_warm {N}. Arguments l_backend {N}.
Arguments lo_ret {N}. Arguments lo_plan {N}. Arguments lo_value {N}. Arguments lo_lin {N}. Arguments lo_costa {N}. Arguments lo_costb {N}. Arguments lo_u {N}. Arguments lo_v {N}. Arguments lo_blur {N}.
Arguments p_pot {N}. Arguments p_value {N}. Arguments p_lin {N}. Arguments p_plan {N}. Arguments p_lazy {N}. Arguments p_status {N}.
