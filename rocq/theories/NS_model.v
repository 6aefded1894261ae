(** Model of the network simplex solver ot/lp/network_simplex_simple.h
    (class NetworkSimplexSimple<GR, double, double>), the engine behind
    [ot.emd] / [ot.emd2].

    Conventions.
    - C++ vectors are functions on indices updated with [upd]; node and arc ids
      are [nat].  The C++ index -1 ("no node") is represented by the id
      [S (S node_num)], which is never a node either: the code only ever compares
      -1 with node ids.
    - Loops carry fuel; running out is the explicit answer [OutOfFuel] (the
      proofs show when it cannot happen).  The main loop is bounded by the code's
      own [max_iter]; for [max_iter = 0] (no limit) the fuel is a parameter.
    - [in_arc] is not initialised by the C++ constructor: it is an [option], and
      reading it before it has been written is the answer [Uninitialized].
    - An infinite capacity/delta ([INF], and the test [delta >= MAX]) is [None].
      Doubles between MAX and INF do not exist.
    - Arithmetic is the parameter [N]; rounding is not modelled. *)
From Coq Require Import List Arith Bool ZArith.
Import ListNotations.
From Verif Require Import Num.

Definition upd {A} (f : nat -> A) (i : nat) (v : A) : nat -> A :=
  fun j => if Nat.eqb j i then v else f j.

(** network_simplex_simple.h:307-317 (ProblemType) *)
Inductive ptype := INFEASIBLE | OPTIMAL | UNBOUNDED | MAX_ITER_REACHED.

Inductive ans (A : Type) :=
| Ret (a : A) | OutOfFuel | Uninitialized.
Arguments Ret {A}. Arguments OutOfFuel {A}. Arguments Uninitialized {A}.

Definition bind {A B} (x : ans A) (k : A -> ans B) : ans B :=
  match x with Ret a => k a | OutOfFuel => OutOfFuel | Uninitialized => Uninitialized end.
Notation "'do' x <- a ; b" := (bind a (fun x => b))
  (at level 200, x pattern, a at level 100, b at level 200).

(** network_simplex_simple.h:356-360 (ArcState) *)
Inductive astate := UPPER | TREE | LOWER.

(** _EPSILON-like constants are built from small integers *)
Definition nofpos {N : NumOps} (p : positive) : N :=
  Pos.iter_op (@nadd N) p n1.
(** network_simplex_simple.h:32 [#define EPSILON 2.2204460492503131e-15],
    :33 [#define _EPSILON 1e-8] *)
Definition EPSILON {N : NumOps} : N :=
  ndiv (nofpos 22204460492503131%positive) (nofpos 10000000000000000000000000000000%positive).
Definition EPSILON_feas {N : NumOps} : N := ndiv n1 (nofpos 100000000%positive).

Section NS.
Context {N : NumOps}.

(** What is fixed once init() has run: network_simplex_simple.h:419-440, 606-628, 1801-1860.
    [a_src]/[a_tgt]/[a_cost] cover real arcs (< [arc_num]) and the artificial arcs
    [arc_num + u]; they are arcSource/arcTarget/getCostForArc. *)
Record net := mkNet {
  node_num : nat;
  arc_num : nat;
  a_src : nat -> nat;
  a_tgt : nat -> nat;
  a_cost : nat -> N;
  supply : nat -> N
}.
Definition root (g : net) : nat := node_num g.
Definition nonode (g : net) : nat := S (S (node_num g)).
Definition all_arc_num (g : net) : nat := arc_num g + node_num g.

(** The mutable part of the solver: network_simplex_simple.h:438-488, 764-778 *)
Record ns := mkNs {
  flow : nat -> N;
  pi : nat -> N;
  parent : nat -> nat;
  pred : nat -> nat;
  thread : nat -> nat;
  rev_thread : nat -> nat;
  succ_num : nat -> nat;
  last_succ : nat -> nat;
  forward : nat -> bool;
  state : nat -> astate;
  in_arc : option nat;
  next_arc : nat
}.

(** [state * c] of network_simplex_simple.h:797 with STATE_UPPER = -1, TREE = 0,
    LOWER = 1. *)
Definition smul (s : astate) (c : N) : N :=
  match s with UPPER => nopp c | TREE => nmul n0 c | LOWER => c end.

(** [c + pi[source] - pi[target]] *)
Definition red_cost (g : net) (s : ns) (e : nat) : N :=
  nsub (nadd (a_cost g e) (pi s (a_src g e))) (pi s (a_tgt g e)).

(** *** findJoinNode, network_simplex_simple.h:1938-1949 *)
Fixpoint join_loop (fuel : nat) (sn par : nat -> nat) (u v : nat) : ans nat :=
  match fuel with
  | O => OutOfFuel
  | S k =>
    if Nat.eqb u v then Ret u
    else if Nat.ltb (sn u) (sn v) then join_loop k sn par (par u) v
    else join_loop k sn par u (par v)
  end.

(** *** findLeavingArc, network_simplex_simple.h:1953-1997.
    [cand] is (delta, u_out, result). *)
Definition extlt (d delta : option N) : bool :=
  match d, delta with
  | Some x, Some y => nltb x y
  | Some _, None => true
  | None, _ => false
  end.
Definition extle (d delta : option N) : bool :=
  match d, delta with
  | Some x, Some y => nleb x y
  | _, None => true
  | None, Some _ => false
  end.

Definition cand := (option N * nat * nat)%type.

(** :1968-1976 *)
Fixpoint leave_first (fuel : nat) (s : ns) (join u : nat) (c : cand) : ans cand :=
  if Nat.eqb u join then Ret c else
  match fuel with
  | O => OutOfFuel
  | S k =>
    let d := if forward s u then Some (flow s (pred s u)) else None in
    let c' := if extlt d (fst (fst c)) then (d, u, 1) else c in
    leave_first k s join (parent s u) c'
  end.
(** :1978-1986 *)
Fixpoint leave_second (fuel : nat) (s : ns) (join u : nat) (c : cand) : ans cand :=
  if Nat.eqb u join then Ret c else
  match fuel with
  | O => OutOfFuel
  | S k =>
    let d := if forward s u then None else Some (flow s (pred s u)) in
    let c' := if extle d (fst (fst c)) then (d, u, 2) else c in
    leave_second k s join (parent s u) c'
  end.

Record leaving := mkLeave {
  lv_delta : option N; lv_uout : nat; lv_change : bool; lv_uin : nat; lv_vin : nat }.

Definition find_leaving (g : net) (s : ns) (ia join : nat) : ans leaving :=
  let first := match state s ia with LOWER => a_src g ia | _ => a_tgt g ia end in
  let second := match state s ia with LOWER => a_tgt g ia | _ => a_src g ia end in
  do c1 <- leave_first (S (node_num g)) s join first (None, 0, 0);
  do c2 <- leave_second (S (node_num g)) s join second c1;
  let '(delta, uout, result) := c2 in
  Ret (if Nat.eqb result 1
       then mkLeave delta uout (negb (Nat.eqb result 0)) first second
       else mkLeave delta uout (negb (Nat.eqb result 0)) second first).

(** *** changeFlow, network_simplex_simple.h:2000-2022 *)
(** [addArcFlow(_pred[u], _forward[u] ? x : y)] for u from [u] up to [join] *)
Fixpoint push_path (fuel : nat) (s : ns) (join u : nat) (x y : N) (f : nat -> N)
  : ans (nat -> N) :=
  if Nat.eqb u join then Ret f else
  match fuel with
  | O => OutOfFuel
  | S k =>
    let e := pred s u in
    push_path k s join (parent s u) x y
              (upd f e (nadd (f e) (if forward s u then x else y)))
  end.

Definition flip (a : astate) : astate :=
  match a with UPPER => LOWER | TREE => TREE | LOWER => UPPER end.

Definition set_flow_state (s : ns) (f : nat -> N) (st : nat -> astate) : ns :=
  mkNs f (pi s) (parent s) (pred s) (thread s) (rev_thread s) (succ_num s)
       (last_succ s) (forward s) st (in_arc s) (next_arc s).

Definition change_flow (g : net) (s : ns) (ia join : nat) (delta : N) (uout : nat)
  (change : bool) : ans ns :=
  do f <-
    (if nltb n0 delta then
       let val := smul (state s ia) delta in
       let f0 := upd (flow s) ia (nadd (flow s ia) val) in
       do f1 <- push_path (S (node_num g)) s join (a_src g ia) (nopp val) val f0;
       push_path (S (node_num g)) s join (a_tgt g ia) val (nopp val) f1
     else Ret (flow s));
  Ret (set_flow_state s f
        (if change then
           let st1 := upd (state s) ia TREE in
           upd st1 (pred s uout) (if neqb (f (pred s uout)) n0 then LOWER else UPPER)
         else upd (state s) ia (flip (state s ia)))).

(** *** updateTreeStructure, network_simplex_simple.h:2025-2142 *)
Record stemst := mkStem {
  s_th : nat -> nat; s_rv : nat -> nat; s_par : nat -> nat;
  s_u : nat; s_right : nat; s_pstem : nat; s_dirty : list nat }.

(** the [while (stem != u_out)] loop, :2049-2070 *)
Fixpoint stem_loop (fuel : nat) (ls : nat -> nat) (uout stem : nat) (z : stemst)
  : ans stemst :=
  if Nat.eqb stem uout then Ret z else
  match fuel with
  | O => OutOfFuel
  | S k =>
    let new_stem := s_par z stem in
    let th1 := upd (s_th z) (s_u z) new_stem in
    let w := s_rv z stem in
    let th2 := upd th1 w (s_right z) in
    let rv1 := upd (s_rv z) (s_right z) w in
    let par1 := upd (s_par z) stem (s_pstem z) in
    let u' := if Nat.eqb (ls new_stem) (ls stem) then rv1 stem else ls new_stem in
    stem_loop k ls uout new_stem
      (mkStem th2 rv1 par1 u' (th2 u') stem (s_dirty z ++ [s_u z]))
  end.

(** [for i: rev_thread[thread[dirty[i]]] = dirty[i]], :2084-2087 *)
Definition fix_revs (th : nat -> nat) (dirty : list nat) (rv : nat -> nat) : nat -> nat :=
  fold_left (fun rv d => upd rv (th d) d) dirty rv.

Record relabel := mkRelabel {
  r_pred : nat -> nat; r_fwd : nat -> bool; r_sn : nat -> nat; r_ls : nat -> nat }.

(** the [while (u != u_in)] loop, :2093-2101; tmp_sc is kept in nat (never
    negative, see the proofs) *)
Fixpoint relabel_loop (fuel : nat) (par : nat -> nat) (uin u : nat) (tmp_sc tmp_ls : nat)
  (z : relabel) : ans relabel :=
  if Nat.eqb u uin then Ret z else
  match fuel with
  | O => OutOfFuel
  | S k =>
    let w := par u in
    let tmp' := tmp_sc + r_sn z u - r_sn z w in
    relabel_loop k par uin w tmp' tmp_ls
      (mkRelabel (upd (r_pred z) u (r_pred z w)) (upd (r_fwd z) u (negb (r_fwd z w)))
                 (upd (r_sn z) u tmp') (upd (r_ls z) w tmp_ls))
  end.

(** [for (u = u0; u != limit && last_succ[u] == old; u = parent[u])
       last_succ[u] = new], :2116-2132 *)
Fixpoint up_ls (fuel : nat) (par : nat -> nat) (limit old new u : nat) (ls : nat -> nat)
  : ans (nat -> nat) :=
  if Nat.eqb u limit then Ret ls
  else if negb (Nat.eqb (ls u) old) then Ret ls
  else match fuel with
  | O => OutOfFuel
  | S k => up_ls k par limit old new (par u) (upd ls u new)
  end.

(** [for (u = u0; u != join; u = parent[u]) succ_num[u] = f succ_num[u]], :2134-2141 *)
Fixpoint up_sn (fuel : nat) (par : nat -> nat) (join u : nat) (f : nat -> nat)
  (sn : nat -> nat) : ans (nat -> nat) :=
  if Nat.eqb u join then Ret sn else
  match fuel with
  | O => OutOfFuel
  | S k => up_sn k par join (par u) f (upd sn u (f (sn u)))
  end.

Definition update_tree (g : net) (s : ns) (ia join uin vin uout : nat) : ans ns :=
  let fuel := S (S (node_num g)) in
  let old_rev := rev_thread s uout in
  let old_sn := succ_num s uout in
  let old_ls := last_succ s uout in
  let v_out := parent s uout in
  let u := last_succ s uin in
  let right := thread s u in
  let last := if Nat.eqb old_rev vin then thread s (last_succ s uout)
              else thread s vin in
  do z <- stem_loop fuel (last_succ s) uout uin
            (mkStem (upd (thread s) vin uin) (rev_thread s) (parent s) u right vin [vin]);
  let par := upd (s_par z) uout (s_pstem z) in
  let th1 := upd (s_th z) (s_u z) last in
  let rv1 := upd (s_rv z) last (s_u z) in
  let ls1 := upd (last_succ s) uout (s_u z) in
  let detached := negb (Nat.eqb old_rev vin) in
  let th2 := if detached then upd th1 old_rev (s_right z) else th1 in
  let rv2 := if detached then upd rv1 (s_right z) old_rev else rv1 in
  let rv3 := fix_revs th2 (s_dirty z) rv2 in
  do r <- relabel_loop fuel par uin uout 0 (ls1 uout)
            (mkRelabel (pred s) (forward s) (succ_num s) ls1);
  let pred' := upd (r_pred r) uin ia in
  let fwd' := upd (r_fwd r) uin (Nat.eqb uin (a_src g ia)) in
  let sn1 := upd (r_sn r) uin old_sn in
  let at_end := Nat.eqb (r_ls r join) vin in
  let limit_in := if at_end then nonode g else join in
  let limit_out := if at_end then join else nonode g in
  do ls2 <- up_ls fuel par limit_in vin (r_ls r uout) vin (r_ls r);
  do ls3 <- (if negb (Nat.eqb join old_rev) && negb (Nat.eqb vin old_rev)
             then up_ls fuel par limit_out old_ls old_rev v_out ls2
             else up_ls fuel par limit_out old_ls (ls2 uout) v_out ls2);
  do sn2 <- up_sn fuel par join vin (fun x => x + old_sn) sn1;
  do sn3 <- up_sn fuel par join v_out (fun x => x - old_sn) sn2;
  Ret (mkNs (flow s) (pi s) par pred' th2 rv3 sn3 ls3 fwd' (state s)
            (in_arc s) (next_arc s)).

(** *** updatePotential, network_simplex_simple.h:2145-2155 *)
Fixpoint pot_loop (fuel : nat) (th : nat -> nat) (stop u : nat) (sigma : N) (p : nat -> N)
  : ans (nat -> N) :=
  if Nat.eqb u stop then Ret p else
  match fuel with
  | O => OutOfFuel
  | S k => pot_loop k th stop (th u) sigma (upd p u (nadd (p u) sigma))
  end.

Definition set_pi (s : ns) (p : nat -> N) : ns :=
  mkNs (flow s) p (parent s) (pred s) (thread s) (rev_thread s) (succ_num s)
       (last_succ s) (forward s) (state s) (in_arc s) (next_arc s).

Definition update_potential (g : net) (s : ns) (uin vin : nat) : ans ns :=
  let c := a_cost g (pred s uin) in
  let sigma := if forward s uin
               then nsub (nsub (pi s vin) (pi s uin)) c
               else nadd (nsub (pi s vin) (pi s uin)) c in
  let stop := thread s (last_succ s uin) in
  do p <- pot_loop (S (S (node_num g))) (thread s) stop uin sigma (pi s);
  Ret (set_pi s p).

(** *** One pivot: the common body of start() :2280-2287 and initialPivots()
    :2243-2250.  [None] = the code returns UNBOUNDED. *)
Definition pivot (g : net) (s : ns) (ia : nat) : ans (option ns) :=
  do join <- join_loop (S (S (node_num g + node_num g))) (succ_num s) (parent s)
                       (a_src g ia) (a_tgt g ia);
  do lv <- find_leaving g s ia join;
  match lv_delta lv with
  | None => Ret None
  | Some delta =>
    do s1 <- change_flow g s ia join delta (lv_uout lv) (lv_change lv);
    if lv_change lv then
      do s2 <- update_tree g s1 ia join (lv_uin lv) (lv_vin lv) (lv_uout lv);
      do s3 <- update_potential g s2 (lv_uin lv) (lv_vin lv);
      Ret (Some s3)
    else Ret (Some s1)
  end.

(** *** findEnteringArc, network_simplex_simple.h:791-829 *)
Definition block_size (g : net) : nat := Nat.max (Nat.sqrt (arc_num g)) 10.

(** the tolerance scale [a] of :803-804 *)
Definition scale (g : net) (s : ns) (ia : nat) : N :=
  let ps := nabs (pi s (a_src g ia)) in
  let pt := nabs (pi s (a_tgt g ia)) in
  let a := if nltb pt ps then ps else pt in
  let c := nabs (a_cost g ia) in
  if nltb c a then a else c.

Record scan := mkScan { sc_min : N; sc_in : option nat; sc_cnt : nat }.

(** [inr e]: goto search_end with [e]; [inl]: block loop ran to its end *)
Fixpoint scan_loop (len : nat) (g : net) (s : ns) (e : nat) (z : scan)
  : ans (scan + nat * scan) :=
  match len with
  | O => Ret (inl z)
  | S k =>
    let c := smul (state s e) (red_cost g s e) in
    let z1 := if nltb c (sc_min z) then mkScan c (Some e) (sc_cnt z) else z in
    match sc_cnt z1 with
    | S (S cnt') => scan_loop k g s (S e) (mkScan (sc_min z1) (sc_in z1) (S cnt'))
    | _ =>
      match sc_in z1 with
      | None => Uninitialized
      | Some ia =>
        if nltb (sc_min z1) (nopp (nmul EPSILON (scale g s ia)))
        then Ret (inr (e, z1))
        else scan_loop k g s (S e) (mkScan (sc_min z1) (sc_in z1) (block_size g))
      end
    end
  end.

Definition set_entering (s : ns) (ia : option nat) (na : nat) : ns :=
  mkNs (flow s) (pi s) (parent s) (pred s) (thread s) (rev_thread s) (succ_num s)
       (last_succ s) (forward s) (state s) ia na.

(** returns (found, state with in_arc and next_arc updated) *)
Definition find_entering (g : net) (s : ns) : ans (bool * ns) :=
  let na := next_arc s in
  do r1 <- scan_loop (arc_num g - na) g s na (mkScan n0 (in_arc s) (block_size g));
  match r1 with
  | inr (e, z) => Ret (true, set_entering s (sc_in z) e)
  | inl z1 =>
    do r2 <- scan_loop na g s 0 z1;
    match r2 with
    | inr (e, z) => Ret (true, set_entering s (sc_in z) e)
    | inl z =>
      match sc_in z with
      | None => Uninitialized
      | Some ia =>
        if nleb (nopp (nmul EPSILON (scale g s ia))) (sc_min z)
        then Ret (false, set_entering s (sc_in z) na)
        else Ret (true, set_entering s (sc_in z) na)
      end
    end
  end.

(** *** start(), main loop, network_simplex_simple.h:2272-2289.
    [iter] is iter_number.  *)
Inductive outcome := Done (r : ptype) (s : ns).

Fixpoint main_loop (fuel : nat) (g : net) (max_iter iter : nat) (s : ns) : ans outcome :=
  match fuel with
  | O => OutOfFuel
  | S k =>
    do fe <- find_entering g s;
    let '(found, s1) := fe in
    if negb found then Ret (Done OPTIMAL s1)
    else
      let iter' := if Nat.ltb 0 max_iter then S iter else iter in
      if Nat.ltb 0 max_iter && Nat.leb max_iter iter'
      then Ret (Done MAX_ITER_REACHED s1)
      else
        match in_arc s1 with
        | None => Uninitialized
        | Some ia =>
          do r <- pivot g s1 ia;
          match r with
          | None => Ret (Done UNBOUNDED s1)
          | Some s2 => main_loop k g max_iter iter' s2
          end
        end
  end.

(** *** feasibility check, :2291-2302: [inl] = INFEASIBLE *)
Fixpoint feas_loop (len : nat) (e : nat) (f : nat -> N) : option (nat -> N) :=
  match len with
  | O => Some f
  | S k =>
    if neqb (f e) n0 then feas_loop k (S e) f
    else if nltb EPSILON_feas (nabs (f e)) then None
    else feas_loop k (S e) (upd f e n0)
  end.

(** *** potential shift (GEQ, the default type), :2304-2315.
    max_pot starts at -DBL_MAX, i.e. it is the maximum of pi over the nodes *)
Definition shift_pi (g : net) (p : nat -> N) : nat -> N :=
  let mx := nmaxk (node_num g - 1) p in
  if nltb n0 mx then fun i => if Nat.ltb i (node_num g) then nsub (p i) mx else p i
  else p.

(** *** initialPivots, network_simplex_simple.h:2157-2253.
    [firstIn/nextIn] of the graph enter as the list of incoming internal arc ids of
    a node, in iteration order; nodes are visited in the order of
    [_graph.first/next], which is the increasing internal order 0,1,2,...
    (_node_id reverses, the graph iterates downwards).
    The branch for a single source and a single sink (reverse graph search,
    :2177-2197) is the same as long as the sink has exactly one incoming arc, the
    1x1 case of a bipartite graph without parallel arcs: there both branches
    select that arc.  The [_sum_supply < 0] branch is dead: init() resets
    _sum_supply to 0. *)
Definition supply_total (g : net) : N :=
  fold_left (fun t u => if nltb n0 (supply g u) then nadd t (supply g u) else t)
            (seq 0 (node_num g)) n0.

Definition min_arc (g : net) (arcs : list nat) : option nat :=
  fold_left (fun best e => match best with
                           | None => Some e
                           | Some b => if nltb (a_cost g e) (a_cost g b) then Some e else best
                           end) arcs None.

Definition arc_vector (g : net) (in_arcs : nat -> list nat) : list nat :=
  flat_map (fun v => if nltb (supply g v) n0
                     then match min_arc g (in_arcs v) with Some e => [e] | None => [] end
                     else [])
           (seq 0 (node_num g)).

Fixpoint init_pivots (g : net) (arcs : list nat) (s : ns) : ans (option ns) :=
  match arcs with
  | [] => Ret (Some s)
  | ia :: rest =>
    let s1 := set_entering s (Some ia) (next_arc s) in
    if nleb n0 (smul (state s1 ia) (red_cost g s1 ia)) then init_pivots g rest s1
    else
      do r <- pivot g s1 ia;
      match r with
      | None => Ret None
      | Some s2 => init_pivots g rest s2
      end
  end.

Definition initial_pivots (g : net) (in_arcs : nat -> list nat) (s : ns) : ans (option ns) :=
  if nleb (supply_total g) n0 then Ret (Some s)
  else init_pivots g (arc_vector g in_arcs) s.

(** *** init(), network_simplex_simple.h:1801-1857 (the branch _sum_supply == 0,
    the only reachable one since _sum_supply is reset to 0). *)
Definition nofnat (n : nat) : N := nsum n (fun _ => n1).

Definition art_cost (nodes arcs : nat) (c : nat -> N) (max_cost : N) : N :=
  nmul (nadd max_cost n1) (nofnat nodes).

(** arcs and supplies of the caller's problem plus the artificial arcs *)
Definition init_net (nodes arcs : nat) (sr tg : nat -> nat) (c sup : nat -> N) (max_cost : N)
  : net :=
  let ART := art_cost nodes arcs c max_cost in
  mkNet nodes arcs
    (fun e => if Nat.ltb e arcs then sr e
              else if nleb n0 (sup (e - arcs)) then e - arcs else nodes)
    (fun e => if Nat.ltb e arcs then tg e
              else if nleb n0 (sup (e - arcs)) then nodes else e - arcs)
    (fun e => if Nat.ltb e arcs then c e
              else if nleb n0 (sup (e - arcs)) then n0 else ART)
    sup.

Definition init_state (g : net) (ART : N) : ns :=
  let n := node_num g in
  mkNs
    (fun e => if Nat.ltb e (arc_num g) then n0
              else if nleb n0 (supply g (e - arc_num g)) then supply g (e - arc_num g)
              else nopp (supply g (e - arc_num g)))
    (fun u => if Nat.eqb u n then n0 else if nleb n0 (supply g u) then n0 else ART)
    (fun u => if Nat.eqb u n then nonode g else n)
    (fun u => arc_num g + u)
    (fun u => if Nat.eqb u n then 0 else S u)
    (fun u => match u with O => n | S k => k end)
    (fun u => if Nat.eqb u n then S n else 1)
    (fun u => if Nat.eqb u n then n - 1 else u)
    (fun u => nleb n0 (supply g u))
    (fun e => if Nat.ltb e (arc_num g) then LOWER else TREE)
    None 0.

(** *** run() + start(), network_simplex_simple.h:1162-1173, 2256-2328 *)
Record result := mkResult { rs_type : ptype; rs_flow : nat -> N; rs_pi : nat -> N }.

(** start() after initialisation; [init] are the heuristic pivots to perform
    first (none after a warm start) *)
Definition start (fuel : nat) (g : net) (max_iter : nat) (s0 : ns)
  (pivots : ns -> ans (option ns)) : ans result :=
  do r <- pivots s0;
  match r with
  | None => Ret (mkResult UNBOUNDED (flow s0) (pi s0))
  | Some s1 =>
    do o <- main_loop fuel g max_iter 0 s1;
    let '(Done ty s) := o in
    match ty with
    | OPTIMAL =>
      match feas_loop (node_num g) (arc_num g) (flow s) with
      | None => Ret (mkResult INFEASIBLE (flow s) (pi s))
      | Some f => Ret (mkResult OPTIMAL f (shift_pi g (pi s)))
      end
    | MAX_ITER_REACHED => Ret (mkResult MAX_ITER_REACHED (flow s) (shift_pi g (pi s)))
    | _ => Ret (mkResult ty (flow s) (pi s))
    end
  end.

Definition run (fuel : nat) (nodes arcs : nat) (sr tg : nat -> nat) (c sup : nat -> N)
  (max_cost : N) (in_arcs : nat -> list nat) (max_iter : nat) : ans result :=
  let g := init_net nodes arcs sr tg c sup max_cost in
  if Nat.eqb nodes 0 then Ret (mkResult INFEASIBLE (fun _ => n0) (fun _ => n0))
  else if nltb EPSILON_feas (nabs (nsum nodes sup))
  then Ret (mkResult INFEASIBLE (fun _ => n0) (fun _ => n0))
  else start fuel g max_iter (init_state g (art_cost nodes arcs c max_cost))
             (initial_pivots g in_arcs).

End NS.
