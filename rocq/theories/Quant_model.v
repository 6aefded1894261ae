(** Quantized (fused) Gromov-Wasserstein: model of /repo/ot/gromov/_quantized.py.
    Nodes are 0..n-1.  Partition labels are natural numbers.  The generic solvers of ot/gromov/_gw.py are parameters
    [gw] and [fgw] (Gw_model is plugged in by the theorems); ot.lp.emd_1d is Emd1d_model.emd_1d with dense output.
    Clustering algorithms (random.choices, louvain, fluid, spectral, k-means) are the parameter [cluster], random.choice
    and pagerank's argmax the parameter [pick].  Squared Euclidean distance matrices stand for features and samples:
    dist(F[rep], F[rep]) is written as the submatrix of dist(F, F).  Warnings, backends and keyword arguments
    (accepted, never used: 846 passes **kwargs on and 37-282 ignores it) are not modelled. *)
From Coq Require Import List Arith Bool String Ascii.
From Verif Require Import Num Emd1d_model Optim_model Gw_model.
Import ListNotations.

Section Quant.
Context {N : NumOps}.
Notation vec := (nat -> N).
Notation mat := (nat -> nat -> N).

Inductive qout (A : Type) : Type :=
| QOk (x : A)
| QValueError
| QFailed                          (** an exception or a failure inside one of the called solvers *).
Arguments QOk {A}. Arguments QValueError {A}. Arguments QFailed {A}.

(** ** partitions *)
(** nx.where(part == k)[0] *)
Definition where_ (n : nat) (part : nat -> nat) (k : nat) : list nat := filter (fun i => part i =? k) (seq 0 n).
(** nx.unique(part): the labels in use, increasing *)
Definition part_ids (n : nat) (part : nat -> nat) : list nat :=
  filter (fun k => existsb (fun i => part i =? k) (seq 0 n)) (seq 0 (S (fold_right Nat.max 0 (map part (seq 0 n))))).

Variable cluster : string -> nat -> mat -> nat -> (nat -> nat).
Variable pick : string -> mat -> nat -> list nat -> nat.

(** get_graph_partition, 318-380; [has_F] says whether F is given *)
Definition get_graph_partition (n : nat) (C : mat) (npart : nat) (part_method : string) (has_F : bool) (alpha : N) : qout (nat -> nat) :=
  if (negb (neqb alpha n1) && negb has_F)%bool then QValueError
  else if n <=? npart then QOk (fun i => i)
  else if npart =? 1 then QOk (fun _ => 0)
  else if (String.eqb part_method "random" || String.eqb part_method "louvain" || String.eqb part_method "fluid" || String.eqb part_method "spectral")%bool
       then QOk (cluster part_method n C npart)
  else QValueError.

(** get_graph_representants, 418-455 *)
Definition get_graph_representants (n : nat) (C : mat) (part : nat -> nat) (rep_method : string) : qout (list nat) :=
  let ids := part_ids n part in
  if List.length ids =? n then QOk (seq 0 (List.length ids))
  else if (String.eqb rep_method "random" || String.eqb rep_method "pagerank")%bool
       then QOk (map (fun x => pick rep_method C (fst x) (where_ n part (snd x))) (combine (seq 0 (List.length ids)) ids))
  else QValueError.

(** ** format_partitioned_graph, 505-550; [M] is dist(F, F), given exactly when F is *)
Record formatted := Formatted { f_C : mat; f_R : list (list N); f_p : list (list N) }.
Definition mix (alpha : N) (C : mat) (M : option mat) : mat :=
  match M with
  | Some M => if negb (neqb alpha n1) then fun i j => nadd (nmul alpha (C i j)) (nmul (nsub n1 alpha) (M i j)) else C
  | None => C
  end.
Definition format_partitioned_graph (n : nat) (C : mat) (p : vec) (part : nat -> nat) (rep : list nat) (M : option mat) (alpha : N) : qout formatted :=
  if (negb (neqb alpha n1) && match M with None => true | Some _ => false end)%bool then QValueError
  else
    let C_new := mix alpha C M in
    let ids := part_ids n part in
    QOk (Formatted (fun i j => C (nth i rep 0) (nth j rep 0))
      (map (fun x => map (fun i => C_new (nth (fst x) rep 0) i) (where_ n part (snd x))) (combine (seq 0 (List.length ids)) ids))
      (map (fun k => map p (where_ n part k)) ids)).

(** ** quantized_fused_gromov_wasserstein_partitioned, 165-282 *)
Variable powf : N -> N -> N.
Variable close : N -> N -> bool.
(** number of representants, matrices, weights -> plan and distance; None is a failure *)
Variable gw : nat -> nat -> mat -> mat -> vec -> vec -> option (mat * N).
Variable fgw : N -> mat -> nat -> nat -> mat -> mat -> vec -> vec -> option (mat * N).

Record q_result := QResult { q_global : mat; q_gdist : N; q_local : nat -> nat -> option (list (@entry N) * N); q_T : option mat }.
Definition masses (ps : list (list N)) : vec := fun i => lsum (nth i ps []).
Definition normed (p : list N) : list N := map (fun x => ndiv x (lsum p)) p.
(** the call of 228-236 *)
Definition local_1d (x y p q : list N) : res (list (@entry N) * N) :=
  emd_1d powf close true x y (Some (normed p)) (Some (normed q)) SqEuclidean n1.
Fixpoint all_ok {A} (l : list (option A)) : option (list A) :=
  match l with
  | [] => Some []
  | None :: _ => None
  | Some x :: l' => match all_ok l' with Some r => Some (x :: r) | None => None end
  end.
(** 225-245: one row of the dictionary Ts_local; inner None: no such key; outer None: emd_1d failed *)
Definition local_cell (Tg : mat) (R1 R2 p1 p2 : list (list N)) (i j : nat) : option (option (list (@entry N) * N)) :=
  if neqb (Tg i j) n0 then Some None
  else match local_1d (nth i R1 []) (nth j R2 []) (nth i p1 []) (nth j p2 []) with Ok r => Some (Some r) | _ => None end.
Definition local_plans (Tg : mat) (R1 R2 p1 p2 : list (list N)) : option (list (list (option (list (@entry N) * N)))) :=
  all_ok (map (fun i => all_ok (map (local_cell Tg R1 R2 p1 p2 i) (seq 0 (List.length R2)))) (seq 0 (List.length R1))).
(** position in a concatenation of blocks: block number and position inside it *)
Fixpoint locate {A} (bs : list (list A)) (r : nat) : nat * nat :=
  match bs with
  | [] => (0, r)
  | b :: bs' => if r <? List.length b then (0, r) else let x := locate bs' (r - List.length b) in (S (fst x), snd x)
  end.
(** 247-263 *)
Definition build (Tg : mat) (loc : nat -> nat -> option (list (@entry N) * N)) (R1 R2 : list (list N)) : mat :=
  fun r c => let i := fst (locate R1 r) in let j := fst (locate R2 c) in
    if neqb (Tg i j) n0 then n0
    else match loc i j with Some (es, _) => nmul (Tg i j) (dense es (snd (locate R1 r)) (snd (locate R2 c))) | None => n0 end.
Definition quantized_partitioned (F1 F2 : formatted) (MR : option mat) (alpha : N) (build_OT : bool) : qout q_result :=
  let n1_ := List.length (f_R F1) in let n2_ := List.length (f_R F2) in
  let pR1 := masses (f_p F1) in let pR2 := masses (f_p F2) in
  let global :=
    if neqb alpha n1 then match gw n1_ n2_ (f_C F1) (f_C F2) pR1 pR2 with Some r => QOk r | None => QFailed end
    else if (nltb alpha n1 && nltb n0 alpha)%bool then
      match MR with
      | Some MR => match fgw alpha MR n1_ n2_ (f_C F1) (f_C F2) pR1 pR2 with Some r => QOk r | None => QFailed end
      | None => QFailed
      end
    else QValueError in
  match global with
  | QOk (Tg, gd) =>
      match local_plans Tg (f_R F1) (f_R F2) (f_p F1) (f_p F2) with
      | Some tab =>
          let loc i j := nth j (nth i tab []) None in
          QOk (QResult Tg gd loc (if build_OT then Some (build Tg loc (f_R F1) (f_R F2)) else None))
      | None => QFailed
      end
  | QValueError => QValueError
  | QFailed => QFailed
  end.

(** ** strings *)
(** "fused" in s; s[:-6] *)
Definition fused_in (s : string) : bool := match String.index 0 "fused"%string s with Some _ => true | None => false end.
Definition cut6 (s : string) : string := String.substring 0 (String.length s - 6) s.
Definition one_of (s : string) (l : list string) : bool := existsb (String.eqb s) l.

(** ** quantized_fused_gromov_wasserstein, 697-866 *)
(** 697-721: the methods in force.  708-709 are outside of the test 700, [networkx] has no effect *)
Definition methods (networkx sklearn : bool) (part_method rep_method : string) : string * string :=
  let pr := if (one_of part_method ["fluid"%string; "louvain"%string; "fluid_fused"%string; "louvain_fused"%string] || one_of rep_method ["pagerank"%string; "pagerank_fused"%string])%bool
            then ("random", "random")%string else (part_method, rep_method) in
  if (one_of (fst pr) ["spectral"%string; "spectral_fused"%string] && negb sklearn)%bool then ("random", "random")%string else pr.
(** F1 and F2 are given together: dist(F1, F1), dist(F2, F2), dist(F1, F2) *)
Record feats := Feats { d_11 : mat; d_22 : mat; d_12 : mat }.
Definition opt {A B} (f : A -> B) (o : option A) : option B := match o with Some x => Some (f x) | None => None end.
Definition given (o : option feats) : bool := match o with Some _ => true | None => false end.
(** unif *)
Definition weights_of (n : nat) (p : option vec) : vec := match p with Some p => p | None => fun _ => ndiv n1 (nofnat n) end.
(** log["qFGW_dist"], 851-863 and 1276-1286 *)
Definition qfgw_dist (n m : nat) (C1 C2 : mat) (p q : vec) (alpha : N) (F : option feats) (T : mat) : N :=
  let structure := gw_f n m (fun x => x) n0 SquareLoss C1 C2 p q T in
  let feature := if negb (neqb alpha n1) then match F with Some F => inner n m (d_12 F) T | None => n0 end else n0 in
  nadd (nmul alpha structure) (nmul (nsub n1 alpha) feature).
Definition bind {A B} (x : qout A) (f : A -> qout B) : qout B :=
  match x with QOk x => f x | QValueError => QValueError | QFailed => QFailed end.
(** what follows the choice of partitions and representants, 795-866 *)
Definition after_partition (n m : nat) (C1 C2 : mat) (p q : vec) (part1 part2 : nat -> nat) (rep1 rep2 : list nat) (F : option feats) (alpha : N) : qout (q_result * option N) :=
  let al := match F with None => n1 | Some _ => alpha end in
  bind (format_partitioned_graph n C1 p part1 rep1 (opt d_11 F) al) (fun F1 =>
  bind (format_partitioned_graph m C2 q part2 rep2 (opt d_22 F) al) (fun F2 =>
  let MR := opt (fun F => fun i j => d_12 F (nth i rep1 0) (nth j rep2 0)) F in
  bind (quantized_partitioned F1 F2 MR alpha true) (fun r =>
  QOk (r, opt (qfgw_dist n m C1 C2 p q alpha F) (q_T r))))).
Definition quantized_fused_gromov_wasserstein (networkx sklearn : bool) (n m : nat) (C1 C2 : mat) (npart1 npart2 : nat) (p q : option vec)
    (C1_aux C2_aux : option mat) (F : option feats) (alpha : N) (part_method rep_method : string) : qout (q_result * option N) :=
  let '(pm, rm) := methods networkx sklearn part_method rep_method in
  if ((fused_in pm || fused_in rm || String.eqb pm "FGW") && negb (given F))%bool then QValueError
  else
    let A1 := match C1_aux with Some C => C | None => C1 end in
    let A2 := match C2_aux with Some C => C | None => C2 end in
    (* alpha * C_aux + (1 - alpha) * DF, 757-758; only used when F is given *)
    let blend A (D : option mat) := match D with Some D => fun i j => nadd (nmul alpha (A i j)) (nmul (nsub n1 alpha) (D i j)) | None => A end in
    let N1 := blend A1 (opt d_11 F) in
    let N2 := blend A2 (opt d_22 F) in
    let part A B k n_ := if fused_in pm then get_graph_partition n_ B k (cut6 pm) false n1 else get_graph_partition n_ A k pm (given F) alpha in
    let reps A B pt n_ := if fused_in rm then get_graph_representants n_ B pt (cut6 rm) else get_graph_representants n_ A pt rm in
    bind (part A1 N1 npart1 n) (fun part1 =>
    bind (part A2 N2 npart2 m) (fun part2 =>
    bind (reps A1 N1 part1 n) (fun rep1 =>
    bind (reps A2 N2 part2 m) (fun rep2 =>
    after_partition n m C1 C2 (weights_of n p) (weights_of m q) part1 part2 rep1 rep2 F alpha)))).

(** ** quantized_fused_gromov_wasserstein_samples, 1181-1292.
    [kparts method n D npart]: labels and representants of get_partition_and_representants_samples, 902-961, for
    'random' and 'kmeans', [first] its random.choice for npart = 1 *)
Variable kparts : string -> nat -> nat -> (nat -> nat) * list nat.
Variable first : nat -> nat.
Definition get_partition_and_representants_samples (n : nat) (npart : nat) (method : string) : qout ((nat -> nat) * list nat) :=
  if n <=? npart then QOk (fun i => i, seq 0 n)
  else if npart =? 1 then QOk (fun _ => 0, [first n])
  else if (String.eqb method "random" || String.eqb method "kmeans")%bool then QOk (kparts method n npart)
  else QValueError.
(** C1 = dist(X1, X1), C2 = dist(X2, X2): format_partitioned_samples (1010-1048) takes the column of the representant
    where format_partitioned_graph takes the row, the same thing for these symmetric matrices *)
Definition quantized_samples (sklearn : bool) (n m : nat) (C1 C2 : mat) (npart1 npart2 : nat) (p q : option vec) (F : option feats) (alpha : N) (method : string)
    : qout (q_result * option N) :=
  let method := if (one_of method ["kmeans"%string; "kmeans_fused"%string] && negb sklearn)%bool then "random"%string else method in
  if (fused_in method && negb (given F))%bool then QValueError
  else
    let method_ := if (fused_in method && negb (neqb alpha n1))%bool then cut6 method else method in
    bind (get_partition_and_representants_samples n npart1 method_) (fun x1 =>
    bind (get_partition_and_representants_samples m npart2 method_) (fun x2 =>
    after_partition n m C1 C2 (weights_of n p) (weights_of m q) (fst x1) (fst x2) (snd x1) (snd x2) F alpha)).
End Quant.
Arguments QOk {A}. Arguments QValueError {A}. Arguments QFailed {A}.
