(** Entropic barycenters: model of /repo/ot/bregman/_barycenter.py (barycenter_sinkhorn 211-259,
    free_support_sinkhorn_barycenter 348-400, _barycenter_sinkhorn_log 416-473, barycenter_stabilized
    550-626, _barycenter_debiased 743-798, _barycenter_debiased_log 814-873, jcpot_barycenter 962-1063)
    and of /repo/ot/bregman/_utils.py.  A is n x h (one histogram per column), K = exp(-M/reg) and
    Mr = -M/reg are given, as are exp, log, sqrt, the standard deviation and the NaN/inf tests.
    Not modelled: the backend test for jax and tf, the printing. *)
From Coq Require Import List Arith Bool ZArith.
From Verif Require Import Num Emd1d_model Sinkhorn_model Fsb_model.
Import ListNotations.

Section Bary.
Context {N : NumOps}.
Notation vec := (nat -> N).
Notation mat := (nat -> nat -> N).
Variables (ex lg sq : N -> N) (std : nat -> vec -> N).

(** _utils.py:15-20, 23-27 (h columns) *)
Definition geometricBar (h : nat) (w : vec) (X : mat) : vec := fun i => ex (nsum h (fun s => nmul (lg (X i s)) (w s))).
Definition geometricMean (h : nat) (X : mat) : vec := fun i => ex (ndiv (nsum h (fun s => lg (X i s))) (nofnat (N:=N) h)).
(** _utils.py:30-34, 37-41; [lo] is 1e-10 *)
Definition projR (m : nat) (lo : N) (G : mat) (p : vec) : mat := fun i j => ndiv (nmul (G i j) (p i)) (nmax (nsum m (fun l => G i l)) lo).
Definition projC (n : nat) (lo : N) (G : mat) (q : vec) : mat := fun i j => ndiv (nmul (G i j) (q j)) (nmax (nsum n (fun l => G l j)) lo).

(** weights=None: lines 215-216, 427-428, 555-556, 747-748, 824-825 *)
Definition bary_weights (h : nat) (w : option vec) : vec := match w with Some w => w | None => fun _ => ndiv n1 (nofnat (N:=N) h) end.

Section Problem.
Variables (n h : nat) (A : mat) (w : vec).
(** K @ u and K.T @ u *)
Definition dotK (K u : mat) : mat := fun i s => nsum n (fun l => nmul (K i l) (u l s)).
Definition dotKt (K u : mat) : mat := fun i s => nsum n (fun l => nmul (K l i) (u l s)).
Definition div_mat (X Y : mat) : mat := fun i s => ndiv (X i s) (Y i s).

(** ** barycenter_sinkhorn *)
(** line 227 *)
Definition bs_ukv0 (K : mat) : mat := dotK K (fun l s => ndiv (A l s) (nsum n (fun r => K r l))).
(** line 229 *)
Definition bs_u0 (K : mat) : mat := fun i s => ndiv (geometricMean h (bs_ukv0 K) i) (bs_ukv0 K i s).
(** line 232 *)
Definition bs_ukv (K u : mat) : mat := fun i s => nmul (u i s) (dotKt K (div_mat A (dotK K u)) i s).
(** line 233 *)
Definition bs_next (K u : mat) : mat := fun i s => ndiv (nmul (u i s) (geometricBar h w (bs_ukv K u) i)) (bs_ukv K u i s).
(** [bs_from] is the u that UKv was computed from (None before the first iteration) *)
Record bs_out := mkBs { bs_from : option mat; bs_UKv : mat; bs_err : list N; bs_exit : exit }.
(** lines 231-254 *)
Fixpoint bs_loop (K : mat) (thr : N) (left ii : nat) (u : mat) (from : option mat) (ukv : mat) (errs : list N) : bs_out :=
  match left with
  | O => mkBs from ukv errs MaxIter
  | S left' =>
      let x := bs_ukv K u in
      let u' := bs_next K u in
      if Nat.eqb (Nat.modulo ii 10) 1 then
        let err := nsum n (fun i => std h (x i)) in
        if nltb err thr then mkBs (Some u) x (errs ++ [err]) (Converged ii)
        else bs_loop K thr left' (S ii) u' (Some u) x (errs ++ [err])
      else bs_loop K thr left' (S ii) u' (Some u) x errs
  end.
Definition barycenter_sinkhorn_run (K : mat) (numItermax : nat) (thr : N) : bs_out :=
  bs_loop K thr numItermax 0 (bs_u0 K) None (bs_ukv0 K) [].
(** the returned histogram, lines 257 and 259 *)
Definition barycenter_sinkhorn (K : mat) (numItermax : nat) (thr : N) : vec :=
  geometricBar h w (bs_UKv (barycenter_sinkhorn_run K numItermax thr)).
(** log["niter"] = ii, line 256: None is the NameError of an empty loop *)
Definition bs_niter (numItermax : nat) (e : exit) : option nat :=
  match e with Converged ii | NumErr ii => Some ii | MaxIter => match numItermax with O => None | S k => Some k end end.

(** ** _barycenter_sinkhorn_log and _barycenter_debiased_log; [tiny] is 1e-16, line 436 *)
Section Log.
Variables (Mr : mat) (tiny half : N).
(** lines 442-443 *)
Definition bl_f (G : mat) : mat := fun i s => nsub (lg (nadd (A i s) tiny)) (logsumexp ex lg n (fun j => nadd (Mr i j) (G j s))).
Definition bl_KU (G : mat) : mat := fun j s => logsumexp ex lg n (fun i => nadd (Mr i j) (bl_f G i s)).
(** lines 440, 444 *)
Definition bl_bar (G : mat) : vec := fun j => nsum h (fun s => nmul (w s) (bl_KU G j s)).
Definition bl_err (G : mat) : N := nsum n (fun j => std h (fun s => ex (nadd (G j s) (bl_KU G j s)))).
Record bl_out := mkBl { bl_G : mat; bl_logbar : vec; bl_errs : list N; bl_exit : exit }.
(** lines 439-468; the loop returns the last completed evaluation (None: log_bar is unbound) *)
Fixpoint bl_loop (thr : N) (left ii : nat) (G : mat) (last : option (mat * vec)) (errs : list N) : option bl_out :=
  match left with
  | O => match last with None => None | Some (G0, b) => Some (mkBl G0 b errs MaxIter) end
  | S left' =>
      let b := bl_bar G in
      let G' := fun j s => nsub (b j) (bl_KU G j s) in
      if Nat.eqb (Nat.modulo ii 10) 1 then
        let err := bl_err G in
        if nltb err thr then Some (mkBl G b (errs ++ [err]) (Converged ii))
        else bl_loop thr left' (S ii) G' (Some (G, b)) (errs ++ [err])
      else bl_loop thr left' (S ii) G' (Some (G, b)) errs
  end.
Definition barycenter_sinkhorn_log_run (numItermax : nat) (thr : N) : option bl_out := bl_loop thr numItermax 0 (fun _ _ => n0) None [].
Definition barycenter_sinkhorn_log (numItermax : nat) (thr : N) : option vec :=
  match barycenter_sinkhorn_log_run numItermax thr with None => None | Some o => Some (fun j => ex (bl_logbar o j)) end.

(** line 860, 10 times *)
Definition dl_c1 (b c : vec) : vec := fun j => nmul half (nsub (nadd (c j) (b j)) (logsumexp ex lg n (fun i => nadd (Mr i j) (c i)))).
Fixpoint dl_c (k : nat) (b c : vec) : vec := match k with O => c | S k' => dl_c k' b (dl_c1 b c) end.
(** lines 837-861; [c] is the debiasing term used in log_bar *)
Record dl_out := mkDl { dl_G : mat; dl_cc : vec; dl_logbar : vec; dl_errs : list N; dl_exit : exit }.
Fixpoint dl_loop (thr : N) (left ii : nat) (G : mat) (c : vec) (last : option (mat * vec * vec)) (errs : list N) : option dl_out :=
  match left with
  | O => match last with None => None | Some (G0, c0, b) => Some (mkDl G0 c0 b errs MaxIter) end
  | S left' =>
      let b := fun j => nadd (bl_bar G j) (c j) in
      let G' := fun j s => nsub (b j) (bl_KU G j s) in
      let c' := dl_c 10 b c in
      if Nat.eqb (Nat.modulo ii 10) 1 then
        let err := bl_err G in
        if (nltb err thr && Nat.ltb 20 ii)%bool then Some (mkDl G c b (errs ++ [err]) (Converged ii))
        else dl_loop thr left' (S ii) G' c' (Some (G, c, b)) (errs ++ [err])
      else dl_loop thr left' (S ii) G' c' (Some (G, c, b)) errs
  end.
Definition barycenter_debiased_log_run (numItermax : nat) (thr : N) : option dl_out := dl_loop thr numItermax 0 (fun _ _ => n0) (fun _ => n0) None [].
Definition barycenter_debiased_log (numItermax : nat) (thr : N) : option vec :=
  match barycenter_debiased_log_run numItermax thr with None => None | Some o => Some (fun j => ex (dl_logbar o j)) end.
End Log.

(** ** barycenter_stabilized *)
Section Stab.
Variables (M : mat) (reg tau : N) (nan inf : N -> bool).
Record st := mkSt { st_K : mat; st_al : vec; st_be : vec; st_v : mat; st_q : vec }.
(** lines 574-579 *)
Definition sb_u (s : st) : mat := div_mat A (dotK (st_K s) (st_v s)).
Definition sb_Ktu (s : st) : mat := dotKt (st_K s) (sb_u s).
Definition sb_q (s : st) : vec := geometricBar h w (sb_Ktu s).
Definition sb_v (s : st) : mat := fun i k => ndiv (sb_q s i) (sb_Ktu s i k).
Definition any2 (p : nat -> nat -> bool) : bool := any n (fun i => any h (fun k => p i k)).
(** line 581 *)
Definition sb_absorbs (s : st) : bool := (any2 (fun i k => nltb tau (sb_u s i k)) || any2 (fun i k => nltb tau (sb_v s i k)))%bool.
(** lines 583-586: the maxima are taken over the histograms *)
Definition sb_absorb (s : st) : st :=
  let al := fun i => nadd (st_al s i) (nmul reg (lg (nmaxk (h - 1) (fun k => sb_u s i k)))) in
  let be := fun i => nadd (st_be s i) (nmul reg (lg (nmaxk (h - 1) (fun k => sb_v s i k)))) in
  mkSt (fun i j => ex (ndiv (nsub (nadd (al i) (be j)) (M i j)) reg)) al be (fun _ _ => n1) (sb_q s).
Definition sb_step (s : st) : st := if sb_absorbs s then sb_absorb s else mkSt (st_K s) (st_al s) (st_be s) (sb_v s) (sb_q s).
(** lines 588-594, on the u of the step and the v after the absorption *)
Definition sb_bad (s : st) : bool :=
  (any2 (fun i k => neqb (sb_Ktu s i k) n0) || any2 (fun i k => nan (sb_u s i k)) || any2 (fun i k => nan (st_v (sb_step s) i k))
   || any2 (fun i k => inf (sb_u s i k)) || any2 (fun i k => inf (st_v (sb_step s) i k)))%bool.
(** line 603 *)
Definition sb_error (s : st) : N :=
  nmaxk (n - 1) (fun i => nmaxk (h - 1) (fun k => nabs (nsub (nmul (sb_u s i k) (dotK (st_K (sb_step s)) (st_v (sb_step s)) i k)) (A i k)))).
(** lines 572-619: the last state (with the returned q), the errors and the exit *)
Fixpoint sb_loop (thr : N) (left ii : nat) (s : st) (errs : list N) : st * list N * exit :=
  match left with
  | O => (s, errs, MaxIter)
  | S left' =>
      let s' := sb_step s in
      if sb_bad s then (mkSt (st_K s') (st_al s') (st_be s') (st_v s') (st_q s), errs, NumErr ii)
      else if ((Nat.eqb (Nat.modulo ii 10) 0 && negb (sb_absorbs s)) || Nat.eqb ii 0)%bool then
        let err := sb_error s in
        if nltb err thr then (s', errs ++ [err], Converged ii) else sb_loop thr left' (S ii) s' (errs ++ [err])
      else sb_loop thr left' (S ii) s' errs
  end.
(** lines 563-571 *)
Definition sb_start : st :=
  mkSt (fun i j => ex (ndiv (nopp (M i j)) reg)) (fun _ => n0) (fun _ => n0) (fun _ _ => ndiv n1 (nofnat (N:=N) n)) (fun _ => ndiv n1 (nofnat (N:=N) n)).
Definition barycenter_stabilized (numItermax : nat) (thr : N) : st * list N * exit := sb_loop thr numItermax 0 sb_start [].
End Stab.

(** ** _barycenter_debiased *)
Section Deb.
Variable (K : mat).
Record db := mkDb { db_u : mat; db_c : vec; db_bar : vec }.
(** line 767: K, not K.T *)
Definition db_ukv (s : db) : mat := dotK K (div_mat A (dotK K (db_u s))).
(** lines 768-770 *)
Definition db_step (s : db) : db :=
  let bar := fun i => nmul (db_c s i) (geometricBar h w (db_ukv s) i) in
  mkDb (fun i k => ndiv (bar i) (db_ukv s i k)) (fun i => sq (ndiv (nmul (db_c s i) (bar i)) (nsum n (fun l => nmul (K i l) (db_c s l))))) bar.
(** line 773 *)
Definition db_err (s s' : db) : N :=
  ndiv (nmaxk (n - 1) (fun i => nabs (nsub (db_bar s' i) (db_bar s i)))) (nmax (nmaxk (n - 1) (db_bar s')) n1).
(** lines 765-793 *)
Fixpoint db_loop (thr : N) (left ii : nat) (s : db) (errs : list N) : db * list N * exit :=
  match left with
  | O => (s, errs, MaxIter)
  | S left' =>
      let s' := db_step s in
      if Nat.eqb (Nat.modulo ii 10) 9 then
        let err := db_err s s' in
        if (nltb err thr && Nat.ltb 20 ii)%bool then (s', errs ++ [err], Converged ii) else db_loop thr left' (S ii) s' (errs ++ [err])
      else db_loop thr left' (S ii) s' errs
  end.
(** lines 759-763 *)
Definition db_start : db := mkDb (bs_u0 K) (fun _ => n1) (fun _ => n1).
Definition barycenter_debiased (numItermax : nat) (thr : N) : db * list N * exit := db_loop thr numItermax 0 db_start [].
End Deb.
End Problem.

(** ** free_support_sinkhorn_barycenter, lines 348-400: the loop of free_support_barycenter
    (Fsb_model) with the plan of ot.sinkhorn, [skh n m a b M] *)
Definition free_support_sinkhorn_barycenter (skh : nat -> nat -> vec -> vec -> mat -> mat) (k d p : nat) (m : nat -> nat) (Y : nat -> mat) (a : nat -> vec)
  (X_init : mat) (b weights : option vec) (numItermax : nat) (stopThr : N) : mat * list N :=
  free_support_barycenter skh k d p m Y a X_init b weights numItermax stopThr.

(** ** jcpot_barycenter: p >= 2 source domains (with p = 1, list_to_array answers the array itself and
    lines 968-1009 then run over its rows), domain d with ns d samples and integer labels Y d, nt
    target samples, Kd d = exp(-dist(Xs[d], Xt)/reg) *)
Section Jcpot.
Variables (p nt : nat) (ns : nat -> nat) (lo : N) (norm : nat -> vec -> N).
(** nx.unique, up to the order *)
Fixpoint distinct (k : nat) (y : nat -> Z) : list Z :=
  match k with O => [] | S k' => if existsb (Z.eqb (y k')) (distinct k' y) then distinct k' y else distinct k' y ++ [y k'] end.
(** nx.min(classes) of a non-empty domain *)
Fixpoint zmin (k : nat) (y : nat -> Z) : Z := match k with O => 0%Z | 1 => y 0 | S k' => Z.min (zmin k' y) (y k') end.
(** lines 988-990: the caller's label array after the call (changed in place) *)
Definition jc_shift (k : nat) (y : nat -> Z) : nat -> Z := if Z.eqb (zmin k y) 0 then y else fun i => (y i - zmin k y)%Z.
Definition jc_labels (Y : nat -> nat -> Z) : nat -> nat -> Z := fun d => jc_shift (ns d) (Y d).
(** line 968 *)
Definition jc_nbclasses (Y : nat -> nat -> Z) : nat := length (distinct (ns 0) (Y 0)).
(** lines 993-1000: Dtmp1[int(c), ...] with c beyond nbclasses is an IndexError *)
Definition jc_in_range (Y : nat -> nat -> Z) : bool :=
  forallb (fun d => forallb (fun i => Z.ltb (jc_labels Y d i) (Z.of_nat (jc_nbclasses Y))) (seq 0 (ns d))) (seq 0 p).
Definition jc_count (Y : nat -> nat -> Z) (d c : nat) : nat := length (filter (fun i => Z.eqb (jc_labels Y d i) (Z.of_nat c)) (seq 0 (ns d))).
Definition jc_D1 (Y : nat -> nat -> Z) (d : nat) : mat := fun c i => if Z.eqb (jc_labels Y d i) (Z.of_nat c) then n1 else n0.
Definition jc_D2 (Y : nat -> nat -> Z) (d : nat) : mat := fun c i =>
  if Z.eqb (jc_labels Y d i) (Z.of_nat c) then ndiv n1 (nofnat (N:=N) (jc_count Y d c)) else n0.
(** lines 1018-1026 *)
Definition jc_C (K : nat -> mat) : nat -> mat := fun d => projC (ns d) lo (K d) (fun _ => ndiv n1 (nofnat (N:=N) nt)).
Definition jc_bary (D1 : nat -> mat) (K : nat -> mat) : vec := fun c =>
  ex (nsum p (fun d => ndiv (lg (nsum (ns d) (fun i => nmul (D1 d c i) (nsum nt (fun j => jc_C K d i j))))) (nofnat (N:=N) p))).
(** lines 1029-1031; nc classes *)
Definition jc_R (nc : nat) (D1 D2 : nat -> mat) (K : nat -> mat) : nat -> mat := fun d =>
  projR nt lo (jc_C K d) (fun i => nsum nc (fun c => nmul (D2 d c i) (jc_bary D1 K c))).
Record jc_out := mkJc { jc_K : nat -> mat; jc_h : vec; jc_err : list N; jc_exit : exit }.
(** lines 1017-1052; [old] is old_bary, None in [last] when bary is unbound *)
Fixpoint jc_loop (nc : nat) (D1 D2 : nat -> mat) (thr : N) (left ii : nat) (old : vec) (K : nat -> mat) (last : option vec) (errs : list N) : option jc_out :=
  match left with
  | O => match last with None => None | Some b => Some (mkJc K b errs MaxIter) end
  | S left' =>
      let b := jc_bary D1 K in
      let K' := jc_R nc D1 D2 K in
      let err := norm nc (fun c => nsub (b c) (old c)) in
      if nltb err thr then Some (mkJc K' b (errs ++ [err]) (Converged ii))
      else jc_loop nc D1 D2 thr left' (S ii) b K' (Some b) (errs ++ [err])
  end.
(** the returned proportions (line 1053) with the final couplings log["gamma"]; None: IndexError, or
    bary unbound when numItermax = 0 *)
Definition jcpot_barycenter (Y : nat -> nat -> Z) (Kd : nat -> mat) (numItermax : nat) (thr : N) : option (vec * jc_out) :=
  let nc := jc_nbclasses Y in
  if jc_in_range Y then
    match jc_loop nc (jc_D1 Y) (jc_D2 Y) thr numItermax 0 (fun _ => n1) Kd None [] with
    | None => None
    | Some o => Some ((fun c => ndiv (jc_h o c) (nsum nc (jc_h o))), o)
    end
  else None.
End Jcpot.
End Bary.
