(** partial_wasserstein_1d: the loop invariants of the model *)
From Coq Require Import Reals Lra Lia List Arith ZArith Permutation Bool.
From Verif Require Import Num Sums Spec Emd1d_model Pw1d_model Pw1d_core.
Import ListNotations.
Local Open Scope nat_scope.

(** ** the chain arrays are the maximal runs of selected points *)
Section Chains.
Variables (n : nat) (isx : nat -> bool).
Definition run (A : nat -> bool) (s e : nat) : Prop :=
  s <= e < n /\ (forall h, s <= h <= e -> A h = true) /\ (forall s', s = S s' -> A s' = false) /\ (S e < n -> A (S e) = false).
Definition rep (A : nat -> bool) (st en : nat -> option nat) : Prop :=
  (forall s e, st s = Some e <-> run A s e) /\ (forall s e, en e = Some s <-> run A s e).

Lemma run_left : forall A h, A h = true -> exists s, s <= h /\ (forall k, s <= k <= h -> A k = true) /\ (forall s', s = S s' -> A s' = false).
Proof.
  intros A. induction h as [|h IH]; intros Hh.
  - exists 0. split; [lia|]. split; [intros k Hk; replace k with 0 by lia; auto|discriminate].
  - destruct (A h) eqn:E.
    + destruct (IH eq_refl) as (s & S1 & S2 & S3). exists s. split; [lia|]. split; [|auto]. intros k Hk. destruct (Nat.eq_dec k (S h)) as [->|]; [auto|apply S2; lia].
    + exists (S h). split; [lia|]. split; [intros k Hk; replace k with (S h) by lia; auto|]. intros s' Es. injection Es as <-. auto.
Qed.
Lemma run_right : forall A h, h < n -> A h = true -> exists e, h <= e < n /\ (forall k, h <= k <= e -> A k = true) /\ (S e < n -> A (S e) = false).
Proof.
  intros A h Hh Ah. assert (G : forall d, h + d < n -> (exists e, h <= e < n /\ (forall k, h <= k <= e -> A k = true) /\ (S e < n -> A (S e) = false)) \/ (forall k, h <= k <= h + d -> A k = true)).
  { induction d as [|d IH]; intros Hd; [right; intros k Hk; replace k with h by lia; auto|]. destruct IH as [Q|Q]; [lia|left; auto|].
    destruct (A (h + S d)) eqn:E; [right; intros k Hk; destruct (Nat.eq_dec k (h + S d)) as [->|]; [auto|apply Q; lia]|].
    left. exists (h + d). split; [lia|]. split; [auto|]. intros _. replace (S (h + d)) with (h + S d) by lia. auto. }
  destruct (G (n - 1 - h)) as [Q|Q]; [lia|auto|]. exists (n - 1). split; [lia|]. split; [intros k Hk; apply Q; lia|lia].
Qed.
Lemma rep_none : rep (fun _ => false) (fun _ => None) (fun _ => None).
Proof. split; intros s e; (split; [discriminate|]); intros (H & Q & _); specialize (Q s ltac:(lia)); discriminate. Qed.

Lemma insert_ok : forall A st en i j, rep A st en -> (forall h, A h = true -> h < n) -> adjc n isx A i j ->
  exists st' en' ps pe,
    insert_new_chain n (if j =? S i then (st, en) else (upd st (S i) None, upd en (j - 1) None)) i j = ((st', en'), ps, pe)
    /\ rep (add2 A i j) st' en' /\ run (add2 A i j) ps pe /\ ps <= i /\ j <= pe.
Proof.
  intros A st en i j [HS HE] HA (Hij & Ai & Aj & Hs & Hb).
  set (A' := add2 A i j).
  assert (A'v : forall h, A' h = if h =? j then true else if h =? i then true else A h) by (intros h; unfold A', add2, upd; reflexivity).
  (* the extent to the left *)
  assert (EL : exists i0, i0 <= i /\ (forall k, i0 <= k < i -> A k = true) /\ (forall s', i0 = S s' -> A s' = false)
     /\ (i0 < i -> run A i0 (i - 1))).
  { destruct i as [|i']. { exists 0. repeat split; intros; try lia; try discriminate. }
    destruct (A i') eqn:E.
    - destruct (run_left A i' E) as (s & S1 & S2 & S3). exists s. split; [lia|]. split; [intros; apply S2; lia|]. split; [auto|].
      intros _. replace (S i' - 1) with i' by lia. split; [lia|]. split; [auto|]. split; [auto|]. auto.
    - exists (S i'). split; [lia|]. split; [intros; lia|]. split; [intros s' Es; injection Es as <-; auto|]. lia. }
  destruct EL as (i0 & L1 & L2 & L3 & L4).
  assert (ER : exists j0, j <= j0 < n /\ (forall k, j < k <= j0 -> A k = true) /\ (S j0 < n -> A (S j0) = false) /\ (j < j0 -> run A (S j) j0)).
  { destruct (Nat.lt_ge_cases (S j) n) as [Lt|Ge]; [|exists j; repeat split; intros; lia].
    destruct (A (S j)) eqn:E.
    - destruct (run_right A (S j) Lt E) as (e & E1 & E2 & E3). exists e. split; [lia|]. split; [intros; apply E2; lia|]. split; [auto|].
      intros _. split; [lia|]. split; [auto|]. split; [intros s' Es; injection Es as <-; auto|auto].
    - exists j. split; [lia|]. split; [intros; lia|]. split; [auto|lia]. }
  destruct ER as (j0 & R1 & R2 & R3 & R4).
  assert (RUN : run A' i0 j0).
  { split; [lia|]. split; [|split].
    - intros h Hh. rewrite A'v. destruct (Nat.eqb_spec h j); auto. destruct (Nat.eqb_spec h i); auto.
      destruct (Nat.lt_trichotomy h i) as [Q|[Q|Q]]; [apply L2; lia|lia|]. destruct (Nat.lt_trichotomy h j) as [Q'|[Q'|Q']]; [apply Hb; lia|lia|apply R2; lia].
    - intros s' Es. rewrite A'v. destruct (Nat.eqb_spec s' j); [lia|]. destruct (Nat.eqb_spec s' i); [lia|]. auto.
    - intros Hn. rewrite A'v. destruct (Nat.eqb_spec (S j0) j); [lia|]. destruct (Nat.eqb_spec (S j0) i); [lia|]. auto. }
  (* runs of the new selection *)
  assert (FREE : forall h, i0 <= h <= j0 -> A h = false -> h = i \/ h = j).
  { intros h Hh E. destruct (Nat.lt_trichotomy h i) as [Q|[Q|Q]]; [rewrite L2 in E by lia; discriminate|auto|].
    destruct (Nat.lt_trichotomy h j) as [Q'|[Q'|Q']]; [rewrite Hb in E by lia; discriminate|auto|rewrite R2 in E by lia; discriminate]. }
  assert (RA : forall s e, run A' s e <-> (s = i0 /\ e = j0) \/ (run A s e /\ (e < i0 \/ j0 < s))).
  { intros s e. destruct RUN as (U1 & U2 & U3 & U4). split.
    - intros (Q1 & Q2 & Q3 & Q4).
      destruct (Nat.lt_ge_cases e i0) as [C|C]; [|destruct (Nat.lt_ge_cases j0 s) as [C'|C']].
      + right. split; [|auto]. split; [auto|]. split; [|split].
        * intros h Hh. specialize (Q2 h Hh). rewrite A'v in Q2. destruct (Nat.eqb_spec h j); [lia|]. destruct (Nat.eqb_spec h i); [lia|]. auto.
        * intros s' Es. specialize (Q3 s' Es). rewrite A'v in Q3. destruct (s' =? j), (s' =? i); try discriminate; auto.
        * intros Hn. specialize (Q4 Hn). rewrite A'v in Q4. destruct (S e =? j), (S e =? i); try discriminate; auto.
      + right. split; [|auto]. split; [auto|]. split; [|split].
        * intros h Hh. specialize (Q2 h Hh). rewrite A'v in Q2. destruct (Nat.eqb_spec h j); [lia|]. destruct (Nat.eqb_spec h i); [lia|]. auto.
        * intros s' Es. specialize (Q3 s' Es). rewrite A'v in Q3. destruct (s' =? j), (s' =? i); try discriminate; auto.
        * intros Hn. specialize (Q4 Hn). rewrite A'v in Q4. destruct (S e =? j), (S e =? i); try discriminate; auto.
      + left. split.
        * destruct (Nat.lt_trichotomy s i0) as [D|[D|D]]; [|auto|].
          -- destruct i0 as [|i1]; [lia|]. specialize (U3 i1 eq_refl). rewrite Q2 in U3 by lia. discriminate.
          -- destruct s as [|s1]; [lia|]. specialize (Q3 s1 eq_refl). rewrite U2 in Q3 by lia. discriminate.
        * destruct (Nat.lt_trichotomy e j0) as [D|[D|D]]; [|auto|].
          -- specialize (Q4 ltac:(lia)). rewrite U2 in Q4 by lia. discriminate.
          -- specialize (U4 ltac:(lia)). rewrite Q2 in U4 by lia. discriminate.
    - intros [[-> ->]|[(Q1 & Q2 & Q3 & Q4) D]]; [split; [lia|]; repeat split; auto|].
      split; [auto|]. split; [|split].
      + intros h Hh. rewrite A'v. rewrite (Q2 h Hh). destruct (h =? j), (h =? i); auto.
      + intros s' Es. rewrite A'v. destruct (Nat.eqb_spec s' j) as [E|]; [|destruct (Nat.eqb_spec s' i) as [E|]; [lia|auto]].
        destruct D as [D|D]; [lia|]. destruct (Nat.eq_dec j0 j) as [E2|]; [|lia]. subst s' j0. 
        (* s = S j but then the run A starts at S j and j0 = j *) specialize (R3 ltac:(lia)). rewrite Q2 in R3 by lia. discriminate.
      + intros Hn. rewrite A'v. destruct (Nat.eqb_spec (S e) j) as [E|]; [lia|]. destruct (Nat.eqb_spec (S e) i) as [E|]; [|auto].
        destruct D as [D|D]; [|lia]. assert (i0 = i) by lia. subst i0. specialize (L3 e ltac:(lia)). rewrite Q2 in L3 by lia. discriminate. }
  (* the arrays after the clearing *)
  set (st1 := if j =? S i then st else upd st (S i) None). set (en1 := if j =? S i then en else upd en (j - 1) None).
  assert (EI : insert_new_chain n (if j =? S i then (st, en) else (upd st (S i) None, upd en (j - 1) None)) i j = insert_new_chain n (st1, en1) i j)
    by (unfold st1, en1; destruct (j =? S i); reflexivity).
  assert (S1 : forall s, s <> S i -> st1 s = st s).
  { intros s Hs1. unfold st1. destruct (j =? S i); auto. unfold upd. rewrite (proj2 (Nat.eqb_neq s (S i))) by auto. reflexivity. }
  assert (S1i : st1 (S i) = None).
  { unfold st1. destruct (Nat.eqb_spec j (S i)); [|unfold upd; rewrite Nat.eqb_refl; reflexivity].
    destruct (st (S i)) as [e9|] eqn:E; auto. apply HS in E. destruct E as (Q1 & Q2 & _). subst j. rewrite Q2 in Aj by lia. discriminate. }
  assert (E1 : forall e, e <> j - 1 -> en1 e = en e).
  { intros e He1. unfold en1. destruct (j =? S i); auto. unfold upd. rewrite (proj2 (Nat.eqb_neq e (j - 1))) by auto. reflexivity. }
  assert (E1j : en1 (j - 1) = None).
  { unfold en1. destruct (Nat.eqb_spec j (S i)); [|unfold upd; rewrite Nat.eqb_refl; reflexivity].
    destruct (en (j - 1)) as [q|] eqn:E; auto. apply HE in E. destruct E as (Q1 & Q2 & _). subst j. replace (S i - 1) with i in * by lia. rewrite Q2 in Ai by lia. discriminate. }
  assert (I0 : match i with O => i | S i' => if i' <? n then match en1 i' with Some q => q | None => i end else i end = i0).
  { destruct i as [|i']; [lia|]. rewrite (proj2 (Nat.ltb_lt i' n)) by lia. rewrite E1 by lia.
    destruct (Nat.eq_dec i0 (S i')) as [->|D].
    - destruct (en i') as [q|] eqn:E; auto. apply HE in E. destruct E as (Q1 & Q2 & _). specialize (L3 i' eq_refl). rewrite Q2 in L3 by lia. discriminate.
    - pose proof (L4 ltac:(lia)) as Q. replace (S i' - 1) with i' in Q by lia. apply HE in Q. rewrite Q. reflexivity. }
  assert (J0 : (if S j <? n then match st1 (S j) with Some q => q | None => j end else j) = j0).
  { destruct (Nat.ltb_spec (S j) n); [|lia]. rewrite S1 by lia. destruct (Nat.eq_dec j0 j) as [->|D].
    - destruct (st (S j)) as [q|] eqn:E; auto. apply HS in E. destruct E as (Q1 & Q2 & _). specialize (R3 ltac:(lia)). rewrite Q2 in R3 by lia. discriminate.
    - pose proof (R4 ltac:(lia)) as Q. apply HS in Q. rewrite Q. reflexivity. }
  unfold insert_new_chain at 1 in EI. unfold insert_new_chain in EI. rewrite I0, J0 in EI.
  rewrite (proj2 (Nat.ltb_lt i0 n)), (proj2 (Nat.ltb_lt j0 n)) in EI by lia.
  eexists. eexists. exists i0, j0. split; [exact EI|]. split; [|split; [exact RUN|lia]]. clear EI.
  assert (St0 : st1 i0 = if i0 <? i then Some (i - 1) else None).
  { rewrite S1 by lia. destruct (Nat.ltb_spec i0 i) as [Lt|Ge]; [apply HS; apply L4; auto|].
    destruct (st i0) as [e|] eqn:E; auto. apply HS in E. destruct E as (Q1 & Q2 & _). replace i0 with i in * by lia. rewrite Q2 in Ai by lia. discriminate. }
  set (en2 := match st1 i0 with Some e => upd en1 e None | None => en1 end).
  assert (En0 : en2 j0 = if j <? j0 then Some (S j) else None).
  { assert (en2 j0 = en1 j0). { unfold en2. rewrite St0. destruct (Nat.ltb_spec i0 i); auto. unfold upd. rewrite (proj2 (Nat.eqb_neq j0 (i - 1))) by lia. reflexivity. }
    rewrite H. rewrite E1 by lia. destruct (Nat.ltb_spec j j0) as [Lt|Ge]; [apply HE; apply R4; auto|].
    destruct (en j0) as [e|] eqn:E; auto. apply HE in E. destruct E as (Q1 & Q2 & _). replace j0 with j in * by lia. rewrite Q2 in Aj by lia. discriminate. }
  split.
  - intros s e. rewrite RA.
    assert (V : match en2 j0 with Some q => upd (upd st1 i0 (Some j0)) q None | None => upd st1 i0 (Some j0) end s
              = if s =? i0 then Some j0 else if (i0 <=? s) && (s <=? j0) then None else st s).
    { assert (V1 : forall b : bool, (b = true <-> s = S j /\ j < j0) -> match en2 j0 with Some q => upd (upd st1 i0 (Some j0)) q None | None => upd st1 i0 (Some j0) end s
          = if b then None else if s =? i0 then Some j0 else st1 s).
      { intros b Hb'. rewrite En0. destruct (Nat.ltb_spec j j0).
        - unfold upd. destruct (Nat.eqb_spec s (S j)); destruct b; try reflexivity; [exfalso|exfalso]; [assert (false = true) by (apply Hb'; auto); discriminate|destruct (proj1 Hb' eq_refl); lia].
        - destruct b; [destruct (proj1 Hb' eq_refl); lia|reflexivity]. }
      rewrite (V1 ((s =? S j) && (j <? j0))).
      2:{ rewrite andb_true_iff, Nat.eqb_eq, Nat.ltb_lt. tauto. }
      destruct (Nat.eqb_spec s (S j)), (Nat.ltb_spec j j0), (Nat.eqb_spec s i0); cbn [andb]; try lia; auto.
      + destruct (Nat.leb_spec i0 s), (Nat.leb_spec s j0); cbn; auto; lia.
      + destruct (Nat.leb_spec i0 s), (Nat.leb_spec s j0); cbn [andb]; try lia. apply S1. lia.
      + destruct (Nat.leb_spec i0 s), (Nat.leb_spec s j0); cbn [andb]; try (apply S1; lia).
        destruct (Nat.eq_dec s (S i)) as [->|]; [apply S1i|]. rewrite S1 by auto. destruct (st s) as [e'|] eqn:E; auto. apply HS in E. destruct E as (Q1 & Q2 & Q3 & Q4).
        destruct s as [|s']; [lia|]. specialize (Q3 s' eq_refl). destruct (FREE s' ltac:(lia) Q3); lia.
      + destruct (Nat.leb_spec i0 s), (Nat.leb_spec s j0); cbn [andb]; try (apply S1; lia).
        destruct (Nat.eq_dec s (S i)) as [->|]; [apply S1i|]. rewrite S1 by auto. destruct (st s) as [e'|] eqn:E; auto. apply HS in E. destruct E as (Q1 & Q2 & Q3 & Q4).
        destruct s as [|s']; [lia|]. specialize (Q3 s' eq_refl). destruct (FREE s' ltac:(lia) Q3); lia. }
    rewrite V. clear V. destruct (Nat.eqb_spec s i0) as [->|Ns].
    + split; [intros E; injection E as <-; left; auto|]. intros [[_ ->]|[(Q1 & _) D]]; [auto|]. exfalso. destruct D; lia.
    + destruct (Nat.leb_spec i0 s), (Nat.leb_spec s j0); cbn [andb].
      * split; [discriminate|]. intros [[-> _]|[(Q1 & _) D]]; [lia|]. exfalso. destruct D; lia.
      * rewrite HS. split; [intros Q; right; split; auto; lia|]. intros [[-> _]|[Q _]]; [lia|auto].
      * rewrite HS. split; [|intros [[-> _]|[Q _]]; [lia|auto]]. intros Q. right. split; [auto|]. left.
        destruct Q as (Q1 & Q2 & Q3 & Q4). destruct (Nat.lt_ge_cases e i0); [auto|]. destruct i0 as [|i1]; [lia|]. specialize (L3 i1 eq_refl). rewrite Q2 in L3 by lia. discriminate.
      * lia.
  - intros s e. rewrite RA. fold en2.
    assert (V : upd en2 j0 (Some i0) e = if e =? j0 then Some i0 else if (i0 <=? e) && (e <=? j0) then None else en e).
    { unfold upd at 1. destruct (Nat.eqb_spec e j0); [auto|].
      assert (V1 : en2 e = if (e =? i - 1) && (i0 <? i) then None else en1 e).
      { unfold en2. rewrite St0. destruct (Nat.ltb_spec i0 i); [|rewrite andb_false_r; reflexivity]. unfold upd. destruct (e =? i - 1); reflexivity. }
      rewrite V1. destruct (Nat.eqb_spec e (i - 1)), (Nat.ltb_spec i0 i); cbn [andb].
      - destruct (Nat.leb_spec i0 e), (Nat.leb_spec e j0); cbn [andb]; auto; lia.
      - destruct (Nat.leb_spec i0 e), (Nat.leb_spec e j0); cbn [andb]; try (apply E1; lia).
        destruct (Nat.eq_dec e (j - 1)) as [Ej|]; [rewrite Ej; apply E1j|]. rewrite E1 by auto. destruct (en e) as [q|] eqn:E; auto. apply HE in E. destruct E as (Q1 & Q2 & _). assert (e = i) by lia. subst e. rewrite Q2 in Ai by lia. discriminate.
      - destruct (Nat.leb_spec i0 e), (Nat.leb_spec e j0); cbn [andb]; try (apply E1; lia).
        destruct (Nat.eq_dec e (j - 1)) as [->|]; [apply E1j|]. rewrite E1 by auto. destruct (en e) as [q|] eqn:E; auto. apply HE in E. destruct E as (Q1 & Q2 & Q3 & Q4).
        specialize (Q4 ltac:(lia)). destruct (FREE (S e) ltac:(lia) Q4); lia.
      - destruct (Nat.leb_spec i0 e), (Nat.leb_spec e j0); cbn [andb]; try (apply E1; lia).
        destruct (Nat.eq_dec e (j - 1)) as [->|]; [apply E1j|]. rewrite E1 by auto. destruct (en e) as [q|] eqn:E; auto. apply HE in E. destruct E as (Q1 & Q2 & Q3 & Q4).
        specialize (Q4 ltac:(lia)). destruct (FREE (S e) ltac:(lia) Q4); lia. }
    rewrite V. clear V. destruct (Nat.eqb_spec e j0) as [->|Ns].
    + split; [intros E; injection E as <-; left; auto|]. intros [[-> _]|[(Q1 & _) D]]; [auto|]. exfalso. destruct D; lia.
    + destruct (Nat.leb_spec i0 e), (Nat.leb_spec e j0); cbn [andb].
      * split; [discriminate|]. intros [[_ ->]|[(Q1 & _) D]]; [lia|]. exfalso. destruct D; lia.
      * rewrite HE. split; [|intros [[_ ->]|[Q _]]; [lia|auto]]. intros Q. right. split; [auto|]. right.
        destruct Q as (Q1 & Q2 & Q3 & Q4). destruct (Nat.lt_ge_cases j0 s); [auto|]. specialize (R3 ltac:(lia)). rewrite Q2 in R3 by lia. discriminate.
      * rewrite HE. split; [|intros [[_ ->]|[Q _]]; [lia|auto]]. intros Q. right. split; [auto|]. left. lia.
      * lia.
Qed.
End Chains.

(** ** the main loop follows the greedy rule *)
Section Loop.
Variables (n : nat) (isx : nat -> bool) (ccs : nat -> R).
Notation cc := (compute_cost_for_chain (N:=RNum) ccs).
Notation cand := (carrier RNum * nat * nat)%type.
Definition marg (i j : nat) : R := if j =? S i then cc i j else (cc i j - cc (S i) (j - 1))%R.
Definition act (o : list cand) : nat -> bool := fold_left (fun A r => add2 A (snd (fst r)) (snd r)) o (fun _ => false).
Lemma act_snoc : forall o c i j, act (o ++ [(c, i, j)]) = add2 (act o) i j.
Proof. intros. unfold act. rewrite fold_left_app. reflexivity. Qed.

(** the greedy rule: each pair is the cheapest among the neighbouring free pairs *)
Definition grd (o : list cand) : Prop := forall l c i j, nth_error o l = Some (c, i, j) ->
  adjc n isx (act (firstn l o)) i j /\ c = marg i j /\ forall i' j', adjc n isx (act (firstn l o)) i' j' -> (c <= marg i' j')%R.

Lemma heappop_ok : forall h : list cand, h <> [] -> exists b r, heappop (N:=RNum) h = Some (b, r) /\ Permutation h (b :: r)
  /\ forall a, In a h -> (fst (fst b) <= fst (fst a))%R.
Proof.
  induction h as [|a h IH]; intros H; [congruence|]. cbn [heappop]. destruct h as [|a' h'].
  - exists a, []. cbn. split; [reflexivity|]. split; [reflexivity|]. intros x [<-|[]]. apply Rle_refl.
  - destruct IH as (b & r & E & P & M); [discriminate|]. rewrite E.
    destruct (cand_ltb b a) eqn:C.
    + exists b, (a :: r). split; [reflexivity|]. split; [rewrite P; apply perm_swap|]. intros x [<-|Hx]; [|auto].
      destruct b as [[cb ib] jb], a as [[ca ia] ja]. cbn in C |- *. apply orb_true_iff in C. destruct C as [C|C]; [apply Rltb_true in C; lra|].
      apply andb_true_iff in C. destruct C as [C _]. apply Reqb_true in C. lra.
    + exists a, (a' :: h'). split; [reflexivity|]. split; [reflexivity|]. intros x [<-|Hx]; [apply Rle_refl|].
      apply Rle_trans with (fst (fst b)); [|auto]. destruct b as [[cb ib] jb], a as [[ca ia] ja]. cbn in C |- *. apply orb_false_iff in C. destruct C as [C _]. apply Rltb_false in C. lra.
Qed.

Definition heap_ok (A : nat -> bool) (h : list cand) : Prop :=
  (forall c i j, In (c, i, j) h -> i < j < n /\ isx i <> isx j /\ (forall k, i < k < j -> A k = true) /\ c = marg i j)
  /\ (forall i j, adjc n isx A i j -> In (marg i j, i, j) h).

Lemma gen_loop_ok : forall fuel todo heap A st en out, length heap + todo < fuel ->
  A = act out -> (forall h, A h = true -> h < n) -> rep n A st en -> heap_ok A heap -> grd out ->
  exists o, gen_loop (N:=RNum) fuel n isx ccs todo heap A (st, en) out = Ok o /\ grd o
    /\ (length o = length out + todo \/ (length o <= length out + todo /\ forall i j, ~ adjc n isx (act o) i j)).
Proof.
  induction fuel as [|fuel IH]; intros todo heap A st en out Hf EA HA HR [H1 H2] HG; [lia|].
  cbn [gen_loop]. destruct heap as [|a heap'] eqn:EH.
  { exists out. split; [reflexivity|]. split; [auto|]. right. split; [lia|]. intros i j Q. rewrite <- EA in Q. destruct (H2 i j Q). }
  destruct todo as [|todo].
  { exists out. split; [reflexivity|]. split; [auto|]. left. lia. }
  rewrite <- EH in *. assert (HN : heap <> []) by (rewrite EH; discriminate). clear EH a heap'.
  destruct (heappop_ok heap HN) as ([[c i] j] & r & E & P & M). match goal with |- context [match ?X with None => Ok out | _ => _ end] => replace X with (Some ((c, i, j), r)) by (symmetry; exact E) end.
  pose proof (Permutation_length P) as PL. cbn [length] in PL.
  destruct (H1 c i j (Permutation_in _ (Permutation_sym P) (or_introl eq_refl))) as (Hij & Hs & Hb & Ec).
  assert (Hr : forall c' i' j', In (c', i', j') r -> In (c', i', j') heap) by (intros; apply (Permutation_in _ (Permutation_sym P)); right; auto).
  destruct (A i) eqn:Ai; [|destruct (A j) eqn:Aj]; cbn [orb].
  1,2: apply IH; auto; [lia|]; split; [intros; apply H1; auto|]; intros i' j' Q; destruct (Permutation_in _ P (H2 i' j' Q)) as [X|X]; auto;
       injection X as _ -> ->; destruct Q as (_ & Q1 & Q2 & _); congruence.
  assert (HAd : adjc n isx A i j) by (split; [auto|repeat split; auto]).
  destruct (insert_ok n isx A st en i j HR HA HAd) as (st' & en' & ps & pe & EI & HR' & RU & Hps & Hpe).
  (* the recursive call, whatever the branch *)
  set (A' := add2 A i j). change (upd (upd A i true) j true) with A'.
  assert (HA' : forall h, A' h = true -> h < n).
  { intros h. unfold A', add2, upd. destruct (Nat.eqb_spec h j); [lia|]. destruct (Nat.eqb_spec h i); [lia|]. auto. }
  assert (EA' : A' = act (out ++ [(c, i, j)])) by (rewrite act_snoc, <- EA; reflexivity).
  assert (HG' : grd (out ++ [(c, i, j)])).
  { intros l c' i' j' Hl. destruct (Nat.lt_ge_cases l (length out)) as [Lt|Ge].
    - rewrite nth_error_app1 in Hl by auto. rewrite firstn_app. replace (l - length out) with 0 by lia. cbn [firstn]. rewrite app_nil_r. apply HG; auto.
    - rewrite nth_error_app2 in Hl by auto. destruct (l - length out) eqn:D; [|destruct n0; discriminate]. cbn in Hl. injection Hl as <- <- <-.
      replace l with (length out) by lia. rewrite firstn_app, Nat.sub_diag, firstn_all. cbn [firstn]. rewrite app_nil_r, <- EA.
      split; [auto|]. split; [auto|]. intros i' j' Q. exact (M _ (H2 i' j' Q)). }
  assert (OLD : forall k, A k = true -> A' k = true).
  { intros k Hk. unfold A', add2, upd. destruct (k =? j), (k =? i); auto. }
  assert (F1 : forall c' i' j', In (c', i', j') r -> i' < j' < n /\ isx i' <> isx j' /\ (forall k, i' < k < j' -> A' k = true) /\ c' = marg i' j').
  { intros c' i' j' Q. destruct (H1 c' i' j' (Hr _ _ _ Q)) as (Q1 & Q2 & Q3 & Q4). repeat split; auto; lia. }
  (* new neighbouring pairs *)
  assert (F2 : forall i' j', adjc n isx A' i' j' -> In (marg i' j', i', j') r \/ (S i' = ps /\ j' = S pe)).
  { intros i' j' (Q1 & Q2 & Q3 & Q4 & Q5).
    assert (Hi' : i' <> i /\ i' <> j /\ A i' = false) by (unfold A', add2, upd in Q2; destruct (Nat.eqb_spec i' j); [discriminate|]; destruct (Nat.eqb_spec i' i); [discriminate|]; auto).
    assert (Hj' : j' <> i /\ j' <> j /\ A j' = false) by (unfold A', add2, upd in Q3; destruct (Nat.eqb_spec j' j); [discriminate|]; destruct (Nat.eqb_spec j' i); [discriminate|]; auto).
    destruct RU as (U1 & U2 & U3 & U4). fold A' in U2, U3, U4.
    assert (OUT : forall k, A' k = false -> k < ps \/ pe < k).
    { intros k Hk. destruct (Nat.lt_ge_cases k ps); auto. destruct (Nat.lt_ge_cases pe k); auto. rewrite U2 in Hk by lia. discriminate. }
    destruct (OUT i' Q2) as [Oi|Oi].
    - destruct (OUT j' Q3) as [Oj|Oj].
      + left. assert (Q : adjc n isx A i' j').
        { split; [auto|]. split; [tauto|]. split; [tauto|]. split; [auto|]. intros h Hh. specialize (Q5 h Hh). unfold A', add2, upd in Q5. destruct (Nat.eqb_spec h j); [lia|]. destruct (Nat.eqb_spec h i); [lia|]. auto. }
        destruct (Permutation_in _ P (H2 i' j' Q)) as [X|X]; auto. injection X as _ <- <-. destruct Hi' as (D & _). congruence.
      + right. split.
        * destruct (Nat.eq_dec (S i') ps); auto. destruct ps as [|p']; [lia|]. specialize (U3 p' eq_refl). rewrite Q5 in U3 by lia. discriminate.
        * destruct (Nat.eq_dec j' (S pe)); auto. specialize (U4 ltac:(lia)). rewrite Q5 in U4 by lia. discriminate.
    - left. assert (Q : adjc n isx A i' j').
      { split; [auto|]. split; [tauto|]. split; [tauto|]. split; [auto|]. intros h Hh. specialize (Q5 h Hh). unfold A', add2, upd in Q5. destruct (Nat.eqb_spec h j); [lia|]. destruct (Nat.eqb_spec h i); [lia|]. auto. }
      destruct (Permutation_in _ P (H2 i' j' Q)) as [X|X]; auto. injection X as _ <- <-. destruct Hi' as (D & _). congruence. }
  assert (NEXT : forall h', length h' + todo < fuel -> heap_ok A' h' ->
     exists o, gen_loop (N:=RNum) fuel n isx ccs todo h' A' (st', en') (out ++ [(c, i, j)]) = Ok o /\ grd o
       /\ (length o = length out + S todo \/ (length o <= length out + S todo /\ forall i j, ~ adjc n isx (act o) i j))).
  { intros h' Hh' HH. destruct (IH todo h' A' st' en' (out ++ [(c, i, j)]) Hh' EA' HA' HR' HH HG') as (o & E1 & E2 & E3). exists o. split; [exact E1|]. split; [exact E2|].
    rewrite app_length in E3. cbn [length] in E3. destruct E3 as [E3|[E3 E4]]; [left; lia|right; split; [lia|auto]]. }
  assert (BODY : exists o, (match ps with
      | O => gen_loop (N:=RNum) fuel n isx ccs todo r A' (st', en') (out ++ [(c, i, j)])
      | S ps' => if pe =? n - 1 then gen_loop (N:=RNum) fuel n isx ccs todo r A' (st', en') (out ++ [(c, i, j)])
          else if Bool.eqb (isx ps') (isx (S pe)) then gen_loop (N:=RNum) fuel n isx ccs todo r A' (st', en') (out ++ [(c, i, j)])
          else gen_loop (N:=RNum) fuel n isx ccs todo ((nsub (n:=RNum) (cc ps' (S pe)) (cc ps pe), ps', S pe) :: r) A' (st', en') (out ++ [(c, i, j)]) end) = Ok o
    /\ grd o /\ (length o = length out + S todo \/ (length o <= length out + S todo /\ forall i j, ~ adjc n isx (act o) i j))).
  { destruct RU as (U1 & U2 & U3 & U4). fold A' in U2, U3, U4. destruct ps as [|ps'].
    - apply NEXT; [lia|]. split; [auto|]. intros i' j' Q. destruct (F2 i' j' Q) as [X|[X _]]; [auto|discriminate].
    - destruct (Nat.eqb_spec pe (n - 1)).
      { apply NEXT; [lia|]. split; [auto|]. intros i' j' Q. destruct (F2 i' j' Q) as [X|[_ X]]; [auto|]. destruct Q as (Q1 & _). lia. }
      destruct (Bool.eqb (isx ps') (isx (S pe))) eqn:EB.
      { apply NEXT; [lia|]. split; [auto|]. intros i' j' Q. destruct (F2 i' j' Q) as [X|[X1 X2]]; [auto|]. injection X1 as ->. subst j'. apply eqb_prop in EB. destruct Q as (_ & _ & _ & Q & _). congruence. }
      apply NEXT; [cbn [length]; lia|]. apply eqb_false_iff in EB.
      assert (EM : nsub (n:=RNum) (cc ps' (S pe)) (cc (S ps') pe) = marg ps' (S pe)).
      { unfold marg. rewrite (proj2 (Nat.eqb_neq (S pe) (S ps'))) by lia. replace (S pe - 1) with pe by lia. reflexivity. }
      split.
      + intros c' i' j' [X|X]; [|auto]. injection X as <- <- <-. split; [lia|]. split; [auto|]. split; [intros k Hk; apply U2; lia|exact EM].
      + intros i' j' Q. destruct (F2 i' j' Q) as [X|[X1 X2]]; [right; auto|]. injection X1 as ->. subst j'. left. rewrite <- EM. reflexivity. }
  destruct (Nat.eqb_spec j (S i)) as [Ej|Nj].
  - match goal with |- context [match ?X with _ => _ end] => match X with insert_new_chain _ _ _ _ => replace X with ((st', en'), ps, pe) by (symmetry; exact EI) end end. exact BODY.
  - cbn [fst snd].
    assert (EN : en (j - 1) = Some (S i)).
    { apply HR. split; [lia|]. split; [intros h Hh; apply Hb; lia|]. split; [intros s' Es; injection Es as <-; auto|]. intros _. replace (S (j - 1)) with j by lia. auto. }
    rewrite EN. rewrite (proj2 (Nat.ltb_lt (S i) n)), (proj2 (Nat.ltb_lt (j - 1) n)) by lia.
    match goal with |- context [match ?X with _ => _ end] => match X with insert_new_chain _ _ _ _ => replace X with ((st', en'), ps, pe) by (symmetry; exact EI) end end. exact BODY.
Qed.
End Loop.
