(** North-West gluing: row invariant. *)
From Coq Require Import Reals Lra Lia Arith Bool List.
Import ListNotations.
From Verif Require Import Num Sums Spec Duals_proofs Optim_model Gw_model Glue_model.
Local Open Scope R_scope.

Fixpoint lsum {A} (f : A -> R) (l : list A) : R := match l with [] => 0 | x :: r => f x + lsum f r end.
Lemma lsum_app : forall A (f : A -> R) l l', lsum f (l ++ l') = lsum f l + lsum f l'.
Proof. induction l; intros; cbn; [lra|].  rewrite IHl. lra. Qed.
Lemma lsum_ext : forall A (f g : A -> R) l, (forall x, In x l -> f x = g x) -> lsum f l = lsum g l.
Proof. induction l; intros; cbn; auto. rewrite H by (left; auto).  rewrite IHl; auto. intros. apply H; right; auto. Qed.
Lemma lsum_nonneg : forall A (f : A -> R) l, (forall x, In x l -> 0 <= f x) -> 0 <= lsum f l.
Proof. induction l; intros; cbn; [lra|]. assert (0 <= f a) by (apply H; left; auto). assert (0 <= lsum f l) by (apply IHl; intros; apply H; right; auto).  lra. Qed.
Lemma lsum_scal : forall A c (f : A -> R) l, lsum (fun x => c * f x) l = c * lsum f l.
Proof. induction l; cbn; [lra|].  rewrite IHl. lra. Qed.
Lemma lsum_plus : forall A (f g : A -> R) l, lsum (fun x => f x + g x) l = lsum f l + lsum g l.
Proof. induction l; cbn; [lra|].  rewrite IHl. lra. Qed.
Lemma lsum_map : forall A B (g : A -> B) (f : B -> R) l, lsum f (map g l) = lsum (fun x => f (g x)) l.
Proof. induction l; cbn; auto.  rewrite IHl. auto. Qed.
Lemma lsum_flat : forall A B (g : A -> list B) (f : B -> R) l, lsum f (flat_map g l) = lsum (fun x => lsum f (g x)) l.
Proof. induction l; cbn; auto. rewrite lsum_app.  rewrite IHl. auto. Qed.
Lemma lsum_seq : forall f s n, lsum f (seq s n) = rsum n (fun i => f (s + i)%nat).
Proof.
  intros f s n. revert s. induction n; intros s; [reflexivity|]. rewrite rsum_first. cbn [seq lsum]. fold (lsum f (seq (S s) n)). rewrite IHn, Nat.add_0_r.
  f_equal. apply rsum_ext; intros. f_equal. lia.
Qed.
Lemma lsum_rsum : forall A k (f : A -> nat -> R) l, lsum (fun x => rsum k (f x)) l = rsum k (fun j => lsum (fun x => f x j) l).
Proof. induction l; cbn; [symmetry; apply rsum_0; auto|].  rewrite IHl, <- rsum_plus. reflexivity. Qed.

Definition at_ (k j : nat) (e : list nat * R) : R := match nth_error (fst e) k with Some j' => if Nat.eqb j' j then snd e else 0 | None => 0 end.
Definition cmass (l : list (nat * R)) (j : nat) : R := lsum (fun c => if Nat.eqb (fst c) j then snd c else 0) l.
Definition ctot (l : list (nat * R)) : R := lsum snd l.
Definition cpos (l : list (nat * R)) : Prop := forall c, In c l -> 0 < snd c.
Fixpoint slen (st : list (list (nat * R))) : nat := match st with [] => 0%nat | l :: r => (length l + slen r)%nat end.

Lemma heads_some : forall (st : list (list (nat * R))), (forall l, In l st -> l <> []) ->
  exists h, heads (N:=RNum) st = Some h /\ length h = length st /\ forall k l, nth_error st k = Some l -> exists c r, l = c :: r /\ nth_error h k = Some c.
Proof.
  induction st as [|l st IH]; intros H.
  - exists []. repeat split; auto. intros [|k] l E; discriminate.
  - destruct IH as (h & E & Hl & Hh); [intros; apply H; right; auto|]. destruct l as [|c l]; [exfalso; apply (H []); [left|]; auto|].
    exists (c :: h). cbn [heads]. rewrite E. repeat split; [cbn; auto|]. intros [|k] l0 E0; [injection E0 as <-; exists c, l; auto|apply Hh; auto].
Qed.
Lemma heads_none : forall (st : list (list (nat * R))), In [] st -> heads (N:=RNum) st = None.
Proof.
  induction st as [|l st IH]; intros H; [destruct H|]. destruct H as [->|H]; [reflexivity|]. cbn [heads]. destruct l; auto. rewrite IH; auto.
Qed.
Lemma fold_min : forall l (x : R), (fold_left (nmin (N:=RNum)) l x <= x) /\ (forall y, In y l -> fold_left (nmin (N:=RNum)) l x <= y) /\ (fold_left (nmin (N:=RNum)) l x = x \/ In (fold_left (nmin (N:=RNum)) l x) l).
Proof.
  induction l as [|z l IH]; intros x; cbn [fold_left]; [repeat split; [lra|intros y []|auto]|].
  destruct (IH (nmin (N:=RNum) x z)) as (A & B & C). assert (M : nmin (N:=RNum) x z <= x /\ nmin (N:=RNum) x z <= z /\ (nmin (N:=RNum) x z = x \/ nmin (N:=RNum) x z = z)).
  { rewrite nmin_R. unfold Rmin. destruct (Rle_dec x z); repeat split; try lra; auto. }
  destruct M as (M1 & M2 & M3). repeat split.
  - change (carrier RNum) with R in *. lra.
  - intros y [ <- | Hy ]; [change (carrier RNum) with R in *; lra|auto].
  - destruct C as [C|C]; [|right; right; auto]. rewrite C. destruct M3 as [-> | ->]; [auto|right; left; auto].
Qed.
Lemma minl_ok : forall (l : list R), l <> [] -> In (minl (N:=RNum) l) l /\ forall y, In y l -> minl (N:=RNum) l <= y.
Proof.
  intros [|x l] H; [congruence|]. unfold minl. destruct (fold_min l x) as (A & B & C). split; [destruct C as [C|C]; [rewrite C; left; auto|right; auto]|]. intros y [ <- | Hy ]; auto.
Qed.
Lemma take_ok : forall v c r, 0 < v -> v <= snd c -> cpos (c :: r) -> let l := c :: r in let l' := take_mass (N:=RNum) v l in
  cpos l' /\ ctot l' = ctot l - v /\ (forall j, cmass l' j + (if Nat.eqb (fst c) j then v else 0) = cmass l j) /\ (length l' <= length l)%nat /\ (snd c = v -> (length l' < length l)%nat).
Proof.
  intros v [j0 p] r Hv Hp HP. cbv zeta. cbn [snd fst] in *. unfold take_mass. cbn [nsub neqb n0 RNum].
  destruct (Req_EM_T (p - v) 0) as [E|E].
  - rewrite (proj2 (Reqb_true (p - v) 0) E). repeat split.
    + intros c Hc; apply HP; right; auto.
    + unfold ctot. cbn. lra.
    + intro j. unfold cmass. cbn. destruct (Nat.eqb j0 j); lra.
    + cbn; lia.
    + cbn; lia.
  - rewrite (proj2 (Reqb_false (p - v) 0) E). repeat split.
    + intros c [ <- | Hc ]; [cbn; lra|apply HP; right; auto].
    + unfold ctot. cbn. lra.
    + intro j. unfold cmass. cbn. destruct (Nat.eqb j0 j); lra.
    + cbn; lia.
    + intros; lra.
Qed.
Lemma cpos_zero : forall l, cpos l -> ctot l = 0 -> l = [].
Proof.
  intros [|c l] HP E; auto. exfalso. unfold ctot in E. cbn in E. assert (0 < snd c) by (apply HP; left; auto).
  assert (0 <= lsum snd l) by (apply lsum_nonneg; intros x Hx; left; apply HP; right; auto).  lra.
Qed.
Lemma slen_map : forall v (st : list (list (nat * R))), 0 < v -> (forall l, In l st -> exists c r, l = c :: r /\ v <= snd c /\ cpos l) ->
  (slen (map (take_mass (N:=RNum) v) st) <= slen st)%nat /\ ((exists l c r, In l st /\ l = c :: r /\ snd c = v) -> (slen (map (take_mass (N:=RNum) v) st) < slen st)%nat).
Proof.
  intros v st Hv. induction st as [|l st IH]; intros H; cbn [slen map]; [split; [lia|intros (l & c & r & [] & _)]|].
  destruct IH as [I1 I2]; [intros; apply H; right; auto|]. destruct (H l (or_introl eq_refl)) as (c & r & -> & Hc & Hp).
  destruct (take_ok v c r Hv Hc Hp) as (_ & _ & _ & L1 & L2). change (carrier RNum) with R in *. split; [cbn [length] in *; lia|]. intros (l & c' & r' & [E|Hl] & E' & V).
  - rewrite E' in E. injection E as -> ->. specialize (L2 V). cbn [length] in *. lia.
  - assert (X : exists l c r, In l st /\ l = c :: r /\ snd c = v) by (exists l, c', r'; auto). specialize (I2 X). cbn [length] in *. lia.
Qed.
Lemma slen_ge : forall st : list (list (nat * R)), (forall l, In l st -> l <> []) -> (length st <= slen st)%nat.
Proof. induction st as [|l st IH]; intros H; cbn; [lia|]. assert (l <> []) by (apply H; left; auto). destruct l; [congruence|]. cbn. assert (length st <= slen st)%nat by (apply IH; intros; apply H; right; auto). lia. Qed.

Theorem glue_row_ok : forall fuel u (st : list (list (nat * R))), st <> [] -> 0 <= u -> (forall l, In l st -> cpos l /\ ctot l = u) -> (slen st <= fuel)%nat ->
  exists r, glue_row (N:=RNum) fuel u st = Some r /\
    (forall k l, nth_error st k = Some l -> forall j, lsum (at_ k j) r = cmass l j) /\
    (forall e, In e r -> 0 < snd e /\ length (fst e) = length st) /\ lsum snd r = u /\ (r = [] \/ length r + length st <= slen st + 1)%nat.
Proof.
  induction fuel; intros u st Hne Hu H Hf.
  - assert (u = 0).
    { destruct st as [|l st]; [congruence|]. destruct (H l (or_introl eq_refl)) as [_ <-]. cbn in Hf. destruct l; [reflexivity|cbn in Hf; lia]. }
    subst u. exists []. cbn [glue_row nltb n0 RNum]. rewrite (proj2 (Rltb_false 0 0)) by lra. split; [reflexivity|]. split; [|split; [intros e []|split; [reflexivity|left; reflexivity]]].
    intros k l E j. destruct (H l (nth_error_In _ _ E)) as [P T]. rewrite (cpos_zero l P T). reflexivity.
  - destruct Hu as [Hu|<-].
    + assert (NE : forall l, In l st -> l <> []) by (intros l Hl ->; destruct (H [] Hl) as [_ T]; unfold ctot in T; cbn in T; lra).
      destruct (heads_some st NE) as (h & Eh & Lh & Hh).
      assert (hne : map snd h <> []) by (destruct h; [destruct st; [congruence|cbn in Lh; lia]|cbn; congruence]).
      destruct (minl_ok (map snd h) hne) as [Min Mle]. set (v := minl (N:=RNum) (map snd h)) in *.
      assert (Hin : forall l, In l st -> exists c r, l = c :: r /\ In c h).
      { intros l Hl. destruct (In_nth_error _ _ Hl) as [k Ek]. destruct (Hh k l Ek) as (c & r & -> & Ec). exists c, r. split; auto. apply (nth_error_In _ _ Ec). }
      assert (Hback : forall c, In c h -> exists l r, In l st /\ l = c :: r).
      { intros c Hc. destruct (In_nth_error _ _ Hc) as [k Ek]. destruct (nth_error st k) as [l|] eqn:El.
        - destruct (Hh k l El) as (c' & r & -> & Ec). rewrite Ek in Ec. injection Ec as ->. exists (c' :: r), r. split; auto. apply (nth_error_In _ _ El).
        - apply nth_error_None in El. assert (k < length h)%nat by (apply nth_error_Some; congruence). lia. }
      assert (Vpos : 0 < v).
      { apply in_map_iff in Min. destruct Min as (c & Ec & Hc). destruct (Hback c Hc) as (l & r & Hl & ->). destruct (H _ Hl) as [P _]. rewrite <- Ec. apply P. left; auto. }
      assert (Hall : forall l, In l st -> exists c r, l = c :: r /\ v <= snd c /\ cpos l).
      { intros l Hl. destruct (Hin l Hl) as (c & r & -> & Hc). exists c, r. split; auto. split; [apply Mle; apply in_map; auto|apply H; auto]. }
      assert (Hstrict : exists l c r, In l st /\ l = c :: r /\ snd c = v).
      { apply in_map_iff in Min. destruct Min as (c & Ec & Hc). destruct (Hback c Hc) as (l & r & Hl & ->). exists (c :: r), c, r. auto. }
      destruct (slen_map v st Vpos Hall) as [_ S2]. specialize (S2 Hstrict).
      destruct (IHfuel (u - v) (map (take_mass (N:=RNum) v) st)) as (r & Er & R1 & R2 & R3 & R4).
      * destruct st; cbn; congruence.
      * destruct st as [|l st]; [congruence|]. destruct (Hall l (or_introl eq_refl)) as (c & r & -> & Hc & P). destruct (H _ (or_introl eq_refl)) as [_ T]. unfold ctot in T. cbn in T.
        assert (0 <= lsum snd r) by (apply lsum_nonneg; intros x Hx; left; apply P; right; auto).  lra.
      * intros l' Hl'. apply in_map_iff in Hl'. destruct Hl' as (l & <- & Hl). destruct (Hall l Hl) as (c & r & -> & Hc & P). destruct (take_ok v c r Vpos Hc P) as (Q1 & Q2 & _). split; auto. rewrite Q2. destruct (H _ Hl) as [_ ->]. reflexivity.
      * lia.
      * exists ((map fst h, v) :: r). cbn [glue_row nltb n0 RNum]. rewrite (proj2 (Rltb_true 0 u)) by auto. rewrite Eh. fold v. cbn [nsub RNum]. rewrite Er. split; [reflexivity|]. split; [|split; [|split]].
        -- intros k l El j. destruct (Hh k l El) as (c & r0 & -> & Ec). destruct (Hall _ (nth_error_In _ _ El)) as (c' & r' & E' & Hc & P). injection E' as <- <-.
           destruct (take_ok v c r0 Vpos Hc P) as (_ & _ & Q & _). cbn [lsum]. fold (lsum (at_ k j) r). rewrite (R1 k (take_mass (N:=RNum) v (c :: r0))) by (apply (map_nth_error (take_mass (N:=RNum) v)); exact El).
           unfold at_. cbn [fst snd]. rewrite (map_nth_error fst k h Ec). rewrite <- (Q j). apply Rplus_comm.
        -- intros e [ <- | H0 ]; [split; [exact Vpos|cbn; rewrite map_length; auto]|]. destruct (R2 e H0) as [Q L]. rewrite map_length in L. auto.
        -- cbn [lsum snd]. fold (lsum snd r). rewrite R3. lra.
        -- right. change (carrier RNum) with R in *. pose proof (slen_ge st NE). destruct R4 as [-> | R4]; [cbn [length]; lia|]. rewrite map_length in R4. cbn [length]. lia.
    + exists []. cbn [glue_row nltb n0 RNum]. rewrite (proj2 (Rltb_false 0 0)) by lra. split; [reflexivity|]. split; [|split; [intros e []|split; [reflexivity|left; reflexivity]]].
      intros k l E j. destruct (H l (nth_error_In _ _ E)) as [P T]. rewrite (cpos_zero l P T). reflexivity.
Qed.

(** the cells of a row *)
Lemma cells_pos : forall nk row, cpos (cells (N:=RNum) nk row).
Proof.
  intros nk row c Hc. unfold cells in Hc. apply in_map_iff in Hc. destruct Hc as (j & <- & Hj). apply filter_In in Hj. destruct Hj as [_ Hj]. cbn in *. apply Rltb_true in Hj. auto.
Qed.
Lemma lsum_filter_pos : forall (f g : nat -> R) l, (forall j, In j l -> 0 <= f j) -> (forall j, f j = 0 -> g j = 0) -> lsum g (filter (fun j => Rltb 0 (f j)) l) = lsum g l.
Proof.
  induction l as [|x l IH]; intros H G; cbn; auto. assert (I : lsum g (filter (fun j => Rltb 0 (f j)) l) = lsum g l) by (apply IH; [intros; apply H; right; auto|auto]).
  destruct (Rltb 0 (f x)) eqn:E; cbn; [lra|]. apply Rltb_false in E. assert (0 <= f x) by (apply H; left; auto). rewrite (G x) by lra. lra.
Qed.
Lemma cells_tot : forall nk row, (forall j, (j < nk)%nat -> 0 <= row j) -> ctot (cells (N:=RNum) nk row) = rsum nk row.
Proof.
  intros nk row H. unfold ctot, cells. rewrite lsum_map. cbn [snd nltb n0 RNum]. rewrite (lsum_filter_pos row (fun x => row x)); auto.
  - rewrite lsum_seq. apply rsum_ext; auto.
  - intros j Hj. apply in_seq in Hj. apply H. lia.
Qed.
Lemma cells_mass : forall nk row j, (forall j, (j < nk)%nat -> 0 <= row j) -> cmass (cells (N:=RNum) nk row) j = if Nat.ltb j nk then row j else 0.
Proof.
  intros nk row j H. unfold cmass, cells. rewrite lsum_map. cbn [fst snd nltb n0 RNum].
  rewrite (lsum_filter_pos row (fun x => if Nat.eqb x j then row x else 0)).
  - rewrite lsum_seq. cbn [Nat.add]. destruct (Nat.ltb_spec j nk).
    + rewrite (rsum_single nk j); auto; [rewrite Nat.eqb_refl; auto|]. intros i _ Hi. destruct (Nat.eqb_spec i j); [congruence|auto].
    + apply rsum_0; intros i Hi. destruct (Nat.eqb_spec i j); [lia|auto].
  - intros i Hi. apply in_seq in Hi. apply H. lia.
  - intros i Hi. destruct (Nat.eqb i j); auto.
Qed.
Lemma filter_len : forall (A : Type) (p : A -> bool) l, (length (filter p l) <= length l)%nat.
Proof. induction l; cbn; auto. destruct (p a); cbn; lia. Qed.
Lemma cells_len : forall nk row, (length (cells (N:=RNum) nk row) <= nk)%nat.
Proof. intros. unfold cells. rewrite map_length. eapply Nat.le_trans; [apply filter_len|]. rewrite seq_length. auto. Qed.

(** within a row no multi-index occurs twice (so that assigning to the tensor gamma loses nothing) *)
Lemma cmass_notin : forall l j, ~ In j (map fst l) -> cmass l j = 0.
Proof. induction l as [|c l IH]; intros j H; cbn; auto. destruct (Nat.eqb_spec (fst c) j); [exfalso; apply H; left; auto|]. unfold cmass in IH. rewrite IH; [lra|]. intro X; apply H; right; auto. Qed.
Lemma at_notin : forall k j (r : list (list nat * R)), (forall e, In e r -> 0 < snd e) -> lsum (at_ k j) r = 0 -> forall e, In e r -> nth_error (fst e) k <> Some j.
Proof.
  assert (NN : forall k j e, 0 < snd e -> 0 <= at_ k j e) by (intros k j e H; unfold at_; destruct (nth_error (fst e) k); [destruct (Nat.eqb n j)|]; lra).
  induction r as [|e r IH]; intros P E x Hx; [destruct Hx|]. cbn in E. assert (0 <= lsum (at_ k j) r) by (apply lsum_nonneg; intros; apply NN, P; right; auto).
  assert (0 <= at_ k j e) by (apply NN, P; left; auto). destruct Hx as [<- | Hx]; [|apply IH; [intros; apply P; right; auto|lra|auto]].
  intro X. unfold at_ in *. rewrite X, Nat.eqb_refl in *. assert (0 < snd e) by (apply P; left; auto). lra.
Qed.
Lemma take_keys : forall v l, NoDup (map fst l) -> NoDup (map fst (take_mass (N:=RNum) v l)).
Proof. intros v [|[j p] l] H; cbn; auto. inversion H; subst. destruct (Reqb (p - v) 0); cbn; auto. Qed.
Lemma glue_row_nodup : forall fuel u (st : list (list (nat * R))) r, st <> [] -> 0 <= u -> (forall l, In l st -> cpos l /\ ctot l = u /\ NoDup (map fst l)) -> (slen st <= fuel)%nat ->
  glue_row (N:=RNum) fuel u st = Some r -> NoDup (map fst r).
Proof.
  induction fuel; intros u st r Hne Hu H Hf E.
  - assert (H' : forall l, In l st -> cpos l /\ ctot l = u) by (intros l Hl; destruct (H l Hl) as (A & B & _); auto).
    cbn [glue_row] in E. destruct (nltb (n:=RNum) n0 u); [destruct (heads (N:=RNum) st); [discriminate|]|]; injection E as <-; constructor.
  - cbn [glue_row] in E. destruct (nltb (n:=RNum) n0 u) eqn:EU; [|injection E as <-; constructor]. cbn in EU. apply Rltb_true in EU.
    destruct (heads (N:=RNum) st) as [h|] eqn:Eh0; [|injection E as <-; constructor].
    assert (NE : forall l, In l st -> l <> []) by (intros l Hl ->; destruct (H [] Hl) as (_ & T & _); unfold ctot in T; cbn in T; lra).
    destruct (heads_some st NE) as (h' & Eh & Lh & Hh). assert (h' = h) by congruence. subst h'.
    assert (hne : map snd h <> []) by (destruct h; [destruct st; [congruence|cbn in Lh; lia]|cbn; congruence]).
    destruct (minl_ok (map snd h) hne) as [Min Mle]. set (v := minl (N:=RNum) (map snd h)) in *.
    destruct (glue_row (N:=RNum) fuel (nsub (n:=RNum) u v) (map (take_mass (N:=RNum) v) st)) as [r'|] eqn:Er; [|discriminate]. injection E as <-.
    assert (Hin : forall l, In l st -> exists c r, l = c :: r /\ In c h).
    { intros l Hl. destruct (In_nth_error _ _ Hl) as [k Ek]. destruct (Hh k l Ek) as (c & r & -> & Ec). exists c, r. split; auto. apply (nth_error_In _ _ Ec). }
    apply in_map_iff in Min. destruct Min as (c & Ec & Hc). destruct (In_nth_error _ _ Hc) as [k Ek].
    destruct (nth_error st k) as [l|] eqn:El; [|apply nth_error_None in El; assert (k < length h)%nat by (apply nth_error_Some; congruence); lia].
    destruct (Hh k l El) as (c' & r0 & -> & Ec'). rewrite Ek in Ec'. injection Ec' as <-.
    assert (Vpos : 0 < v) by (rewrite <- Ec; apply (proj1 (H _ (nth_error_In _ _ El))); left; auto).
    assert (Hall : forall l, In l st -> exists c r, l = c :: r /\ v <= snd c /\ cpos l).
    { intros l Hl. destruct (Hin l Hl) as (c' & r & -> & Hc'). exists c', r. split; auto. split; [apply Mle; apply in_map; auto|apply H; auto]. }
    assert (Hstrict : exists l c r, In l st /\ l = c :: r /\ snd c = v) by (exists (c :: r0), c, r0; split; [apply (nth_error_In _ _ El)|auto]).
    destruct (slen_map v st Vpos Hall) as [_ S2]. specialize (S2 Hstrict).
    assert (Hu' : 0 <= u - v).
    { destruct (H _ (nth_error_In _ _ El)) as (P & T & _). unfold ctot in T. cbn in T. assert (0 <= lsum snd r0) by (apply lsum_nonneg; intros x Hx; left; apply P; right; auto). change (@snd nat R c = v) in Ec. lra. }
    assert (H' : forall l, In l (map (take_mass (N:=RNum) v) st) -> cpos l /\ ctot l = u - v /\ NoDup (map fst l)).
    { intros l' Hl'. apply in_map_iff in Hl'. destruct Hl' as (l & <- & Hl). destruct (Hall l Hl) as (c1 & r1 & -> & Hc1 & P). destruct (take_ok v c1 r1 Vpos Hc1 P) as (Q1 & Q2 & _). destruct (H _ Hl) as (_ & T & ND).
      split; auto. split; [rewrite Q2, T; reflexivity|]. apply take_keys; auto. }
    assert (Hne' : map (take_mass (N:=RNum) v) st <> []) by (destruct st; cbn; congruence).
    assert (Hf' : (slen (map (take_mass (N:=RNum) v) st) <= fuel)%nat) by lia.
    cbn [map fst]. constructor; [|apply (IHfuel (u - v) (map (take_mass (N:=RNum) v) st) r' Hne' Hu' H' Hf' Er)].
    destruct (glue_row_ok fuel (u - v) (map (take_mass (N:=RNum) v) st) Hne' Hu') as (r2 & Er2 & R1 & R2 & _); [intros l Hl; destruct (H' l Hl) as (A & B & _); auto|auto|].
    assert (r2 = r') by (cbn [nsub RNum] in Er; congruence). subst r2.
    assert (Z : lsum (at_ k (fst c)) r' = 0).
    { rewrite (R1 k (take_mass (N:=RNum) v (c :: r0))) by (apply (map_nth_error (take_mass (N:=RNum) v)); exact El). destruct c as [j0 p]. cbn in Ec. subst p. cbn [take_mass nsub neqb n0 RNum].
      rewrite (proj2 (Reqb_true (v - v) 0)) by lra. apply cmass_notin. destruct (H _ (nth_error_In _ _ El)) as (_ & _ & ND). inversion ND; auto. }
    intro X. apply in_map_iff in X. destruct X as (e & Ee & He). apply (at_notin k (fst c) r' (fun e He => proj1 (R2 e He)) Z e He). refine (eq_trans (f_equal (fun x => nth_error x k) Ee) _). apply (map_nth_error fst k h Ek).
Qed.
Lemma cells_nodup : forall nk row, NoDup (map fst (cells (N:=RNum) nk row)).
Proof. intros. unfold cells. rewrite map_map. cbn [fst]. rewrite map_id. apply NoDup_filter, seq_NoDup. Qed.

(** the dictionary *)
Lemma key_eqb_spec : forall x y, key_eqb x y = true <-> x = y.
Proof. intros. unfold key_eqb. destruct (list_eq_dec Nat.eq_dec x y); split; intros; auto; congruence. Qed.
Lemma dict_add_at : forall phi d key v, lsum (fun e => phi (fst e) * snd e) (dict_add (N:=RNum) d key v) = lsum (fun e => phi (fst e) * snd e) d + phi key * v.
Proof.
  intros phi d key v. induction d as [|[k' w] d IH]; cbn [dict_add]; [cbn; lra|]. destruct (key_eqb k' key) eqn:E.
  - apply key_eqb_spec in E. subst. cbn. lra.
  - cbn [lsum]. rewrite IH. lra.
Qed.
Lemma dict_all : forall phi (tr : list (list nat * R)) d, lsum (fun e => phi (fst e) * snd e) (fold_left (fun d e => dict_add (N:=RNum) d (fst e) (snd e)) tr d) = lsum (fun e => phi (fst e) * snd e) d + lsum (fun e => phi (fst e) * snd e) tr.
Proof. induction tr as [|e tr IH]; intros d; cbn [fold_left lsum]; [lra|]. rewrite IH, dict_add_at. apply Rplus_assoc. Qed.
Lemma dict_keys : forall (tr : list (list nat * R)) d, NoDup (map fst d) -> (forall e, In e d -> 0 < snd e) -> (forall e, In e tr -> 0 < snd e) ->
  let d' := fold_left (fun d e => dict_add (N:=RNum) d (fst e) (snd e)) tr d in NoDup (map fst d') /\ (forall e, In e d' -> 0 < snd e) /\ (length d' <= length d + length tr)%nat
  /\ forall key, In key (map fst d') -> In key (map fst d) \/ In key (map fst tr).
Proof.
  assert (A : forall (d : list (list nat * R)) key v x, In x (map fst (dict_add (N:=RNum) d key v)) -> x = key \/ In x (map fst d)).
  { induction d as [|[k' w] d IH]; intros key v x; cbn [dict_add]; [cbn; intuition|]. destruct (key_eqb k' key); cbn; [intuition|]. intros [->|H]; [auto|]. apply IH in H. intuition. }
  assert (B : forall (d : list (list nat * R)) key v, NoDup (map fst d) -> (forall e, In e d -> 0 < snd e) -> 0 < v ->
     NoDup (map fst (dict_add (N:=RNum) d key v)) /\ (forall e, In e (dict_add (N:=RNum) d key v) -> 0 < snd e) /\ (length (dict_add (N:=RNum) d key v) <= S (length d))%nat).
  { induction d as [|[k' w] d IH]; intros key v ND P Hv; cbn [dict_add].
    - repeat split; [repeat constructor; auto|intros e [ <- | [] ]; auto|cbn; lia].
    - inversion ND; subst. assert (Pd : forall e, In e d -> 0 < snd e) by (intros; apply P; right; auto). assert (0 < w) by (apply (P (k', w)); left; auto). destruct (key_eqb k' key) eqn:E.
      + repeat split; [cbn; constructor; auto|intros e [ <- | He ]; [cbn; lra|auto]|cbn; lia].
      + destruct (IH key v H2 Pd Hv) as (I1 & I2 & I3). repeat split.
        * cbn. constructor; auto. intro X. apply A in X. destruct X as [X|X]; auto. apply (proj2 (key_eqb_spec k' key)) in X. congruence.
        * intros e [ <- | He ]; auto.
        * change (carrier RNum) with R in *. cbn [length]. lia. }
  induction tr as [|e tr IH]; intros d ND P Pt; cbv zeta; cbn [fold_left]; [repeat split; auto; cbn; lia|].
  destruct (B d (fst e) (snd e) ND P (Pt e (or_introl eq_refl))) as (B1 & B2 & B3).
  destruct (IH (dict_add (N:=RNum) d (fst e) (snd e)) B1 B2) as (I1 & I2 & I3 & I4); [intros; apply Pt; right; auto|]. repeat split; auto; [change (carrier RNum) with R in *; cbn [length]; lia|].
  intros key Hk. apply I4 in Hk. destruct Hk as [Hk|Hk]; [|right; right; auto]. apply A in Hk. destruct Hk as [->|Hk]; [right; left; auto|auto].
Qed.

(** ** _clean_discrete_measure *)
Section CleanP.
Variables (n : nat) (close : nat -> nat -> bool) (a : vec).
Inductive linked : nat -> nat -> Prop :=
| L_refl : forall i, (i < n)%nat -> linked i i
| L_step : forall i j r, linked i r -> (j < n)%nat -> close i j = true -> linked j r.
Notation cst := (cstate (N:=RNum)).
Notation step := (clean_step (N:=RNum) a).
Definition known (st : cst) (i : nat) : Prop := c_map st i <> None.
Definition share (f : nat -> option nat) (y : nat) : R := rsum n (fun k => match f k with Some z => if Nat.eqb z y then a k else 0 | None => 0 end).
Definition cinv (st : cst) : Prop :=
  (forall k y, c_map st k = Some y -> (k < n)%nat /\ exists r, nth_error (c_uniq st) y = Some r /\ linked k r) /\
  (forall y r, nth_error (c_uniq st) y = Some r -> c_map st r = Some y) /\
  length (c_b st) = length (c_uniq st) /\ (forall y, (y < length (c_uniq st))%nat -> nth y (c_b st) 0 = share (c_map st) y).
Lemma add_at_len : forall (b : list R) y v, length (add_at (N:=RNum) b y v) = length b.
Proof. induction b; intros [|y] v; cbn; auto. Qed.
Lemma add_at_nth : forall (b : list R) y v z, (y < length b)%nat -> nth z (add_at (N:=RNum) b y v) 0 = nth z b 0 + if Nat.eqb z y then v else 0.
Proof.
  induction b as [|x b IH]; intros y v z H; cbn in H; [lia|]. destruct y, z; cbn; try lra. apply IH. lia.
Qed.
Lemma share_set : forall f i y z, f i = None -> (i < n)%nat -> share (set_map f i y) z = share f z + if Nat.eqb y z then a i else 0.
Proof.
  intros f i y z Hi Hn. unfold share.
  rewrite (rsum_ext n _ (fun k => match f k with Some z0 => if Nat.eqb z0 z then a k else 0 | None => 0 end + (if Nat.eqb k i then (if Nat.eqb y z then a i else 0) else 0))).
  - rewrite rsum_plus. f_equal. rewrite (rsum_single n i); auto; [rewrite Nat.eqb_refl; auto|]. intros k _ Hk. destruct (Nat.eqb_spec k i); [congruence|auto].
  - intros k _. unfold set_map. destruct (Nat.eqb_spec k i) as [->|E]; [rewrite Hi; lra|lra].
Qed.
Lemma share_new : forall (st : cst), cinv st -> share (c_map st) (length (c_uniq st)) = 0.
Proof.
  intros st (I1 & _). unfold share. apply rsum_0; intros k _. destruct (c_map st k) as [z|] eqn:E; auto. destruct (I1 k z E) as (_ & r & Hr & _).
  destruct (Nat.eqb_spec z (length (c_uniq st))); auto. subst. assert (nth_error (c_uniq st) (length (c_uniq st)) <> None) by congruence. apply nth_error_Some in H. lia.
Qed.
Lemma step_inv : forall st i j, cinv st -> (i < n)%nat -> (j < n)%nat -> close i j = true -> cinv (step st (i, j)).
Proof.
  intros st i j HI Hi Hj Hc. pose proof (share_new st HI) as SN. destruct HI as (I1 & I2 & I3 & I4). unfold clean_step. destruct (c_map st i) as [y|] eqn:Ei.
  - destruct (c_map st j) as [z|] eqn:Ej; [repeat split; auto; [apply (I1 k y0 H)|apply (I1 k y0 H)]|].
    destruct (I1 i y Ei) as (_ & r & Hr & Lr). assert (Hy : (y < length (c_uniq st))%nat) by (apply nth_error_Some; congruence).
    repeat split; cbn [c_map c_uniq c_b] in *.
    + unfold set_map in H. destruct (Nat.eqb_spec k j); [subst; auto|]. apply (I1 k y0 H).
    + unfold set_map in H. destruct (Nat.eqb_spec k j) as [->|E]; [|apply (I1 k y0 H)]. injection H as <-. exists r. split; auto. apply (L_step i); auto.
    + intros z r' H. unfold set_map. destruct (Nat.eqb_spec r' j) as [->|E]; [|auto]. rewrite (I2 _ _ H) in Ej. discriminate.
    + rewrite add_at_len. auto.
    + intros z Hz. change (carrier RNum) with R in *. rewrite add_at_nth by (rewrite I3; auto). rewrite (share_set _ _ _ _ Ej Hj), I4 by auto. rewrite (Nat.eqb_sym z y). reflexivity.
  - repeat split; cbn [c_map c_uniq c_b] in *.
    + unfold set_map in H. destruct (Nat.eqb_spec k i); [subst; auto|]. apply (I1 k y H).
    + unfold set_map in H. destruct (Nat.eqb_spec k i) as [->|E].
      * injection H as <-. exists i. split; [|apply L_refl; auto]. rewrite nth_error_app2, Nat.sub_diag by lia. reflexivity.
      * destruct (I1 k y H) as (_ & r & Hr & Lr). exists r. split; auto. rewrite nth_error_app1; auto. apply nth_error_Some. congruence.
    + intros y r H. unfold set_map. destruct (Nat.lt_ge_cases y (length (c_uniq st))) as [L|L].
      * rewrite nth_error_app1 in H by auto. pose proof (I2 _ _ H) as E. destruct (Nat.eqb_spec r i) as [->|E']; [congruence|auto].
      * rewrite nth_error_app2 in H by auto. destruct (y - length (c_uniq st))%nat as [|q] eqn:Q; [|destruct q; discriminate]. injection H as <-. rewrite Nat.eqb_refl. f_equal. lia.
    + rewrite !app_length. cbn. change (carrier RNum) with R in *. rewrite I3. reflexivity.
    + intros z Hz. rewrite app_length in Hz. cbn in Hz. rewrite (share_set _ _ _ _ Ei Hi). change (carrier RNum) with R in *. destruct (Nat.lt_ge_cases z (length (c_uniq st))) as [L|L].
      * rewrite app_nth1 by (rewrite I3; auto). rewrite I4 by auto. destruct (Nat.eqb_spec (length (c_uniq st)) z); [lia|lra].
      * assert (z = length (c_uniq st)) by lia. subst z. rewrite SN, Nat.eqb_refl, app_nth2 by (rewrite I3; lia). rewrite I3, Nat.sub_diag. cbn. lra.
Qed.
Lemma step_known : forall st ij k, known st k -> known (step st ij) k.
Proof.
  intros st [i j] k H. unfold known, clean_step in *. destruct (c_map st i); [destruct (c_map st j)|]; cbn; auto; unfold set_map; destruct (Nat.eqb k _); auto; discriminate.
Qed.
Lemma fold_known : forall l st k, known st k -> known (fold_left step l st) k.
Proof. induction l; cbn; intros; auto. apply IHl, step_known; auto. Qed.
Lemma row_known : forall js st i, known st i -> c_uniq (fold_left step (map (pair i) js) st) = c_uniq st /\ forall j, In j js -> known (fold_left step (map (pair i) js) st) j.
Proof.
  induction js as [|j js IH]; intros st i H; [split; [reflexivity|intros j []]|]. cbn [map fold_left].
  destruct (IH (step st (i, j)) i (step_known _ _ _ H)) as [E K]. split.
  - rewrite E. unfold known in H. unfold clean_step. destruct (c_map st i); [|congruence]. destruct (c_map st j); reflexivity.
  - intros j' [<- | Hj]; [|auto]. apply fold_known. unfold known in *. unfold clean_step. destruct (c_map st i); [|congruence]. destruct (c_map st j) eqn:E2; cbn; [congruence|]. unfold set_map. rewrite Nat.eqb_refl. discriminate.
Qed.
Definition js (i : nat) : list nat := filter (fun j => (close i j && Nat.leb i j)%bool) (seq 0 n).
Lemma js_head : forall i, (i < n)%nat -> close i i = true -> exists r, js i = i :: r.
Proof.
  intros i Hi Hc. unfold js. replace n with (i + S (n - S i))%nat by lia. rewrite seq_app. cbn [seq Nat.add]. rewrite filter_app. cbn [filter]. rewrite Hc, Nat.leb_refl. cbn [andb].
  assert (E : filter (fun j => (close i j && (i <=? j)%nat)%bool) (seq 0 i) = []).
  { assert (F : forall l, (forall j, In j l -> (j < i)%nat) -> filter (fun j => (close i j && (i <=? j)%nat)%bool) l = []).
    { induction l as [|x l IH]; intros H; auto. cbn. destruct (Nat.leb_spec i x); [exfalso; specialize (H x (or_introl eq_refl)); lia|]. rewrite andb_false_r. apply IH. intros; apply H; right; auto. }
    apply F. intros j Hj. apply in_seq in Hj. lia. }
  rewrite E. cbn. eexists. reflexivity.
Qed.
Lemma js_in : forall i j, In j (js i) <-> (i <= j < n)%nat /\ close i j = true.
Proof. intros i j. unfold js. rewrite filter_In, in_seq, andb_true_iff, Nat.leb_le. split; intros; intuition; lia. Qed.
Definition rinv (i : nat) (st : cst) : Prop :=
  cinv st /\ (forall k, (k < i)%nat -> known st k) /\ (forall r, In r (c_uniq st) -> (r < i)%nat) /\
  (forall r j, In r (c_uniq st) -> (r < j)%nat -> (j < n)%nat -> close r j = true -> known st j) /\
  (forall y z r1 r2, (y < z)%nat -> nth_error (c_uniq st) y = Some r1 -> nth_error (c_uniq st) z = Some r2 -> (r1 < r2)%nat /\ close r1 r2 = false).
Lemma fold_inv : forall l st, cinv st -> (forall ij, In ij l -> (fst ij < n)%nat /\ (snd ij < n)%nat /\ close (fst ij) (snd ij) = true) -> cinv (fold_left step l st).
Proof. induction l as [|[i j] l IH]; intros st HI H; cbn; auto. destruct (H (i, j) (or_introl eq_refl)) as (A & B & C). apply IH; [apply step_inv; auto|]. intros; apply H; right; auto. Qed.
Lemma row_rinv : forall i st, (i < n)%nat -> close i i = true -> rinv i st -> rinv (S i) (fold_left step (map (pair i) (js i)) st).
Proof.
  intros i st Hi Hc (R1 & R2 & R3 & R4 & R5).
  assert (CI : cinv (fold_left step (map (pair i) (js i)) st)).
  { apply fold_inv; auto. intros ij H. apply in_map_iff in H. destruct H as (j & <- & Hj). apply js_in in Hj. cbn. intuition lia. }
  split; auto. destruct (c_map st i) as [y|] eqn:Ei.
  - assert (K : known st i) by (unfold known; congruence). destruct (row_known (js i) st i K) as [E Kj]. repeat split.
    + intros k Hk. apply fold_known. destruct (Nat.eq_dec k i); [subst; auto|apply R2; lia].
    + rewrite E. intros r Hr. specialize (R3 r Hr). lia.
    + rewrite E. intros r j Hr Hj Hn Hcl. apply fold_known. apply (R4 r j); auto.
    + rewrite E in *. apply (R5 y0 z r1 r2); auto.
    + rewrite E in *. apply (R5 y0 z r1 r2); auto.
  - destruct (js_head i Hi Hc) as [r Er]. assert (Hjs : forall j, In j r -> In j (js i)) by (rewrite Er; right; auto).
    set (st1 := step st (i, i)). assert (E1 : st1 = mkC (N:=RNum) (set_map (c_map st) i (length (c_uniq st))) (c_uniq st ++ [i]) (c_b st ++ [a i])) by (unfold st1, clean_step; rewrite Ei; reflexivity).
    assert (K : known st1 i) by (rewrite E1; unfold known; cbn; unfold set_map; rewrite Nat.eqb_refl; discriminate).
    assert (EF : fold_left step (map (pair i) (js i)) st = fold_left step (map (pair i) r) st1) by (rewrite Er; reflexivity). rewrite EF in *.
    destruct (row_known r st1 i K) as [E Kj]. assert (EU : c_uniq (fold_left step (map (pair i) r) st1) = c_uniq st ++ [i]) by (rewrite E, E1; reflexivity).
    assert (Kn : forall k, known st k -> known (fold_left step (map (pair i) r) st1) k) by (intros; apply fold_known, step_known; auto).
    repeat split.
    + intros k Hk. destruct (Nat.eq_dec k i); [subst; apply fold_known; auto|apply Kn, R2; lia].
    + rewrite EU. intros x Hx. apply in_app_or in Hx. destruct Hx as [Hx|[<- | []]]; [specialize (R3 x Hx); lia|lia].
    + rewrite EU. intros x j Hx Hj Hn Hcl. apply in_app_or in Hx. destruct Hx as [Hx|[<- | []]]; [apply Kn, (R4 x j); auto|].
      apply Kj. assert (X : In j (js i)) by (apply js_in; split; [lia|auto]). rewrite Er in X. destruct X as [X|X]; [lia|auto].
    + rewrite EU in *. destruct (Nat.lt_ge_cases z (length (c_uniq st))) as [L|L].
      * rewrite nth_error_app1 in H0, H1 by lia. apply (R5 y z r1 r2); auto.
      * rewrite nth_error_app2 in H1 by lia. destruct (z - length (c_uniq st))%nat as [|q] eqn:Q; [|destruct q; discriminate]. injection H1 as <-. rewrite nth_error_app1 in H0 by lia. apply R3, (nth_error_In _ _ H0).
    + rewrite EU in *. destruct (Nat.lt_ge_cases z (length (c_uniq st))) as [L|L].
      * rewrite nth_error_app1 in H0, H1 by lia. apply (R5 y z r1 r2); auto.
      * rewrite nth_error_app2 in H1 by lia. destruct (z - length (c_uniq st))%nat as [|q] eqn:Q; [|destruct q; discriminate]. injection H1 as <-. rewrite nth_error_app1 in H0 by lia.
        destruct (close r1 i) eqn:Z; auto. exfalso. pose proof (nth_error_In _ _ H0) as Hin. apply (R4 r1 i Hin (R3 r1 Hin) Hi Z). exact Ei.
Qed.
Lemma fold_flat : forall (A B : Type) (f : A -> B -> A) (g : nat -> list B) l s, fold_left f (flat_map g l) s = fold_left (fun s i => fold_left f (g i) s) l s.
Proof. induction l; intros; cbn; auto. rewrite fold_left_app. apply IHl. Qed.
Lemma clean_rinv : (forall i, (i < n)%nat -> close i i = true) -> rinv n (clean (N:=RNum) n close a).
Proof.
  intros Hc. unfold clean, close_pairs. rewrite fold_flat.
  assert (H : forall m, (m <= n)%nat -> rinv m (fold_left (fun s i => fold_left step (map (pair i) (js i)) s) (seq 0 m) (mkC (N:=RNum) (fun _ => None) [] []))).
  { induction m; intros Hm.
    - unfold rinv, cinv; cbn. split; [split; [intros; discriminate|split; [intros [|y] r H; discriminate|split; [reflexivity|intros; lia]]]|].
      split; [intros; lia|]. split; [intros r []|]. split; [intros r j []|]. intros [|y] z r1 r2 _ H; discriminate.
    - rewrite seq_S, fold_left_app. cbn. apply row_rinv; [lia|apply Hc; lia|apply IHm; lia]. }
  apply H. lia.
Qed.
End CleanP.
