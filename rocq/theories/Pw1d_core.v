(** Partial matchings of points on a line, cost |x - y|: the greedy rule is optimal.

    [N] sorted points; [isx i] tells the side of point i; a selection of points is a boolean
    function [A].  [DD A k] is the number of selected x-points minus the number of selected
    y-points among the first k; the cost of a balanced selection is the integral of |DD|. *)
From Coq Require Import Reals Lra Lia List Arith ZArith Permutation Bool.
From Verif Require Import Sums Spec Pw1d_model.
Import ListNotations.
Local Open Scope R_scope.

Fixpoint zsum (n : nat) (f : nat -> Z) : Z := match n with O => 0%Z | S k => (zsum k f + f k)%Z end.
Lemma zsum_ext : forall n f g, (forall i, (i < n)%nat -> f i = g i) -> zsum n f = zsum n g.
Proof. induction n; intros f g H; cbn; auto. rewrite (IHn f g), (H n) by auto. reflexivity. Qed.
Lemma zsum_plus : forall n f g, zsum n (fun i => (f i + g i)%Z) = (zsum n f + zsum n g)%Z.
Proof. induction n; intros; cbn; rewrite ?IHn; lia. Qed.
Lemma zsum_minus : forall n f g, zsum n (fun i => (f i - g i)%Z) = (zsum n f - zsum n g)%Z.
Proof. induction n; intros; cbn; rewrite ?IHn; lia. Qed.
Definition zl (l : list Z) : Z := fold_right Z.add 0%Z l.
Lemma zl_app : forall l l', zl (l ++ l') = (zl l + zl l')%Z.
Proof. induction l; intros; cbn; auto. fold (zl (l ++ l')) (zl l). rewrite IHl. lia. Qed.
Lemma zl_perm : forall l l', Permutation l l' -> zl l = zl l'.
Proof. induction 1; cbn; try fold (zl l) (zl l'); try fold (zl l); try lia. Qed.
Lemma zsum_filter : forall (c : nat -> Z) f, (forall i, f i = false -> c i = 0%Z) -> forall m, zsum m c = zl (map c (filter f (seq 0 m))).
Proof.
  intros c f H. induction m; [reflexivity|]. rewrite seq_S, filter_app, map_app, zl_app, <- IHm. cbn. destruct (f m) eqn:E; cbn; [lia|]. rewrite (H m E). lia.
Qed.
Definition rl (l : list R) : R := fold_right Rplus 0 l.

(** ** matching the up and the down steps of a path with steps -1, 0, 1 *)
Section Stack.
Variables (e : nat -> Z) (zeta : nat -> R).
Hypothesis He : forall i, (e i = 1 \/ e i = 0 \/ e i = -1)%Z.
Let E m := zsum m e.
Let ends (L : list (nat * nat)) := flat_map (fun uv => [fst uv; snd uv]) L.

Lemma stack_run : forall m, exists (st : list nat) (L : list (nat * nat)) (sg : Z),
  (sg = 1 \/ sg = -1)%Z /\ E m = (sg * Z.of_nat (length st))%Z
  /\ (forall u, In u st -> (u < m)%nat /\ e u = sg /\ forall g, (u <= g < m)%nat -> (1 <= sg * E (S g))%Z)
  /\ (forall u v, In (u, v) L -> (u < v < m)%nat /\ e v = (- e u)%Z /\ e u <> 0%Z /\ forall g, (u <= g < v)%nat -> (1 <= e u * E (S g))%Z)
  /\ Permutation (filter (fun i => negb (e i =? 0)%Z) (seq 0 m)) (st ++ ends L)
  /\ rsum m (fun g => (zeta (S g) - zeta g) * IZR (Z.abs (E (S g))))
     = rl (map (fun uv => zeta (snd uv) - zeta (fst uv)) L) + rl (map (fun u => zeta m - zeta u) st).
Proof.
  induction m as [|m (st & L & sg & Hsg & Em & Hst & HL & HP & HR)].
  - exists [], [], 1%Z. repeat split; auto; try (intros; cbn in *; contradiction). cbn. lra.
  - assert (ES : E (S m) = (E m + e m)%Z) by reflexivity.
    assert (PF : forall l, (if (e m =? 0)%Z then Permutation l (st ++ ends L) else Permutation l (m :: st ++ ends L)) ->
               Permutation (filter (fun i => negb (e i =? 0)%Z) (seq 0 (S m))) l).
    { intros l Hl. rewrite seq_S, filter_app. cbn [Nat.add filter]. destruct (e m =? 0)%Z; cbn [negb].
      - rewrite app_nil_r. rewrite HP. symmetry; auto.
      - rewrite Hl. rewrite HP. rewrite Permutation_app_comm. reflexivity. }
    assert (SH : forall l, rl (map (fun u => zeta (S m) - zeta u) l) = rl (map (fun u => zeta m - zeta u) l) + INR (length l) * (zeta (S m) - zeta m)).
    { induction l as [|u l IH]; [cbn; ring|]. change (length (u :: l)) with (S (length l)). rewrite S_INR. cbn [map]. unfold rl in *. cbn [fold_right]. rewrite IH. ring. }
    assert (AB : forall k s, (s = 1 \/ s = -1)%Z -> IZR (Z.abs (s * Z.of_nat k)) = INR k).
    { intros k s Hs. rewrite INR_IZR_INZ. f_equal. destruct Hs; subst; lia. }
    cbn [rsum].
    destruct (Z.eq_dec (e m) 0) as [Z0|NZ].
    + (* no step *)
      exists st, L, sg. split; [auto|]. split; [rewrite ES, Z0, Em; lia|]. split.
      { intros u Hu. destruct (Hst u Hu) as (A & B & C). split; [lia|]. split; [auto|]. intros g Hg. destruct (Nat.eq_dec g m) as [->|]; [|apply C; lia].
        rewrite ES, Z0, Em. destruct st; [destruct Hu|]. cbn [length]. destruct Hsg; subst; lia. }
      split. { intros u v Huv. destruct (HL u v Huv) as (A & B & C & D). repeat split; auto; lia. }
      split. { apply PF. rewrite Z0. cbn. reflexivity. }
      rewrite HR, SH. rewrite ES, Z0, Z.add_0_r, Em, AB by auto. ring.
    + destruct st as [|u st].
      * (* empty stack: push *)
        exists [m], L, (e m). split; [destruct (He m) as [?|[?|?]]; lia|]. cbn [length] in *. split; [rewrite ES, Em; lia|]. split.
        { intros u [<-|[]]. split; [lia|]. split; [auto|]. intros g Hg. assert (g = m) by lia. subst. rewrite ES, Em. destruct (He m) as [?|[?|?]]; lia. }
        split. { intros u v Huv. destruct (HL u v Huv) as (A & B & C & D). repeat split; auto; lia. }
        split. { apply PF. rewrite (proj2 (Z.eqb_neq _ _) NZ). reflexivity. }
        rewrite HR. rewrite ES, Em. cbn [length map rl fold_right Z.of_nat]. replace (Z.abs (sg * 0 + e m)) with 1%Z by (destruct (He m) as [?|[?|?]]; lia).
        unfold rl. cbn. ring.
      * destruct (Z.eq_dec (e m) sg) as [Es|Ns].
        -- (* same direction: push *)
          exists (m :: u :: st), L, sg. split; [auto|]. split; [rewrite ES, Em; cbn [length]; destruct Hsg; lia|]. split.
          { intros w [<-|Hw].
            - split; [lia|]. split; [auto|]. intros g Hg. assert (g = m) by lia. subst g. rewrite ES, Em. cbn [length]. destruct Hsg; lia.
            - destruct (Hst w Hw) as (A & B & C). split; [lia|]. split; [auto|]. intros g Hg. destruct (Nat.eq_dec g m) as [->|]; [|apply C; lia].
              rewrite ES, Em. cbn [length]. destruct Hsg; lia. }
          split. { intros a b Huv. destruct (HL a b Huv) as (A & B & C & D). repeat split; auto; lia. }
          split. { apply PF. rewrite (proj2 (Z.eqb_neq _ _) NZ). reflexivity. }
          rewrite HR, SH. replace (E (S m)) with (sg * Z.of_nat (length (m :: u :: st)))%Z by (rewrite ES, Em; cbn [length]; destruct Hsg; lia).
          rewrite AB by auto. cbn [map]. unfold rl. cbn [fold_right]. cbn [length]. rewrite !S_INR. ring.
        -- (* opposite direction: pop *)
          assert (Eo : e m = (- sg)%Z) by (destruct (He m) as [?|[?|?]], Hsg; lia).
          destruct (Hst u (or_introl eq_refl)) as (Au & Bu & Cu).
          exists st, ((u, m) :: L), sg. split; [auto|]. split; [rewrite ES, Em; cbn [length]; destruct Hsg; lia|]. split.
          { intros w Hw. destruct (Hst w (or_intror Hw)) as (A & B & C). split; [lia|]. split; [auto|]. intros g Hg. destruct (Nat.eq_dec g m) as [->|]; [|apply C; lia].
            rewrite ES, Em. cbn [length]. destruct st; [destruct Hw|]. cbn [length]. destruct Hsg; lia. }
          split.
          { intros a b [Hab|Hab].
            - injection Hab as <- <-. split; [lia|]. split; [lia|]. split; [destruct Hsg; lia|]. rewrite Bu. apply Cu.
            - destruct (HL a b Hab) as (A & B & C & D). repeat split; auto; lia. }
          split.
          { apply PF. rewrite (proj2 (Z.eqb_neq _ _) NZ). cbn [ends flat_map fst snd app]. fold (ends L).
            change (u :: m :: ends L) with ([u; m] ++ ends L). rewrite (Permutation_app_comm st ([u; m] ++ ends L)). cbn [app].
            rewrite perm_swap. apply perm_skip. apply perm_skip. apply Permutation_app_comm. }
          rewrite HR, SH. replace (E (S m)) with (sg * Z.of_nat (length st))%Z by (rewrite ES, Em; cbn [length]; destruct Hsg; lia).
          rewrite AB by auto. cbn [map fst snd]. unfold rl. cbn [fold_right]. ring.
Qed.

(** a path that returns to 0: every step is matched *)
Lemma path_pairs : forall m, E m = 0%Z -> exists L,
  (forall u v, In (u, v) L -> (u < v < m)%nat /\ e v = (- e u)%Z /\ e u <> 0%Z /\ forall g, (u <= g < v)%nat -> (1 <= e u * E (S g))%Z)
  /\ Permutation (filter (fun i => negb (e i =? 0)%Z) (seq 0 m)) (ends L)
  /\ rsum m (fun g => (zeta (S g) - zeta g) * IZR (Z.abs (E (S g)))) = rl (map (fun uv => zeta (snd uv) - zeta (fst uv)) L).
Proof.
  intros m H0. destruct (stack_run m) as (st & L & sg & Hsg & Em & Hst & HL & HP & HR).
  assert (st = []) by (destruct st; [auto|cbn [length] in Em; destruct Hsg; lia]). subst st. exists L. cbn [app map] in *. split; [auto|]. split; [auto|]. rewrite HR. cbn. lra.
Qed.
End Stack.

Section Core.
Variables (N : nat) (isx : nat -> bool) (z : nat -> R).
Hypothesis zmono : forall i, (S i < N)%nat -> z i <= z (S i).

Definition sgn (b : bool) : Z := if b then 1%Z else (-1)%Z.
Definition steps (A : nat -> bool) (i : nat) : Z := if A i then sgn (isx i) else 0%Z.
Definition DD (A : nat -> bool) (k : nat) : Z := zsum k (steps A).
Definition len (g : nat) : R := if (S g <? N)%nat then z (S g) - z g else 0.
Definition icost (A : nat -> bool) : R := rsum N (fun g => len g * IZR (Z.abs (DD A (S g)))).
Definition cnt (A : nat -> bool) : Z := zsum N (fun i => if A i then 1%Z else 0%Z).
(** a selection of k points on each side *)
Definition sel (k : Z) (A : nat -> bool) : Prop := DD A N = 0%Z /\ cnt A = (2 * k)%Z.
Definition opt (k : Z) (A : nat -> bool) : Prop := sel k A /\ forall T, sel k T -> icost A <= icost T.
Definition add2 (A : nat -> bool) (i j : nat) : nat -> bool := upd (upd A i true) j true.
Definition ind (b : bool) : Z := if b then 1%Z else 0%Z.

Lemma len_nn : forall g, 0 <= len g.
Proof. intros g. unfold len. destruct (Nat.ltb_spec (S g) N); [|lra]. pose proof (zmono g H). lra. Qed.

(** setting one point *)
Lemma zsum_set : forall (f h : nat -> Z) i, (forall k, k <> i -> f k = h k) -> forall m,
  zsum m f = (zsum m h + (if (i <? m)%nat then f i - h i else 0))%Z.
Proof.
  intros f h i H. induction m; [reflexivity|]. cbn [zsum]. rewrite IHm. destruct (Nat.eq_dec m i) as [->|D].
  - rewrite (proj2 (Nat.ltb_ge i i)), (proj2 (Nat.ltb_lt i (S i))) by lia. lia.
  - rewrite (H m D). destruct (Nat.ltb_spec i m), (Nat.ltb_spec i (S m)); lia.
Qed.
Lemma DD_set : forall A i b m, DD (upd A i b) m = (DD A m + (if (i <? m)%nat then sgn (isx i) * (ind b - ind (A i)) else 0))%Z.
Proof.
  intros A i b m. unfold DD. rewrite (zsum_set (steps (upd A i b)) (steps A) i).
  - f_equal. destruct (i <? m)%nat; auto. unfold steps, upd. rewrite Nat.eqb_refl. unfold ind. destruct b, (A i); lia.
  - intros k Hk. unfold steps, upd. rewrite (proj2 (Nat.eqb_neq k i) Hk). reflexivity.
Qed.
Lemma cnt_set : forall A i b, (i < N)%nat -> cnt (upd A i b) = (cnt A + ind b - ind (A i))%Z.
Proof.
  intros A i b Hi. unfold cnt. rewrite (zsum_set (fun k => if upd A i b k then 1%Z else 0%Z) (fun k => if A k then 1%Z else 0%Z) i).
  - rewrite (proj2 (Nat.ltb_lt i N) Hi). unfold upd. rewrite Nat.eqb_refl. unfold ind. lia.
  - intros k Hk. unfold upd. rewrite (proj2 (Nat.eqb_neq k i) Hk). reflexivity.
Qed.
Lemma DD_change2 : forall A i j b c m, i <> j ->
  DD (upd (upd A i b) j c) m = (DD A m + (if (i <? m)%nat then sgn (isx i) * (ind b - ind (A i)) else 0)
     + (if (j <? m)%nat then sgn (isx j) * (ind c - ind (A j)) else 0))%Z.
Proof.
  intros A i j b c m D. rewrite !DD_set. unfold upd at 1. rewrite (proj2 (Nat.eqb_neq j i)) by auto. reflexivity.
Qed.
Lemma cnt_change2 : forall A i j b c, i <> j -> (i < N)%nat -> (j < N)%nat ->
  cnt (upd (upd A i b) j c) = (cnt A + ind b - ind (A i) + ind c - ind (A j))%Z.
Proof.
  intros A i j b c D Hi Hj. rewrite !cnt_set by auto. unfold upd at 1. rewrite (proj2 (Nat.eqb_neq j i)) by auto. lia.
Qed.
Lemma sgn_opp : forall a b, a <> b -> sgn b = (- sgn a)%Z.
Proof. intros [] [] H; cbn; congruence. Qed.

Lemma sel_add : forall k A i j, sel k A -> i <> j -> (i < N)%nat -> (j < N)%nat -> A i = false -> A j = false -> isx i <> isx j -> sel (k + 1) (add2 A i j).
Proof.
  intros k A i j [HD HC] D Hi Hj Ai Aj Hs. split; unfold add2.
  - rewrite DD_change2 by auto. rewrite (proj2 (Nat.ltb_lt i N) Hi), (proj2 (Nat.ltb_lt j N) Hj), Ai, Aj, HD, (sgn_opp _ _ Hs). unfold ind. lia.
  - rewrite cnt_change2 by auto. rewrite Ai, Aj, HC. unfold ind. lia.
Qed.

Lemma pos_pair : forall (c : nat -> Z) L, (0 < zl (map c (flat_map (fun uv : nat * nat => [fst uv; snd uv]) L)))%Z ->
  exists u v, In (u, v) L /\ (0 < c u + c v)%Z.
Proof.
  induction L as [|[u v] L IH]; intros G; [cbn in G; lia|].
  cbn [flat_map fst snd app map] in G. unfold zl in G. cbn [fold_right] in G. fold (zl (map c (flat_map (fun uv : nat * nat => [fst uv; snd uv]) L))) in G.
  destruct (Z_lt_dec 0 (c u + c v)) as [P|P]; [exists u, v; split; [left; auto|auto]|].
  destruct IH as (u' & v' & I' & P'); [lia|]. exists u', v'. split; [right; auto|auto].
Qed.

(** the exchange argument *)
Lemma exchange_gen : forall k j A T, sel k A -> sel j T -> (k < j)%Z ->
  exists u v T', (u < v < N)%nat /\ A u = false /\ A v = false /\ isx u <> isx v /\ sel (j - 1) T'
    /\ icost (add2 A u v) + icost T' <= icost A + icost T.
Proof.
  intros k j A T [DA CA] [DT CT] Hkj.
  set (e := fun i => (steps T i - steps A i)%Z).
  assert (He : forall i, (e i = 1 \/ e i = 0 \/ e i = -1)%Z).
  { intros i. unfold e, steps, sgn. destruct (T i), (A i), (isx i); lia. }
  assert (EE : forall m, zsum m e = (DD T m - DD A m)%Z) by (intros m; unfold e; rewrite zsum_minus; reflexivity).
  destruct (path_pairs e (fun g => 0) He N) as (L & HL & HP & _); [rewrite EE; lia|].
  set (c := fun i => (ind (T i) - ind (A i))%Z).
  destruct (pos_pair c L) as (u & v & Iuv & Puv).
  { assert (SC : (0 < zsum N c)%Z) by (unfold c; rewrite zsum_minus; unfold ind; fold (cnt T) (cnt A); lia).
    rewrite (zsum_filter c (fun i => negb (e i =? 0)%Z)) in SC.
    2:{ intros i Hi. apply negb_false_iff in Hi. apply Z.eqb_eq in Hi. unfold c. unfold e, steps, sgn in Hi. destruct (T i), (A i), (isx i); cbn; lia. }
    rewrite (zl_perm _ _ (Permutation_map c HP)) in SC. lia. }
  destruct (HL u v Iuv) as (Huv & Ev & NZ & Hg).
  assert (F : T u = true /\ A u = false /\ T v = true /\ A v = false /\ isx u <> isx v).
  { unfold c, e, steps, sgn, ind in *. destruct (T u), (A u), (T v), (A v), (isx u), (isx v); try lia; repeat split; congruence. }
  destruct F as (Tu & Au & Tv & Av & Hs). set (T' := upd (upd T u false) v false). exists u, v, T'. split; [lia|]. split; [auto|]. split; [auto|]. split; [auto|].
  assert (ST : sel (j - 1) T').
  { split; unfold T'.
    - rewrite DD_change2 by lia. rewrite (proj2 (Nat.ltb_lt u N)), (proj2 (Nat.ltb_lt v N)), Tu, Tv, DT, (sgn_opp _ _ Hs) by lia. unfold ind. lia.
    - rewrite cnt_change2 by lia. rewrite Tu, Tv, CT. unfold ind. lia. }
  split; [exact ST|].
  assert (X : icost (add2 A u v) + icost T' <= icost A + icost T).
  { unfold icost. rewrite <- !rsum_plus. apply rsum_le. intros g Hgn. rewrite <- !Rmult_plus_distr_l. apply Rmult_le_compat_l; [apply len_nn|].
    rewrite <- !plus_IZR. apply IZR_le. unfold add2, T'. rewrite !DD_change2 by lia. rewrite Au, Av, Tu, Tv, (sgn_opp _ _ Hs). unfold ind.
    assert (Eu : e u = sgn (isx u)) by (unfold e, steps; rewrite Tu, Au; lia).
    destruct (Nat.ltb_spec u (S g)), (Nat.ltb_spec v (S g)); try lia.
    specialize (Hg g ltac:(lia)). rewrite EE, Eu in Hg. unfold sgn in *. destruct (isx u); lia. }
  exact X.
Qed.
Lemma exchange : forall k A T, opt k A -> sel (k + 1) T ->
  exists u v, (u < v < N)%nat /\ A u = false /\ A v = false /\ isx u <> isx v /\ icost (add2 A u v) <= icost T.
Proof.
  intros k A T [SA OA] ST. destruct (exchange_gen k (k + 1) A T SA ST ltac:(lia)) as (u & v & T' & H1 & H2 & H3 & H4 & H5 & H6).
  exists u, v. repeat split; auto; try lia. replace (k + 1 - 1)%Z with k in H5 by lia. specialize (OA T' H5). lra.
Qed.
(** the optimal cost is convex in the number of pairs *)
Lemma opt_convex : forall k A B C, opt k A -> opt (k + 1) B -> opt (k + 2) C -> icost B - icost A <= icost C - icost B.
Proof.
  intros k A B C [SA _] [_ OB] [SC _]. destruct (exchange_gen k (k + 2) A C SA SC ltac:(lia)) as (u & v & T' & H1 & H2 & H3 & H4 & H5 & H6).
  replace (k + 2 - 1)%Z with (k + 1)%Z in H5 by lia. pose proof (OB T' H5). pose proof (OB (add2 A u v) (sel_add k A u v SA ltac:(lia) ltac:(lia) ltac:(lia) H2 H3 H4)). lra.
Qed.

(** between two free points, one of which is on side s: moving the imbalance across does not help *)
Lemma seg_left : forall k A u i, opt k A -> (forall g, (g < N)%nat -> A g = false -> DD A g = 0%Z) ->
  (u < i < N)%nat -> A u = false -> A i = false ->
  0 <= rsum N (fun g => if (u <=? g)%nat && (g <? i)%nat then len g * IZR (Z.abs (DD A (S g) + sgn (isx u)) - Z.abs (DD A (S g))) else 0).
Proof.
  intros k A u i [[DA CA] OA] ZB Hui Au Ai. set (s := sgn (isx u)).
  assert (Hs : (s = 1 \/ s = -1)%Z) by (unfold s, sgn; destruct (isx u); auto).
  (* the last selected point of the side of u before i *)
  assert (LAST : exists w, (u <= w < i)%nat /\ (w = u \/ (A w = true /\ isx w = isx u)) /\ forall h, (w < h < i)%nat -> A h = true -> isx h <> isx u).
  { assert (G : forall d, (d <= i - u)%nat -> exists w, (u <= w < i)%nat /\ (w = u \/ (A w = true /\ isx w = isx u)) /\ forall h, (w < h)%nat -> (h < u + d)%nat -> A h = true -> isx h <> isx u).
    { induction d as [|d IH]; intros Hd; [exists u; split; [lia|]; split; [auto|]; intros; lia|].
      destruct IH as (w & W1 & W2 & W3); [lia|].
      destruct (A (u + d)%nat) eqn:Ad; [destruct (Bool.bool_dec (isx (u + d)%nat) (isx u)) as [Es|Ns]|].
      - exists (u + d)%nat. split; [lia|]. split; [right; auto|]. intros; lia.
      - exists w. split; [auto|]. split; [auto|]. intros h H1 H2 H3. destruct (Nat.eq_dec h (u + d)) as [->|]; [auto|apply W3; auto; lia].
      - exists w. split; [auto|]. split; [auto|]. intros h H1 H2 H3. destruct (Nat.eq_dec h (u + d)) as [->|]; [congruence|apply W3; auto; lia]. }
    destruct (G (i - u)%nat) as (w & W1 & W2 & W3); [lia|]. exists w. split; [auto|]. split; [auto|]. intros h Hh. apply W3; lia. }
  destruct LAST as (w & Hw & Ww & Wl).
  (* beyond w the imbalance has the sign of s *)
  assert (SG : forall g, (w <= g < i)%nat -> (0 <= s * DD A (S g))%Z).
  { intros g Hg. assert (G : forall d, (S g + d <= i)%nat -> (s * DD A (S g + d) <= s * DD A (S g))%Z).
    { induction d as [|d IH]; intros Hd; [rewrite Nat.add_0_r; lia|]. replace (S g + S d)%nat with (S (S g + d)) by lia.
      unfold DD at 1. cbn [zsum]. fold (DD A (S g + d)). specialize (IH ltac:(lia)). unfold steps. destruct (A (S g + d)%nat) eqn:E; [|lia].
      pose proof (Wl (S g + d)%nat ltac:(lia) E) as Q. unfold s in *. unfold sgn in *. destruct (isx u), (isx (S g + d)%nat); try congruence; lia. }
    specialize (G (i - S g)%nat ltac:(lia)). replace (S g + (i - S g))%nat with i in G by lia. rewrite (ZB i) in G by (auto; lia). lia. }
  assert (R2 : 0 <= rsum N (fun g => if (w <=? g)%nat && (g <? i)%nat then len g * IZR (Z.abs (DD A (S g) + s) - Z.abs (DD A (S g))) else 0)).
  { apply rsum_nonneg. intros g Hg. destruct (Nat.leb_spec w g), (Nat.ltb_spec g i); cbn [andb]; try lra.
    apply Rmult_le_pos; [apply len_nn|]. apply IZR_le. specialize (SG g ltac:(lia)). destruct Hs as [-> | ->]; lia. }
  assert (R1 : 0 <= rsum N (fun g => if (u <=? g)%nat && (g <? w)%nat then len g * IZR (Z.abs (DD A (S g) + s) - Z.abs (DD A (S g))) else 0)).
  { destruct Ww as [->|[Aw Sw]].
    { right. symmetry. apply rsum_0. intros g Hg. destruct (Nat.leb_spec u g), (Nat.ltb_spec g u); cbn; auto; lia. }
    assert (D : u <> w) by congruence.
    set (A' := upd (upd A u true) w false).
    assert (SA : sel k A').
    { split; unfold A'.
      - rewrite DD_change2 by auto. rewrite (proj2 (Nat.ltb_lt u N)), (proj2 (Nat.ltb_lt w N)), Au, Aw, DA, Sw by lia. unfold ind. lia.
      - rewrite cnt_change2 by lia. rewrite Au, Aw, CA. unfold ind. lia. }
    specialize (OA A' SA).
    assert (X : icost A' - icost A = rsum N (fun g => if (u <=? g)%nat && (g <? w)%nat then len g * IZR (Z.abs (DD A (S g) + s) - Z.abs (DD A (S g))) else 0)).
    { unfold icost. rewrite <- rsum_minus. apply rsum_ext. intros g Hg. rewrite <- Rmult_minus_distr_l, <- minus_IZR.
      unfold A'. rewrite DD_change2 by auto. rewrite Au, Aw, Sw. fold s. unfold ind.
      destruct (Nat.leb_spec u g), (Nat.ltb_spec g w), (Nat.ltb_spec u (S g)), (Nat.ltb_spec w (S g)); cbn [andb]; try lia.
      - f_equal. f_equal. lia.
      - rewrite <- (Rmult_0_r (len g)). f_equal. apply IZR_eq. lia.
      - rewrite <- (Rmult_0_r (len g)). f_equal. apply IZR_eq. lia. }
    lra. }
  replace (rsum N (fun g => if (u <=? g)%nat && (g <? i)%nat then len g * IZR (Z.abs (DD A (S g) + s) - Z.abs (DD A (S g))) else 0))
    with (rsum N (fun g => if (u <=? g)%nat && (g <? w)%nat then len g * IZR (Z.abs (DD A (S g) + s) - Z.abs (DD A (S g))) else 0)
        + rsum N (fun g => if (w <=? g)%nat && (g <? i)%nat then len g * IZR (Z.abs (DD A (S g) + s) - Z.abs (DD A (S g))) else 0)); [lra|].
  rewrite <- rsum_plus. apply rsum_ext. intros g Hg.
  destruct (Nat.leb_spec u g), (Nat.ltb_spec g w), (Nat.leb_spec w g), (Nat.ltb_spec g i); cbn [andb]; try lia; ring.
Qed.

Lemma seg_right : forall k A j v, opt k A -> (forall g, (g < N)%nat -> A g = false -> DD A g = 0%Z) ->
  (j < v < N)%nat -> A j = false -> A v = false ->
  0 <= rsum N (fun g => if (j <=? g)%nat && (g <? v)%nat then len g * IZR (Z.abs (DD A (S g) - sgn (isx v)) - Z.abs (DD A (S g))) else 0).
Proof.
  intros k A j v [[DA CA] OA] ZB Hjv Aj Av. set (s := sgn (isx v)).
  assert (Hs : (s = 1 \/ s = -1)%Z) by (unfold s, sgn; destruct (isx v); auto).
  (* the first selected point of the side of v after j *)
  assert (FST : exists w, (j < w <= v)%nat /\ (w = v \/ (A w = true /\ isx w = isx v)) /\ forall h, (j < h < w)%nat -> A h = true -> isx h <> isx v).
  { assert (G : forall d, (d <= v - j)%nat -> (exists w, (j < w <= j + d)%nat /\ (w = v \/ (A w = true /\ isx w = isx v)) /\ forall h, (j < h < w)%nat -> A h = true -> isx h <> isx v)
        \/ (forall h, (j < h <= j + d)%nat -> A h = true -> isx h <> isx v)).
    { induction d as [|d IH]; intros Hd; [right; intros; lia|]. destruct IH as [(w & W1 & W2 & W3)|NO]; [lia|left; exists w; repeat split; auto; lia|].
      destruct (A (j + S d)%nat) eqn:Ad; [destruct (Bool.bool_dec (isx (j + S d)%nat) (isx v)) as [Es|Ns]|].
      - left. exists (j + S d)%nat. split; [lia|]. split; [right; auto|]. intros h Hh. apply NO. lia.
      - right. intros h Hh H3. destruct (Nat.eq_dec h (j + S d)) as [->|]; [auto|apply NO; auto; lia].
      - right. intros h Hh H3. destruct (Nat.eq_dec h (j + S d)) as [->|]; [congruence|apply NO; auto; lia]. }
    destruct (G (v - j)%nat) as [(w & W1 & W2 & W3)|NO]; [lia|exists w; repeat split; auto; lia|].
    exists v. split; [lia|]. split; [auto|]. intros h Hh. apply NO. lia. }
  destruct FST as (w & Hw & Ww & Wl).
  assert (SG : forall g, (j <= g < w)%nat -> (s * DD A (S g) <= 0)%Z).
  { intros g Hg. assert (G : forall d, (S j + d <= w)%nat -> (s * DD A (S j + d) <= 0)%Z).
    { induction d as [|d IH]; intros Hd.
      - rewrite Nat.add_0_r. unfold DD. cbn [zsum]. fold (DD A j). rewrite (ZB j) by (auto; lia). unfold steps. rewrite Aj. lia.
      - replace (S j + S d)%nat with (S (S j + d)) by lia.
        unfold DD at 1. cbn [zsum]. fold (DD A (S j + d)). specialize (IH ltac:(lia)). unfold steps. destruct (A (S j + d)%nat) eqn:E; [|lia].
        pose proof (Wl (S j + d)%nat ltac:(lia) E) as Q. unfold s in *. unfold sgn in *. destruct (isx v), (isx (S j + d)%nat); try congruence; lia. }
    specialize (G (g - j)%nat ltac:(lia)). replace (S j + (g - j))%nat with (S g) in G by lia. auto. }
  assert (R1 : 0 <= rsum N (fun g => if (j <=? g)%nat && (g <? w)%nat then len g * IZR (Z.abs (DD A (S g) - s) - Z.abs (DD A (S g))) else 0)).
  { apply rsum_nonneg. intros g Hg. destruct (Nat.leb_spec j g), (Nat.ltb_spec g w); cbn [andb]; try lra.
    apply Rmult_le_pos; [apply len_nn|]. apply IZR_le. specialize (SG g ltac:(lia)). destruct Hs as [-> | ->]; lia. }
  assert (R2 : 0 <= rsum N (fun g => if (w <=? g)%nat && (g <? v)%nat then len g * IZR (Z.abs (DD A (S g) - s) - Z.abs (DD A (S g))) else 0)).
  { destruct Ww as [->|[Aw Sw]].
    { right. symmetry. apply rsum_0. intros g Hg. destruct (Nat.leb_spec v g), (Nat.ltb_spec g v); cbn; auto; lia. }
    assert (D : w <> v) by congruence.
    set (A' := upd (upd A w false) v true).
    assert (SA : sel k A').
    { split; unfold A'.
      - rewrite DD_change2 by auto. rewrite (proj2 (Nat.ltb_lt w N)), (proj2 (Nat.ltb_lt v N)), Av, Aw, DA, Sw by lia. unfold ind. lia.
      - rewrite cnt_change2 by lia. rewrite Av, Aw, CA. unfold ind. lia. }
    specialize (OA A' SA).
    assert (X : icost A' - icost A = rsum N (fun g => if (w <=? g)%nat && (g <? v)%nat then len g * IZR (Z.abs (DD A (S g) - s) - Z.abs (DD A (S g))) else 0)).
    { unfold icost. rewrite <- rsum_minus. apply rsum_ext. intros g Hg. rewrite <- Rmult_minus_distr_l, <- minus_IZR.
      unfold A'. rewrite DD_change2 by auto. rewrite Av, Aw, Sw. fold s. unfold ind.
      destruct (Nat.leb_spec w g), (Nat.ltb_spec g v), (Nat.ltb_spec w (S g)), (Nat.ltb_spec v (S g)); cbn [andb]; try lia.
      - f_equal. f_equal. lia.
      - rewrite <- (Rmult_0_r (len g)). f_equal. apply IZR_eq. lia.
      - rewrite <- (Rmult_0_r (len g)). f_equal. apply IZR_eq. lia. }
    lra. }
  replace (rsum N (fun g => if (j <=? g)%nat && (g <? v)%nat then len g * IZR (Z.abs (DD A (S g) - s) - Z.abs (DD A (S g))) else 0))
    with (rsum N (fun g => if (j <=? g)%nat && (g <? w)%nat then len g * IZR (Z.abs (DD A (S g) - s) - Z.abs (DD A (S g))) else 0)
        + rsum N (fun g => if (w <=? g)%nat && (g <? v)%nat then len g * IZR (Z.abs (DD A (S g) - s) - Z.abs (DD A (S g))) else 0)); [lra|].
  rewrite <- rsum_plus. apply rsum_ext. intros g Hg.
  destruct (Nat.leb_spec j g), (Nat.ltb_spec g w), (Nat.leb_spec w g), (Nat.ltb_spec g v); cbn [andb]; try lia; ring.
Qed.

(** neighbours in the set of free points, on different sides *)
Definition adjc (A : nat -> bool) (i j : nat) : Prop :=
  (i < j < N)%nat /\ A i = false /\ A j = false /\ isx i <> isx j /\ forall h, (i < h < j)%nat -> A h = true.
Definition blocks (A : nat -> bool) : Prop := forall g, (g < N)%nat -> A g = false -> DD A g = 0%Z.

Lemma find_adj : forall A u v, (u < v < N)%nat -> A u = false -> A v = false -> isx u <> isx v ->
  exists i j, adjc A i j /\ (u <= i)%nat /\ (j <= v)%nat /\ isx i = isx u /\ isx j = isx v.
Proof.
  intros A u v Huv Au Av Hs.
  (* the last free point of the side of u before v *)
  assert (G : forall d, (d <= v - u)%nat -> exists i, (u <= i < v)%nat /\ A i = false /\ isx i = isx u /\ forall h, (i < h)%nat -> (h < u + d)%nat -> A h = false -> isx h <> isx u).
  { induction d as [|d IH]; intros Hd; [exists u; repeat split; auto; lia|].
    destruct IH as (i & I1 & I2 & I3 & I4); [lia|]. destruct (A (u + d)%nat) eqn:Ad; [|destruct (Bool.bool_dec (isx (u + d)%nat) (isx u)) as [Es|Ns]].
    - exists i. repeat split; auto; try lia. intros h H1 H2 H3. destruct (Nat.eq_dec h (u + d)) as [->|]; [congruence|apply I4; auto; lia].
    - exists (u + d)%nat. repeat split; auto; try lia; intros; lia.
    - exists i. repeat split; auto; try lia. intros h H1 H2 H3. destruct (Nat.eq_dec h (u + d)) as [->|]; [auto|apply I4; auto; lia]. }
  destruct (G (v - u)%nat) as (i & I1 & I2 & I3 & I4); [lia|]. clear G.
  (* the next free point *)
  assert (H : forall d, (d <= v - i)%nat -> (exists j, (i < j <= i + d)%nat /\ A j = false /\ forall h, (i < h < j)%nat -> A h = true) \/ forall h, (i < h <= i + d)%nat -> A h = true).
  { induction d as [|d IH]; intros Hd; [right; intros; lia|]. destruct IH as [(j & J1 & J2 & J3)|NO]; [lia|left; exists j; repeat split; auto; lia|].
    destruct (A (i + S d)%nat) eqn:Ad; [right; intros h Hh; destruct (Nat.eq_dec h (i + S d)) as [->|]; [auto|apply NO; lia]|].
    left. exists (i + S d)%nat. repeat split; auto; try lia. intros h Hh. apply NO. lia. }
  destruct (H (v - i)%nat) as [(j & J1 & J2 & J3)|NO]; [lia| |].
  - assert (Sj : isx j <> isx u). { destruct (Nat.eq_dec j v) as [->|]; [congruence|apply I4; auto; lia]. }
    exists i, j. split; [split; [lia|repeat split; auto; congruence]|]. repeat split; auto; try lia. destruct (isx j), (isx u), (isx v); congruence.
  - rewrite (NO v) in Av by lia. discriminate.
Qed.

Lemma icost_add : forall A i j, (i < j < N)%nat -> A i = false -> A j = false -> isx i <> isx j ->
  icost (add2 A i j) - icost A
  = rsum N (fun g => if (i <=? g)%nat && (g <? j)%nat then len g * IZR (Z.abs (DD A (S g) + sgn (isx i)) - Z.abs (DD A (S g))) else 0).
Proof.
  intros A i j Hij Ai Aj Hs. unfold icost. rewrite <- rsum_minus. apply rsum_ext. intros g Hg. rewrite <- Rmult_minus_distr_l, <- minus_IZR.
  unfold add2. rewrite DD_change2 by lia. rewrite Ai, Aj, (sgn_opp _ _ Hs). unfold ind.
  destruct (Nat.leb_spec i g), (Nat.ltb_spec g j), (Nat.ltb_spec i (S g)), (Nat.ltb_spec j (S g)); cbn [andb]; try lia.
  - f_equal. f_equal. lia.
  - rewrite <- (Rmult_0_r (len g)). f_equal. apply IZR_eq. lia.
  - rewrite <- (Rmult_0_r (len g)). f_equal. apply IZR_eq. lia.
Qed.

(** among the neighbouring pairs, one is as good as any selection of k + 1 pairs *)
Lemma greedy_step : forall k A T, opt k A -> blocks A -> sel (k + 1) T ->
  exists i j, adjc A i j /\ icost (add2 A i j) <= icost T.
Proof.
  intros k A T HO ZB HT. destruct (exchange k A T HO HT) as (u & v & Huv & Au & Av & Hs & C).
  destruct (find_adj A u v Huv Au Av Hs) as (i & j & HA & Hi & Hj & Si & Sj). exists i, j. split; [auto|]. apply Rle_trans with (2 := C).
  destruct HA as (Hij & Ai & Aj & Sij & _).
  enough (X : icost (add2 A i j) - icost A <= icost (add2 A u v) - icost A) by lra.
  rewrite !icost_add by auto. rewrite Si.
  set (F := fun a b => rsum N (fun g => if (a <=? g)%nat && (g <? b)%nat then len g * IZR (Z.abs (DD A (S g) + sgn (isx u)) - Z.abs (DD A (S g))) else 0)).
  assert (L0 : 0 <= F u i).
  { destruct (Nat.eq_dec u i) as [->|]; [|apply (seg_left k); auto; lia].
    right. symmetry. apply rsum_0. intros g Hg. destruct (Nat.leb_spec i g), (Nat.ltb_spec g i); cbn; auto; lia. }
  assert (R0 : 0 <= F j v).
  { destruct (Nat.eq_dec j v) as [->|].
    - right. symmetry. apply rsum_0. intros g Hg. destruct (Nat.leb_spec v g), (Nat.ltb_spec g v); cbn; auto; lia.
    - unfold F. replace (sgn (isx u)) with (- sgn (isx v))%Z by (rewrite (sgn_opp _ _ Hs); lia). apply (seg_right k); auto; lia. }
  change (F i j <= F u v). replace (F u v) with (F u i + F i j + F j v); [lra|].
  unfold F. rewrite <- !rsum_plus. apply rsum_ext. intros g Hg.
  destruct (Nat.leb_spec u g), (Nat.ltb_spec g i), (Nat.leb_spec i g), (Nat.ltb_spec g j), (Nat.leb_spec j g), (Nat.ltb_spec g v); cbn [andb]; try lia; ring.
Qed.

Lemma blocks_add : forall A i j, blocks A -> adjc A i j -> blocks (add2 A i j).
Proof.
  intros A i j ZB (Hij & Ai & Aj & Hs & Hb) g Hg Ag. unfold add2 in *. 
  assert (g <> i /\ g <> j /\ A g = false) as (Gi & Gj & Ag').
  { unfold upd in Ag. destruct (Nat.eqb_spec g j); [discriminate|]. destruct (Nat.eqb_spec g i); [discriminate|]. auto. }
  rewrite DD_change2 by lia. rewrite Ai, Aj, (ZB g Hg Ag'), (sgn_opp _ _ Hs). unfold ind.
  destruct (Nat.ltb_spec i g), (Nat.ltb_spec j g); try lia. rewrite (Hb g) in Ag' by lia. discriminate.
Qed.
Lemma opt_add : forall k A i j, opt k A -> blocks A -> adjc A i j ->
  (forall i' j', adjc A i' j' -> icost (add2 A i j) <= icost (add2 A i' j')) -> opt (k + 1) (add2 A i j).
Proof.
  intros k A i j HO ZB HA M. destruct HA as (Hij & Ai & Aj & Hs & Hb). split.
  - apply sel_add; auto; try lia. apply HO.
  - intros T HT. destruct (greedy_step k A T HO ZB HT) as (i' & j' & HA' & C). apply Rle_trans with (2 := C). apply M. auto.
Qed.
Lemma opt_nil : opt 0 (fun _ => false) /\ blocks (fun _ => false).
Proof.
  assert (D0 : forall m, DD (fun _ => false) m = 0%Z) by (induction m; [reflexivity|unfold DD in *; cbn [zsum]; rewrite IHm; reflexivity]).
  split; [|intros g _ _; apply D0]. split.
  - split; [apply D0|]. unfold cnt. assert (G : forall m, zsum m (fun _ => 0%Z) = 0%Z) by (induction m; cbn; lia). apply G.
  - intros T _. unfold icost. apply rsum_le. intros g Hg. apply Rmult_le_compat_l; [apply len_nn|]. apply IZR_le. rewrite D0. cbn. lia.
Qed.

(** *** selections and matchings *)
Definition zeta (g : nat) : R := rsum g len.
Lemma zeta_z : forall g, (g < N)%nat -> zeta g = z g - z 0%nat.
Proof.
  induction g; intros Hg; [unfold zeta; cbn; ring|]. unfold zeta in *. cbn [rsum]. rewrite IHg by lia. unfold len. rewrite (proj2 (Nat.ltb_lt (S g) N) Hg). ring.
Qed.
Lemma z_le : forall i j, (i <= j < N)%nat -> z i <= z j.
Proof. intros i j. induction j; intros H; [replace i with 0%nat by lia; lra|]. destruct (Nat.eq_dec i (S j)) as [->|]; [lra|]. pose proof (IHj ltac:(lia)). pose proof (zmono j ltac:(lia)). lra. Qed.

(** a balanced selection can be matched at its cost *)
Lemma match_sel : forall A, DD A N = 0%Z -> exists L : list (nat * nat),
  (forall u v, In (u, v) L -> (u < v < N)%nat /\ isx u <> isx v)
  /\ Permutation (filter A (seq 0 N)) (flat_map (fun uv => [fst uv; snd uv]) L)
  /\ icost A = rl (map (fun uv => Rabs (z (fst uv) - z (snd uv))) L).
Proof.
  intros A H0. destruct (path_pairs (steps A) zeta) with (m := N) as (L & HL & HP & HR).
  { intros i. unfold steps, sgn. destruct (A i), (isx i); auto. }
  { exact H0. }
  exists L. split; [|split].
  - intros u v I. destruct (HL u v I) as (H1 & H2 & H3 & _). split; [auto|]. intros E. unfold steps in *. rewrite E in *. destruct (A u), (A v), (isx v); cbn in *; lia.
  - rewrite <- HP. clear. induction (seq 0 N) as [|a l IH]; [reflexivity|]. cbn. unfold steps at 1, sgn. destruct (A a), (isx a); cbn; auto.
  - transitivity (rsum N (fun g => (zeta (S g) - zeta g) * IZR (Z.abs (DD A (S g))))).
    { unfold icost. apply rsum_ext. intros g Hg. f_equal. unfold zeta. cbn [rsum]. ring. }
    unfold DD. rewrite HR. clear HR HP. f_equal. apply map_ext_in. intros [u v] I. destruct (HL u v I) as (H1 & _). cbn [fst snd].
    rewrite !zeta_z by lia. rewrite Rabs_left1; [ring|]. pose proof (z_le u v ltac:(lia)). lra.
Qed.

(** a matching costs at least the cost of the points it uses *)
Lemma icost_add_le : forall A i j, (i < N)%nat -> (j < N)%nat -> A i = false -> A j = false -> isx i <> isx j ->
  icost (add2 A i j) <= icost A + Rabs (z i - z j).
Proof.
  assert (W : forall A i j, (i < j < N)%nat -> A i = false -> A j = false -> isx i <> isx j -> icost (add2 A i j) <= icost A + Rabs (z i - z j)).
  { intros A i j Hij Ai Aj Hs. enough (X : icost (add2 A i j) - icost A <= Rabs (z i - z j)) by lra.
    rewrite icost_add by auto. apply Rle_trans with (rsum N (fun g => if (i <=? g)%nat && (g <? j)%nat then len g else 0)).
    - apply rsum_le. intros g Hg. destruct ((i <=? g)%nat && (g <? j)%nat); [|lra]. rewrite <- (Rmult_1_r (len g)) at 2. apply Rmult_le_compat_l; [apply len_nn|].
      apply IZR_le. unfold sgn. destruct (isx i); lia.
    - right. rewrite Rabs_left1 by (pose proof (z_le i j ltac:(lia)); lra).
      replace (- (z i - z j)) with (zeta j - zeta i) by (rewrite !zeta_z by lia; ring). unfold zeta.
      assert (G : forall m, rsum m (fun g => if (i <=? g)%nat && (g <? j)%nat then len g else 0) = rsum (Nat.min m j) len - rsum (Nat.min m i) len).
      { induction m; [cbn; ring|]. cbn [rsum]. rewrite IHm. destruct (Nat.leb_spec i m), (Nat.ltb_spec m j); cbn [andb].
        - rewrite !(Nat.min_l _ j), !(Nat.min_r _ i) by lia. cbn [rsum]. ring.
        - rewrite !(Nat.min_r _ j), !(Nat.min_r _ i) by lia. ring.
        - rewrite !(Nat.min_l _ j), !(Nat.min_l _ i) by lia. cbn [rsum]. ring.
        - lia. }
      rewrite G, !Nat.min_r by lia. reflexivity. }
  intros A i j Hi Hj Ai Aj Hs. destruct (Nat.lt_trichotomy i j) as [L|[->|L]]; [apply W; auto; lia|congruence|].
  rewrite Rabs_minus_sym. replace (icost (add2 A i j)) with (icost (add2 A j i)); [apply W; auto; lia|].
  unfold icost. apply rsum_ext. intros g Hg. do 3 f_equal. unfold add2. rewrite !DD_change2 by lia. rewrite Ai, Aj. lia.
Qed.
Fixpoint used (l : list (nat * nat)) : nat -> bool := match l with [] => fun _ => false | (i, j) :: l' => add2 (used l') i j end.
Lemma used_spec : forall l h, used l h = true <-> In h (map fst l) \/ In h (map snd l).
Proof.
  induction l as [|[i j] l IH]; intros h; cbn [used map fst snd In]; [split; [discriminate|tauto]|].
  unfold add2, upd. destruct (Nat.eqb_spec h j); [subst; tauto|]. destruct (Nat.eqb_spec h i); [subst; tauto|]. rewrite IH. intuition congruence.
Qed.
Lemma match_lower : forall l, (forall i j, In (i, j) l -> (i < N)%nat /\ (j < N)%nat /\ isx i = true /\ isx j = false) ->
  NoDup (map fst l) -> NoDup (map snd l) ->
  sel (Z.of_nat (length l)) (used l) /\ icost (used l) <= rl (map (fun ij => Rabs (z (fst ij) - z (snd ij))) l).
Proof.
  induction l as [|[i j] l IH]; intros H ND1 ND2.
  - cbn [used]. destruct opt_nil as [[S0 O0] _]. split; [exact S0|]. cbn. unfold icost. right. apply rsum_0. intros g Hg. 
    assert (D0 : forall m, DD (fun _ => false) m = 0%Z) by (induction m; [reflexivity|unfold DD in *; cbn [zsum]; rewrite IHm; reflexivity]). rewrite D0. cbn. ring.
  - inversion ND1 as [|? ? N1 ND1']; subst. inversion ND2 as [|? ? N2 ND2']; subst.
    destruct IH as [S0 C0]; auto. { intros; apply H; right; auto. }
    destruct (H i j (or_introl eq_refl)) as (Hi & Hj & Xi & Xj).
    assert (Ui : used l i = false).
    { destruct (used l i) eqn:E; auto. apply used_spec in E. destruct E as [E|E]; [contradiction|]. apply in_map_iff in E. destruct E as ([a b] & E1 & E2). cbn in E1. subst b.
      destruct (H a i (or_intror E2)) as (_ & _ & _ & Q). congruence. }
    assert (Uj : used l j = false).
    { destruct (used l j) eqn:E; auto. apply used_spec in E. destruct E as [E|E]; [|contradiction]. apply in_map_iff in E. destruct E as ([a b] & E1 & E2). cbn in E1. subst a.
      destruct (H j b (or_intror E2)) as (_ & _ & Q & _). congruence. }
    assert (Hs : isx i <> isx j) by congruence. assert (D : i <> j) by congruence.
    cbn [used]. split.
    + replace (Z.of_nat (length ((i, j) :: l))) with (Z.of_nat (length l) + 1)%Z by (cbn [length]; lia). apply sel_add; auto.
    + cbn [map fst snd]. unfold rl. cbn [fold_right]. fold (rl (map (fun ij => Rabs (z (fst ij) - z (snd ij))) l)).
      pose proof (icost_add_le (used l) i j Hi Hj Ui Uj Hs). lra.
Qed.
End Core.
