From Coq Require Import List Arith Bool NArith Lia Permutation Sorted.
Import ListNotations.
From Verif Require Import NS_model Graph_model Graph_spec.

Lemma upd_same : forall A (f : nat -> A) i v, upd f i v i = v.
Proof. intros. unfold upd. now rewrite Nat.eqb_refl. Qed.
Lemma upd_other : forall A (f : nat -> A) i j v, j <> i -> upd f i v j = f j.
Proof. intros. unfold upd. destruct (Nat.eqb_spec j i); congruence. Qed.

Lemma nodup_map_in : forall (f : nat -> nat) l, (forall x y, In x l -> In y l -> f x = f y -> x = y) -> NoDup l -> NoDup (map f l).
Proof.
  intros f. induction l as [|a l IH]; intros Hi ND; cbn; constructor; inversion ND; subst.
  - intro H. apply in_map_iff in H. destruct H as (x & E & Ix). assert (x = a) by (apply Hi; auto; [right; auto|left; auto]). subst; auto.
  - apply IH; auto. intros x y Hx Hy. apply Hi; right; auto.
Qed.
Lemma nodup_map : forall (f : nat -> nat) l, (forall x y, f x = f y -> x = y) -> NoDup l -> NoDup (map f l).
Proof. intros f l H. apply nodup_map_in. auto. Qed.

(** *** arc mixing *)
Section Mix.
Variable A : nat.
Let c := mix_k A.
Let q := A / c.
Let r := A mod c.
Lemma c_pos : 0 < c. Proof. unfold c, mix_k. lia. Qed.
Lemma A_eq : A = c * q + r. Proof. apply Nat.div_mod. pose proof c_pos. lia. Qed.
Lemma r_lt : r < c. Proof. apply Nat.mod_upper_bound. pose proof c_pos. lia. Qed.
Definition clen j := if j <? r then q + 1 else q.
Definition cstart j := if j <? r then j * (q + 1) else r * (q + 1) + (j - r) * q.

Lemma seq_val : forall j off, j < c -> off < clen j -> sequence A (cstart j + off) = off * c + j.
Proof.
  intros j off Hj Ho. unfold clen, cstart in *. unfold sequence, total_big, sub_len, num_big. fold c. fold q r.
  destruct (Nat.ltb_spec j r) as [J|J].
  - destruct (Nat.ltb_spec ((q + 1) * r) (j * (q + 1) + off)) as [X|X]; [nia|].
    rewrite !Nat.mul_0_r, !Nat.sub_0_r, !Nat.add_0_r.
    assert (D : (j * (q + 1) + off) / (q + 1) = j).
    { rewrite Nat.div_add_l by lia. rewrite Nat.div_small by lia. lia. }
    assert (Mo : (j * (q + 1) + off) mod (q + 1) = off).
    { rewrite Nat.add_comm, Nat.mod_add by lia. apply Nat.mod_small; lia. }
    rewrite D, Mo. lia.
  - destruct (Nat.ltb_spec ((q + 1) * r) (r * (q + 1) + (j - r) * q + off)) as [X|X].
    + rewrite !Nat.mul_1_r.
      replace (r * (q + 1) + (j - r) * q + off - (q + 1) * r) with ((j - r) * q + off) by nia.
      replace (q + 1 - 1) with q by lia.
      assert (D : ((j - r) * q + off) / q = j - r).
      { rewrite Nat.div_add_l by lia. rewrite Nat.div_small by lia. lia. }
      assert (Mo : ((j - r) * q + off) mod q = off).
      { rewrite Nat.add_comm, Nat.mod_add by lia. apply Nat.mod_small; lia. }
      rewrite D, Mo. lia.
    + assert (off = 0 /\ (j - r) * q = 0) as [-> Z] by nia. assert (j = r) by nia. subst j.
      rewrite !Nat.mul_0_r, !Nat.sub_0_r, !Nat.add_0_r. replace ((r - r) * q) with 0 by nia. rewrite Nat.add_0_r.
      rewrite Nat.div_mul by lia. rewrite Nat.mod_mul by lia. lia.
Qed.

Lemma decomp : forall n, n < A -> exists j off, j < c /\ off < clen j /\ n = cstart j + off.
Proof.
  intros n Hn. pose proof A_eq as EA. pose proof r_lt. unfold clen, cstart.
  destruct (Nat.lt_ge_cases n (r * (q + 1))) as [L|L].
  - exists (n / (q + 1)), (n mod (q + 1)).
    assert (n / (q + 1) < r) by (apply Nat.div_lt_upper_bound; lia).
    destruct (Nat.ltb_spec (n / (q + 1)) r); [|lia]. split; [lia|]. split; [apply Nat.mod_upper_bound; lia|].
    rewrite Nat.mul_comm. apply Nat.div_mod; lia.
  - assert (q <> 0) by (intro Q0; rewrite Q0 in *; nia).
    set (k := n - r * (q + 1)). exists (r + k / q), (k mod q).
    assert (k / q < c - r) by (apply Nat.div_lt_upper_bound; [lia|unfold k; nia]).
    destruct (Nat.ltb_spec (r + k / q) r); [lia|]. split; [lia|]. split; [apply Nat.mod_upper_bound; lia|].
    replace (r + k / q - r) with (k / q) by lia. pose proof (Nat.div_mod k q). unfold k in *. nia.
Qed.

Lemma next_col : forall j off, j < c -> off < clen j -> (A <= off * c + j + c <-> clen j = S off).
Proof.
  intros j off Hj Ho. pose proof A_eq. pose proof r_lt. unfold clen in *. destruct (Nat.ltb_spec j r); split; intros; nia.
Qed.
Lemma start_S : forall j, j < c -> cstart j + clen j = cstart (S j).
Proof.
  intros j Hj. pose proof r_lt. unfold cstart, clen.
  destruct (Nat.ltb_spec j r); destruct (Nat.ltb_spec (S j) r); try lia; try nia.
Qed.
Lemma start_c : cstart c = A.
Proof. pose proof A_eq. pose proof r_lt. unfold cstart. destruct (Nat.ltb_spec c r); nia. Qed.

Lemma seq_range : forall n, n < A -> sequence A n < A.
Proof.
  intros n Hn. destruct (decomp n Hn) as (j & off & Hj & Ho & ->). rewrite seq_val by auto.
  pose proof A_eq. unfold clen in Ho. destruct (Nat.ltb_spec j r); nia.
Qed.
Lemma seq_inj : forall n n', n < A -> n' < A -> sequence A n = sequence A n' -> n = n'.
Proof.
  intros n n' Hn Hn'. destruct (decomp n Hn) as (j & off & Hj & Ho & ->). destruct (decomp n' Hn') as (j' & off' & Hj' & Ho' & ->).
  rewrite !seq_val by auto. intro E. assert (j = j' /\ off = off') as [-> ->]; auto.
  pose proof c_pos.
  assert (X : forall o k, k < c -> (o * c + k) mod c = k).
  { intros. rewrite Nat.add_comm, Nat.mod_add by lia. apply Nat.mod_small; auto. }
  assert (j = j') by (rewrite <- (X off j), <- (X off' j'), E by auto; auto). split; auto. subst. nia.
Qed.

Lemma reset_mixing_spec : forall gs gt len i j st n,
  n + len = A ->
  (len = 0 \/ exists off, j < c /\ off < clen j /\ n = cstart j + off /\ i = off * c + j) ->
  let res := reset_mixing len A i j gs gt st in
  (forall n', n <= n' < A -> fst res (sequence A n') = gs (A - 1 - n') /\ snd res (sequence A n') = gt (A - 1 - n')) /\
  (forall x, (forall n', n <= n' < A -> x <> sequence A n') -> fst res x = fst st x /\ snd res x = snd st x).
Proof.
  intros gs gt. induction len as [|len IH]; intros i j st n Hn Hst; cbn zeta.
  { split; [intros; lia|intros; split; reflexivity]. }
  destruct Hst as [Hst|(off & Hj & Ho & Ens & Ei)]; [lia|].
  assert (Hi : i = sequence A n) by (rewrite Ens, seq_val; auto).
  pose proof (next_col j off Hj Ho) as NC. cbn [reset_mixing]. fold c.
  assert (NE : n < A) by lia.
  destruct (Nat.leb_spec A (i + c)) as [L|L].
  - rewrite Ei in L. apply NC in L.
    assert (Hst' : len = 0 \/ exists off', S j < c /\ off' < clen (S j) /\ S n = cstart (S j) + off' /\ S j = off' * c + S j).
    { destruct (Nat.eq_dec len 0) as [Z|Z]; [left; auto|right]. exists 0.
      pose proof (start_S j Hj) as SS. pose proof start_c as SC. assert (S n = cstart (S j)) by lia.
      destruct (Nat.eq_dec (S j) c) as [E|E]; [rewrite E, SC in *; lia|].
      assert (S j < c) by lia. split; auto. split; [|lia].
      unfold clen. pose proof A_eq. pose proof r_lt. unfold cstart, clen in *. destruct (Nat.ltb_spec (S j) r); [lia|].
      destruct (Nat.eq_dec q 0) as [Q|Q]; [|lia]. rewrite Q in *. destruct (Nat.ltb_spec j r); nia. }
    destruct (IH (S j) (S j) (upd (fst st) i (gs len), upd (snd st) i (gt len)) (S n) ltac:(lia) Hst') as [P1 P2].
    cbn [fst snd] in P2. split.
    + intros n' Hn'. destruct (Nat.eq_dec n' n) as [->|D]; [|apply P1; lia].
      destruct (P2 (sequence A n)) as [Q1 Q2].
      { intros n' Hn'' E. apply seq_inj in E; lia. }
      rewrite Q1, Q2, Hi, !upd_same. replace (A - 1 - n) with len by lia. auto.
    + intros x Hx. destruct (P2 x) as [Q1 Q2]; [intros; apply Hx; lia|]. rewrite Q1, Q2.
      rewrite !upd_other; auto; rewrite Hi; apply Hx; lia.
  - assert (Hst' : len = 0 \/ exists off', j < c /\ off' < clen j /\ S n = cstart j + off' /\ i + c = off' * c + j).
    { right. exists (S off). split; auto. assert (clen j <> S off) by (intro E; apply NC in E; lia). repeat split; try lia; nia. }
    destruct (IH (i + c) j (upd (fst st) i (gs len), upd (snd st) i (gt len)) (S n) ltac:(lia) Hst') as [P1 P2].
    cbn [fst snd] in P2. split.
    + intros n' Hn'. destruct (Nat.eq_dec n' n) as [->|D]; [|apply P1; lia].
      destruct (P2 (sequence A n)) as [Q1 Q2].
      { intros n' Hn'' E. apply seq_inj in E; lia. }
      rewrite Q1, Q2, Hi, !upd_same. replace (A - 1 - n) with len by lia. auto.
    + intros x Hx. destruct (P2 x) as [Q1 Q2]; [intros; apply Hx; lia|]. rewrite Q1, Q2.
      rewrite !upd_other; auto; rewrite Hi; apply Hx; lia.
Qed.

Lemma reset_plain_spec : forall gs gt len i st,
  i + len = A ->
  let res := reset_plain len A i gs gt st in
  (forall n', i <= n' < A -> fst res n' = gs (A - 1 - n') /\ snd res n' = gt (A - 1 - n')) /\
  (forall x, x < i -> fst res x = fst st x /\ snd res x = snd st x).
Proof.
  intros gs gt. induction len as [|len IH]; intros i st Hn; cbn zeta.
  { split; [intros; lia|intros; split; reflexivity]. }
  cbn [reset_plain]. destruct (IH (S i) (upd (fst st) i (gs len), upd (snd st) i (gt len)) ltac:(lia)) as [P1 P2]. cbn [fst snd] in P2.
  split.
  - intros n' Hn'. destruct (Nat.eq_dec n' i) as [->|D]; [|apply P1; lia].
    destruct (P2 i ltac:(lia)) as [Q1 Q2]. rewrite Q1, Q2, !upd_same. replace (A - 1 - i) with len by lia. auto.
  - intros x Hx. destruct (P2 x ltac:(lia)) as [Q1 Q2]. rewrite Q1, Q2, !upd_other by lia. auto.
Qed.
End Mix.

Lemma first_col : forall A, 0 < A -> exists off, 0 < mix_k A /\ off < clen A 0 /\ 0 = cstart A 0 + off /\ 0 = off * mix_k A + 0.
Proof.
  intros A HA. exists 0. pose proof (A_eq A). pose proof (r_lt A). pose proof (c_pos A). split; auto.
  unfold clen, cstart. destruct (Nat.ltb_spec 0 (A mod mix_k A)); split; try lia; try nia.
Qed.

Lemma id_range : forall mixing A arc, arc < A -> get_arc_id mixing A arc < A.
Proof. intros [] A arc H; unfold get_arc_id; [apply seq_range|]; lia. Qed.
Lemma id_inj : forall mixing A a a', a < A -> a' < A -> get_arc_id mixing A a = get_arc_id mixing A a' -> a = a'.
Proof. intros [] A a a' H H' E; unfold get_arc_id in E; [apply seq_inj in E|]; lia. Qed.
Lemma reset_spec : forall mixing A gs gt arc, arc < A ->
  fst (reset mixing A gs gt) (get_arc_id mixing A arc) = gs arc /\ snd (reset mixing A gs gt) (get_arc_id mixing A arc) = gt arc.
Proof.
  intros mixing A gs gt arc H. unfold reset, get_arc_id. destruct mixing.
  - destruct (reset_mixing_spec A gs gt A 0 0 (fun _ => 0, fun _ => 0) 0) as [P _]; [lia|right; apply first_col; lia|].
    destruct (P (A - arc - 1)) as [P1 P2]; [lia|]. rewrite P1, P2. replace (A - 1 - (A - arc - 1)) with arc by lia. auto.
  - destruct (reset_plain_spec A gs gt A 0 (fun _ => 0, fun _ => 0)) as [P _]; [lia|].
    destruct (P (A - arc - 1)) as [P1 P2]; [lia|]. rewrite P1, P2. replace (A - 1 - (A - arc - 1)) with arc by lia. auto.
Qed.

(** an injective map of [0,n) into itself is onto *)
Lemma inj_onto : forall n (f : nat -> nat), (forall i, i < n -> f i < n) ->
  (forall i j, i < n -> j < n -> f i = f j -> i = j) -> forall y, y < n -> exists x, x < n /\ f x = y.
Proof.
  intros n f Hr Hi y Hy.
  assert (ND : NoDup (map f (seq 0 n))).
  { apply nodup_map_in; [|apply seq_NoDup]. intros a b Ia Ib. apply in_seq in Ia, Ib. apply Hi; lia. }
  assert (P : incl (seq 0 n) (map f (seq 0 n))).
  { apply NoDup_length_incl; [exact ND|rewrite map_length; lia|].
    intros z Hz. apply in_map_iff in Hz. destruct Hz as (x & <- & Ix). apply in_seq in Ix. apply in_seq. specialize (Hr x). lia. }
  assert (I : In y (map f (seq 0 n))) by (apply P; apply in_seq; lia).
  apply in_map_iff in I. destruct I as (x & E & Ix). apply in_seq in Ix. exists x. split; [lia|auto].
Qed.

(** *** full bipartite graph *)
Lemma fb_out_iter : forall n2 s k fuel, 0 < n2 -> k < n2 -> k < fuel ->
  iterate fuel (fb_next_out n2) (Some (s * n2 + k)) = Some (map (fun i => s * n2 + i) (rev (seq 0 (S k)))).
Proof.
  intros n2 s. induction k as [|k IH]; intros fuel Hn Hk Hf; destruct fuel as [|fuel]; try lia.
  - cbn [iterate]. unfold fb_next_out. rewrite Nat.add_0_r, Nat.mod_mul, Nat.eqb_refl by lia. cbn.
    destruct fuel; cbn; rewrite Nat.add_0_r; auto.
  - cbn [iterate]. unfold fb_next_out at 2. rewrite (Nat.add_comm (s * n2) (S k)), Nat.mod_add, Nat.mod_small by lia.
    cbn [Nat.eqb]. cbn [Nat.add prev_id]. rewrite (Nat.add_comm k). rewrite IH by lia. cbn [option_map]. f_equal.
    rewrite (seq_S (S k) 0). rewrite rev_app_distr. cbn [rev app map]. f_equal. lia.
Qed.
Lemma fb_in_iter : forall n2 t k fuel, t < n2 -> k < fuel ->
  iterate fuel (fb_next_in n2) (Some (k * n2 + t)) = Some (map (fun i => i * n2 + t) (rev (seq 0 (S k)))).
Proof.
  intros n2 t. induction k as [|k IH]; intros fuel Ht Hf; destruct fuel as [|fuel]; try lia.
  - cbn [iterate]. unfold fb_next_in. cbn [Nat.mul Nat.add]. destruct (Nat.ltb_spec t n2); [|lia]. cbn. destruct fuel; auto.
  - cbn [iterate]. unfold fb_next_in at 2. destruct (Nat.ltb_spec (S k * n2 + t) n2); [nia|].
    replace (S k * n2 + t - n2) with (k * n2 + t) by nia. rewrite IH by lia. cbn [option_map]. f_equal.
    rewrite (seq_S (S k) 0). rewrite rev_app_distr. reflexivity.
Qed.

Lemma fb_coord : forall n1 n2 s t, s < n1 -> n1 <= t < n1 + n2 ->
  s * n2 + (t - n1) < n1 * n2 /\ (s * n2 + (t - n1)) / n2 = s /\ (s * n2 + (t - n1)) mod n2 + n1 = t.
Proof.
  intros n1 n2 s t Hs Ht. split; [nia|]. rewrite Nat.div_add_l by lia. rewrite Nat.div_small by lia. split; [lia|].
  rewrite (Nat.add_comm (s * n2)), Nat.mod_add, Nat.mod_small by lia. lia.
Qed.

Lemma fb_arc_ok : forall n1 n2 s t, s < n1 -> n1 <= t < n1 + n2 ->
  exists a, fb_arc n1 n2 s t = Some a /\ a < n1 * n2 /\ fb_source n1 n2 a = s /\ fb_target n1 n2 a = t.
Proof.
  intros n1 n2 s t Hs Ht. exists (s * n2 + (t - n1)). split; [|apply fb_coord; auto].
  unfold fb_arc. destruct (Nat.ltb_spec s n1); [|lia]. destruct (Nat.leb_spec n1 t); [|lia]. auto.
Qed.
Lemma fb_arc_back : forall n1 n2 a, a < n1 * n2 -> fb_source n1 n2 a < n1 /\ n1 <= fb_target n1 n2 a < n1 + n2 /\
     fb_arc n1 n2 (fb_source n1 n2 a) (fb_target n1 n2 a) = Some a.
Proof.
  intros n1 n2 a Ha. unfold fb_source, fb_target, fb_arc. assert (Z : n2 <> 0) by nia.
  pose proof (Nat.div_mod a n2 Z). pose proof (Nat.mod_upper_bound a n2 Z).
  assert (a / n2 < n1) by (apply Nat.div_lt_upper_bound; nia). split; auto. split; [lia|].
  destruct (Nat.ltb_spec (a / n2) n1); [|lia]. destruct (Nat.leb_spec n1 (a mod n2 + n1)); [|lia]. cbn [andb]. f_equal. nia.
Qed.

Lemma fb_out_list : forall n1 n2 s, s < n1 ->
  exists l, iterate (S (n1 * n2)) (fb_next_out n2) (fb_first_out n1 n2 s) = Some l /\ NoDup l /\   (forall a, In a l <-> a < n1 * n2 /\ fb_source n1 n2 a = s).
Proof.
  intros n1 n2 s Hs. unfold fb_first_out. destruct (Nat.leb_spec n1 s); [lia|].
  destruct (Nat.eq_dec n2 0) as [Z|Z].
  { subst. rewrite !Nat.mul_0_r. exists []. repeat split; try constructor; cbn in *; try tauto; lia. }
  replace ((s + 1) * n2) with (S (s * n2 + (n2 - 1))) by nia. cbn [prev_id].
  exists (map (fun i => s * n2 + i) (rev (seq 0 n2))). split.
  { rewrite fb_out_iter by nia. replace (S (n2 - 1)) with n2 by lia. auto. }
  split.
  { apply nodup_map; [intros x y; lia|]. apply NoDup_rev, seq_NoDup. }
  intro a. rewrite in_map_iff. split.
  - intros (i & <- & Hi). apply in_rev, in_seq in Hi. unfold fb_source. split; [nia|].
    rewrite Nat.div_add_l, Nat.div_small by lia. lia.
  - unfold fb_source. intros [H1 H2]. exists (a mod n2). pose proof (Nat.div_mod a n2 Z). split; [nia|].
    apply -> in_rev. apply in_seq. pose proof (Nat.mod_upper_bound a n2 Z). lia.
Qed.
Lemma fb_in_list : forall n1 n2 t, 0 < n1 -> n1 <= t < n1 + n2 ->
  exists l, iterate (S (n1 * n2)) (fb_next_in n2) (fb_first_in n1 n2 t) = Some l /\ NoDup l /\   (forall a, In a l <-> a < n1 * n2 /\ fb_target n1 n2 a = t).
Proof.
  intros n1 n2 t Hn Ht. unfold fb_first_in. destruct (Nat.ltb_spec t n1); [lia|].
  replace (n1 * n2 + S t - (n1 + n2)) with (S ((n1 - 1) * n2 + (t - n1))) by nia. cbn [prev_id].
  exists (map (fun i => i * n2 + (t - n1)) (rev (seq 0 n1))). split.
  { rewrite fb_in_iter by nia. replace (S (n1 - 1)) with n1 by lia. auto. }
  split.
  { apply nodup_map; [intros x y; nia|]. apply NoDup_rev, seq_NoDup. }
  intro a. rewrite in_map_iff. unfold fb_target. split.
  - intros (i & <- & Hi). apply in_rev, in_seq in Hi. split; [nia|].
    rewrite Nat.add_comm with (n := i * n2), Nat.mod_add, Nat.mod_small by lia. lia.
  - intros [H1 H2]. assert (Z : n2 <> 0) by lia. exists (a / n2). pose proof (Nat.div_mod a n2 Z). split; [nia|].
    apply -> in_rev. apply in_seq. split; [lia|]. cbn. apply Nat.div_lt_upper_bound; nia.
Qed.

(** *** sparse graph *)
Definition e_src (e : edge) := fst (fst e).
Definition e_tgt (e : edge) := snd (fst e).
Definition e_id (e : edge) := snd e.
Definition e_le (x y : edge) := e_src x < e_src y \/ (e_src x = e_src y /\ e_tgt x <= e_tgt y).
Lemma edge_lt_spec : forall x y, if edge_lt x y then e_le x y else e_le y x.
Proof.
  intros [[sx tx] ix] [[sy ty] iy]. unfold edge_lt, e_le, e_src, e_tgt. cbn [fst snd].
  destruct (Nat.eqb_spec sx sy); cbn [negb].
  - destruct (Nat.ltb_spec tx ty); lia.
  - destruct (Nat.ltb_spec sx sy); lia.
Qed.
Lemma e_le_trans : forall x y z, e_le x y -> e_le y z -> e_le x z.
Proof. unfold e_le. intros. lia. Qed.
Lemma insert_perm : forall x l, Permutation (insert_edge x l) (x :: l).
Proof.
  induction l as [|y l IH]; cbn; auto. destruct (edge_lt x y); auto.
  rewrite IH. apply perm_swap.
Qed.
Lemma sort_perm : forall l, Permutation (sort_edges l) l.
Proof. induction l as [|x l IH]; cbn; auto. rewrite insert_perm. auto. Qed.
Lemma insert_sorted : forall x l, StronglySorted e_le l -> StronglySorted e_le (insert_edge x l).
Proof.
  induction l as [|y l IH]; intros H; cbn; [repeat constructor|].
  apply StronglySorted_inv in H. destruct H as [H1 H2]. pose proof (edge_lt_spec x y) as E. destruct (edge_lt x y).
  - constructor; [constructor; auto|]. constructor; auto. eapply Forall_impl; [|exact H2]. intros z. apply e_le_trans; auto.
  - constructor; auto. eapply Permutation_Forall; [symmetry; apply insert_perm|]. constructor; auto.
Qed.
Lemma sort_sorted : forall l, StronglySorted e_le (sort_edges l).
Proof. induction l; cbn; [constructor|]. apply insert_sorted; auto. Qed.

Lemma index_nth : forall l i k d, k < length l -> nth k (index_edges i l) d = (fst (nth k l (0, 0)), snd (nth k l (0, 0)), i + k).
Proof.
  induction l as [|[s t] l IH]; intros i k d Hk; cbn in Hk; [lia|]. destruct k; cbn.
  - f_equal. lia.
  - rewrite IH by lia. f_equal. lia.
Qed.
Lemma index_length : forall l i, length (index_edges i l) = length l.
Proof. induction l as [|[s t] l IH]; intros; cbn; auto. Qed.

Lemma sorted_nth : forall l i j d, StronglySorted e_le l -> i < j -> j < length l -> e_le (nth i l d) (nth j l d).
Proof.
  induction l as [|x l IH]; intros i j d H Hij Hj; cbn in Hj; [lia|]. apply StronglySorted_inv in H. destruct H as [H1 H2].
  destruct j; [lia|]. destruct i; cbn.
  - rewrite Forall_forall in H2. apply H2, nth_In. lia.
  - apply IH; auto; lia.
Qed.

Lemma fill_rows_val : forall k cur i row s,
  fill_rows k cur i row s = if (cur <? s) && (s <=? cur + k) then i else row s.
Proof.
  induction k as [|k IH]; intros; cbn [fill_rows].
  - destruct (Nat.ltb_spec cur s); destruct (Nat.leb_spec s (cur + 0)); cbn; auto; lia.
  - rewrite IH. unfold upd. destruct (Nat.eqb_spec s (S cur)).
    + destruct (Nat.ltb_spec (S cur) s); destruct (Nat.ltb_spec cur s); destruct (Nat.leb_spec s (cur + S k)); cbn; auto; try lia.
    + destruct (Nat.ltb_spec (S cur) s); destruct (Nat.leb_spec s (S cur + k)); destruct (Nat.ltb_spec cur s); destruct (Nat.leb_spec s (cur + S k)); cbn; auto; lia.
Qed.

Lemma filter_len_le : forall T (f : T -> bool) l, length (filter f l) <= length l.
Proof. induction l as [|x l IH]; cbn; auto. destruct (f x); cbn; lia. Qed.
Lemma skipn_step : forall T (l : list T) i x r, skipn i l = x :: r -> skipn (S i) l = r.
Proof. induction l as [|y l IH]; intros [|i] x r H; cbn in *; try discriminate; try congruence. eapply IH; eauto. Qed.
Lemma skipn_nth_cons : forall (l : list nat) i, i < length l -> skipn i l = nth i l 0 :: skipn (S i) l.
Proof. induction l as [|x l IH]; intros [|i] H; cbn in *; try lia; auto. rewrite IH by lia. reflexivity. Qed.

Section Csr.
Variables (n1 n2 : nat) (edges : list (nat * nat)).
Hypothesis Hok : forall s t, In (s, t) edges -> s < n1 /\ n1 <= t < n1 + n2.
Let E := sort_edges (index_edges 0 edges).
Let A := length edges.
Definition e0 : edge := (0, 0, 0).
Let at_ k := nth k E e0.

Lemma E_len : length E = A.
Proof. unfold E, A. rewrite (Permutation_length (sort_perm _)). apply index_length. Qed.
Lemma E_in : forall e, In e E <-> e_id e < A /\ nth (e_id e) edges (0, 0) = (e_src e, e_tgt e).
Proof.
  intros [[s t] i]. unfold E. split.
  - intro H. apply (Permutation_in _ (sort_perm _)) in H. apply (In_nth _ _ e0) in H. destruct H as (k & Hk & Ek).
    rewrite index_length in Hk. rewrite index_nth in Ek by auto. cbn [Nat.add] in Ek. inversion Ek; subst.
    cbn [e_id e_src e_tgt fst snd]. split; auto. now destruct (nth i edges (0, 0)).
  - cbn [e_id e_src e_tgt fst snd]. intros [H1 H2]. apply (Permutation_in _ (Permutation_sym (sort_perm _))).
    replace (s, t, i) with (nth i (index_edges 0 edges) e0).
    + apply nth_In. rewrite index_length. auto.
    + rewrite index_nth by auto. rewrite H2. auto.
Qed.
Lemma ids_nodup : NoDup (map e_id E).
Proof.
  unfold E. apply (Permutation_NoDup (Permutation_map e_id (Permutation_sym (sort_perm _)))).
  generalize 0 as i. clear. induction edges as [|[s t] l IH]; intro i; cbn; [constructor|]. constructor; auto.
  intro H. apply in_map_iff in H. destruct H as (e & Ee & He). apply (In_nth _ _ e0) in He. destruct He as (k & Hk & Ek).
  rewrite index_length in Hk. rewrite index_nth in Ek by auto. subst e. cbn in Ee. lia.
Qed.
Lemma at_in : forall k, k < A -> In (at_ k) E.
Proof. intros k Hk. apply nth_In. rewrite E_len. auto. Qed.
Lemma at_ok : forall k, k < A -> e_id (at_ k) < A /\ nth (e_id (at_ k)) edges (0, 0) = (e_src (at_ k), e_tgt (at_ k)) /\ e_src (at_ k) < n1 /\ n1 <= e_tgt (at_ k) < n1 + n2.
Proof.
  intros k Hk. destruct (proj1 (E_in (at_ k)) (at_in k Hk)) as [H1 H2]. split; auto. split; auto. apply Hok. rewrite <- H2. apply nth_In. auto.
Qed.
Lemma at_id_inj : forall i j, i < A -> j < A -> e_id (at_ i) = e_id (at_ j) -> i = j.
Proof.
  intros i j Hi Hj H. apply (proj1 (NoDup_nth (map e_id E) 0) ids_nodup); rewrite ?map_length, ?E_len; auto.
  change 0 with (e_id e0). rewrite !map_nth. exact H.
Qed.
Lemma at_of_id : forall o, o < A -> exists k, k < A /\ at_ k = (fst (nth o edges (0,0)), snd (nth o edges (0,0)), o).
Proof.
  intros o Ho. assert (I : In (fst (nth o edges (0,0)), snd (nth o edges (0,0)), o) E).
  { apply E_in. unfold e_id, e_src, e_tgt. cbn [fst snd]. split; auto. now destruct (nth o edges (0,0)). }
  apply (In_nth _ _ e0) in I. destruct I as (k & Hk & Ek). rewrite E_len in Hk. exists k. auto.
Qed.
Lemma at_sorted : forall i j, i <= j -> j < A -> e_src (at_ i) <= e_src (at_ j) /\ (e_src (at_ i) = e_src (at_ j) -> e_tgt (at_ i) <= e_tgt (at_ j)).
Proof.
  intros i j Hij Hj. destruct (Nat.eq_dec i j) as [->|D]; [lia|].
  assert (L : e_le (at_ i) (at_ j)) by (apply sorted_nth; [apply sort_sorted|lia|rewrite E_len; auto]). unfold e_le in L. lia.
Qed.

(** after [i] edges *)
Record built (i cur : nat) (g : csr) : Prop := {
  bu_col : forall k, k < i -> sg_col g k = e_tgt (at_ k);
  bu_ids : forall k, k < i -> sg_ids g k = e_id (at_ k);
  bu_src : forall k, k < i -> sg_src g (e_id (at_ k)) = e_src (at_ k);
  bu_tgt : forall k, k < i -> sg_tgt g (e_id (at_ k)) = e_tgt (at_ k);
  bu_row0 : sg_row g 0 = 0;
  bu_cur : forall k, k < i -> e_src (at_ k) <= cur;
  bu_cur2 : cur = 0 \/ (0 < i /\ cur = e_src (at_ (i - 1)));
  bu_row : forall s k, s <= cur -> k < A -> (k < sg_row g s <-> e_src (at_ k) < s);
  bu_le : forall s, s <= cur -> sg_row g s <= A }.

Lemma build_loop_ok : forall es i cur g, E = firstn i E ++ es -> i = length (firstn i E) -> built i cur g ->
  let '(cur', g') := build_loop es i cur g in built A cur' g'.
Proof.
  induction es as [|[[s t] o] es IH]; intros i cur g HE Hi B.
  - cbn. assert (i = A); [|subst; auto]. rewrite app_nil_r in HE. rewrite Hi, <- HE. apply E_len.
  - cbn [build_loop].
    assert (Hat : at_ i = (s, t, o)).
    { unfold at_. rewrite HE. rewrite Hi at 1. rewrite nth_middle. auto. }
    assert (HiA : i < A). { rewrite <- E_len. rewrite HE, app_length, <- Hi. cbn. lia. }
    apply IH.
    + rewrite <- (firstn_skipn (S i) E) at 1. f_equal.
      assert (X : skipn i E = (s, t, o) :: es).
      { rewrite HE at 1. rewrite Hi at 1. rewrite skipn_app, skipn_all, Nat.sub_diag. auto. }
      eapply skipn_step; eauto.
    + rewrite firstn_length, E_len. lia.
    + destruct B as [Bc Bi Bs Bt B0 Bcur Bcur2 Br Bl].
      assert (Mono : cur <= s).
      { destruct Bcur2 as [->|[P ->]]; [lia|]. pose proof (at_sorted (i - 1) i ltac:(lia) HiA) as [M _]. rewrite Hat in M. exact M. }
      assert (IDs : forall k, k < i -> e_id (at_ k) <> o).
      { intros k Hk X. assert (k = i); [|lia]. apply at_id_inj; try lia. rewrite Hat. exact X. }
      constructor; cbn [sg_col sg_ids sg_src sg_tgt sg_row].
      * intros k Hk. destruct (Nat.eq_dec k i) as [->|D]; [rewrite upd_same, Hat; auto|rewrite upd_other by lia; apply Bc; lia].
      * intros k Hk. destruct (Nat.eq_dec k i) as [->|D]; [rewrite upd_same, Hat; auto|rewrite upd_other by lia; apply Bi; lia].
      * intros k Hk. destruct (Nat.eq_dec k i) as [->|D]; [rewrite Hat; apply upd_same|]. rewrite upd_other by (apply IDs; lia). apply Bs; lia.
      * intros k Hk. destruct (Nat.eq_dec k i) as [->|D]; [rewrite Hat; apply upd_same|]. rewrite upd_other by (apply IDs; lia). apply Bt; lia.
      * rewrite fill_rows_val. destruct (Nat.ltb_spec cur 0); [lia|]. exact B0.
      * intros k Hk. destruct (Nat.eq_dec k i) as [->|D]; [rewrite Hat; cbn; lia|]. specialize (Bcur k). lia.
      * right. split; [lia|]. replace (S i - 1) with i by lia. rewrite Hat. cbn. lia.
      * intros s' k Hs' Hk. rewrite fill_rows_val. destruct (Nat.ltb_spec cur s'); destruct (Nat.leb_spec s' (cur + (s - cur))); cbn [andb]; try (apply Br; lia).
        -- split; intro L; [specialize (Bcur k L); lia|]. destruct (Nat.lt_ge_cases k i); auto.
           pose proof (at_sorted i k ltac:(lia) Hk) as [M _]. rewrite Hat in M. cbn in M. lia.
      * intros s' Hs'. rewrite fill_rows_val. destruct (Nat.ltb_spec cur s'); destruct (Nat.leb_spec s' (cur + (s - cur))); cbn [andb]; try lia; apply Bl; lia.
Qed.

Let g := build_from_edges n1 n2 edges.
Record csr_ok : Prop := {
  ok_col : forall k, k < A -> sg_col g k = e_tgt (at_ k);
  ok_ids : forall k, k < A -> sg_ids g k = e_id (at_ k);
  ok_src : forall o, o < A -> sg_src g o = fst (nth o edges (0, 0));
  ok_tgt : forall o, o < A -> sg_tgt g o = snd (nth o edges (0, 0));
  ok_row : forall s k, s <= n1 -> k < A -> (k < sg_row g s <-> e_src (at_ k) < s);
  ok_le : forall s, s <= n1 -> sg_row g s <= A;
  ok_n1 : sg_n1 g = n1; ok_n2 : sg_n2 g = n2; ok_arcs : sg_arcs g = A }.
Lemma build_ok : csr_ok.
Proof.
  pose proof (build_loop_ok E 0 0 (mkCsr n1 n2 (length edges) (fun _ => 0) (fun _ => 0) (fun _ => 0) (fun _ => 0) (fun _ => 0)) eq_refl eq_refl) as H.
  assert (Eg : g = build_from_edges n1 n2 edges) by reflexivity. unfold build_from_edges in Eg. fold E in Eg.
  destruct (build_loop E 0 0 _) as [cur g'].
  assert (B : built A cur g').
  { apply H. constructor; cbn [sg_col sg_ids sg_src sg_tgt sg_row]; try (intros; lia); auto. }
  destruct B as [Bc Bi Bs Bt B0 Bcur Bcur2 Br Bl].
  assert (LE : A = 0 \/ cur < n1).
  { destruct (Nat.eq_dec A 0); auto. right. destruct Bcur2 as [->|[P ->]].
    - pose proof (at_ok 0 ltac:(lia)). lia.
    - apply (at_ok (A - 1)). lia. }
  constructor; rewrite Eg; cbn [sg_col sg_ids sg_src sg_tgt sg_row sg_n1 sg_n2 sg_arcs]; auto.
  - intros o Ho. destruct (at_of_id o Ho) as (k & Hk & Ek). specialize (Bs k Hk). rewrite Ek in Bs. exact Bs.
  - intros o Ho. destruct (at_of_id o Ho) as (k & Hk & Ek). specialize (Bt k Hk). rewrite Ek in Bt. exact Bt.
  - intros s k Hs Hk. rewrite fill_rows_val. fold A. destruct (Nat.ltb_spec cur s); destruct (Nat.leb_spec s (cur + (n1 - cur))); cbn [andb]; try (apply Br; lia); try lia.
    specialize (Bcur k Hk). lia.
  - intros s Hs. rewrite fill_rows_val. fold A. destruct (Nat.ltb_spec cur s); destruct (Nat.leb_spec s (cur + (n1 - cur))); cbn [andb]; try lia; apply Bl; lia.
Qed.

Lemma lower_bound_spec : forall fuel v first len x, len < fuel ->
  (forall i j, first <= i -> i <= j -> j < first + len -> v i <= v j) ->
  let p := lower_bound fuel v first len x in
  first <= p <= first + len /\ (forall k, first <= k < p -> v k < x) /\ (forall k, p <= k < first + len -> x <= v k).
Proof.
  induction fuel as [|fuel IH]; intros v first len x Hf Hm; [lia|]. cbn zeta. cbn [lower_bound]. destruct len as [|len].
  { repeat split; intros; lia. }
  set (half := S len / 2). assert (Hh : half < S len) by (apply Nat.div_lt; lia).
  destruct (Nat.ltb_spec (v (first + half)) x) as [L|L].
  - destruct (IH v (S (first + half)) (S len - half - 1) x) as (P1 & P2 & P3); [lia|intros; apply Hm; lia|].
    repeat split; try lia.
    + intros k Hk. destruct (Nat.lt_ge_cases k (S (first + half))); [|apply P2; lia].
      apply Nat.le_lt_trans with (v (first + half)); auto. apply Hm; lia.
    + intros k Hk. apply P3. lia.
  - destruct (IH v first half x) as (P1 & P2 & P3); [lia|intros; apply Hm; lia|].
    repeat split; try lia.
    + intros k Hk. apply P2. lia.
    + intros k Hk. destruct (Nat.lt_ge_cases k (first + half)); [apply P3; lia|].
      apply Nat.le_trans with (v (first + half)); auto. apply Hm; lia.
Qed.

Lemma in_row : forall s k, s < n1 -> k < A -> (sg_row g s <= k < sg_row g (S s) <-> e_src (at_ k) = s).
Proof.
  intros s k Hs Hk. pose proof build_ok as B. pose proof (ok_row B s k ltac:(lia) Hk). pose proof (ok_row B (S s) k ltac:(lia) Hk). lia.
Qed.
Lemma row_mono : forall s, s < n1 -> sg_row g s <= sg_row g (S s).
Proof.
  intros s Hs. pose proof build_ok as B. destruct (Nat.le_gt_cases (sg_row g s) (sg_row g (S s))) as [|L]; auto.
  pose proof (ok_le B s ltac:(lia)). assert (Hk : sg_row g (S s) < A) by lia.
  pose proof (ok_row B s _ ltac:(lia) Hk). pose proof (ok_row B (S s) _ ltac:(lia) Hk). lia.
Qed.

Lemma arc_spec : forall s t,
  match sg_arc g s t with
  | Some a => a < A /\ nth a edges (0, 0) = (s, t)
  | None => ~ In (s, t) edges
  end.
Proof.
  intros s t. pose proof build_ok as B. unfold sg_arc. rewrite (ok_n1 B), (ok_n2 B).
  destruct (Nat.leb_spec n1 s); cbn [orb]; [intro H'; apply Hok in H'; lia|].
  destruct (Nat.ltb_spec t n1); cbn [orb]; [intro H'; apply Hok in H'; lia|].
  destruct (Nat.leb_spec (n1 + n2) t); cbn [orb]; [intro H'; apply Hok in H'; lia|].
  pose proof (row_mono s ltac:(auto)) as RM. pose proof (ok_le B (S s) ltac:(lia)) as RL.
  set (st := sg_row g s) in *. set (en := sg_row g (S s)) in *.
  destruct (lower_bound_spec (S (en - st)) (sg_col g) st (en - st) t) as (P1 & P2 & P3); [lia| |].
  { intros i j Hi Hij Hj. rewrite !(ok_col B) by lia.
    assert (Si : e_src (at_ i) = s) by (apply in_row; lia). assert (Sj : e_src (at_ j) = s) by (apply in_row; lia).
    apply (at_sorted i j); try lia. }
  set (p := lower_bound (S (en - st)) (sg_col g) st (en - st) t) in *.
  destruct (Nat.eqb_spec p en) as [Ep|Np]; cbn [negb andb].
  - intro I. apply (In_nth _ _ (0, 0)) in I. destruct I as (o & Ho & Eo). destruct (at_of_id o Ho) as (k & Hk & Ek).
    rewrite Eo in Ek. cbn in Ek. assert (st <= k < en) by (apply in_row; [auto|auto|rewrite Ek; auto]).
    specialize (P2 k ltac:(lia)). rewrite (ok_col B), Ek in P2 by lia. cbn in P2. lia.
  - destruct (Nat.eqb_spec (sg_col g p) t) as [Et|Nt].
    + assert (Hp : p < A) by lia. rewrite (ok_ids B) by auto. destruct (at_ok p Hp) as (I1 & I2 & _). split; auto.
      rewrite I2. f_equal; [apply in_row; lia|rewrite <- (ok_col B) by auto; auto].
    + intro I. apply (In_nth _ _ (0, 0)) in I. destruct I as (o & Ho & Eo). destruct (at_of_id o Ho) as (k & Hk & Ek).
      rewrite Eo in Ek. cbn in Ek. assert (Ck : sg_col g k = t) by (rewrite (ok_col B), Ek; auto).
      assert (Rk : st <= k < en) by (apply in_row; [auto|auto|rewrite Ek; auto]).
      destruct (Nat.lt_ge_cases k p) as [L|L]; [specialize (P2 k ltac:(lia)); lia|].
      assert (t <= sg_col g p) by (apply P3; lia).
      assert (sg_col g p <= sg_col g k).
      { rewrite !(ok_col B) by lia. apply (at_sorted p k); try lia.
        assert (e_src (at_ p) = s) by (apply in_row; lia). rewrite Ek. cbn. auto. }
      lia.
Qed.

Lemma out_pos_val : forall k, k < A -> out_pos g (sg_ids g k) = k.
Proof.
  intros k Hk. pose proof build_ok as B. unfold out_pos. rewrite (ok_arcs B).
  assert (X : forall l m, NoDup l -> (forall p, In p l -> p < A) ->
     (forall p, In p l -> fold_left (fun m pos => upd m (sg_ids g pos) pos) l m (sg_ids g p) = p) /\
     (forall x, (forall p, In p l -> x <> sg_ids g p) -> fold_left (fun m pos => upd m (sg_ids g pos) pos) l m x = m x)).
  { induction l as [|p l IH]; intros m ND HA; [split; [intros p []|reflexivity]|]. inversion ND; subst. cbn [fold_left].
    destruct (IH (upd m (sg_ids g p) p)) as [I1 I2]; auto; [intros; apply HA; right; auto|]. split.
    - intros p' [<-|H']; [|apply I1; auto]. rewrite I2; [apply upd_same|].
      intros p' Hp' E'.
      rewrite (ok_ids B p) in E' by (apply HA; left; auto). rewrite (ok_ids B p') in E' by (apply HA; right; auto).
      apply at_id_inj in E'; [subst; auto|apply HA; left; auto|apply HA; right; auto].
    - intros x Hx. rewrite I2; [apply upd_other; apply Hx; left; auto|intros; apply Hx; right; auto]. }
  apply X; [apply seq_NoDup|intros p Hp; apply in_seq in Hp; lia|apply in_seq; lia].
Qed.

Lemma out_iter : forall s, s < n1 -> forall d p, sg_row g s <= p -> p + S d = sg_row g (S s) ->
  forall fuel, d < fuel -> iterate fuel (sg_next_out g) (Some (sg_ids g p)) = Some (map (sg_ids g) (seq p (S d))).
Proof.
  intros s Hs. pose proof build_ok as B. pose proof (ok_le B (S s) ltac:(lia)) as RL.
  induction d as [|d IH]; intros p Hp Hd fuel Hf; (destruct fuel as [|fuel]; [lia|]); cbn [iterate]; unfold sg_next_out at 2;
    rewrite out_pos_val by lia; rewrite (ok_ids B) by lia;
    (assert (ES : sg_src g (e_id (at_ p)) = s);
     [ destruct (at_ok p ltac:(lia)) as (I1 & I2 & _); rewrite (ok_src B) by auto; rewrite I2; apply (in_row s p); lia|]);
    rewrite ES.
  - destruct (Nat.ltb_spec (S p) (sg_row g (S s))); [lia|]. destruct fuel; cbn [iterate option_map seq map]; rewrite (ok_ids B) by lia; auto.
  - destruct (Nat.ltb_spec (S p) (sg_row g (S s))); [|lia]. rewrite IH by lia. cbn [option_map]. rewrite <- (ok_ids B) by lia. reflexivity.
Qed.

Lemma out_list : forall s, s < n1 ->
  exists l, iterate (S A) (sg_next_out g) (sg_first_out g s) = Some l /\ NoDup l /\
    (forall a, In a l <-> a < A /\ fst (nth a edges (0, 0)) = s).
Proof.
  intros s Hs. pose proof build_ok as B. pose proof (ok_le B (S s) ltac:(lia)) as RL. pose proof (row_mono s Hs) as RM.
  exists (map (sg_ids g) (seq (sg_row g s) (sg_row g (S s) - sg_row g s))).
  split; [|split].
  - unfold sg_first_out. rewrite (ok_n1 B). destruct (Nat.leb_spec n1 s); [lia|].
    destruct (Nat.ltb_spec (sg_row g s) (sg_row g (S s))).
    + rewrite (out_iter s Hs (sg_row g (S s) - sg_row g s - 1)) by lia. do 3 f_equal. lia.
    + replace (sg_row g (S s) - sg_row g s) with 0 by lia. reflexivity.
  - apply nodup_map_in; [|apply seq_NoDup]. intros i j Hi Hj. apply in_seq in Hi, Hj.
    rewrite !(ok_ids B) by lia. apply at_id_inj; lia.
  - intro a. rewrite in_map_iff. split.
    + intros (k & <- & Hk). apply in_seq in Hk. rewrite (ok_ids B) by lia. destruct (at_ok k ltac:(lia)) as (I1 & I2 & _). split; auto.
      rewrite I2. apply in_row; lia.
    + intros [Ha Es]. destruct (at_of_id a Ha) as (k & Hk & Ek). exists k. rewrite (ok_ids B) by auto. rewrite Ek. split; auto.
      assert (sg_row g s <= k < sg_row g (S s)) by (apply in_row; [auto|auto|rewrite Ek; exact Es]). apply in_seq. lia.
Qed.

Lemma set_positions_val : forall l p m, NoDup l ->
  (forall i, i < length l -> set_positions l p m (nth i l 0) = p + i) /\ (forall x, ~ In x l -> set_positions l p m x = m x).
Proof.
  induction l as [|a l IH]; intros p m ND; cbn [set_positions]; [split; [cbn; intros; lia|auto]|]. inversion ND; subst.
  destruct (IH (S p) (upd m a p)) as [I1 I2]; auto. split.
  - intros [|i] Hi; cbn [nth]; cbn in Hi; [rewrite I2 by auto; rewrite upd_same; lia|rewrite I1 by lia; lia].
  - intros x Hx. rewrite I2; [apply upd_other; intros ->; apply Hx; left; auto|intro; apply Hx; right; auto].
Qed.

Lemma in_arcs_in : forall v a, In a (in_arcs_of g v) <-> a < A /\ sg_tgt g a = v.
Proof.
  intros v a. unfold in_arcs_of. rewrite (ok_arcs build_ok). rewrite filter_In, in_seq, Nat.eqb_eq. intuition lia.
Qed.
Lemma in_arcs_nd : forall v, NoDup (in_arcs_of g v).
Proof. intro v. apply NoDup_filter, seq_NoDup. Qed.

Lemma in_pos_val : forall v i, v < n1 + n2 -> i < length (in_arcs_of g v) -> in_pos g (nth i (in_arcs_of g v) 0) = i.
Proof.
  intros v i Hv Hi. unfold in_pos. rewrite (ok_n1 build_ok), (ok_n2 build_ok).
  assert (X : forall l m, NoDup l ->
     (In v l -> fold_left (fun m w => set_positions (in_arcs_of g w) 0 m) l m (nth i (in_arcs_of g v) 0) = i) /\
     (~ In v l -> fold_left (fun m w => set_positions (in_arcs_of g w) 0 m) l m (nth i (in_arcs_of g v) 0) = m (nth i (in_arcs_of g v) 0))).
  { induction l as [|w l IH]; intros m ND; [split; [intros []|reflexivity]|]. inversion ND; subst. cbn [fold_left].
    destruct (IH (set_positions (in_arcs_of g w) 0 m)) as [I1 I2]; auto.
    assert (I : In (nth i (in_arcs_of g v) 0) (in_arcs_of g v)) by (apply nth_In; auto).
    split.
    - intros [->|H']; auto. rewrite I2 by auto. destruct (set_positions_val (in_arcs_of g v) 0 m (in_arcs_nd v)) as [P _]. rewrite P; auto.
    - intro H'. rewrite I2 by (intro; apply H'; right; auto). apply set_positions_val; [apply in_arcs_nd|].
      intro J. apply in_arcs_in in I, J. apply H'. left. lia. }
  apply X; [apply seq_NoDup|apply in_seq; lia].
Qed.

Lemma in_iter : forall v, v < n1 + n2 -> forall d i, i + S d = length (in_arcs_of g v) -> forall fuel, d < fuel ->
  iterate fuel (sg_next_in g) (Some (nth i (in_arcs_of g v) 0)) = Some (skipn i (in_arcs_of g v)).
Proof.
  intros v Hv. induction d as [|d IH]; intros i Hd fuel Hf; (destruct fuel as [|fuel]; [lia|]); cbn [iterate]; unfold sg_next_in at 2;
    rewrite in_pos_val by lia;
    (assert (I : In (nth i (in_arcs_of g v) 0) (in_arcs_of g v)) by (apply nth_In; lia)); apply in_arcs_in in I; rewrite (proj2 I).
  - rewrite (proj2 (nth_error_None (in_arcs_of g v) (S i))) by lia.
    rewrite (skipn_nth_cons _ i) by lia. rewrite (skipn_all2 _ (n := S i)) by lia. destruct fuel; reflexivity.
  - rewrite (nth_error_nth' _ 0) by lia. rewrite IH by lia. cbn [option_map]. f_equal. symmetry. apply skipn_nth_cons. lia.
Qed.

Lemma in_list : forall t, n1 <= t < n1 + n2 ->
  exists l, iterate (S A) (sg_next_in g) (sg_first_in g t) = Some l /\ NoDup l /\
    (forall a, In a l <-> a < A /\ snd (nth a edges (0, 0)) = t).
Proof.
  intros t Ht. pose proof build_ok as B. exists (in_arcs_of g t). split; [|split; [apply in_arcs_nd|]].
  - unfold sg_first_in. rewrite (ok_n1 B), (ok_n2 B). destruct (Nat.leb_spec (n1 + n2) t); [lia|]. destruct (Nat.ltb_spec t n1); [lia|]. cbn [orb].
    pose proof (in_iter t ltac:(lia) (length (in_arcs_of g t) - 1) 0) as IT.
    assert (LL : length (in_arcs_of g t) <= A).
    { unfold in_arcs_of. rewrite (ok_arcs B). etransitivity; [apply filter_len_le|rewrite seq_length; auto]. }
    destruct (in_arcs_of g t) as [|a l] eqn:El; [reflexivity|]. cbn [nth skipn length] in *. apply IT; lia.
  - intro a. rewrite in_arcs_in. split; intros [H1 H2]; (split; [auto|]); rewrite <- H2; [symmetry|]; apply (ok_tgt B); auto.
Qed.
End Csr.

(** *** packed states *)
Definition bytes : list N := map N.of_nat (seq 0 256).
Lemma in_bytes : forall b, (b < 256)%N -> In b bytes.
Proof. intros b H. unfold bytes. apply in_map_iff. exists (N.to_nat b). split; [apply N2Nat.id|]. apply in_seq. lia. Qed.
Definition shifts : list N := [0; 2; 4; 6]%N.
Definition states : list astate := [UPPER; TREE; LOWER].
Definition astate_eqb (a b : astate) : bool := match a, b with UPPER, UPPER | TREE, TREE | LOWER, LOWER => true | _, _ => false end.
Definition get_bits (b sh : N) : astate := decode (N.land (N.shiftr b sh) 3).
Lemma bits_table : forallb (fun b => forallb (fun sh => forallb (fun s =>
    ((set_bits b sh s <? 256)%N &&
    forallb (fun sh' => astate_eqb (get_bits (set_bits b sh s) sh') (if N.eqb sh' sh then s else get_bits b sh')) shifts)%bool)
    states) shifts) bytes = true.
Proof. vm_compute. reflexivity. Qed.
Lemma bits_ok : forall b sh s, (b < 256)%N -> In sh shifts ->
  (set_bits b sh s < 256)%N /\ forall sh', In sh' shifts -> get_bits (set_bits b sh s) sh' = if N.eqb sh' sh then s else get_bits b sh'.
Proof.
  intros b sh s Hb Hsh. pose proof bits_table as T. rewrite forallb_forall in T. specialize (T b (in_bytes b Hb)).
  rewrite forallb_forall in T. specialize (T sh Hsh). rewrite forallb_forall in T.
  assert (Hs : In s states) by (destruct s; cbn; auto). specialize (T s Hs). apply andb_prop in T. destruct T as [T1 T2].
  split; [apply N.ltb_lt; auto|]. intros sh' Hsh'. rewrite forallb_forall in T2. specialize (T2 sh' Hsh').
  destruct (get_bits (set_bits b sh s) sh'), (if (sh' =? sh)%N then s else get_bits b sh'); cbn in T2; congruence.
Qed.
Lemma shift_in : forall i, In (N.of_nat (2 * (i mod 4))) shifts.
Proof.
  intro i. pose proof (Nat.mod_upper_bound i 4). destruct (i mod 4) as [|[|[|[|]]]]; cbn; auto 6; lia.
Qed.
Definition bytes_ok (p : packed) : Prop := length (pk_data p) = (pk_size p + 3) / 4 /\ Forall (fun b => (b < 256)%N) (pk_data p).
Lemma set_nth_len : forall l i b, length (set_nth l i b) = length l.
Proof. induction l; intros [|i] b; cbn; auto. Qed.
Lemma set_nth_val : forall l i j b, i < length l -> nth j (set_nth l i b) 0%N = if Nat.eqb j i then b else nth j l 0%N.
Proof. induction l as [|x l IH]; intros [|i] [|j] b H; cbn in *; try lia; auto. apply IH; lia. Qed.
Lemma set_nth_forall : forall P l i b, Forall P l -> P b -> Forall P (set_nth l i b).
Proof. induction l; intros [|i] b H Hb; cbn; auto; inversion H; subst; constructor; auto. Qed.
Lemma byte_index : forall i n, i < n -> i / 4 < (n + 3) / 4.
Proof. intros i n H. apply Nat.div_le_lower_bound; [lia|]. pose proof (Nat.div_mod i 4). lia. Qed.

Lemma pk_set_ok : forall p i s, bytes_ok p -> i < pk_size p ->
  bytes_ok (pk_set p i s) /\ forall j, pk_get (pk_set p i s) j = if Nat.eqb j i then s else pk_get p j.
Proof.
  intros p i s [HL HF] Hi. pose proof (byte_index i _ Hi) as BI. rewrite <- HL in BI.
  assert (Hb : (nth (i / 4) (pk_data p) 0 < 256)%N) by (rewrite Forall_forall in HF; apply HF, nth_In; auto).
  destruct (bits_ok _ _ s Hb (shift_in i)) as [B1 B2].
  split.
  - split; cbn [pk_set pk_size pk_data]; [rewrite set_nth_len; auto|apply set_nth_forall; auto].
  - intro j. unfold pk_get, pk_set. cbn [pk_data]. rewrite set_nth_val by auto.
    destruct (Nat.eqb_spec (j / 4) (i / 4)) as [Q|Q].
    + fold (get_bits (set_bits (nth (i / 4) (pk_data p) 0%N) (N.of_nat (2 * (i mod 4))) s) (N.of_nat (2 * (j mod 4)))).
      rewrite B2 by apply shift_in. pose proof (Nat.div_mod i 4). pose proof (Nat.div_mod j 4).
      destruct (N.eqb_spec (N.of_nat (2 * (j mod 4))) (N.of_nat (2 * (i mod 4)))); destruct (Nat.eqb_spec j i); try lia; auto.
      * unfold get_bits. rewrite Q. auto.
    + destruct (Nat.eqb_spec j i); [subst; congruence|auto].
Qed.
Lemma pk_fill_ok : forall c p i s, bytes_ok p -> i + c <= pk_size p ->
  bytes_ok (pk_fill_from p i c s) /\ pk_size (pk_fill_from p i c s) = pk_size p /\
  forall j, pk_get (pk_fill_from p i c s) j = if (i <=? j) && (j <? i + c) then s else pk_get p j.
Proof.
  induction c as [|c IH]; intros p i s Hp Hi; cbn [pk_fill_from].
  - split; auto. split; auto. intro j. destruct (Nat.leb_spec i j); destruct (Nat.ltb_spec j (i + 0)); cbn; auto; lia.
  - destruct (pk_set_ok p i s Hp ltac:(lia)) as [P1 P2]. destruct (IH (pk_set p i s) (S i) s P1 ltac:(cbn; lia)) as (Q1 & Q2 & Q3).
    split; auto. split; auto. intro j. rewrite Q3, P2.
    destruct (Nat.leb_spec (S i) j); destruct (Nat.ltb_spec j (S i + c)); destruct (Nat.leb_spec i j); destruct (Nat.ltb_spec j (i + S c)); destruct (Nat.eqb_spec j i); cbn [andb]; auto; try lia.
Qed.
Lemma pk_resize_ok : forall n, bytes_ok (pk_resize n) /\ forall j, pk_get (pk_resize n) j = LOWER.
Proof.
  intro n. split; [split; cbn; [apply repeat_length|]|].
  - apply Forall_forall. intros x Hx. apply repeat_spec in Hx. subst. lia.
  - intro j. unfold pk_get, pk_resize. cbn [pk_data].
    assert (Z : nth (j / 4) (repeat 0%N ((n + 3) / 4)) 0%N = 0%N).
    { generalize (j / 4), ((n + 3) / 4). clear. intros a b. revert a. induction b; intros [|a]; cbn; auto. }
    rewrite Z. rewrite N.shiftr_0_l. reflexivity.
Qed.

Lemma pk_clear_get : forall j, pk_get pk_clear j = LOWER.
Proof. intro j. unfold pk_get, pk_clear. cbn [pk_data]. destruct (j / 4); cbn [nth]; rewrite N.shiftr_0_l; reflexivity. Qed.
Lemma pk_refines : forall l p st, bytes_ok p -> pk_size p = fst st -> (forall j, pk_get p j = snd st j) -> ops_ok (fst st) l ->
  pk_size (fold_left pk_step l p) = fst (fold_left arr_step l st) /\
  forall j, pk_get (fold_left pk_step l p) j = snd (fold_left arr_step l st) j.
Proof.
  induction l as [|o l IH]; intros p st Hp Hs Hg HO; [split; auto|]. destruct HO as [H1 H2]. cbn [fold_left].
  destruct o as [n| |i s|c s]; cbn [pk_step arr_step].
  - destruct (pk_resize_ok n) as [R1 R2]. apply IH; cbn [fst snd]; auto.
  - apply IH; cbn [fst snd]; auto; [split; cbn; auto|]. intro j. apply pk_clear_get.
  - cbn in H1. destruct (pk_set_ok p i s Hp) as [R1 R2]; [lia|]. apply IH; cbn [fst snd]; auto. intro j. rewrite R2, Hg. auto.
  - cbn in H1. destruct (pk_fill_ok c p 0 s Hp) as (R1 & R2 & R3); [lia|]. apply IH; cbn [fst snd]; auto; [unfold pk_fill; congruence|].
    intro j. unfold pk_fill. rewrite R3, Hg. cbn. auto.
Qed.
