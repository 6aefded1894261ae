(** Merging bijections: structure (any arithmetic). *)
From Coq Require Import List Arith Lia Bool Permutation.
From Verif Require Import Num Emd1d_model Perm Bsp_model.
Import ListNotations.

Definition inb (k : nat) (l : list nat) : bool := existsb (Nat.eqb k) l.

Lemma inb_In : forall k l, inb k l = true <-> In k l.
Proof.
  intros; unfold inb; rewrite existsb_exists; split.
  - intros (x & H & E). apply Nat.eqb_eq in E. subst; auto.
  - intros H; exists k; split; auto. apply Nat.eqb_refl.
Qed.
Lemma inb_false : forall k l, inb k l = false <-> ~ In k l.
Proof. intros. rewrite <- inb_In. destruct (inb k l); split; intros; congruence. Qed.

Lemma bupd_same : forall A (f : nat -> A) i x, bupd f i x i = x.
Proof. intros; unfold bupd; rewrite Nat.eqb_refl; auto. Qed.
Lemma bupd_other : forall A (f : nat -> A) i x k, k <> i -> bupd f i x k = f k.
Proof. intros; unfold bupd. destruct (Nat.eqb_spec k i); congruence. Qed.

(** ** inverse *)
Lemma inv_fold : forall (T : bmap) l (TI : bmap) i,
  NoDup (map T l) -> In i l -> fold_left (fun TI i => bupd TI (T i) i) l TI (T i) = i.
Proof.
  intros T l. induction l as [|x l IH] using rev_ind; intros TI i Hd Hi; [inversion Hi|].
  rewrite fold_left_app. simpl. rewrite map_app in Hd. simpl in Hd.
  apply NoDup_remove in Hd. rewrite app_nil_r in Hd. destruct Hd as [Hd Hx].
  apply in_app_iff in Hi. destruct Hi as [Hi|[<-|[]]].
  - rewrite bupd_other; auto. intros E. apply Hx. rewrite <- E. apply in_map; auto.
  - apply bupd_same.
Qed.

Lemma get_inverse_ok : forall n T i, perm_on n T -> i < n -> get_inverse n T (T i) = i.
Proof.
  intros n T i H Hi. unfold get_inverse. apply inv_fold.
  - eapply Permutation_NoDup; [apply Permutation_sym, perm_on_list; eauto | apply seq_NoDup].
  - apply in_seq; lia.
Qed.

Lemma get_inverse_right : forall n T k, perm_on n T -> k < n -> get_inverse n T k < n /\ T (get_inverse n T k) = k.
Proof.
  intros n T k H Hk. destruct (perm_on_surj n T k H Hk) as (i & Hi & <-).
  rewrite get_inverse_ok; auto.
Qed.

(** ** cycles *)
Section Cycle.
Variable n : nat.
Variable sig : bmap.
Hypothesis Hsig : perm_on n sig.
Variable vis : nat -> bool.
Hypothesis Hclosed : forall j, j < n -> vis (sig j) = vis j.
Variable i0 : nat.
Hypothesis Hi0 : i0 < n.
Hypothesis Hv0 : vis i0 = false.

Definition it (u : nat) : nat := Nat.iter u sig i0.
Definition cyc (t : nat) : list nat := map it (seq 0 t).

Lemma it_lt : forall u, it u < n.
Proof. induction u; simpl; auto. apply (proj1 Hsig); auto. Qed.
Lemma it_vis : forall u, vis (it u) = false.
Proof.
  induction u; simpl; auto. change (vis (sig (it u)) = false). rewrite Hclosed; auto. apply it_lt.
Qed.
Lemma it_S : forall u, it (S u) = sig (it u).
Proof. reflexivity. Qed.

Lemma cyc_S : forall t, cyc (S t) = cyc t ++ [it t].
Proof. intros; unfold cyc. rewrite seq_S, map_app; auto. Qed.

Lemma in_cyc : forall k t, In k (cyc t) <-> exists u, u < t /\ k = it u.
Proof.
  intros; unfold cyc; rewrite in_map_iff; split.
  - intros (u & <- & H). apply in_seq in H. exists u; split; auto; lia.
  - intros (u & H & ->). exists u; split; auto. apply in_seq; lia.
Qed.

Lemma cyc_inj : forall t u v, NoDup (cyc t) -> u < t -> v < t -> it u = it v -> u = v.
Proof.
  intros t u v Hd Hu Hv E. unfold cyc in Hd.
  assert (L : length (map it (seq 0 t)) = t) by (rewrite map_length, seq_length; auto).
  eapply (proj1 (NoDup_nth (map it (seq 0 t)) (it 0))); auto; try lia.
  rewrite !(map_nth it), !seq_nth; auto.
Qed.

Lemma cyc_len : forall t, NoDup (cyc t) -> t <= n.
Proof.
  intros t Hd. assert (H : incl (cyc t) (seq 0 n)).
  { intros k Hk. apply in_cyc in Hk. destruct Hk as (u & _ & ->). apply in_seq. pose proof (it_lt u). lia. }
  pose proof (NoDup_incl_length Hd H) as L. unfold cyc in L. rewrite map_length, !seq_length in L. lia.
Qed.

Lemma walk_run : forall f t v, t + f = n -> NoDup (cyc t) ->
  (forall k, v k = vis k || inb k (cyc t)) ->
  exists d v', walk f sig v (it t) = Some (map it (seq t d), v') /\ NoDup (cyc (t + d)) /\
    (forall k, v' k = vis k || inb k (cyc (t + d))) /\ it (t + d) = i0 /\ 1 <= t + d.
Proof.
  induction f; intros t v Hf Hd Hv.
  - destruct (v (it t)) eqn:E.
    + exists 0, v. simpl. rewrite E. rewrite Nat.add_0_r. split; [auto|]. split; [auto|]. split; [auto|].
      rewrite Hv, it_vis in E. simpl in E. apply inb_In in E. apply in_cyc in E. destruct E as (u & Hu & E).
      split; [|lia]. destruct u; [auto|]. exfalso.
      destruct t; [lia|]. rewrite !it_S in E. apply (proj2 Hsig) in E; try apply it_lt.
      assert (t = u) by (eapply cyc_inj; eauto; lia). lia.
    + exfalso. rewrite Hv, it_vis in E. simpl in E. apply inb_false in E.
      assert (D : NoDup (cyc (S t))).
      { rewrite cyc_S. eapply Permutation_NoDup; [apply Permutation_cons_append|]. constructor; auto. }
      apply cyc_len in D. lia.
  - destruct (v (it t)) eqn:E.
    + exists 0, v. simpl. rewrite E. rewrite Nat.add_0_r. split; [auto|]. split; [auto|]. split; [auto|].
      rewrite Hv, it_vis in E. simpl in E. apply inb_In in E. apply in_cyc in E. destruct E as (u & Hu & E).
      split; [|lia]. destruct u; [auto|]. exfalso.
      destruct t; [lia|]. rewrite !it_S in E. apply (proj2 Hsig) in E; try apply it_lt.
      assert (t = u) by (eapply cyc_inj; eauto; lia). lia.
    + assert (D : NoDup (cyc (S t))).
      { pose proof E as E'. rewrite Hv, it_vis in E'. simpl in E'. apply inb_false in E'.
        rewrite cyc_S. eapply Permutation_NoDup; [apply Permutation_cons_append|]. constructor; auto. }
      destruct (IHf (S t) (bupd v (it t) true)) as (d & v' & W & A & B & C & F); auto; [lia| |].
      * intros k. unfold bupd. destruct (Nat.eqb_spec k (it t)) as [->|Hk].
        -- symmetry. apply orb_true_iff. right. apply inb_In. rewrite cyc_S. apply in_app_iff; right; left; auto.
        -- rewrite Hv. f_equal. destruct (inb k (cyc t)) eqn:I.
           ++ symmetry. apply inb_In. apply inb_In in I. rewrite cyc_S. apply in_app_iff; auto.
           ++ symmetry. apply inb_false. apply inb_false in I. rewrite cyc_S. intros J. apply in_app_iff in J.
              destruct J as [J|[J|[]]]; auto.
      * exists (S d), v'. replace (t + S d) with (S t + d) by lia. split; [|auto].
        simpl. rewrite E. change (sig (it t)) with (it (S t)). rewrite W. auto.
Qed.

Lemma orbit_run : forall t, NoDup (cyc t) -> it t = i0 -> forall f u, u < t -> t - u <= f ->
  orbit f sig i0 (it u) = Some (map it (seq u (t - u))).
Proof.
  intros t Hd Ht. induction f; intros u Hu Hf; [lia|]. simpl.
  change (sig (it u)) with (it (S u)).
  destruct (Nat.eqb_spec (it (S u)) i0) as [E|E].
  - assert (S u = t).
    { destruct (Nat.eq_dec (S u) t); auto. exfalso.
      assert (S u = 0) by (apply (cyc_inj t); auto; lia). lia. }
    replace (t - u) with 1 by lia. auto.
  - assert (S u <> t) by (intros X; apply E; rewrite X; auto).
    rewrite (IHf (S u)) by lia. replace (t - u) with (S (t - S u)) by lia. auto.
Qed.

Lemma cycle_found : exists cc vis', walk n sig vis i0 = Some (cc, vis') /\ orbit n sig i0 i0 = Some cc /\
  NoDup cc /\ (forall k, In k cc -> k < n /\ vis k = false) /\ In i0 cc /\
  (forall k, vis' k = vis k || inb k cc) /\ (forall j, j < n -> inb (sig j) cc = inb j cc).
Proof.
  destruct (walk_run n 0 vis) as (d & v' & W & A & B & C & D); auto.
  - constructor.
  - intros k. simpl. rewrite orb_false_r; auto.
  - simpl plus in *. exists (cyc d), v'. split; [exact W|]. split.
    { change (orbit n sig i0 (it 0) = Some (cyc d)). rewrite (orbit_run d); auto; try lia.
      - rewrite Nat.sub_0_r; auto.
      - apply cyc_len in A. lia. }
    split; [auto|]. split.
    { intros k Hk. apply in_cyc in Hk. destruct Hk as (u & _ & ->). split; [apply it_lt|apply it_vis]. }
    split. { apply in_cyc. exists 0; split; auto. }
    split; [auto|]. intros j Hj.
    destruct (inb j (cyc d)) eqn:E.
    + apply inb_In in E. apply in_cyc in E. destruct E as (u & Hu & ->). apply inb_In. apply in_cyc.
      rewrite <- it_S. destruct (Nat.eq_dec (S u) d) as [<-|E].
      * exists 0; split; [lia|]. rewrite C; auto.
      * exists (S u); split; auto; lia.
    + apply inb_false. apply inb_false in E. intros F. apply E. apply in_cyc in F. destruct F as (u & Hu & F).
      apply in_cyc. destruct u.
      * exists (d - 1); split; [lia|]. apply (proj2 Hsig); auto; [apply it_lt|].
        rewrite <- it_S. replace (S (d - 1)) with d by lia. rewrite C. auto.
      * exists u; split; [lia|]. apply (proj2 Hsig); auto. apply it_lt.
Qed.
End Cycle.

(** ** exchanging two plans on a union of cycles gives a bijection *)
Lemma mixed_perm : forall n (T Tp sig : bmap) (s : nat -> bool),
  perm_on n T -> perm_on n Tp -> (forall i, i < n -> sig i < n) ->
  (forall i, i < n -> Tp (sig i) = T i) -> (forall i, i < n -> s (sig i) = s i) ->
  perm_on n (fun i => if s i then Tp i else T i).
Proof.
  intros n T Tp sig s [T1 T2] [P1 P2] Hr Hs Hc. split.
  - intros i Hi. destruct (s i); auto.
  - assert (X : forall i j, i < n -> j < n -> s i = true -> s j = false -> Tp i = T j -> False).
    { intros i j Hi Hj Si Sj E. rewrite <- (Hs j Hj) in E. apply P2 in E; auto. subst. rewrite Hc in Si; auto. congruence. }
    intros i j Hi Hj. destruct (s i) eqn:Si, (s j) eqn:Sj; intros E; auto; exfalso.
    + apply (X i j); auto.
    + apply (X j i); auto.
Qed.

Lemma nodup_map : forall n (f : bmap) l, perm_on n f -> NoDup l -> (forall x, In x l -> x < n) -> NoDup (map f l).
Proof.
  induction l as [|x l IH]; intros PT Nd Hl; simpl; constructor; inversion Nd; subst.
  - intros Hin. apply in_map_iff in Hin. destruct Hin as (y & Ey & Hy).
    assert (y = x). { apply (proj2 PT); auto; apply Hl; simpl; auto. } subst; auto.
  - apply IH; auto. intros; apply Hl; simpl; auto.
Qed.

Section Struct.
Context {N : NumOps}.
Implicit Types cost : nat -> nat -> N.

Lemma swap_fold : forall l (s : mst N) k, NoDup l ->
  let s' := fold_left swap_at l s in
  m_T s' k = (if inb k l then m_Tp s k else m_T s k) /\
  m_Tp s' k = (if inb k l then m_T s k else m_Tp s k) /\
  m_C s' k = (if inb k l then m_Cp s k else m_C s k) /\
  m_Cp s' k = (if inb k l then m_C s k else m_Cp s k) /\
  m_TI s' k = m_TI s k.
Proof.
  induction l as [|x l IH]; intros s k Hd; simpl; [auto|].
  inversion Hd; subst. destruct (IH (swap_at s x) k) as (A & B & C & D & E); auto.
  simpl in *. rewrite A, B, C, D, E. unfold inb; simpl. fold (inb k l).
  destruct (Nat.eqb_spec k x) as [->|Hk]; simpl.
  - assert (inb x l = false) by (apply inb_false; auto). rewrite H. rewrite !bupd_same. auto.
  - rewrite !bupd_other by auto. auto.
Qed.

Lemma reinv_fold : forall l (s : mst N),
  let s' := fold_left reinv_at l s in
  m_T s' = m_T s /\ m_Tp s' = m_Tp s /\ m_C s' = m_C s /\ m_Cp s' = m_Cp s /\
  m_TI s' = fold_left (fun TI i => bupd TI (m_T s i) i) l (m_TI s).
Proof.
  induction l as [|x l IH]; intros s; simpl; [auto 6|].
  destruct (IH (reinv_at s x)) as (A & B & C & D & E). simpl in *. rewrite A, B, C, D, E. auto 6.
Qed.

Lemma inv_fold_other : forall (T : bmap) l (TI : bmap) x,
  (forall j, In j l -> T j <> x) -> fold_left (fun TI i => bupd TI (T i) i) l TI x = TI x.
Proof.
  induction l as [|y l IH]; intros TI x H; simpl; auto. rewrite IH.
  - apply bupd_other. intros E. apply (H y); simpl; auto.
  - intros; apply H; simpl; auto.
Qed.

Section Round.
Variable n : nat.
Variable cost : nat -> nat -> N.
Variables T0 Tp0 : bmap.
Hypothesis HT0 : perm_on n T0.
Hypothesis HTp0 : perm_on n Tp0.
Variable C0 : nat -> N.
Hypothesis HC0 : forall i, i < n -> C0 i = cost i (T0 i).
Let Cp0 := fun i => cost i (Tp0 i).
Let sig := fun i => get_inverse n Tp0 (T0 i).

Lemma sig_lt : forall i, i < n -> sig i < n.
Proof. intros; unfold sig. apply get_inverse_right; auto. apply (proj1 HT0); auto. Qed.
Lemma sig_Tp : forall i, i < n -> Tp0 (sig i) = T0 i.
Proof. intros; unfold sig. apply get_inverse_right; auto. apply (proj1 HT0); auto. Qed.
Lemma sig_perm : perm_on n sig.
Proof.
  split; [apply sig_lt|]. intros i j Hi Hj E. apply (proj2 HT0); auto. rewrite <- !sig_Tp, E; auto.
Qed.
Lemma sig_fix : forall i, i < n -> sig i = i -> T0 i = Tp0 i.
Proof. intros i Hi E. rewrite <- (sig_Tp i Hi), E. auto. Qed.

(** state of the cycle loop *)
Definition P1 (vis : nat -> bool) (st : mst N) (ccs : list (list nat)) : Prop :=
  (exists s : nat -> bool,
    (forall i, i < n -> s (sig i) = s i) /\
    (forall i, i < n -> m_T st i = (if s i then Tp0 i else T0 i)) /\
    (forall i, i < n -> m_Tp st i = (if s i then T0 i else Tp0 i)) /\
    (forall i, i < n -> m_C st i = (if s i then Cp0 i else C0 i)) /\
    (forall i, i < n -> m_Cp st i = (if s i then C0 i else Cp0 i)) /\
    (forall i, i < n -> vis i = false -> s i = false)) /\
  (forall i, i < n -> m_TI st (m_T st i) = i) /\
  (forall j, j < n -> vis (sig j) = vis j) /\
  (forall cc a, In cc ccs -> In a cc -> a < n).

Lemma perm_ext : forall f g, perm_on n f -> (forall i, i < n -> g i = f i) -> perm_on n g.
Proof.
  intros f g [A B] H. split.
  - intros i Hi; rewrite H; auto.
  - intros i j Hi Hj; rewrite !H; auto.
Qed.

Lemma P1_perm : forall vis st ccs, P1 vis st ccs -> perm_on n (m_T st).
Proof.
  intros vis st ccs ((s & A & B & _) & _). eapply perm_ext; [|exact B].
  apply mixed_perm with sig; auto using sig_lt, sig_Tp.
Qed.

Lemma fold_ext : forall (l : list nat) (f g : nat -> N) a, (forall j, In j l -> f j = g j) ->
  fold_left (fun a j => nadd a (f j)) l a = fold_left (fun a j => nadd a (g j)) l a.
Proof.
  induction l as [|x l IH]; intros f g a H; simpl; auto. rewrite (H x) by (simpl; auto). apply IH.
  intros; apply H; simpl; auto.
Qed.

(** what one step of the cycle loop does *)
Lemma cycle_step_ok : forall vis st ccs i, P1 vis st ccs -> i < n ->
  exists vis' st' ccs', cycle_step n sig (Some (vis, st, ccs)) i = Some (vis', st', ccs') /\
    P1 vis' st' ccs' /\ (vis' i = true \/ sig i = i) /\ (forall k, vis k = true -> vis' k = true) /\
    ((vis' = vis /\ st' = st) \/
     exists cc, NoDup cc /\ (forall k, In k cc -> k < n /\ vis k = false) /\
       (forall k, vis' k = vis k || inb k cc) /\
       (forall k, k < n -> m_C st' k =
          if inb k cc && nltb (fold_left (fun a j => nadd a (Cp0 j)) cc n0) (fold_left (fun a j => nadd a (C0 j)) cc n0)
          then Cp0 k else m_C st k) /\
       (forall k, In k cc -> m_C st k = C0 k)).
Proof.
  intros vis st ccs i HP Hi. unfold cycle_step.
  destruct (vis i) eqn:Vi.
  { exists vis, st, ccs. repeat split; auto; try apply HP. }
  destruct (Nat.eqb_spec (sig i) i) as [E|E].
  { exists vis, st, ccs. repeat split; auto; try apply HP. }
  destruct HP as ((s & S1 & S2 & S3 & S4 & S5 & S6) & HI & HCl & HCC).
  destruct (cycle_found n sig sig_perm vis HCl i Hi Vi) as (cc & vis' & W & O & Nd & In1 & Ini & Hv & Hcl).
  rewrite W, O.
  assert (EC : forall k, In k cc -> m_C st k = C0 k).
  { intros k Hk. destruct (In1 k Hk). rewrite S4, S6; auto. }
  assert (ECp : forall k, In k cc -> m_Cp st k = Cp0 k).
  { intros k Hk. destruct (In1 k Hk). rewrite S5, S6; auto. }
  rewrite (fold_ext cc (m_C st) C0 n0 EC), (fold_ext cc (m_Cp st) Cp0 n0 ECp).
  assert (Hcl' : forall j, j < n -> vis' (sig j) = vis' j).
  { intros j Hj. rewrite !Hv, HCl, Hcl; auto. }
  assert (HCC' : forall cc0 a, In cc0 (ccs ++ [cc]) -> In a cc0 -> a < n).
  { intros cc0 a H1 H2. apply in_app_iff in H1. destruct H1 as [H1|[<-|[]]]; eauto. apply In1; auto. }
  assert (Hvi : vis' i = true). { rewrite Hv. apply orb_true_iff; right. apply inb_In; auto. }
  assert (Hmono : forall k, vis k = true -> vis' k = true). { intros k Hk. rewrite Hv, Hk; auto. }
  destruct (nltb _ _) eqn:L.
  - set (s1 := fold_left swap_at cc st). set (s2 := fold_left reinv_at cc s1).
    pose proof (fun k => swap_fold cc st k Nd) as SW. simpl in SW. fold s1 in SW.
    pose proof (reinv_fold cc s1) as RI. simpl in RI. fold s2 in RI.
    destruct RI as (R1 & R2 & R3 & R4 & R5).
    assert (B2 : forall k, k < n -> m_T s2 k = (if s k || inb k cc then Tp0 k else T0 k)).
    { intros k Hk. rewrite R1. destruct (SW k) as (-> & _). destruct (inb k cc) eqn:I.
      - rewrite orb_true_r. apply inb_In in I. rewrite S3, S6; auto; apply In1; auto.
      - rewrite orb_false_r. auto. }
    assert (PT : perm_on n (m_T s2)).
    { eapply perm_ext; [|exact B2]. apply mixed_perm with sig; auto using sig_lt, sig_Tp.
      intros j Hj. rewrite S1, Hcl; auto. }
    exists vis', s2, (ccs ++ [cc]). split; [auto|]. split.
    { split.
      - exists (fun k => s k || inb k cc). split; [intros j Hj; rewrite S1, Hcl; auto|].
        split; [exact B2|]. split.
        { intros k Hk. rewrite R2. destruct (SW k) as (_ & -> & _). destruct (inb k cc) eqn:I.
          - rewrite orb_true_r. apply inb_In in I. rewrite S2, S6; auto; apply In1; auto.
          - rewrite orb_false_r. auto. }
        split.
        { intros k Hk. rewrite R3. destruct (SW k) as (_ & _ & -> & _). destruct (inb k cc) eqn:I.
          - rewrite orb_true_r. apply inb_In in I. auto.
          - rewrite orb_false_r. auto. }
        split.
        { intros k Hk. rewrite R4. destruct (SW k) as (_ & _ & _ & -> & _). destruct (inb k cc) eqn:I.
          - rewrite orb_true_r. apply inb_In in I. auto.
          - rewrite orb_false_r. auto. }
        intros k Hk V. rewrite Hv in V. apply orb_false_iff in V. destruct V as [V1 V2].
        rewrite V2, orb_false_r. auto.
      - split; [|split; auto]. intros k Hk. rewrite R5.
        assert (Eq : forall l TI x, fold_left (fun TI i => bupd TI (m_T s1 i) i) l TI x =
                               fold_left (fun TI i => bupd TI (m_T s2 i) i) l TI x) by (rewrite R1; auto).
        rewrite Eq. destruct (inb k cc) eqn:I.
        + apply inb_In in I. apply inv_fold; auto. apply (nodup_map n); auto. intros x Hx; apply In1; auto.
        + apply inb_false in I. rewrite inv_fold_other.
          * destruct (SW (m_T s2 k)) as (_ & _ & _ & _ & ->). rewrite R1. destruct (SW k) as (-> & _).
            apply inb_false in I. rewrite I. auto.
          * intros j Hj Ej. apply I. assert (j = k); [|subst; auto]. apply (proj2 PT); auto. apply In1; auto. }
    split; [auto|]. split; [auto|]. right. exists cc. split; [auto|]. split; [auto|]. split; [auto|].
    split; [|auto]. intros k Hk. rewrite L, andb_true_r. rewrite R3. destruct (SW k) as (_ & _ & -> & _).
    destruct (inb k cc) eqn:I; auto. apply ECp. apply inb_In; auto.
  - exists vis', st, (ccs ++ [cc]). split; [auto|]. split.
    { split; [|auto]. exists s. repeat split; auto. intros k Hk V. rewrite Hv in V. apply orb_false_iff in V.
      destruct V; auto. }
    split; [auto|]. split; [auto|]. right. exists cc. split; [auto|]. split; [auto|]. split; [auto|].
    split; [|auto]. intros k Hk. rewrite L, andb_false_r. auto.
Qed.

(** state of the exchange loop *)
Definition P2 (st : mst N) : Prop :=
  perm_on n (m_T st) /\ (forall i, i < n -> m_TI st (m_T st i) = i) /\
  (forall i, i < n -> m_C st i = cost i (m_T st i)) /\
  (forall i, i < n -> m_Tp st i < n) /\ (forall i, i < n -> m_Cp st i = cost i (m_Tp st i)).

Lemma P1_P2 : forall vis st ccs, P1 vis st ccs -> P2 st.
Proof.
  intros vis st ccs H. pose proof (P1_perm _ _ _ H) as HP.
  destruct H as ((s & S1 & S2 & S3 & S4 & S5 & S6) & HI & _). split; [auto|]. split; [auto|]. split; [|split].
  - intros i Hi. rewrite S4, S2 by auto. destruct (s i); auto.
  - intros i Hi. rewrite S3 by auto. destruct (s i); [apply (proj1 HT0)|apply (proj1 HTp0)]; auto.
  - intros i Hi. rewrite S5, S3 by auto. destruct (s i); auto.
Qed.

Lemma pair_step_ok : forall st a, P2 st -> a < n ->
  P2 (pair_step cost st a) /\
  (pair_step cost st a = st \/
   exists ap capb, ap < n /\ ap <> a /\ m_C (pair_step cost st a) = bupd (bupd (m_C st) a (m_Cp st a)) ap capb /\
     nltb (nadd (m_Cp st a) capb) (nadd (m_C st a) (m_C st ap)) = true).
Proof.
  intros st a (PT & HI & HC & HTp & HCp) Ha. unfold pair_step.
  set (b := m_T st a). set (bp := m_Tp st a). set (ap := m_TI st bp).
  destruct ((a =? ap) || (b =? bp)) eqn:E1; [repeat split; auto; try apply PT|].
  apply orb_false_iff in E1. destruct E1 as [E1 E2]. apply Nat.eqb_neq in E1, E2.
  destruct (nltb (nadd (m_C st a) (m_C st ap)) (m_Cp st a)) eqn:E3; [repeat split; auto; try apply PT|].
  destruct (nltb (nadd (m_Cp st a) (cost ap b)) _) eqn:E4; [|repeat split; auto; try apply PT].
  destruct (perm_on_surj n (m_T st) bp PT) as (x & Hx & Ex); [apply HTp; auto|].
  assert (ap = x). { unfold ap. rewrite <- Ex. auto. } 
  assert (Hap : ap < n) by (rewrite H; auto). assert (Tap : m_T st ap = bp) by (rewrite H; auto). clear x Hx Ex H. clearbody ap.
  split; [|right; exists ap, (cost ap b); repeat split; auto].
  assert (ET : forall k, bupd (bupd (m_T st) a bp) ap b k = m_T st (if k =? ap then a else if k =? a then ap else k)).
  { intros k. unfold bupd. destruct (Nat.eqb_spec k ap); [auto|]. destruct (Nat.eqb_spec k a); [auto|]. auto. }
  split; [|split; [|split; [|split]]]; cbn [m_T m_TI m_C m_Tp m_Cp].
  - split.
    + intros k Hk. rewrite ET. apply (proj1 PT). destruct (k =? ap); auto. destruct (k =? a); auto.
    + intros j k Hj Hk. rewrite !ET. intros E. apply (proj2 PT) in E.
      * destruct (Nat.eqb_spec j ap), (Nat.eqb_spec k ap), (Nat.eqb_spec j a), (Nat.eqb_spec k a); subst; auto; try congruence.
      * destruct (j =? ap); auto. destruct (j =? a); auto.
      * destruct (k =? ap); auto. destruct (k =? a); auto.
  - intros k Hk. rewrite ET. destruct (Nat.eqb_spec k ap) as [->|K1].
    + fold b. apply bupd_same.
    + destruct (Nat.eqb_spec k a) as [->|K2].
      * rewrite Tap. rewrite bupd_other by auto. apply bupd_same.
      * rewrite !bupd_other; auto.
        -- rewrite <- Tap. intros X. apply (proj2 PT) in X; auto.
        -- unfold b. intros X. apply (proj2 PT) in X; auto.
  - intros k Hk. unfold bupd. destruct (Nat.eqb_spec k ap) as [->|]; auto. destruct (Nat.eqb_spec k a) as [->|]; auto.
    unfold bp; auto.
  - auto.
  - auto.
Qed.

(** how one step of the cycle loop changes the visited flags and the costs *)
Definition crel (vis : nat -> bool) (st : mst N) (vis' : nat -> bool) (st' : mst N) : Prop :=
  (vis' = vis /\ st' = st) \/
  exists cc, NoDup cc /\ (forall k, In k cc -> k < n /\ vis k = false) /\
    (forall k, vis' k = vis k || inb k cc) /\
    (forall k, k < n -> m_C st' k =
       if inb k cc && nltb (fold_left (fun a j => nadd a (Cp0 j)) cc n0) (fold_left (fun a j => nadd a (C0 j)) cc n0)
       then Cp0 k else m_C st k) /\
    (forall k, In k cc -> m_C st k = C0 k).

Lemma cycle_loop : forall (J : (nat -> bool) -> mst N -> Prop),
  (forall vis st ccs vis' st', P1 vis st ccs -> J vis st -> crel vis st vis' st' -> J vis' st') ->
  forall l vis st ccs, (forall i, In i l -> i < n) -> P1 vis st ccs -> J vis st ->
  exists vis' st' ccs', fold_left (cycle_step n sig) l (Some (vis, st, ccs)) = Some (vis', st', ccs') /\
    P1 vis' st' ccs' /\ J vis' st' /\ (forall i, In i l -> vis' i = true \/ sig i = i) /\
    (forall k, vis k = true -> vis' k = true).
Proof.
  intros J HJ. induction l as [|i l IH]; intros vis st ccs Hl HP Hj.
  - exists vis, st, ccs. repeat split; auto; try apply HP.
  - cbn [fold_left].
    destruct (cycle_step_ok vis st ccs i HP) as (v1 & s1 & c1 & E & HP1 & Hi & Hm & Hr); [apply Hl; simpl; auto|].
    rewrite E. destruct (IH v1 s1 c1) as (v2 & s2 & c2 & E2 & HP2 & HJ2 & Hd & Hm2); auto.
    + intros k Hk; apply Hl; simpl; auto.
    + apply (HJ vis st ccs v1 s1); auto.
    + exists v2, s2, c2. split; [auto|]. split; [auto|]. split; [auto|]. split; [|auto].
      intros k [<-|Hk]; [|auto]. destruct Hi; auto.
Qed.

(** how one exchange changes the costs *)
Definition prel (st st' : mst N) : Prop :=
  st' = st \/ exists a ap capb, a < n /\ ap < n /\ ap <> a /\ m_C st' = bupd (bupd (m_C st) a (m_Cp st a)) ap capb /\
     nltb (nadd (m_Cp st a) capb) (nadd (m_C st a) (m_C st ap)) = true.

Lemma pair_loop : forall (J : mst N -> Prop), (forall st st', P2 st -> J st -> prel st st' -> J st') ->
  forall l st, (forall a, In a l -> a < n) -> P2 st -> J st ->
  P2 (fold_left (pair_step cost) l st) /\ J (fold_left (pair_step cost) l st).
Proof.
  intros J HJ. induction l as [|a l IH]; intros st Hl HP Hj; [auto|]. cbn [fold_left].
  destruct (pair_step_ok st a HP) as [HP' Hr]; [apply Hl; simpl; auto|].
  apply IH; auto.
  - intros; apply Hl; simpl; auto.
  - eapply HJ; [exact HP|auto|]. destruct Hr as [->|(ap & capb & A & B & C & D)]; [left; auto|].
    right. exists a, ap, capb. repeat split; auto. apply Hl; simpl; auto.
Qed.

Lemma pair_loops : forall (J : mst N -> Prop), (forall st st', P2 st -> J st -> prel st st' -> J st') ->
  forall ccs st, (forall cc a, In cc ccs -> In a cc -> a < n) -> P2 st -> J st ->
  P2 (fold_left (fun s0 cc => fold_left (pair_step cost) cc s0) ccs st) /\
  J (fold_left (fun s0 cc => fold_left (pair_step cost) cc s0) ccs st).
Proof.
  intros J HJ. induction ccs as [|cc ccs IH]; intros st Hl HP Hj; [auto|]. cbn [fold_left].
  destruct (pair_loop J HJ cc st) as [A B]; auto.
  - intros a Ha. apply (Hl cc); simpl; auto.
  - apply IH; auto. intros cc' a H1 H2. apply (Hl cc'); simpl; auto.
Qed.

Lemma P1_init : forall TI, (forall i, i < n -> TI (T0 i) = i) ->
  P1 (fun _ => false) (mk_mst T0 TI C0 Tp0 Cp0) [].
Proof.
  intros TI H. split; [|split; [auto|split; [auto|intros cc a []]]].
  exists (fun _ => false). repeat split; auto.
Qed.

Lemma round_ok : forall (J : (nat -> bool) -> mst N -> Prop) (K : mst N -> Prop) TI,
  (forall i, i < n -> TI (T0 i) = i) ->
  (forall vis st ccs vis' st', P1 vis st ccs -> J vis st -> crel vis st vis' st' -> J vis' st') ->
  (forall st st', P2 st -> K st -> prel st st' -> K st') ->
  J (fun _ => false) (mk_mst T0 TI C0 Tp0 Cp0) ->
  (forall vis st ccs, P1 vis st ccs -> J vis st -> (forall i, i < n -> vis i = true \/ sig i = i) -> K st) ->
  exists st, merge_round n cost Tp0 T0 TI C0 = Some (m_T st, m_TI st, m_C st) /\ P2 st /\ K st.
Proof.
  intros J K TI HI HJ HK J0 JK. unfold merge_round. fold Cp0. fold sig.
  destruct (cycle_loop J HJ (seq 0 n) (fun _ => false) (mk_mst T0 TI C0 Tp0 Cp0) []) as
    (v & st & ccs & E & HP & Hj & Hd & _); auto.
  - intros i Hi. apply in_seq in Hi. lia.
  - apply P1_init; auto.
  - change (fun i => get_inverse n Tp0 (T0 i)) with sig. change (fun i => cost i (Tp0 i)) with Cp0. rewrite E.
    destruct (pair_loops K HK ccs st) as [A B].
    + apply HP.
    + eapply P1_P2; eauto.
    + eapply JK; eauto. intros i Hi. apply Hd. apply in_seq; lia.
    + eexists. split; [reflexivity|]. split; auto.
Qed.
End Round.

(** the whole merge keeps a bijection *)
Definition pinv_ok (n : nat) cost (T TI : bmap) (C : nat -> N) : Prop :=
  perm_on n T /\ (forall i, i < n -> TI (T i) = i) /\ (forall i, i < n -> C i = cost i (T i)).

Lemma merge_loop_ok : forall n cost (Q : bmap -> Prop) (seen : bmap -> bmap -> Prop),
  (forall Tp T TI C, perm_on n Tp -> pinv_ok n cost T TI C -> Q T ->
     exists T' TI' C', merge_round n cost Tp T TI C = Some (T', TI', C') /\ pinv_ok n cost T' TI' C' /\ Q T' /\
       seen Tp T' /\ (forall P, seen P T -> seen P T')) ->
  forall l T TI C, (forall p, In p l -> perm_on n p) -> pinv_ok n cost T TI C -> Q T ->
  exists T', merge_loop n cost l T TI C = Some T' /\ perm_on n T' /\ Q T' /\
    (forall p, In p l -> seen p T') /\ (forall P, seen P T -> seen P T').
Proof.
  intros n cost Q seen H. induction l as [|p l IH]; intros T TI C Hl HI HQ.
  - exists T. split; [auto|]. split; [apply HI|]. split; [auto|]. split; [intros p []|auto].
  - destruct (H p T TI C) as (T' & TI' & C' & E & HI' & HQ' & S1 & S2); auto. { apply Hl; simpl; auto. }
    destruct (IH T' TI' C') as (T'' & E2 & P & HQ2 & S3 & S4); auto. { intros; apply Hl; simpl; auto. }
    exists T''. simpl. rewrite E. split; [auto|]. split; [auto|]. split; [auto|]. split; [|auto].
    intros q [<-|Hq]; auto.
Qed.

Lemma merge_round_perm : forall n cost Tp T TI C, perm_on n Tp -> pinv_ok n cost T TI C ->
  exists T' TI' C', merge_round n cost Tp T TI C = Some (T', TI', C') /\ pinv_ok n cost T' TI' C'.
Proof.
  intros n cost Tp T TI C HTp (HT & HI & HC).
  destruct (round_ok n cost T Tp HT HTp C HC (fun _ _ => True) (fun _ => True) TI) as (st & E & P & _); auto.
  exists (m_T st), (m_TI st), (m_C st). split; [auto|]. destruct P as (A & B & D & _). split; auto.
Qed.

(** an order of the plans: every plan once *)
Definition rank_ok (rank : list N -> list nat) : Prop := forall l, Permutation (rank l) (seq 0 (length l)).

Lemma order_In : forall rank (plans : list bmap) p0 (sc : bmap -> N), rank_ok rank ->
  forall p, In p (map (fun k => nth k plans p0) (rank (map sc plans))) <-> In p plans.
Proof.
  intros rank plans p0 sc H p. rewrite in_map_iff. pose proof (H (map sc plans)) as HP. rewrite map_length in HP. split.
  - intros (k & <- & Hk). apply nth_In. eapply Permutation_in in Hk; [|exact HP]. apply in_seq in Hk. lia.
  - intros Hp. destruct (In_nth _ _ p0 Hp) as (k & Hk & E). exists k. split; auto.
    eapply Permutation_in; [apply Permutation_sym, HP|]. apply in_seq; lia.
Qed.

Lemma order_nil : forall rank (plans : list bmap) p0 (sc : bmap -> N), rank_ok rank -> plans <> [] ->
  map (fun k => nth k plans p0) (rank (map sc plans)) <> [].
Proof.
  intros rank plans p0 sc H Hn E. destruct plans as [|p l]; [congruence|].
  apply (in_nil (a:=p)). rewrite <- E. rewrite order_In; auto. simpl; auto.
Qed.

Lemma merge_plans_gen : forall n cost rank (seen : bmap -> bmap -> Prop),
  (forall Tp T TI C, perm_on n Tp -> pinv_ok n cost T TI C ->
     exists T' TI' C', merge_round n cost Tp T TI C = Some (T', TI', C') /\ pinv_ok n cost T' TI' C' /\
       seen Tp T' /\ (forall P, seen P T -> seen P T')) ->
  (forall T, seen T T) -> rank_ok rank ->
  forall plans T0, plans <> [] -> (forall p, In p plans -> perm_on n p) ->
  (forall T, T0 = Some T -> perm_on n T) ->
  exists T', merge_plans n rank cost plans T0 = MOk T' /\ perm_on n T' /\
    (forall p, In p plans -> seen p T') /\ (forall T, T0 = Some T -> seen T T').
Proof.
  intros n cost rank seen H Hrefl Hrank plans T0 Hn Hp HT0. unfold merge_plans.
  destruct plans as [|p0 pl]; [congruence|]. cbv beta iota zeta. set (plans := p0 :: pl) in *. clear Hn.
  assert (EP : plans = p0 :: pl) by reflexivity. clearbody plans.
  match goal with |- context [map ?f (rank ?l)] => set (order := map f (rank l)) end.
  assert (HO : forall p, In p order <-> In p plans) by (exact (order_In rank plans p0 (eval_matching n cost) Hrank)).
  clearbody order.
  assert (HL : forall l T, (forall p, In p l -> perm_on n p) -> perm_on n T ->
    exists T', merge_loop n cost l T (get_inverse n T) (fun i => cost i (T i)) = Some T' /\ perm_on n T' /\
      (forall p, In p l -> seen p T') /\ seen T T').
  { intros l T Hl HT. destruct (merge_loop_ok n cost (fun _ => True) seen) with (l := l) (T := T) (TI := get_inverse n T)
      (C := fun i => cost i (T i)) as (T' & E & P & _ & S1 & S2); auto.
    - intros Tp T1 TI C A B _. destruct (H Tp T1 TI C A B) as (T' & TI' & C' & E & F & G). exists T', TI', C'. tauto.
    - split; [auto|]. split; [|auto]. intros i Hi. apply get_inverse_ok; auto.
    - exists T'. auto. }
  destruct T0 as [T|].
  - destruct (HL order T) as (T' & E & P & S1 & S2).
    { intros p Hi. apply Hp. apply HO; auto. } { apply HT0; auto. }
    rewrite E. exists T'. split; [auto|]. split; [auto|]. split.
    + intros p Hi. apply S1. apply HO; auto.
    + intros T2 E2. inversion E2; subst; auto.
  - destruct order as [|T l] eqn:EO.
    { exfalso. apply (in_nil (a:=p0)). apply HO. rewrite EP; simpl; auto. }
    destruct (HL l T) as (T' & E & P & S1 & S2).
    { intros p Hi. apply Hp. apply HO; simpl; auto. } { apply Hp. apply HO; simpl; auto. }
    rewrite E. exists T'. split; [auto|]. split; [auto|]. split.
    + intros p Hi. apply HO in Hi. destruct Hi as [<-|Hi]; auto.
    + intros T2 E2; discriminate.
Qed.

Lemma merge_plans_perm : forall n cost rank plans T0, rank_ok rank -> plans <> [] ->
  (forall p, In p plans -> perm_on n p) -> (forall T, T0 = Some T -> perm_on n T) ->
  exists T', merge_plans n rank cost plans T0 = MOk T' /\ perm_on n T'.
Proof.
  intros n cost rank plans T0 Hr Hn Hp HT.
  destruct (merge_plans_gen n cost rank (fun _ _ => True)) with (plans := plans) (T0 := T0) as (T' & E & P & _); auto.
  - intros Tp T TI C A B. destruct (merge_round_perm n cost Tp T TI C A B) as (T' & TI' & C' & E & F).
    exists T', TI', C'. auto.
  - exists T'. auto.
Qed.
End Struct.
