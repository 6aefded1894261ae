(** Ghost spanning trees: rose trees, their preorder, contexts, and what the
    arrays parent / succ_num / last_succ say about them. *)
From Coq Require Import List Arith Bool Lia Permutation.
Import ListNotations.
From Verif Require Import Num NS_model NS_list.

Inductive tree := T (x : nat) (cs : list tree).

Section Ind.
Variable Pr : tree -> Prop.
Hypothesis H : forall x cs, (forall c, In c cs -> Pr c) -> Pr (T x cs).
Fixpoint tree_ind' (t : tree) : Pr t :=
  match t with
  | T x cs => H x cs
      ((fix go l : forall c, In c l -> Pr c :=
          match l return forall c, In c l -> Pr c with
          | [] => fun c (F : In c []) => match F with end
          | a :: l' => fun c Hc =>
             match Hc with
             | or_introl E => eq_ind a Pr (tree_ind' a) c E
             | or_intror H' => go l' c H'
             end
          end) cs)
  end.
End Ind.

Definition rt (t : tree) : nat := match t with T x _ => x end.
Fixpoint pre (t : tree) : list nat := match t with T x cs => x :: flat_map pre cs end.
Definition preF (cs : list tree) : list nat := flat_map pre cs.
Definition size (t : tree) : nat := length (pre t).
Definition lst (t : tree) : nat := last (pre t) (rt t).

Lemma preF_app : forall a b, preF (a ++ b) = preF a ++ preF b.
Proof. intros; apply flat_map_app. Qed.
Lemma preF_cons : forall t b, preF (t :: b) = pre t ++ preF b.
Proof. auto. Qed.
Lemma pre_T : forall x cs, pre (T x cs) = x :: preF cs.
Proof. auto. Qed.
Lemma size_pos : forall t, 1 <= size t.
Proof. intros []; unfold size; cbn; lia. Qed.
Lemma pre_hd : forall t, hd_error (pre t) = Some (rt t).
Proof. intros []; auto. Qed.
Lemma pre_lasto : forall t, lasto (pre t) = Some (lst t).
Proof. intros t. apply lasto_last'. destruct t; discriminate. Qed.
Lemma rt_in : forall t, In (rt t) (pre t).
Proof. intros []; cbn; auto. Qed.
Lemma lst_in : forall t, In (lst t) (pre t).
Proof. intros t. apply lasto_In. apply pre_lasto. Qed.
Lemma pre_nonnil : forall t, pre t <> [].
Proof. intros []; discriminate. Qed.
Lemma preF_nil : forall cs, preF cs = [] -> cs = [].
Proof. intros [|[x cs'] l]; auto. discriminate. Qed.

(** [I x p s l]: node x has parent p, subtree size s, last subtree node l *)
Section Rep.
Variable I : nat -> nat -> nat -> nat -> Prop.
Fixpoint rep (p : nat) (t : tree) : Prop :=
  match t with
  | T x cs => I x p (size t) (lst t) /\
              (fix go l := match l with [] => True | c :: l' => rep x c /\ go l' end) cs
  end.
Definition repF (p : nat) (cs : list tree) : Prop := forall c, In c cs -> rep p c.

Lemma rep_T : forall p x cs, rep p (T x cs) <-> I x p (size (T x cs)) (lst (T x cs)) /\ repF x cs.
Proof.
  intros p x cs. cbn [rep].
  assert (E : (fix go l := match l with [] => True | c :: l' => rep x c /\ go l' end) cs <-> repF x cs).
  { unfold repF. induction cs as [|c cs IH].
    - split; auto. intros _ c [].
    - rewrite IH. cbn [In]. split.
      + intros [A B] d [<-|Hd]; auto.
      + intros H. split; auto. }
  rewrite E. tauto.
Qed.
Lemma repF_app : forall p a b, repF p (a ++ b) <-> repF p a /\ repF p b.
Proof.
  intros; unfold repF. split.
  - intros H; split; intros; apply H; apply in_or_app; auto.
  - intros [A B] c Hc. apply in_app_or in Hc as [Hc|Hc]; auto.
Qed.
Lemma repF_cons : forall p a b, repF p (a :: b) <-> rep p a /\ repF p b.
Proof.
  intros; unfold repF; cbn [In]. split.
  - intros H; split; intros; apply H; auto.
  - intros [A B] c [<-|Hc]; auto.
Qed.
Lemma repF_nil : forall p, repF p [].
Proof. intros p c []. Qed.
End Rep.

Lemma rep_impl : forall (I I' : nat -> nat -> nat -> nat -> Prop) t p,
  (forall x q s l, In x (pre t) -> I x q s l -> I' x q s l) -> rep I p t -> rep I' p t.
Proof.
  intros I I' t; induction t as [x cs IH] using tree_ind'; intros p H HR.
  rewrite rep_T in *. destruct HR as [H1 H2]. split.
  - apply H; auto. cbn; auto.
  - intros c Hc. apply IH; auto. intros; apply H; auto. cbn. right.
    apply in_flat_map; eauto.
Qed.
Lemma repF_impl : forall (I I' : nat -> nat -> nat -> nat -> Prop) cs p,
  (forall x q s l, In x (preF cs) -> I x q s l -> I' x q s l) -> repF I p cs -> repF I' p cs.
Proof.
  intros I I' cs p H HR c Hc. eapply rep_impl; [|apply HR; auto].
  intros; apply H; auto. apply in_flat_map; eauto.
Qed.

(** ** Contexts, innermost frame first *)
Definition frame := (nat * list tree * list tree)%type.
Definition ctx := list frame.
Definition nodeof (f : frame) : nat := fst (fst f).

Fixpoint plug (t : tree) (c : ctx) : tree :=
  match c with
  | [] => t
  | (x, l, r) :: c' => plug (T x (l ++ t :: r)) c'
  end.
Fixpoint preL (c : ctx) : list nat :=
  match c with [] => [] | (x, l, r) :: c' => preL c' ++ x :: preF l end.
Fixpoint preR (c : ctx) : list nat :=
  match c with [] => [] | (x, l, r) :: c' => preF r ++ preR c' end.
Definition ptop (p0 : nat) (c : ctx) : nat := match c with [] => p0 | f :: _ => nodeof f end.

Lemma plug_app : forall c1 c2 t, plug t (c1 ++ c2) = plug (plug t c1) c2.
Proof. induction c1 as [|[[x l] r] c1 IH]; intros; cbn [app plug]; auto. Qed.
Lemma preL_app : forall c1 c2, preL (c1 ++ c2) = preL c2 ++ preL c1.
Proof.
  induction c1 as [|[[x l] r] c1 IH]; intros; cbn [app preL]. { rewrite app_nil_r; auto. }
  rewrite IH. rewrite <- app_assoc; auto.
Qed.
Lemma preR_app : forall c1 c2, preR (c1 ++ c2) = preR c1 ++ preR c2.
Proof.
  induction c1 as [|[[x l] r] c1 IH]; intros; cbn [app preR]; auto.
  rewrite IH. rewrite <- app_assoc; auto.
Qed.
Lemma pre_plug : forall c t, pre (plug t c) = preL c ++ pre t ++ preR c.
Proof.
  induction c as [|[[x l] r] c IH]; intros t; cbn [plug preL preR app].
  - rewrite app_nil_r; auto.
  - rewrite IH. rewrite pre_T, preF_app, preF_cons. rewrite <- !app_assoc. cbn [app].
    rewrite <- !app_assoc. auto.
Qed.
Lemma nodes_in_preL : forall c x, In x (map nodeof c) -> In x (preL c).
Proof.
  induction c as [|[[y l] r] c IH]; cbn; intros x; auto. intros [<-|H]; rewrite in_app_iff; cbn; auto.
Qed.

(** what the arrays say about a context, given the size and last node of the hole *)
Fixpoint repC (I : nat -> nat -> nat -> nat -> Prop) (p0 : nat) (c : ctx) (sz la : nat) : Prop :=
  match c with
  | [] => True
  | (x, l, r) :: c' =>
    let sz' := S (length (preF l) + sz + length (preF r)) in
    let la' := last (preF r) la in
    I x (ptop p0 c') sz' la' /\ repF I x l /\ repF I x r /\ repC I p0 c' sz' la'
  end.

Lemma last_app_r : forall (a b : list nat) d, b <> [] -> last (a ++ b) d = last b d.
Proof.
  intros a b d H. destruct (lasto b) as [y|] eqn:E.
  - rewrite (lasto_last b y d E). apply lasto_last. rewrite lasto_app, E; auto.
  - apply lasto_none in E; contradiction.
Qed.
Lemma last_indep : forall (b : list nat) d d', b <> [] -> last b d = last b d'.
Proof.
  intros b d d' H. destruct (lasto b) as [y|] eqn:E.
  - rewrite (lasto_last b y d E), (lasto_last b y d' E); auto.
  - apply lasto_none in E; contradiction.
Qed.
Lemma last_app_l : forall (a b : list nat) d, last (a ++ b) d = last b (last a d).
Proof.
  intros a b d. destruct b as [|y b]. { rewrite app_nil_r; auto. }
  rewrite last_app_r by discriminate. apply last_indep; discriminate.
Qed.

Lemma size_hole : forall x l t r, size (T x (l ++ t :: r)) = S (length (preF l) + size t + length (preF r)).
Proof.
  intros. unfold size. rewrite pre_T, preF_app, preF_cons. cbn [length]. rewrite !app_length. lia.
Qed.
Lemma lst_hole : forall x l t r, lst (T x (l ++ t :: r)) = last (preF r) (lst t).
Proof.
  intros. unfold lst at 1. rewrite pre_T, preF_app, preF_cons. cbn [rt].
  change (x :: preF l ++ pre t ++ preF r) with ((x :: preF l) ++ pre t ++ preF r).
  rewrite app_assoc, last_app_l. f_equal. rewrite last_app_r by apply pre_nonnil.
  unfold lst. apply last_indep. apply pre_nonnil.
Qed.

Lemma rep_plug : forall I p0 c t,
  rep I p0 (plug t c) <-> rep I (ptop p0 c) t /\ repC I p0 c (size t) (lst t).
Proof.
  intros I p0; induction c as [|[[x l] r] c IH]; intros t; cbn [plug repC ptop nodeof fst].
  - tauto.
  - rewrite IH. rewrite rep_T, repF_app, repF_cons. rewrite size_hole, lst_hole. tauto.
Qed.

Lemma locate : forall t x, In x (pre t) -> exists c cs, t = plug (T x cs) c.
Proof.
  intros t; induction t as [y cs IH] using tree_ind'; intros x Hx.
  rewrite pre_T in Hx. cbn [In] in Hx. destruct Hx as [<-|Hx].
  - exists [], cs; auto.
  - apply in_flat_map in Hx as (t & Ht & Hx). destruct (IH t Ht x Hx) as (c & cs' & E).
    apply in_split in Ht as (l & r & ->).
    exists (c ++ [(y, l, r)]), cs'. rewrite plug_app, <- E. auto.
Qed.

(** parents *)
Definition Ipar (par : nat -> nat) : nat -> nat -> nat -> nat -> Prop := fun x p _ _ => par x = p.

Lemma repC_path : forall (I : nat -> nat -> nat -> nat -> Prop) p0 c sz la par,
  (forall x p s l, I x p s l -> par x = p) ->
  repC I p0 c sz la -> links (fun x y => par x = y) (map nodeof c ++ [p0]).
Proof.
  intros I p0; induction c as [|[[x l] r] c IH]; intros sz la par Hp HR; cbn [map app links]; auto.
  cbn [repC] in HR. destruct HR as (H1 & _ & _ & H2). split.
  - destruct c as [|[[y l'] r'] c]; cbn [map app]; apply Hp in H1; auto.
  - eapply IH; eauto.
Qed.

(** sizes strictly grow towards the root *)
Lemma rep_child_smaller : forall (I : nat -> nat -> nat -> nat -> Prop) (par sn : nat -> nat),
  (forall x p s l, I x p s l -> par x = p /\ sn x = s) ->
  forall t p, rep I p t -> forall x, In x (pre t) -> x <> rt t ->
  In (par x) (pre t) /\ sn x < sn (par x).
Proof.
  intros I par sn HI t; induction t as [y cs IH] using tree_ind'; intros p HR x Hx Hne.
  rewrite pre_T in Hx. cbn [In rt] in *. destruct Hx as [<-|Hx]; [congruence|].
  rewrite rep_T in HR. destruct HR as [H1 H2].
  apply in_flat_map in Hx as (t & Ht & Hx). pose proof (H2 t Ht) as H3.
  destruct (Nat.eq_dec x (rt t)) as [E|E].
  - destruct t as [x' cs']; cbn [rt] in E; subst x'.
    rewrite rep_T in H3. destruct H3 as [H3 _]. apply HI in H1, H3.
    destruct H1 as [_ H1], H3 as [E2 H3]. rewrite E2. split; [cbn; auto|].
    rewrite H1, H3. apply in_split in Ht as (l & r & ->). rewrite size_hole. lia.
  - destruct (IH t Ht y H3 x Hx E) as [A B]. split; auto.
    rewrite pre_T. right. apply in_flat_map; eauto.
Qed.

Lemma rep_par_in : forall (I : nat -> nat -> nat -> nat -> Prop) (par : nat -> nat),
  (forall x p s l, I x p s l -> par x = p) ->
  forall t p, rep I p t -> forall x, In x (pre t) -> x <> rt t -> In (par x) (pre t).
Proof.
  intros I par HI t; induction t as [z cs IH] using tree_ind'; intros p Hr x Hin E.
  rewrite pre_T in Hin. cbn [In rt] in *. destruct Hin as [<-|Hin]; [congruence|].
  rewrite rep_T in Hr. destruct Hr as [_ Hr]. apply in_flat_map in Hin as (t & Ht & Hin).
  pose proof (Hr t Ht) as Hr'. destruct (Nat.eq_dec x (rt t)) as [E2|E2].
  - destruct t as [x' cs']; cbn in E2; subst x'. rewrite rep_T in Hr'. destruct Hr' as [Hr' _].
    apply HI in Hr'. rewrite Hr'. cbn; auto.
  - rewrite pre_T. right. apply in_flat_map. exists t. split; auto. eapply IH; eauto.
Qed.

(** a node outside a subtree has its parent outside too (or is the subtree's root) *)
Lemma repC_outside : forall (I : nat -> nat -> nat -> nat -> Prop) (par : nat -> nat),
  (forall x p s l, I x p s l -> par x = p) ->
  forall p0 c sz la, repC I p0 c sz la ->
  forall x, In x (preL c ++ preR c) -> par x = p0 \/ In (par x) (preL c ++ preR c).
Proof.
  intros I par HI p0; induction c as [|[[y l] r] c IH]; intros sz la HR x Hx.
  - contradiction.
  - cbn [repC] in HR. destruct HR as (H1 & H2 & H3 & H4).
    cbn [preL preR] in *. 
    assert (Hf : forall cs, repF I y cs -> In x (preF cs) -> par x = y \/ In (par x) (preF cs)).
    { intros cs Hcs Hin. apply in_flat_map in Hin as (t & Ht & Hin).
      pose proof (Hcs t Ht) as Hr. destruct (Nat.eq_dec x (rt t)) as [E|E].
      - left. destruct t as [x' cs']; cbn in E; subst x'. rewrite rep_T in Hr. destruct Hr as [Hr _].
        apply HI in Hr; auto.
      - right. apply in_flat_map. exists t; split; auto.
        eapply rep_par_in; eauto. }
    assert (Hy : In y ((preL c ++ y :: preF l) ++ preF r ++ preR c)).
    { rewrite !in_app_iff. cbn; auto. }
    rewrite !in_app_iff in Hx. cbn [In] in Hx.
    assert (Hc : In x (preL c ++ preR c) -> par x = p0 \/ In (par x) ((preL c ++ y :: preF l) ++ preF r ++ preR c)).
    { intros Hin. destruct (IH _ _ H4 x Hin) as [E|E]; auto. right.
      rewrite !in_app_iff in *. cbn [In]. tauto. }
    destruct Hx as [[Hx|[<-|Hx]]|[Hx|Hx]].
    + apply Hc. apply in_or_app; auto.
    + apply HI in H1. destruct c as [|[[z l'] r'] c]; cbn [ptop nodeof fst] in H1; auto.
      right. rewrite H1. cbn [preL]. rewrite !in_app_iff. cbn; auto.
    + right. destruct (Hf l H2 Hx) as [->|E]; auto. rewrite !in_app_iff. cbn; auto.
    + right. destruct (Hf r H3 Hx) as [->|E]; auto. rewrite !in_app_iff. cbn; auto.
    + apply Hc. apply in_or_app; auto.
Qed.
