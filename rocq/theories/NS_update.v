(** updateTreeStructure (network_simplex_simple.h:2025-2142) turns a correct
    spanning-tree representation into a correct representation of the tree in
    which u_out's parent arc is replaced by the entering arc. *)
From Coq Require Import List Arith Bool Lia Permutation.
Import ListNotations.
From Verif Require Import Num NS_model NS_list NS_thread NS_tree NS_path NS_ctx NS_assemble.

Section WithNum.
Context {N : NumOps}.
Notation net := (@net N).
Notation ns := (@ns N).

(** the arrays of [s] represent the rooted ordered tree [t] over nodes 0..node_num *)
Record tree_ok (g : net) (s : ns) (t : tree) : Prop := {
  tk_rt : rt t = root g;
  tk_perm : Permutation (pre t) (seq 0 (S (node_num g)));
  tk_rep : rep (Iof (parent s) (succ_num s) (last_succ s)) (nonode g) t;
  tk_th : links (fun x y => thread s x = y) (pre t ++ [root g]);
  tk_rv : links (fun x y => rev_thread s y = x) (pre t ++ [root g])
}.

Lemma tk_nodup : forall g s t, tree_ok g s t -> NoDup (pre t).
Proof. intros g s t H. eapply Permutation_NoDup; [symmetry; apply (tk_perm _ _ _ H)|apply seq_NoDup]. Qed.
Lemma tk_len : forall g s t, tree_ok g s t -> length (pre t) = S (node_num g).
Proof. intros g s t H. rewrite (Permutation_length (tk_perm _ _ _ H)). apply seq_length. Qed.
Lemma tk_in : forall g s t x, tree_ok g s t -> (In x (pre t) <-> x <= node_num g).
Proof.
  intros g s t x H. split; intros Hx.
  - eapply Permutation_in in Hx; [|apply (tk_perm _ _ _ H)]. apply in_seq in Hx. lia.
  - eapply Permutation_in; [symmetry; apply (tk_perm _ _ _ H)|]. apply in_seq. lia.
Qed.
Lemma tk_nonode : forall g s t, tree_ok g s t -> ~ In (nonode g) (pre t).
Proof. intros g s t H Hin. rewrite (tk_in _ _ _ _ H) in Hin. unfold nonode in Hin. lia. Qed.

Definition cnt (x : nat) (l : list nat) := count_occ Nat.eq_dec l x.
Lemma cnt_app : forall x a b, cnt x (a ++ b) = cnt x a + cnt x b.
Proof. intros; apply count_occ_app. Qed.
Lemma cnt_cons : forall x y l, cnt x (y :: l) = cnt x [y] + cnt x l.
Proof. intros. change (y :: l) with ([y] ++ l). apply cnt_app. Qed.
Lemma cnt_nil : forall x, cnt x [] = 0. Proof. auto. Qed.
Lemma cnt_plug : forall x c t, cnt x (pre (plug t c)) = cnt x (pre t) + cnt x (map nodeof c) + cnt x (fnodes c).
Proof.
  intros x c t. pose proof (plug_perm c t) as H. rewrite (Permutation_count_occ Nat.eq_dec) in H.
  specialize (H x). unfold cnt. rewrite H. rewrite !count_occ_app. lia.
Qed.
Lemma perm_cnt : forall a b, (forall x, cnt x a = cnt x b) -> Permutation a b.
Proof. intros a b H. apply (Permutation_count_occ Nat.eq_dec). exact H. Qed.

Lemma rpath_links : forall par l p, rpath par p l -> links (fun x y => par y = x) l.
Proof.
  intros par; induction l as [|x l IH]; intros p H; cbn; auto. destruct H as [H1 H2]. split; eauto.
  destruct l as [|y l]; auto. apply H2.
Qed.

Lemma mono_tail : forall ls old x l, mono_ls ls old (x :: l) -> mono_ls ls old l.
Proof. intros ls old x l H l1 y l2 E. apply (H (x :: l1)). rewrite E; auto. Qed.
Lemma mono_ext : forall ls ls' old l, (forall x, In x l -> ls' x = ls x) -> mono_ls ls old l -> mono_ls ls' old l.
Proof.
  intros ls ls' old l H M l1 x l2 E Hx y Hy. rewrite H in *.
  - apply (M l1 x l2); auto. 
  - rewrite E. apply in_or_app; cbn; auto.
  - rewrite E. apply in_or_app; cbn; auto.
Qed.
Lemma plinks_ext : forall (p p' : nat -> nat) l j, (forall x, In x l -> p' x = p x) ->
  plinks p (l ++ [j]) -> plinks p' (l ++ [j]).
Proof.
  intros p p' l j H HL. unfold plinks in *. eapply links_impl_keys; [|exact HL].
  cbn beta. intros x y Hx _ E. rewrite removelast_snoc in Hx. rewrite H; auto.
Qed.

Lemma rep_rt_par : forall (I : nat -> nat -> nat -> nat -> Prop) (par : nat -> nat) p t,
  (forall x p s l, I x p s l -> par x = p) -> rep I p t -> par (rt t) = p.
Proof. intros I par p [x cs] HI H. rewrite rep_T in H. destruct H as [H _]. apply HI in H; auto. Qed.

Section Upd.
Variables (g : net) (s : ns) (t : tree) (ia j uin vin uout : nat) (a1 a2 b : list nat).
Hypothesis Htk : tree_ok g s t.
Hypothesis Hj : In j (pre t).
Hypothesis Hin : forall x, In x ((a1 ++ uout :: a2) ++ b) -> In x (pre t).
Hypothesis La : plinks (parent s) ((a1 ++ uout :: a2) ++ [j]).
Hypothesis Lb : plinks (parent s) (b ++ [j]).
Hypothesis Ha : hd_error (a1 ++ uout :: a2) = Some uin.
Hypothesis Hb : hd_error (b ++ [j]) = Some vin.
Hypothesis Nja : ~ In j (a1 ++ uout :: a2).
Hypothesis Njb : ~ In j b.
Hypothesis Dab : forall x, In x (a1 ++ uout :: a2) -> In x b -> False.

Notation I := (Iof (parent s) (succ_num s) (last_succ s)).

Variables (l r cs : list tree) (F G C : ctx).
Hypothesis HD : decomp t j uin vin uout a1 a2 b l r cs F G C.

Let stems := uin :: map nodeof F.
Let tin := T uin cs.
Let tout := plug tin F.
Let tj := T j (l ++ plug tout G :: r).
Let T' := T uin (cs ++ chainT F).
Let K := size tout.
Let lam := lst T'.
Let old_ls := lst tout.
Let old_rev := rev_thread s uout.
Let X := if negb (j =? old_rev) && negb (vin =? old_rev) then old_rev else lam.
Let P := preL C ++ j :: preF l ++ preL G.
Let Q := preR G ++ preF r ++ preR C.
Let seg := preL F ++ pre tin ++ preR F.

Lemma Et : t = plug tj C.
Proof. rewrite (dc_tree _ _ _ _ _ _ _ _ _ _ _ _ _ _ HD). rewrite plug_app. auto. Qed.
Lemma Et2 : t = plug tout (G ++ (j, l, r) :: C).
Proof. rewrite Et. rewrite plug_app. auto. Qed.
Lemma stems_eq : stems = a1 ++ [uout].
Proof. apply (dc_F _ _ _ _ _ _ _ _ _ _ _ _ _ _ HD). Qed.
Lemma G_eq : map nodeof G = a2.
Proof. apply (dc_G _ _ _ _ _ _ _ _ _ _ _ _ _ _ HD). Qed.
Lemma a_eq : a1 ++ uout :: a2 = stems ++ a2.
Proof. rewrite stems_eq. rewrite <- app_assoc. auto. Qed.
Lemma pre_tout : pre tout = seg.
Proof. apply pre_plug. Qed.
Lemma rt_tout : rt tout = uout.
Proof.
  assert (H : lasto stems = Some (rt tout)) by (apply (plug_rt_last F tin)).
  rewrite stems_eq, lasto_snoc in H. injection H as <-. auto.
Qed.
Lemma pre_t : pre t = P ++ seg ++ Q.
Proof.
  rewrite Et2, pre_plug, preL_app, preR_app, pre_tout. cbn [preL preR]. unfold P, Q.
  rewrite <- !app_assoc. cbn [app]. rewrite <- !app_assoc. auto.
Qed.
Lemma rep_uout : I uout (ptop j G) K old_ls.
Proof.
  pose proof (tk_rep _ _ _ Htk) as H. rewrite Et2, rep_plug in H. destruct H as [H _].
  pose proof rt_tout as E. unfold K, old_ls. destruct tout as [u ch]. cbn [rt] in E. subst u.
  rewrite rep_T in H. destruct H as [H _].
  replace (ptop j G) with (ptop (nonode g) (G ++ (j, l, r) :: C)); auto. destruct G; auto.
Qed.
Lemma ND : NoDup (pre t). Proof. eapply tk_nodup; eauto. Qed.

Lemma full_path : forall k x, plinks (parent s) (k ++ [j]) -> hd_error (k ++ [j]) = Some x ->
  plinks (parent s) ((k ++ j :: map nodeof C) ++ [nonode g]).
Proof.
  intros k x HL Hx. pose proof (tk_rep _ _ _ Htk) as H. rewrite Et in H.
  apply (rep_path I (parent s)) in H; [|intros ? ? ? ? Hi; apply Hi].
  change (rt tj :: map nodeof C ++ [nonode g]) with (j :: map nodeof C ++ [nonode g]) in H.
  rewrite <- app_assoc. cbn [app]. unfold plinks in *. rewrite links_app in *.
  destruct HL as (H1 & _ & H3). split; auto.
Qed.

Lemma Sp_nodup : NoDup (stems ++ b ++ a2 ++ j :: map nodeof C).
Proof.
  assert (PA : plinks (parent s) (((stems ++ a2) ++ j :: map nodeof C) ++ [nonode g])).
  { rewrite <- a_eq. apply (full_path _ uin); auto. rewrite hd_error_app. destruct (a1 ++ uout :: a2); [discriminate|auto]. }
  assert (PB : plinks (parent s) ((b ++ j :: map nodeof C) ++ [nonode g])) by (apply (full_path _ vin); auto).
  assert (inC : forall x, In x (j :: map nodeof C) -> In x (pre t)).
  { intros x Hx. rewrite Et, pre_plug. destruct Hx as [<-|Hx].
    - rewrite !in_app_iff. right; left. cbn; auto.
    - apply in_or_app; left. apply nodes_in_preL; auto. }
  assert (loc : forall x k, hd_error k = Some x -> In x (pre t) -> (forall y, In y k -> In y (pre t)) ->
     plinks (parent s) (k ++ [nonode g]) -> NoDup k).
  { intros x k Hk Hx Hkin HL. destruct (locate t x Hx) as (c & cx & E).
    assert (E2 : x :: map nodeof c = k).
    { apply (path_det (parent s) (nonode g)); auto.
      - pose proof (tk_rep _ _ _ Htk) as H. rewrite E in H.
        apply (rep_path I (parent s)) in H; auto. intros ? ? ? ? Hi; apply Hi.
      - intros H. apply (tk_nonode _ _ _ Htk). rewrite E, pre_plug. destruct H as [H|H].
        + rewrite !in_app_iff. right; left. cbn; auto.
        + apply in_or_app; left. apply nodes_in_preL; auto.
      - intros H. apply (tk_nonode _ _ _ Htk). auto.
      - rewrite hd_error_app. destruct k; [discriminate|]. cbn in *. auto. }
    rewrite <- E2. pose proof ND as H. rewrite E in H.
    eapply Permutation_NoDup in H; [|apply plug_perm]. rewrite pre_T in H. cbn [app] in H.
    inversion H as [|? ? H1 H2]; subst. constructor.
    - intros H3. apply H1. rewrite !in_app_iff; auto.
    - apply NoDup_app_inv in H2 as (_ & H2 & _). apply NoDup_app_inv in H2 as (H2 & _). auto. }
  assert (NA : NoDup ((stems ++ a2) ++ j :: map nodeof C)).
  { apply (loc uin); auto.
    - apply Hin. apply in_or_app; left. apply hd_error_In; auto.
    - intros y Hy. apply in_app_or in Hy as [Hy|Hy]; auto. apply Hin. rewrite a_eq. apply in_or_app; auto. }
  assert (NB : NoDup (b ++ j :: map nodeof C)).
  { apply (loc vin); auto.
    - destruct b; auto.
    - destruct b as [|v' b']; cbn in Hb; injection Hb as <-; auto. apply Hin. apply in_or_app; right; cbn; auto.
    - intros y Hy. apply in_app_or in Hy as [Hy|Hy]; auto. apply Hin. apply in_or_app; auto. }
  rewrite <- app_assoc in NA.
  apply NoDup_app_inv in NA as (N1 & NA & D1). apply NoDup_app_inv in NA as (N2 & N3 & D2).
  apply NoDup_app_inv in NB as (N4 & _ & D4).
  apply NoDup_app_intro; auto. apply NoDup_app_intro; auto. apply NoDup_app_intro; auto.
  - intros x Hx Hx2. apply in_app_or in Hx2 as [Hx2|Hx2].
    + apply (Dab x); auto. rewrite a_eq. apply in_or_app; auto.
    + apply (D4 x); auto.
  - intros x Hx Hx2. apply in_app_or in Hx2 as [Hx2|Hx2].
    + apply (Dab x); auto. rewrite a_eq. apply in_or_app; auto.
    + apply (D1 x); auto.
Qed.

Lemma Sp_in : forall x, In x (stems ++ b ++ a2 ++ j :: map nodeof C) -> In x (pre t).
Proof.
  intros x Hx. rewrite !in_app_iff in Hx. cbn [In] in Hx.
  destruct Hx as [Hx|[Hx|[Hx|[<-|Hx]]]]; auto.
  - apply Hin. rewrite a_eq, !in_app_iff; auto.
  - apply Hin. rewrite !in_app_iff; auto.
  - apply Hin. rewrite a_eq, !in_app_iff; auto.
  - rewrite Et, pre_plug. apply in_or_app; left. apply nodes_in_preL; auto.
Qed.

Lemma sub_len : forall k, NoDup k -> (forall x, In x k -> In x (pre t)) -> length k <= S (node_num g).
Proof. intros k H1 H2. rewrite <- (tk_len _ _ _ Htk). apply NoDup_incl_length; auto. Qed.

Lemma vin_not_seg : ~ In vin seg.
Proof.
  intros H. destruct (dc_v _ _ _ _ _ _ _ _ _ _ _ _ _ _ HD) as [[_ E]|[(l1 & l2 & csv & D & E & _)|(r1 & r2 & csv & D & E & _)]].
  - pose proof ND as N0. rewrite pre_t in N0. apply NoDup_app_inv in N0 as (_ & _ & D).
    apply (D vin); [|apply in_or_app; auto]. subst vin. unfold P. rewrite !in_app_iff. cbn; auto.
  - pose proof ND as N0. rewrite pre_t in N0. apply NoDup_app_inv in N0 as (_ & _ & D0).
    apply (D0 vin); [|apply in_or_app; auto]. unfold P. rewrite E, preF_app, preF_cons, pre_plug, pre_T.
    rewrite !in_app_iff. cbn. rewrite !in_app_iff. cbn; auto 10.
  - pose proof ND as N0. rewrite pre_t in N0. apply NoDup_app_inv in N0 as (_ & N0 & _).
    apply NoDup_app_inv in N0 as (_ & _ & D0).
    apply (D0 vin); auto. unfold Q. rewrite E, preF_app, preF_cons, pre_plug, pre_T.
    rewrite !in_app_iff. cbn. auto 10.
Qed.

(** everything the arrays say after the update *)
Record updated (s' : ns) : Prop := {
  up_flow : flow s' = flow s; up_pi : pi s' = pi s; up_state : state s' = state s;
  up_in : in_arc s' = in_arc s; up_next : next_arc s' = next_arc s;
  up_par_s : rpath (parent s') vin stems;
  up_par_o : forall x, ~ In x stems -> parent s' x = parent s x;
  up_pred_u : pred s' uin = ia;
  up_pred_s : links (fun w u => pred s' u = pred s w) stems;
  up_pred_o : forall x, ~ In x stems -> pred s' x = pred s x;
  up_fwd_u : forward s' uin = (uin =? a_src g ia);
  up_fwd_s : links (fun w u => forward s' u = negb (forward s w)) stems;
  up_fwd_o : forall x, ~ In x stems -> forward s' x = forward s x;
  up_sn_u : succ_num s' uin = K;
  up_sn_s : links (fun w u => succ_num s' u = K - succ_num s w) stems;
  up_sn_b : forall x, In x b -> succ_num s' x = succ_num s x + K;
  up_sn_G : forall x, In x a2 -> succ_num s' x = succ_num s x - K;
  up_sn_o : forall x, ~ In x (stems ++ b ++ a2) -> succ_num s' x = succ_num s x;
  up_ls_s : forall x, In x stems -> last_succ s' x = lam;
  up_ls_b : forall x, In x b -> last_succ s' x = if last_succ s x =? vin then lam else last_succ s x;
  up_ls_G : forall x, In x a2 -> last_succ s' x = if last_succ s x =? old_ls then X else last_succ s x;
  up_ls_C : forall x, In x (j :: map nodeof C) -> last_succ s' x =
     if last_succ s j =? vin then (if last_succ s x =? vin then lam else last_succ s x)
     else (if last_succ s x =? old_ls then X else last_succ s x);
  up_ls_o : forall x, ~ In x (stems ++ b ++ a2 ++ j :: map nodeof C) -> last_succ s' x = last_succ s x;
  up_th : forall L', newlist (map lf F) (pre tin) P Q vin L' ->
     links (fun x y => thread s' x = y) (L' ++ [root g]) /\
     links (fun x y => rev_thread s' y = x) (L' ++ [root g])
}.

Lemma Hold_rev : lasto P = Some old_rev.
Proof.
  pose proof (tk_rv _ _ _ Htk) as H. rewrite pre_t in H. rewrite <- !app_assoc in H.
  rewrite links_app in H. destruct H as (_ & _ & H).
  destruct (lasto P) as [y|] eqn:E.
  - f_equal. unfold old_rev. symmetry. apply (H y uout); auto.
    rewrite hd_error_app. rewrite <- pre_tout. rewrite (pre_hd tout), rt_tout.
    destruct (pre tout) eqn:E2; [destruct (pre_nonnil tout E2)|].
    pose proof (pre_hd tout) as E3. rewrite E2 in E3. cbn in E3. rewrite rt_tout in E3. auto.
  - apply lasto_none in E. unfold P in E. destruct (preL C); discriminate.
Qed.

Lemma stems_off : forall x, In x (b ++ a2 ++ j :: map nodeof C) -> ~ In x stems.
Proof.
  intros x Hx Hs. pose proof Sp_nodup as H. apply NoDup_app_inv in H as (_ & _ & H). apply (H x); auto.
Qed.

Lemma update_run : exists s', update_tree g s ia j uin vin uout = Ret s' /\ updated s'.
Proof.
  pose proof Sp_nodup as NS. pose proof (tk_rep _ _ _ Htk) as HR.
  assert (HIp : forall x p s0 l0, I x p s0 l0 -> parent s x = p) by (intros ? ? ? ? Hi; apply Hi).
  assert (HIl : forall x p s0 l0, I x p s0 l0 -> last_succ s x = l0) by (intros ? ? ? ? Hi; apply Hi).
  pose proof NS as NS'.
  apply NoDup_app_inv in NS' as (Nst & NS' & Dst). apply NoDup_app_inv in NS' as (Nb & NS' & Db).
  apply NoDup_app_inv in NS' as (Na2 & NjC & Da2).
  set (fuel := S (S (node_num g))).
  assert (Hlen : forall k, NoDup k -> (forall x, In x k -> In x (stems ++ b ++ a2 ++ j :: map nodeof C)) -> length k <= fuel).
  { intros k H1 H2. unfold fuel. pose proof (sub_len k H1 (fun x Hx => Sp_in x (H2 x Hx))). lia. }
  assert (HlF : length F <= fuel).
  { assert (H : length stems <= fuel) by (apply (Hlen stems Nst); intros; apply in_or_app; auto).
    assert (E : length stems = S (length F)) by (unfold stems; cbn [length]; rewrite map_length; auto). lia. }
  destruct rep_uout as (Ep & Esn & Els).
  (* pieces of rep *)
  pose proof HR as HR2. rewrite Et2, rep_plug in HR2. destruct HR2 as [HRo HCo].
  pose proof HRo as HRo'. unfold tout in HRo'. rewrite rep_plug in HRo'. destruct HRo' as [HRi HCi].
  pose proof HRi as HRi'. unfold tin in HRi'. rewrite rep_T in HRi'. destruct HRi' as [(Eip & Eis & Eil) HRcs].
  assert (NDo : NoDup (pre tout)).
  { pose proof ND as H. rewrite Et2, pre_plug in H. apply NoDup_app_inv in H as (_ & H & _).
    apply NoDup_app_inv in H as (H & _). auto. }
  assert (Hlst : links (fun x y => parent s x = y) stems).
  { pose proof La as H. rewrite a_eq in H. rewrite <- app_assoc in H. unfold plinks in H.
    rewrite links_app in H. apply H. }
  (* thread *)
  destruct (thread_update (thread s) (rev_thread s) (parent s) (last_succ s) (map lf F) (pre tin) P Q
              (root g) uin uout vin fuel) as (z & Z1 & Z2 & Z3 & Z4 & Z5).
  { rewrite map_length; auto. }
  { pose proof (pre_hd t) as H. rewrite pre_t, hd_error_app in H.
    destruct P as [|y P'] eqn:EP. { unfold P in EP. destruct (preL C); discriminate. }
    rewrite (tk_rt _ _ _ Htk) in H. auto. }
  { rewrite LL_preL, RR_preR. fold seg. rewrite <- pre_t. apply ND. }
  { rewrite LL_preL, RR_preR. fold seg. rewrite <- pre_t. apply (tk_th _ _ _ Htk). }
  { rewrite LL_preL, RR_preR. fold seg. rewrite <- pre_t. apply (tk_rv _ _ _ Htk). }
  { auto. }
  { rewrite Eil. apply pre_lasto. }
  { rewrite map_fnode. fold stems. rewrite stems_eq. apply lasto_snoc. }
  { rewrite map_fnode. exact Hlst. }
  { rewrite pre_tout in NDo. unfold seg in NDo. apply NoDup_app_inv in NDo as (_ & NDo & _).
    apply NoDup_app_inv in NDo as (_ & NDR & DR).
    eapply (lsok_of_repC I); [exact HIl|exact HCi|exact Eil| |exact NDR].
    exact (DR _ (lst_in tin)). }
  { rewrite LL_preL, RR_preR. fold seg. rewrite <- pre_tout, Els. apply pre_lasto. }
  { rewrite LL_preL, RR_preR. fold seg. rewrite <- pre_tout, pre_hd, rt_tout. auto. }
  { rewrite LL_preL, RR_preR. fold seg. apply vin_not_seg. }
  rewrite map_fnode in Z3, Z4. fold stems in Z3, Z4.
  assert (Elam : s_u z = lam).
  { rewrite Z2. unfold lam. unfold lst. unfold T'. rewrite pre_T, preF_app, preF_chain. unfold tin.
    rewrite pre_T. cbn [app]. apply last_indep. discriminate. }
  set (par1 := upd (s_par z) uout (s_pstem z)) in *.
  assert (Euo : In uout stems). { rewrite stems_eq. apply in_or_app; cbn; auto. }
  assert (Eui : In uin stems) by (cbn; auto).
  assert (Hpo : forall x, ~ In x stems -> par1 x = parent s x).
  { intros x Hx. unfold par1. rewrite upd_other; auto. intros ->; auto. }
  (* relabel *)
  set (ls1 := upd (last_succ s) uout (s_u z)).
  destruct (relabel_spec par1 uin (ls1 uout) (rev stems) fuel uout 0 K
             (mkRelabel (pred s) (forward s) (succ_num s) ls1)) as (rr & R1 & R2 & R3 & R4 & R5).
  { apply rpath_links in Z3. apply links_rev in Z3. exact Z3. }
  { rewrite hd_rev, stems_eq. apply lasto_snoc. }
  { rewrite lasto_rev. auto. }
  { apply NoDup_rev; auto. }
  { rewrite rev_length. pose proof (Hlen stems Nst). assert (length stems <= fuel); [|lia]. apply H.
    intros; apply in_or_app; auto. }
  { cbn [r_sn]. apply (links_rev (fun x y => succ_num s x <= succ_num s y)).
    eapply links_impl; [|exact Hlst]. cbn beta. intros x y Hx Hy E.
    assert (Hxt : In x (pre t)). { apply Sp_in. apply in_or_app; auto. }
    assert (Hne : x <> rt t).
    { intros Ex. assert (H : parent s (rt t) = nonode g) by (apply (rep_rt_par I); auto).
      apply (tk_nonode _ _ _ Htk). rewrite <- H, <- Ex, E. apply Sp_in. apply in_or_app; left. apply In_tl; auto. }
    destruct (rep_child_smaller I (parent s) (succ_num s)) with (t := t) (p := nonode g) (x := x) as [_ H]; auto.
    { intros ? ? ? ? Hi; split; apply Hi. }
    rewrite E in H. lia. }
  { cbn [r_sn]. rewrite Esn. auto. }
  cbn [r_pred r_fwd r_sn r_ls] in *.
  apply links_rev in R2. rewrite rev_involutive in R2.
  assert (Hst_rm : forall x, In x (removelast (rev stems)) <-> In x stems /\ x <> uin).
  { intros x. unfold stems. cbn [rev]. rewrite removelast_snoc, <- in_rev. split.
    - intros Hx. split; [cbn; auto|]. intros ->. unfold stems in Nst. inversion Nst; auto.
    - intros [[Hx|Hx] Hn]; [congruence|auto]. }
  assert (Hst_tl : forall x, In x (tl (rev stems)) <-> In x stems /\ x <> uout).
  { intros x. rewrite stems_eq, rev_app_distr. cbn [rev app tl]. rewrite <- in_rev. split.
    - intros Hx. split; [apply in_or_app; auto|]. intros ->. rewrite stems_eq in Nst.
      apply NoDup_app_inv in Nst as (_ & _ & D). apply (D uout); cbn; auto.
    - intros [Hx Hn]. apply in_app_or in Hx as [Hx|[Hx|[]]]; [auto|congruence]. }
  assert (Rls_s : forall x, In x stems -> r_ls rr x = lam).
  { intros x Hx. destruct (Nat.eq_dec x uout) as [->|Hn].
    - rewrite R5. { unfold ls1. rewrite upd_same. auto. } rewrite Hst_tl. tauto.
    - rewrite R4. { unfold ls1. rewrite upd_same. auto. } rewrite Hst_tl. tauto. }
  assert (Rls_o : forall x, ~ In x stems -> r_ls rr x = last_succ s x).
  { intros x Hx. rewrite R5 by (rewrite Hst_tl; tauto). unfold ls1. apply upd_other. intros ->; auto. }
  set (sn1 := upd (r_sn rr) uin (succ_num s uout)).
  assert (Hjs : ~ In j stems). { apply stems_off. rewrite !in_app_iff. cbn; auto. }
  (* paths under the new parents *)
  assert (Hoff : forall k, (forall x, In x k -> In x (b ++ a2 ++ j :: map nodeof C)) ->
     forall q, plinks (parent s) (k ++ [q]) -> plinks par1 (k ++ [q])).
  { intros k Hk q Hq. eapply plinks_ext; [|exact Hq]. intros x Hx. apply Hpo. apply stems_off. auto. }
  assert (Hvo : hd_error (a2 ++ [j]) = Some (parent s uout)).
  { pose proof La as H. rewrite a_eq, stems_eq in H. rewrite <- !app_assoc in H. unfold plinks in H.
    rewrite links_app in H. destruct H as (_ & H & _). cbn [app links] in H. destruct H as [H _].
    destruct (a2 ++ [j]) as [|q k] eqn:E; [destruct a2; discriminate|]. cbn. rewrite H; auto. }
  assert (La2 : plinks (parent s) (a2 ++ [j])).
  { pose proof La as H. rewrite a_eq in H. rewrite <- app_assoc in H. unfold plinks in H.
    rewrite links_app in H. apply H. }
  assert (Pb : plinks (parent s) ((b ++ j :: map nodeof C) ++ [nonode g])) by (apply (full_path _ vin); auto).
  assert (Pa2 : plinks (parent s) ((a2 ++ j :: map nodeof C) ++ [nonode g])) by (apply (full_path _ (parent s uout)); auto).
  assert (Hhb : hd_error ((b ++ j :: map nodeof C) ++ [nonode g]) = Some vin) by (destruct b; auto).
  assert (Hha : hd_error ((a2 ++ j :: map nodeof C) ++ [nonode g]) = Some (parent s uout)) by (destruct a2; auto).
  assert (Hnon : forall x, In x (stems ++ b ++ a2 ++ j :: map nodeof C) -> x <> nonode g).
  { intros x Hx ->. apply (tk_nonode _ _ _ Htk). apply Sp_in; auto. }
  (* monotonicity of last_succ along the paths *)
  assert (Mv : mono_ls (last_succ s) vin (b ++ j :: map nodeof C)).
  { assert (Hvt : In vin (pre t)).
    { apply Sp_in. rewrite !in_app_iff. destruct b as [|v' b']; cbn in Hb; injection Hb as <-; cbn; auto 10. }
    destruct (locate t vin Hvt) as (c & cx & E).
    assert (E2 : vin :: map nodeof c = b ++ j :: map nodeof C).
    { apply (path_det (parent s) (nonode g)); auto.
      - pose proof HR as H. rewrite E in H. apply (rep_path I (parent s)) in H; auto.
      - intros H. apply (tk_nonode _ _ _ Htk). rewrite E, pre_plug. destruct H as [H|H].
        + rewrite !in_app_iff. right; left. cbn; auto.
        + apply in_or_app; left. apply nodes_in_preL; auto.
      - intros H. apply (Hnon (nonode g)); auto. rewrite !in_app_iff in *. tauto. }
    rewrite <- E2. change vin with (rt (T vin cx)) at 2.
    eapply (mono_path I); [exact HIl| | |].
    - rewrite <- E. exact HR.
    - rewrite <- E. apply ND.
    - cbn; auto. }
  assert (Mo : mono_ls (last_succ s) old_ls (a2 ++ j :: map nodeof C)).
  { apply (mono_tail _ _ uout).
    assert (E : uout :: a2 ++ j :: map nodeof C = rt tout :: map nodeof (G ++ (j, l, r) :: C)).
    { rewrite rt_tout, map_app, G_eq. auto. }
    rewrite E. eapply (mono_path I); [exact HIl| | |].
    - rewrite <- Et2. exact HR.
    - rewrite <- Et2. apply ND.
    - apply lst_in. }
  (* succ_num *)
  assert (Hnjb : NoDup (b ++ j :: map nodeof C)).
  { apply NoDup_app_intro; auto. intros x Hx Hx2. apply (Db x); auto. apply in_or_app; auto. }
  assert (Hnja : NoDup (a2 ++ j :: map nodeof C)) by (apply NoDup_app_intro; auto).
  assert (Nja2 : ~ In j a2). { intros H. apply (Da2 j); cbn; auto. }
  destruct (up_sn_spec par1 j (fun x => x + succ_num s uout) b fuel vin sn1) as (sn2 & S1 & S2 & S3); auto.
  { apply Hoff; auto. intros; rewrite !in_app_iff; auto. }
  { apply Hlen; auto. intros; rewrite !in_app_iff; auto. }
  destruct (up_sn_spec par1 j (fun x => x - succ_num s uout) a2 fuel (parent s uout) sn2) as (sn3 & S4 & S5 & S6); auto.
  { apply Hoff; auto. intros; rewrite !in_app_iff; auto. }
  { apply Hlen; auto. intros; rewrite !in_app_iff; auto. }
  (* last_succ *)
  assert (Hlb : exists ls2,
    up_ls fuel par1 (if r_ls rr j =? vin then nonode g else j) vin (r_ls rr uout) vin (r_ls rr) = Ret ls2 /\
    (forall x, In x b -> ls2 x = if last_succ s x =? vin then lam else last_succ s x) /\
    (forall x, In x (j :: map nodeof C) -> ls2 x = if last_succ s j =? vin then (if last_succ s x =? vin then lam else last_succ s x) else last_succ s x) /\
    (forall x, ~ In x (b ++ j :: map nodeof C) -> ls2 x = r_ls rr x)).
  { rewrite (Rls_o j Hjs), (Rls_s uout Euo).
    assert (Hr : forall x, In x (b ++ j :: map nodeof C) -> r_ls rr x = last_succ s x).
    { intros x Hx. apply Rls_o. apply stems_off. rewrite !in_app_iff in *. tauto. }
    destruct (Nat.eqb_spec (last_succ s j) vin) as [Ee|Ee].
    - destruct (up_ls_spec par1 (nonode g) vin lam (b ++ j :: map nodeof C) fuel vin (r_ls rr)) as (ls2 & U1 & U2 & U3); auto.
      { apply Hoff; auto. intros x Hx; rewrite !in_app_iff in *; tauto. }
      { intros H. apply (Hnon (nonode g)); auto. rewrite !in_app_iff in *. tauto. }
      { apply Hlen; auto. intros x Hx; rewrite !in_app_iff in *; tauto. }
      { eapply mono_ext; [|exact Mv]. auto. }
      exists ls2. split; auto. split; [|split]; auto.
      + intros x Hx. rewrite U2, Hr by (apply in_or_app; auto). auto.
      + intros x Hx. rewrite U2, Hr by (apply in_or_app; auto). auto.
    - destruct (up_ls_spec par1 j vin lam b fuel vin (r_ls rr)) as (ls2 & U1 & U2 & U3); auto.
      { apply Hoff; auto. intros x Hx; rewrite !in_app_iff in *; tauto. }
      { apply Hlen; auto. intros x Hx; rewrite !in_app_iff in *; tauto. }
      { eapply mono_ext; [|eapply mono_ls_prefix; exact Mv]. intros x Hx. apply Hr. apply in_or_app; auto. }
      exists ls2. split; auto. split; [|split]; auto.
      + intros x Hx. rewrite U2, Hr by (auto; apply in_or_app; auto). auto.
      + intros x Hx. rewrite U3. { apply Hr. apply in_or_app; auto. }
        intros H. apply (Db x); auto. apply in_or_app; auto.
      + intros x Hx. apply U3. intros H; apply Hx; apply in_or_app; auto. }
  destruct Hlb as (ls2 & B1 & B2 & B3 & B4).
  assert (Hls2uo : ls2 uout = lam).
  { rewrite B4; auto. intros H. apply (Dst uout); auto. rewrite !in_app_iff in *. tauto. }
  assert (Hla : exists ls3,
    up_ls fuel par1 (if r_ls rr j =? vin then j else nonode g) old_ls X (parent s uout) ls2 = Ret ls3 /\
    (forall x, In x a2 -> ls3 x = if last_succ s x =? old_ls then X else last_succ s x) /\
    (forall x, In x (j :: map nodeof C) -> ls3 x =
       if last_succ s j =? vin then (if last_succ s x =? vin then lam else last_succ s x)
       else (if last_succ s x =? old_ls then X else last_succ s x)) /\
    (forall x, ~ In x (a2 ++ j :: map nodeof C) -> ls3 x = ls2 x)).
  { rewrite (Rls_o j Hjs).
    assert (Hr : forall x, In x a2 -> ls2 x = last_succ s x).
    { intros x Hx. rewrite B4.
      - apply Rls_o. apply stems_off. rewrite !in_app_iff; auto.
      - intros H. apply in_app_or in H as [H|H].
        + apply (Db x); auto. apply in_or_app; auto.
        + apply (Da2 x); auto. }
    destruct (Nat.eqb_spec (last_succ s j) vin) as [Ee|Ee].
    - destruct (up_ls_spec par1 j old_ls X a2 fuel (parent s uout) ls2) as (ls3 & U1 & U2 & U3); auto.
      { apply Hoff; auto. intros x Hx; rewrite !in_app_iff in *; tauto. }
      { apply Hlen; auto. intros x Hx; rewrite !in_app_iff in *; tauto. }
      { eapply mono_ext; [|eapply mono_ls_prefix; exact Mo]. auto. }
      exists ls3. split; auto. split; [|split]; auto.
      + intros x Hx. rewrite U2, Hr by auto. auto.
      + intros x Hx. rewrite U3; [apply B3; auto|]. intros H. apply (Da2 x); auto.
      + intros x Hx. apply U3. intros H; apply Hx; apply in_or_app; auto.
    - assert (Hr2 : forall x, In x (a2 ++ j :: map nodeof C) -> ls2 x = last_succ s x).
      { intros x Hx. apply in_app_or in Hx as [Hx|Hx]; auto. }
      destruct (up_ls_spec par1 (nonode g) old_ls X (a2 ++ j :: map nodeof C) fuel (parent s uout) ls2) as (ls3 & U1 & U2 & U3); auto.
      { apply Hoff; auto. intros x Hx; rewrite !in_app_iff in *; tauto. }
      { intros H. apply (Hnon (nonode g)); auto. rewrite !in_app_iff in *. tauto. }
      { apply Hlen; auto. intros x Hx; rewrite !in_app_iff in *; tauto. }
      { eapply mono_ext; [|exact Mo]. auto. }
      exists ls3. split; auto. split; [|split]; auto.
      + intros x Hx. rewrite U2, Hr2 by (apply in_or_app; auto). auto.
      + intros x Hx. rewrite U2, Hr2 by (apply in_or_app; auto). auto. }
  destruct Hla as (ls3 & A1 & A2 & A3 & A4).
  (* run *)
  eexists. split.
  { unfold update_tree. fold fuel. rewrite Z1. cbn [bind]. fold par1 ls1. rewrite R1. cbn [bind].
    rewrite B1. cbn [bind]. rewrite Els, Hls2uo. fold old_rev. fold old_ls.
    assert (EX : (if negb (j =? old_rev) && negb (vin =? old_rev)
       then up_ls fuel par1 (if r_ls rr j =? vin then j else nonode g) old_ls old_rev (parent s uout) ls2
       else up_ls fuel par1 (if r_ls rr j =? vin then j else nonode g) old_ls lam (parent s uout) ls2) = Ret ls3).
    { rewrite <- A1. unfold X. destruct (negb (j =? old_rev) && negb (vin =? old_rev)); auto. }
    rewrite EX. cbn [bind]. fold sn1. rewrite S1. cbn [bind]. rewrite S4. cbn [bind]. reflexivity. }
  assert (Hsn1 : forall x, ~ In x stems -> sn1 x = succ_num s x).
  { intros x Hx. unfold sn1. rewrite upd_other by (intros ->; auto).
    apply R3. rewrite Hst_rm. tauto. }
  constructor; cbn [flow pi parent pred thread rev_thread succ_num last_succ forward state in_arc next_arc]; auto.
  - apply upd_same.
  - eapply links_impl; [|exact R2]. cbn beta. intros x y Hx Hy (E1 & E2 & E3).
    rewrite upd_other; auto. intros ->. unfold stems in Nst. inversion Nst; auto.
  - intros x Hx. rewrite upd_other by (intros ->; auto). apply R3. rewrite Hst_rm. tauto.
  - apply upd_same.
  - eapply links_impl; [|exact R2]. cbn beta. intros x y Hx Hy (E1 & E2 & E3).
    rewrite upd_other; auto. intros ->. unfold stems in Nst. inversion Nst; auto.
  - intros x Hx. rewrite upd_other by (intros ->; auto). apply R3. rewrite Hst_rm. tauto.
  - rewrite S6, S3. { unfold sn1. rewrite upd_same; auto. }
    + intros H. apply (stems_off uin); auto. rewrite !in_app_iff; auto.
    + intros H. apply (stems_off uin); auto. rewrite !in_app_iff; auto.
  - eapply links_impl; [|exact R2]. cbn beta. intros x y Hx Hy (E1 & E2 & E3).
    assert (Hys : In y stems) by (apply In_tl; auto).
    assert (Hne : y <> uin). { intros ->. unfold stems in Nst. inversion Nst; auto. }
    rewrite S6, S3. { unfold sn1. rewrite upd_other; auto. }
    + intros H. apply (stems_off y); auto. rewrite !in_app_iff; auto.
    + intros H. apply (stems_off y); auto. rewrite !in_app_iff; auto.
  - intros x Hx. rewrite S6, S2, Hsn1, Esn; auto.
    + apply stems_off. rewrite !in_app_iff; auto.
    + intros H. apply (Db x); auto. apply in_or_app; auto.
  - intros x Hx. rewrite S5, S3, Hsn1, Esn; auto.
    + apply stems_off. rewrite !in_app_iff; auto.
    + intros H. apply (Db x); auto. apply in_or_app; auto.
  - intros x Hx. rewrite !in_app_iff in Hx. rewrite S6, S3, Hsn1; tauto.
  - intros x Hx. rewrite A4, B4; auto.
    + intros H. apply (stems_off x); auto. rewrite !in_app_iff in *; tauto.
    + intros H. apply (stems_off x); auto. rewrite !in_app_iff in *; tauto.
  - intros x Hx. rewrite A4; auto. intros H. apply (Db x); auto.
  - intros x Hx. rewrite !in_app_iff in Hx. rewrite A4, B4, Rls_o; rewrite ?in_app_iff; tauto.
  - intros L' HL'. rewrite <- Els in *. apply Z5 in HL'. cbv zeta in HL'. exact HL'.
Qed.

Let Pj := j :: preF l ++ preL G.
Let Qj := preR G ++ preF r.

Lemma vin_not_G : ~ In vin (preL G).
Proof.
  intros H. pose proof ND as N0. rewrite Et in N0. rewrite pre_plug in N0.
  apply NoDup_app_inv in N0 as (_ & N0 & _). apply NoDup_app_inv in N0 as (N0 & _).
  unfold tj in N0. rewrite pre_T, preF_app, preF_cons, pre_plug in N0.
  destruct (dc_v _ _ _ _ _ _ _ _ _ _ _ _ _ _ HD) as [[_ E]|[(l1 & l2 & csv & D & E & _)|(r1 & r2 & csv & D & E & _)]].
  - inversion N0 as [|? ? N1 N2]. apply N1. rewrite <- E. rewrite !in_app_iff; auto.
  - inversion N0 as [|? ? N1 N2]. apply NoDup_app_inv in N2 as (_ & _ & N2). apply (N2 vin).
    + rewrite E, preF_app, preF_cons, pre_plug, pre_T. rewrite !in_app_iff. cbn; auto 10.
    + rewrite !in_app_iff; auto.
  - inversion N0 as [|? ? N1 N2]. apply NoDup_app_inv in N2 as (_ & N2 & _).
    apply NoDup_app_inv in N2 as (_ & _ & N2). apply (N2 vin).
    + rewrite !in_app_iff; auto.
    + rewrite E, preF_app, preF_cons, pre_plug, pre_T. rewrite !in_app_iff. cbn; auto 10.
Qed.

Lemma finish : forall s' l' r' Fo, updated s' ->
  let tj' := T j (l' ++ cutG G ++ r') in
  let I' := Iof (parent s') (succ_num s') (last_succ s') in
  (exists P1 P2, Pj = P1 ++ vin :: P2 /\ pre tj' = P1 ++ vin :: pre T' ++ P2 ++ Qj) \/
  (exists Q1 Q2, Qj = Q1 ++ vin :: Q2 /\ pre tj' = Pj ++ Q1 ++ vin :: pre T' ++ Q2) ->
  Permutation (pre t) ((stems ++ b ++ a2 ++ j :: map nodeof C) ++ Fo) ->
  incl (preF cs) Fo -> incl (fnodes F) Fo -> incl (fnodes G) Fo -> incl (fnodes C) Fo ->
  (rep I' vin T' ->
   (forall csv D, rep I j (plug (T vin csv) D) -> NoDup (pre (plug (T vin csv) D)) ->
      b = vin :: map nodeof D -> incl (preF csv) Fo -> incl (fnodes D) Fo ->
      rep I' j (plug (T vin (T' :: csv)) D)) ->
   (forall x p s0 k, In x Fo -> I x p s0 k -> I' x p s0 k) ->
   repF I' j l' /\ repF I' j r') ->
  tree_ok g s' (plug tj' C).
Proof.
  intros s' l' r' Fo U tj' I' Hnew HP Hcs HF HG HC HLR.
  pose proof Sp_nodup as NSp.
  assert (HFo : forall x, In x Fo -> ~ In x (stems ++ b ++ a2 ++ j :: map nodeof C)).
  { intros x Hx Hx2. pose proof ND as N0. eapply Permutation_NoDup in N0; [|exact HP].
    apply NoDup_app_inv in N0 as (_ & _ & D). apply (D x); auto. }
  pose proof (tk_rep _ _ _ Htk) as HR. pose proof ND as ND0. rewrite Et in HR, ND0.
  rewrite <- G_eq in NSp, HFo.
  assert (Hrev : lasto Pj = Some old_rev).
  { pose proof Hold_rev as H. unfold P in H. rewrite lasto_app in H. fold Pj in H.
    destruct (lasto Pj) as [y|] eqn:E; auto. apply lasto_none in E. discriminate. }
  destruct U. rewrite <- G_eq in *.
  assert (HTT : rep I' vin T').
  { eapply (rep_T' (parent s) (succ_num s) (last_succ s)) with (l := l) (r := r) (C := C) (b := b) (G := G) (j := j) (Fo := Fo) (p0 := nonode g); eauto. }
  assert (Htv : forall csv D, rep I j (plug (T vin csv) D) -> NoDup (pre (plug (T vin csv) D)) ->
      b = vin :: map nodeof D -> incl (preF csv) Fo -> incl (fnodes D) Fo ->
      rep I' j (plug (T vin (T' :: csv)) D)).
  { intros csv D V1 V2 V3 V4 V5. eapply (rep_tv (parent s) (succ_num s) (last_succ s)) with (old_rev := old_rev) (l := l) (r := r) (C := C) (b := b) (G := G) (j := j) (Fo := Fo) (p0 := nonode g) (l' := l') (r' := r'); eauto. apply vin_not_G. }
  assert (Hkeep : forall x p s0 k, In x Fo -> I x p s0 k -> I' x p s0 k).
  { eapply (keep (parent s) (succ_num s) (last_succ s)) with (j := j) (C := C) (b := b) (G := G) (uin := uin) (F := F); eauto. }
  destruct (HLR HTT Htv Hkeep) as [HL1 HR1].
  assert (Hperm : Permutation (pre (plug tj' C)) (pre t)).
  { rewrite Et, !pre_plug. apply Permutation_app_head. apply Permutation_app_tail.
    eapply (tj_perm j uin vin l r cs F G l' r'); eauto. }
  constructor.
  - assert (E : rt (plug tj' C) = rt (plug tj C)).
    { pose proof (plug_rt_last C tj') as H1. pose proof (plug_rt_last C tj) as H2.
      change (rt tj') with j in H1. change (rt tj) with j in H2. rewrite H1 in H2. injection H2; auto. }
    rewrite E, <- Et. apply (tk_rt _ _ _ Htk).
  - rewrite Hperm. apply (tk_perm _ _ _ Htk).
  - eapply (assembled (parent s) (succ_num s) (last_succ s)) with (uin := uin) (v := vin) (l := l) (r := r) (cs := cs) (F := F) (b := b) (Fo := Fo) (old_rev := old_rev); eauto.
    apply vin_not_G.
  - apply up_th0. clear - Hnew.
    rewrite pre_plug. destruct Hnew as [(P1 & P2 & EP & E)|(Q1 & Q2 & EQ & E)]; rewrite E.
    + left. exists (preL C ++ P1), P2. split.
      * unfold P. fold Pj. rewrite EP. rewrite <- app_assoc; auto.
      * unfold T', tin, Q. rewrite !pre_T, preF_app, preF_chain. rewrite <- ?app_assoc. cbn [app]. rewrite <- ?app_assoc. cbn [app].
        unfold Qj. rewrite <- ?app_assoc. auto.
    + right. exists Q1, (Q2 ++ preR C). split.
      * unfold Q. rewrite app_assoc. fold Qj. rewrite EQ. rewrite <- app_assoc; auto.
      * unfold T', tin, P. fold Pj. rewrite !pre_T, preF_app, preF_chain. rewrite <- ?app_assoc. cbn [app]. rewrite <- ?app_assoc. cbn [app].
        rewrite <- ?app_assoc. auto.
  - apply up_th0. clear - Hnew.
    rewrite pre_plug. destruct Hnew as [(P1 & P2 & EP & E)|(Q1 & Q2 & EQ & E)]; rewrite E.
    + left. exists (preL C ++ P1), P2. split.
      * unfold P. fold Pj. rewrite EP. rewrite <- app_assoc; auto.
      * unfold T', tin, Q. rewrite !pre_T, preF_app, preF_chain. rewrite <- ?app_assoc. cbn [app]. rewrite <- ?app_assoc. cbn [app].
        unfold Qj. rewrite <- ?app_assoc. auto.
    + right. exists Q1, (Q2 ++ preR C). split.
      * unfold Q. rewrite app_assoc. fold Qj. rewrite EQ. rewrite <- app_assoc; auto.
      * unfold T', tin, P. fold Pj. rewrite !pre_T, preF_app, preF_chain. rewrite <- ?app_assoc. cbn [app]. rewrite <- ?app_assoc. cbn [app].
        rewrite <- ?app_assoc. auto.
Qed.

Lemma update_ok : exists s' tsub c, update_tree g s ia j uin vin uout = Ret s' /\ updated s' /\
  tree_ok g s' (plug tsub c) /\ rt tsub = uin /\ Permutation (pre tsub) (pre tout).
Proof.
  destruct update_run as (s' & E & U). exists s', T'.
  pose proof (tk_rep _ _ _ Htk) as HR. rewrite Et, rep_plug in HR. destruct HR as [HR _].
  unfold tj in HR. rewrite rep_T, repF_app, repF_cons in HR. destruct HR as (_ & HRl & _ & HRr).
  pose proof ND as N0. rewrite Et, pre_plug in N0.
  apply NoDup_app_inv in N0 as (_ & N0 & _). apply NoDup_app_inv in N0 as (N0 & _).
  unfold tj in N0. rewrite pre_T in N0. inversion N0 as [|? ? _ N1]; subst. clear N0.
  rewrite preF_app, preF_cons in N1.
  assert (HTp : Permutation (pre T') (pre tout)) by (apply (T'_perm uin cs F)).
  assert (Hcnt : forall x, cnt x (pre t) = cnt x stems + cnt x a2 + cnt x [j] + cnt x (map nodeof C)
     + cnt x (preF cs) + cnt x (fnodes F) + cnt x (fnodes G) + cnt x (fnodes C) + cnt x (preF l) + cnt x (preF r)).
  { intros x. rewrite Et, cnt_plug. unfold tj. rewrite pre_T, preF_app, preF_cons, (cnt_cons x j (_ ++ _)), !cnt_app.
    unfold tout, tin. rewrite !cnt_plug, pre_T, (cnt_cons x uin (preF cs)), <- G_eq. unfold stems. rewrite (cnt_cons x uin (map nodeof F)). lia. }
  destruct (dc_v _ _ _ _ _ _ _ _ _ _ _ _ _ _ HD) as [[Eb Ev]|[(l1 & l2 & csv & D & El & Eb)|(r1 & r2 & csv & D & Er & Eb)]].
  - (* v_in is the join *)
    exists ((j, [], l ++ cutG G ++ r) :: C). split; auto. split; auto. split; [|split; auto].
    change (plug T' ((j, [], l ++ cutG G ++ r) :: C)) with (plug (T j ((T' :: l) ++ cutG G ++ r)) C).
    apply (finish s' (T' :: l) r (preF cs ++ fnodes F ++ fnodes G ++ fnodes C ++ preF l ++ preF r)); auto.
    + left. exists [], (preF l ++ preL G). split; [unfold Pj; rewrite Ev; auto|].
      rewrite pre_T. cbn [app]. rewrite preF_cons, !preF_app, preF_cutG. unfold Qj. rewrite Ev.
      rewrite <- !app_assoc. auto.
    + apply perm_cnt. intros x. rewrite Hcnt, Eb, !cnt_app, (cnt_cons x j (map nodeof C)), cnt_nil. lia.
    + intros x Hx; rewrite !in_app_iff; auto 10.
    + intros x Hx; rewrite !in_app_iff; auto 10.
    + intros x Hx; rewrite !in_app_iff; auto 10.
    + intros x Hx; rewrite !in_app_iff; auto 10.
    + intros H1 H2 H3. split.
      * rewrite repF_cons. split; [rewrite <- Ev; auto|]. eapply repF_impl; [|exact HRl].
        intros x q s0 k Hx; apply H3. rewrite !in_app_iff; auto 10.
      * eapply repF_impl; [|exact HRr]. intros x q s0 k Hx; apply H3. rewrite !in_app_iff; auto 10.
  - (* v_in left of the cut *)
    exists (((vin, [], csv) :: D) ++ (j, l1, l2 ++ cutG G ++ r) :: C).
    split; auto. split; auto. split; [|split; auto].
    replace (plug T' (((vin, [], csv) :: D) ++ (j, l1, l2 ++ cutG G ++ r) :: C))
      with (plug (T j ((l1 ++ plug (T vin (T' :: csv)) D :: l2) ++ cutG G ++ r)) C).
    2:{ rewrite plug_app. cbn [plug app]. rewrite <- app_assoc. auto. }
    apply (finish s' _ r (preF cs ++ fnodes F ++ fnodes G ++ fnodes C ++ preF l1 ++ preF l2 ++ preF csv ++ fnodes D ++ preF r)); auto.
    + left. exists (j :: preF l1 ++ preL D), (preF csv ++ preR D ++ preF l2 ++ preL G). split.
      * unfold Pj. rewrite El, preF_app, preF_cons, pre_plug, pre_T.
        cbn [app]. rewrite <- !app_assoc. cbn [app]. rewrite <- !app_assoc. auto.
      * rewrite pre_T, !preF_app, preF_cons, preF_cutG, pre_plug, pre_T, preF_cons. unfold Qj.
        cbn [app]. rewrite <- !app_assoc. cbn [app]. rewrite <- !app_assoc. auto.
    + apply perm_cnt. intros x. rewrite Hcnt, El, <- Eb, preF_app, preF_cons, !cnt_app, cnt_plug, pre_T, (cnt_cons x j (map nodeof C)), (cnt_cons x vin (preF csv)), (cnt_cons x vin (map nodeof D)). lia.
    + intros x Hx; rewrite !in_app_iff; auto 12.
    + intros x Hx; rewrite !in_app_iff; auto 12.
    + intros x Hx; rewrite !in_app_iff; auto 12.
    + intros x Hx; rewrite !in_app_iff; auto 12.
    + intros H1 H2 H3. rewrite El in HRl. rewrite repF_app, repF_cons in HRl. destruct HRl as (R1 & R2 & R3). split.
      * rewrite repF_app, repF_cons. split; [|split].
        -- eapply repF_impl; [|exact R1]. intros x q s0 k Hx; apply H3. rewrite !in_app_iff; auto 12.
        -- apply H2; auto.
           ++ rewrite El, preF_app, preF_cons in N1. apply NoDup_app_inv in N1 as (N1 & _).
              apply NoDup_app_inv in N1 as (_ & N1 & _). apply NoDup_app_inv in N1 as (N1 & _). auto.
           ++ intros x Hx; rewrite !in_app_iff; auto 12.
           ++ intros x Hx; rewrite !in_app_iff; auto 12.
        -- eapply repF_impl; [|exact R3]. intros x q s0 k Hx; apply H3. rewrite !in_app_iff; auto 12.
      * eapply repF_impl; [|exact HRr]. intros x q s0 k Hx; apply H3. rewrite !in_app_iff; auto 12.
  - (* v_in right of the cut *)
    exists (((vin, [], csv) :: D) ++ (j, l ++ cutG G ++ r1, r2) :: C).
    split; auto. split; auto. split; [|split; auto].
    replace (plug T' (((vin, [], csv) :: D) ++ (j, l ++ cutG G ++ r1, r2) :: C))
      with (plug (T j (l ++ cutG G ++ (r1 ++ plug (T vin (T' :: csv)) D :: r2))) C).
    2:{ rewrite plug_app. cbn [plug app]. rewrite <- !app_assoc. auto. }
    apply (finish s' l _ (preF cs ++ fnodes F ++ fnodes G ++ fnodes C ++ preF r1 ++ preF r2 ++ preF csv ++ fnodes D ++ preF l)); auto.
    + right. exists (preR G ++ preF r1 ++ preL D), (preF csv ++ preR D ++ preF r2). split.
      * unfold Qj. rewrite Er, preF_app, preF_cons, pre_plug, pre_T.
        cbn [app]. rewrite <- !app_assoc. cbn [app]. rewrite <- ?app_assoc. auto.
      * rewrite pre_T, !preF_app, preF_cons, preF_cutG, pre_plug, pre_T, preF_cons. unfold Pj.
        cbn [app]. rewrite <- !app_assoc. cbn [app]. rewrite <- ?app_assoc. auto.
    + apply perm_cnt. intros x. rewrite Hcnt, Er, <- Eb, preF_app, preF_cons, !cnt_app, cnt_plug, pre_T, (cnt_cons x j (map nodeof C)), (cnt_cons x vin (preF csv)), (cnt_cons x vin (map nodeof D)). lia.
    + intros x Hx; rewrite !in_app_iff; auto 12.
    + intros x Hx; rewrite !in_app_iff; auto 12.
    + intros x Hx; rewrite !in_app_iff; auto 12.
    + intros x Hx; rewrite !in_app_iff; auto 12.
    + intros H1 H2 H3. rewrite Er in HRr. rewrite repF_app, repF_cons in HRr. destruct HRr as (R1 & R2 & R3). split.
      * eapply repF_impl; [|exact HRl]. intros x q s0 k Hx; apply H3. rewrite !in_app_iff; auto 12.
      * rewrite repF_app, repF_cons. split; [|split].
        -- eapply repF_impl; [|exact R1]. intros x q s0 k Hx; apply H3. rewrite !in_app_iff; auto 12.
        -- apply H2; auto.
           ++ rewrite Er, preF_app, preF_cons in N1. apply NoDup_app_inv in N1 as (_ & N1 & _).
              apply NoDup_app_inv in N1 as (_ & N1 & _). apply NoDup_app_inv in N1 as (_ & N1 & _). apply NoDup_app_inv in N1 as (N1 & _). auto.
           ++ intros x Hx; rewrite !in_app_iff; auto 12.
           ++ intros x Hx; rewrite !in_app_iff; auto 12.
        -- eapply repF_impl; [|exact R3]. intros x q s0 k Hx; apply H3. rewrite !in_app_iff; auto 12.
Qed.
End Upd.
End WithNum.
