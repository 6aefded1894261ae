From Coq Require Import Reals Lra Lia Arith Bool List.
Import ListNotations.
From Verif Require Import Num Sums Spec Optim_model Duals_proofs.
Local Open Scope R_scope.

Lemma quad_ls_range : forall (a b : R), 0 <= solve_1d_linesearch_quad (N:=RNum) a b <= 1.
Proof.
  intros a b. unfold solve_1d_linesearch_quad. rewrite nmin_R, nmax_R. cbn.
  destruct (Rltb 0 a); [|destruct (Rltb (a + b) 0); lra].
  split.
  - apply Rmin_glb; [lra|apply Rmax_l].
  - apply Rmin_l.
Qed.
Lemma quad_ls_min : forall (a b t : R), 0 <= t <= 1 ->
  let s := solve_1d_linesearch_quad (N:=RNum) a b in a * s ^ 2 + b * s <= a * t ^ 2 + b * t.
Proof.
  intros a b t Ht s. unfold s, solve_1d_linesearch_quad. rewrite nmin_R, nmax_R. cbn.
  destruct (Rltb 0 a) eqn:E.
  - apply Rltb_true in E. set (x := (0 - b) / ((1 + 1) * a)).
    assert (Eb : b = - (2 * a * x)) by (unfold x; field; lra). rewrite Eb.
    assert (K : forall s, a * s ^ 2 + - (2 * a * x) * s = a * (s - x) ^ 2 - a * x ^ 2) by (intro; ring).
    unfold Rmax, Rmin. destruct (Rle_dec 0 x).
    + destruct (Rle_dec 1 x); rewrite !Rmult_1_r in *.
      * pose proof (K 1) as K1. pose proof (K t) as Kt.
        assert (H : 0 <= a * ((t - x) ^ 2 - (1 - x) ^ 2)) by (apply Rmult_le_pos; [lra|nra]). nra.
      * pose proof (K x) as K1. pose proof (K t) as Kt. assert (0 <= a * (t - x) ^ 2) by (apply Rmult_le_pos; [lra|apply pow2_ge_0]). nra.
    + destruct (Rle_dec 1 0); [lra|]. pose proof (K t) as Kt. assert (0 <= a * (t * (t - 2 * x))) by (apply Rmult_le_pos; [lra|nra]). nra.
  - apply Rltb_false in E. destruct (Rltb (a + b) 0) eqn:F.
    + apply Rltb_true in F. assert (0 <= (1 - t) * (- (a * (1 + t) + b))); [apply Rmult_le_pos; nra|nra].
    + apply Rltb_false in F. assert (0 <= a * t ^ 2 + b * t); [|nra].
      assert (0 <= t * (a * t + b)) by (apply Rmult_le_pos; nra). nra.
Qed.

(** *** Armijo *)
Definition armijo_contract (c1 : R) (search : (R -> R) -> R -> R -> R -> option R * R) : Prop :=
  forall phi phi0 d amin, match search phi phi0 d amin with
  | (Some al, v) => v = phi al /\ v <= phi0 + c1 * al * d
  | (None, _) => True end.

Lemma clip_range : forall (lo hi x : R), lo <= hi -> lo <= clip (N:=RNum) lo (Some hi) x <= hi.
Proof.
  intros lo hi x H. unfold clip. rewrite nmin_R, nmax_R. split; [apply Rmin_glb; auto; apply Rmax_r|apply Rmin_r].
Qed.
Lemma armijo_ok : forall (c1 : R) search (fline : R -> R) (old : option R) (d hi al v : R),
  0 <= c1 -> armijo_contract c1 search -> d <= 0 -> 0 <= hi ->
  (old = None \/ old = Some (fline 0)) ->
  line_search_armijo (N:=RNum) search fline old d 0 (Some hi) = (al, v) ->
  0 <= al <= hi /\ v = fline al /\ v <= fline 0 + c1 * al * d.
Proof.
  intros c1 search fline old d hi al v Hc HS Hd Hhi Hold E. unfold line_search_armijo in E.
  assert (Z : clip (N:=RNum) 0 (Some hi) 0 = 0).
  { unfold clip. rewrite nmin_R, nmax_R. rewrite Rmax_left by lra. apply Rmin_left; auto. }
  set (phi0 := match old with None => fline (@clip RNum 0 (Some hi) (@n0 RNum)) | Some v => v end) in E.
  assert (P0 : phi0 = fline 0) by (unfold phi0; destruct Hold as [-> | ->]; auto; change (@n0 RNum) with 0; rewrite Z; auto).
  match type of E with context [search ?p ?q ?r ?s] => pose proof (HS p q r s) as C; destruct (search p q r s) as [[x|] w] end.
  - destruct C as [C1 C2]. inversion E; subst al v. clear E. split; [apply clip_range; auto|]. split; auto.
    assert (C3 : w <= fline 0 + c1 * x * d) by (rewrite <- P0; exact C2). clear C2.
    assert (CL : c1 * x * d <= c1 * clip (N:=RNum) 0 (Some hi) x * d \/ w <= fline 0 + c1 * clip (N:=RNum) 0 (Some hi) x * d).
    { unfold clip in *. rewrite nmin_R, nmax_R in *. destruct (Rle_dec 0 x) as [X|X].
      - left. rewrite Rmax_left by auto. assert (Rmin x hi <= x) by apply Rmin_l. 
        assert (0 <= (c1 * (x - Rmin x hi)) * (- d)); [|lra]. apply Rmult_le_pos; [|lra]. apply Rmult_le_pos; lra.
      - right. rewrite (Rmax_right x 0) in * by lra. rewrite (Rmin_left 0 hi) in * by auto. rewrite C1. lra. }
    change (@nmin RNum (@nmax RNum x 0) hi) with (@clip RNum 0 (Some hi) x). revert CL. generalize (@clip RNum 0 (Some hi) x : R). intros y [CL|CL]; lra.
  - assert (V : v = fline 0) by (inversion E; exact P0). assert (A0 : al = 0) by (inversion E; reflexivity). rewrite V, A0. split; [lra|]. split; auto. lra.
Qed.

(** *** conditional gradient *)
Lemma convex_coupling : forall n m a b G Gc t, coupling n m a b G -> coupling n m a b Gc -> 0 <= t <= 1 ->
  coupling n m a b (fun i j => G i j + t * (Gc i j - G i j)).
Proof.
  intros n m a b G Gc t (Gn & Gr & Gc') (Cn & Cr & Cc) Ht. split; [|split].
  - intros i j Hi Hj. specialize (Gn i j Hi Hj). specialize (Cn i j Hi Hj).
    replace (G i j + t * (Gc i j - G i j)) with ((1 - t) * G i j + t * Gc i j) by ring.
    assert (0 <= (1 - t) * G i j) by (apply Rmult_le_pos; lra). assert (0 <= t * Gc i j) by (apply Rmult_le_pos; lra). lra.
  - intros i Hi. unfold row_sum in *. rewrite rsum_plus, rsum_scal, rsum_minus, Gr, Cr by auto. ring.
  - intros j Hj. unfold col_sum in *. rewrite rsum_plus, rsum_scal, rsum_minus, Gc', Cc by auto. ring.
Qed.

Section Loop.
Context {N : NumOps}.
Variables (n m : nat) (M : nat -> nat -> N) (reg : N) (f : (nat -> nat -> N) -> N) (df : (nat -> nat -> N) -> nat -> nat -> N)
  (lp : (nat -> nat -> N) -> nat -> nat -> N) (ls : @line_search_t N) (K : nat) (t1 t2 : N).
Let step := cg_step n m M reg f df lp ls K t1 t2.
Let loop := fun fuel => cg_loop fuel n m M reg f df lp ls K t1 t2.

(** invariants of the loop *)
Lemma loop_inv : forall (P : cg_state -> Prop), (forall s, P s -> P (fst (step s))) ->
  forall fuel s r, P s -> loop fuel s = Some r -> P r.
Proof.
  intros P HP. induction fuel as [|k IH]; intros s r Hs E; [discriminate|]. unfold loop in E. cbn [cg_loop] in E.
  fold step in E. specialize (HP s Hs). destruct (step s) as [s' []]; [apply (IH s'); auto|inversion E; subst; exact HP].
Qed.
Lemma step_it : forall s, cg_it (fst (step s)) = S (cg_it s).
Proof. intro s. unfold step, cg_step. destruct (ls _ _ _ _ _ _) as [[? ?] ?]. reflexivity. Qed.
Lemma step_flag : forall s, snd (step s) = true -> (S (cg_it s) < K)%nat.
Proof.
  intros s. unfold step, cg_step. destruct (ls _ _ _ _ _ _) as [[al c] g']. cbn [snd].
  destruct (Nat.leb_spec K (S (cg_it s))); cbn [orb negb]; [discriminate|auto].
Qed.
Lemma loop_total : forall fuel s, (0 < fuel)%nat -> (K - cg_it s <= fuel)%nat -> exists r, loop fuel s = Some r.
Proof.
  induction fuel as [|k IH]; intros s H0 H1; [lia|]. unfold loop. cbn [cg_loop]. fold step.
  pose proof (step_flag s) as F. pose proof (step_it s) as I. destruct (step s) as [s' []]; cbn [fst snd] in *; [|eauto].
  apply IH; specialize (F eq_refl); lia.
Qed.
Lemma loop_count : forall fuel s r, loop fuel s = Some r -> (S (cg_it s) <= cg_it r <= Nat.max (S (cg_it s)) K)%nat.
Proof.
  induction fuel as [|k IH]; intros s r E; [discriminate|]. unfold loop in E. cbn [cg_loop] in E. fold step in E.
  pose proof (step_flag s) as F. pose proof (step_it s) as I. destruct (step s) as [s' []]; cbn [fst snd] in *.
  - apply IH in E. specialize (F eq_refl). lia.
  - inversion E; subst. lia.
Qed.
Lemma loop_log : forall fuel s r, loop fuel s = Some r -> length (cg_log s) = S (cg_it s) -> length (cg_log r) = S (cg_it r).
Proof.
  intros fuel s r E H. revert E. apply loop_inv with (P := fun s => length (cg_log s) = S (cg_it s)); auto.
  intros s' H'. unfold step, cg_step. destruct (ls _ _ _ _ _ _) as [[al c] g']. cbn. rewrite app_length. cbn. lia.
Qed.
(** the last round performed: either the limit was hit, or a stopping test on the last two losses *)
Lemma loop_exit : forall fuel s r, loop fuel s = Some r ->
  exists s0, fst (step s0) = r /\ snd (step s0) = false.
Proof.
  induction fuel as [|k IH]; intros s r E; [discriminate|]. unfold loop in E. cbn [cg_loop] in E. fold step in E.
  destruct (step s) as [s' []] eqn:Es; [apply (IH s'); auto|]. inversion E; subst. exists s. rewrite Es. auto.
Qed.
End Loop.

Lemma nth_last : forall A (l : list A) x d, nth (length l) (l ++ [x]) d = x.
Proof. intros. rewrite app_nth2, Nat.sub_diag by lia. reflexivity. Qed.

Section ExitR.
Variables (n m : nat) (M : mat) (reg : R) (f : mat -> R) (df : mat -> mat)
  (lp : mat -> mat) (ls : @line_search_t RNum) (K : nat) (t1 t2 : R).

Lemma step_exit : forall s r, @cg_step RNum n m M reg f df lp ls K t1 t2 s = (r, false) ->
  (K <= cg_it r)%nat \/
  Rabs (cg_val r - cg_val s) < t2 \/ (cg_val r <> 0 /\ Rabs (cg_val r - cg_val s) / Rabs (cg_val r) < t1).
Proof.
  intros s r E. unfold cg_step in E. destruct (ls _ _ _ _ _ _) as [[al c] g']. inversion E; subst r. clear E. cbn [cg_it cg_val].
  destruct (Nat.leb_spec K (S (cg_it s))) as [|L]; [left; auto|right]. cbn [orb] in H1. apply negb_false_iff, orb_prop in H1.
  assert (AB : forall x : R, @nabs RNum x = Rabs x).
  { intro x. unfold nabs, nopp. cbn. destruct (Rltb x 0) eqn:Ex; [apply Rltb_true in Ex; rewrite Rabs_left; lra|apply Rltb_false in Ex; rewrite Rabs_right; lra]. }
  rewrite !AB in H1. cbn in H1. destruct H1 as [H1|H1].
  - right. destruct (Reqb c 0) eqn:Ec; [discriminate|]. apply Reqb_false in Ec. apply Rltb_true in H1. auto.
  - left. apply Rltb_true in H1. auto.
Qed.
End ExitR.

(** *** descent *)
Fixpoint nonincreasing (l : list R) : Prop :=
  match l with x :: ((y :: _) as r) => y <= x /\ nonincreasing r | _ => True end.
Lemma nonincr_app : forall l x, nonincreasing l -> (l = [] \/ x <= last l 0) -> nonincreasing (l ++ [x]).
Proof.
  induction l as [|y l IH]; intros x H1 H2; cbn; auto. destruct l as [|z l]; cbn in *.
  - destruct H2 as [H2|H2]; [discriminate|]. auto.
  - destruct H1 as [H1 H1']. split; auto. apply IH; auto. right. destruct H2 as [H2|H2]; [discriminate|]. exact H2.
Qed.

Section Descent.
Variables (n m : nat) (M : mat) (reg : R) (f : mat -> R) (df : mat -> mat) (lp : mat -> mat)
  (qa qb : mat -> mat -> R) (gr : R -> mat -> mat -> option mat) (K : nat) (t1 t2 : R).
Let F := @cg_cost RNum n m M reg f.
Hypothesis Hquad : forall G D t, F (fun i j => G i j + t * D i j) = F G + qb G D * t + qa G D * t ^ 2.
Let ls := @quad_line_search RNum qa qb gr.

Definition tracked (trace : list mat) (s : @cg_state RNum) : Prop :=
  cg_val s = F (cg_G s) /\ nonincreasing (cg_log s) /\ cg_log s <> [] /\ last (cg_log s) 0 = cg_val s.
Lemma step_tracked : forall tr s, tracked tr s -> tracked tr (fst (@cg_step RNum n m M reg f df lp ls K t1 t2 s)).
Proof.
  intros tr s (H1 & H2 & H3 & H4). unfold cg_step, ls, quad_line_search. cbn [fst]. unfold tracked. cbn [cg_val cg_G cg_log].
  match goal with |- context [qa (cg_G s) ?d] => set (dG := d) end. set (al := @solve_1d_linesearch_quad RNum (qa (cg_G s) dG) (qb (cg_G s) dG)).
  assert (E : @nadd RNum (cg_val s) (@nadd RNum (@nmul RNum (qa (cg_G s) dG) (@nmul RNum al al)) (@nmul RNum (qb (cg_G s) dG) al)) = F (fun i j => cg_G s i j + al * dG i j)).
  { rewrite (Hquad (cg_G s) dG al), <- H1. cbn. ring. }
  split; [exact E|]. split; [|split].
  - apply nonincr_app; auto. right. eapply Rle_trans; [|right; symmetry; exact H4].
    pose proof (quad_ls_min (qa (cg_G s) dG) (qb (cg_G s) dG) 0 ltac:(lra)) as Q. cbn zeta in Q. fold al in Q. cbn. lra.
  - intro X. apply app_eq_nil in X. destruct X; discriminate.
  - apply last_last.
Qed.
End Descent.

(** *** semi-relaxed oracle *)
Lemma nmink_R : forall k (g : nat -> R), (forall j, (j <= k)%nat -> @nmink RNum k g <= g j) /\ exists j, (j <= k)%nat /\ @nmink RNum k g = g j.
Proof.
  induction k as [|k IH]; intro g; cbn [nmink].
  - split; [intros j Hj; replace j with 0%nat by lia; lra|exists 0%nat; auto].
  - destruct (IH g) as [I1 (j & Hj & I2)]. rewrite nmin_R. split.
    + intros i Hi. destruct (Nat.eq_dec i (S k)) as [->|D]; [apply Rmin_r|]. eapply Rle_trans; [apply Rmin_l|apply I1; lia].
    + unfold Rmin. destruct (Rle_dec _ _); [exists j; split; [lia|auto]|exists (S k); auto].
Qed.

Section SR.
Variables (n m : nat) (eps : R) (a : vec) (Mi : mat).
Hypothesis Hm : (0 < m)%nat.
Hypothesis He : 0 <= eps.
Let mk := @sr_mask RNum m eps Mi.
Let G := @semirelaxed_lp RNum m eps a Mi.
Let mn i := @nmink RNum (m - 1) (Mi i).
Lemma mask_01 : forall i j, (mk i j = 1 /\ Mi i j <= mn i + eps) \/ mk i j = 0.
Proof.
  intros i j. unfold mk, sr_mask. cbn [nleb RNum nadd n1 n0]. fold (mn i). destruct (Rleb _ _) eqn:E; [left; split; auto; apply Rleb_true in E; auto|right; auto].
Qed.
Lemma mask_sum : forall i, 1 <= rsum m (mk i).
Proof.
  intro i. destruct (nmink_R (m - 1) (Mi i)) as [_ (j & Hj & Ej)]. fold (mn i) in Ej.
  assert (E1 : mk i j = 1).
  { unfold mk, sr_mask. cbn [nleb RNum nadd n1 n0]. fold (mn i). rewrite (proj2 (Rleb_true _ _)); auto. rewrite Ej. lra. }
  rewrite <- E1. apply (rsum_le_one m (mk i)); [|lia]. intros k _. destruct (mask_01 i k) as [[-> _]| ->]; lra.
Qed.
Lemma sr_row : forall i, row_sum m G i = a i.
Proof.
  intro i. unfold row_sum, G, semirelaxed_lp. cbn [nmul ndiv RNum]. rewrite nsum_R. fold (mk i). change (@sr_mask RNum m eps Mi) with mk.
  rewrite rsum_scal_r. pose proof (mask_sum i). field. intro Z. change (fun j => mk i j) with (mk i) in Z. lra.
Qed.
Lemma sr_nonneg : nonneg_vec n a -> nonneg_mat n m G.
Proof.
  intros Ha i j Hi Hj. unfold G, semirelaxed_lp. cbn [nmul ndiv RNum]. rewrite nsum_R. change (@sr_mask RNum m eps Mi) with mk.
  apply Rmult_le_pos; [destruct (mask_01 i j) as [[-> _]| ->]; lra|]. pose proof (mask_sum i). specialize (Ha i Hi).
  apply Rmult_le_pos; auto. left. apply Rinv_0_lt_compat. change (fun j0 => mk i j0) with (mk i). lra.
Qed.
Lemma sr_opt : nonneg_vec n a -> forall G', nonneg_mat n m G' -> (forall i, (i < n)%nat -> row_sum m G' i = a i) ->
  cost n m Mi G <= cost n m Mi G' + eps * mass n a.
Proof.
  intros Ha G' Hn Hr. pose proof (sr_nonneg Ha) as Hg.
  apply Rle_trans with (rsum n (fun i => (mn i + eps) * a i)).
  - unfold cost. apply rsum_le. intros i Hi. rewrite <- (sr_row i). unfold row_sum. rewrite <- rsum_scal. apply rsum_le. intros j Hj.
    destruct (mask_01 i j) as [[_ L]|Z]; [apply Rmult_le_compat_r; auto|].
    assert (E0 : G i j = 0). { unfold G, semirelaxed_lp. change (@sr_mask RNum m eps Mi) with mk. rewrite Z. cbn. ring. } rewrite E0. lra.
  - unfold mass. rewrite <- rsum_scal. unfold cost. rewrite <- rsum_plus. apply rsum_le. intros i Hi.
    assert (mn i * a i <= rsum m (fun j => Mi i j * G' i j)); [|lra].
    rewrite <- (Hr i Hi). unfold row_sum. rewrite <- rsum_scal. apply rsum_le. intros j Hj. apply Rmult_le_compat_r; [apply Hn; auto|].
    apply (nmink_R (m - 1) (Mi i)). lia.
Qed.
End SR.

Lemma cg_cost_R : forall n m (M : mat) (reg : R) (f : mat -> R) G, cg_cost (N:=RNum) n m M reg f G = cost n m M G + reg * f G.
Proof.
  intros. unfold cg_cost, inner. rewrite nsum_R. cbn [nadd nmul RNum]. f_equal. unfold cost. apply rsum_ext. intros i Hi. rewrite nsum_R. reflexivity.
Qed.
Lemma nonincr_last : forall l, nonincreasing l -> l <> [] -> last l 0 <= hd 0 l.
Proof.
  induction l as [|x l IH]; intros H NE; [contradiction|]. destruct l as [|y l]; [cbn; lra|]. destruct H as [H1 H2].
  specialize (IH H2 ltac:(discriminate)). cbn [hd] in IH. change (last (x :: y :: l) 0) with (last (y :: l) 0). cbn [hd]. lra.
Qed.
Lemma loop_exit_log : forall n m (M : mat) (reg : R) (f : mat -> R) (df : mat -> mat) (lp : mat -> mat) (ls : @line_search_t RNum) K (t1 t2 : R) fuel (s r : @cg_state RNum),
  length (cg_log s) = S (cg_it s) -> nth (cg_it s) (cg_log s) 0 = cg_val s ->
  cg_loop (N:=RNum) fuel n m M reg f df lp ls K t1 t2 s = Some r ->
  exists s0, @cg_step RNum n m M reg f df lp ls K t1 t2 s0 = (r, false) /\ cg_it r = S (cg_it s0) /\ last (cg_log r) 0 = cg_val r /\ nth (cg_it r - 1) (cg_log r) 0 = cg_val s0.
Proof.
  intros n m M reg f df lp ls K t1 t2. induction fuel as [|k IH]; intros s r HL HN E; [discriminate|]. cbn [cg_loop] in E.
  destruct (cg_step _ _ _ _ _ _ _ _ _ _ _ s) as [s' fl] eqn:Es.
  assert (X : length (cg_log s') = S (cg_it s') /\ nth (cg_it s') (cg_log s') 0 = cg_val s' /\ last (cg_log s') 0 = cg_val s' /\ cg_it s' = S (cg_it s) /\ nth (cg_it s) (cg_log s') 0 = cg_val s).
  { unfold cg_step in Es. destruct (ls _ _ _ _ _ _) as [[al c] g']. inversion Es; subst s'. cbn [cg_log cg_it cg_val].
    split; [etransitivity; [apply app_length|]; cbn [length]; etransitivity; [apply f_equal2; [exact HL|reflexivity]|lia]|].
    split; [rewrite <- HL; apply nth_last|]. split; [apply last_last|]. split; auto.
    etransitivity; [apply app_nth1|exact HN]. apply Nat.lt_le_trans with (S (cg_it s)); [lia|]. apply Nat.eq_le_incl. symmetry. exact HL. }
  destruct X as (X1 & X2 & X3 & X4 & X5). destruct fl.
  - apply (IH s'); auto.
  - inversion E; subst r. exists s. split; auto. split; auto. split; auto. rewrite X4. replace (S (cg_it s) - 1)%nat with (cg_it s) by lia. exact X5.
Qed.
