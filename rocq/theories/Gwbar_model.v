(** Model of the barycenter updates of /repo/ot/gromov/_utils.py: update_barycenter_structure
    (751-810) and update_barycenter_feature (863-894).  S spaces; space s has [ns s] points, the
    barycenter K points.  An unknown loss_fun raises ValueError: not modelled. *)
From Coq Require Import List Arith Bool.
From Verif Require Import Num Optim_model Gw_model.

Section Bary.
Context {N : NumOps}.
Variables (S K : nat) (ns : nat -> nat) (lg ex : N -> N).

(** the masses: one vector shared by all spaces (1-d p), one per space (2-d p), or None *)
Inductive bmass := Shared (p : nat -> N) | PerSpace (p : nat -> nat -> N) | FromPlans.
(** nan_to_num(1.0 / x, nan=1.0, posinf=1.0, neginf=1.0) with check_zeros, else 1.0 / x *)
Definition inv_ (check_zeros : bool) (x : N) : N := if (check_zeros && neqb x n0)%bool then n1 else ndiv n1 x.
(** nx.sum(Ts[s], int(not target)), 757-760 *)
Definition bary_marg (target : bool) (Ts : nat -> gmat (N:=N)) (s i : nat) : N :=
  if target then nsum (ns s) (fun k => Ts s k i) else nsum (ns s) (fun k => Ts s i k).
(** 764-777 *)
Definition quotient (lam : nat -> N) (p : nat -> nat -> N) (i j : nat) : N := nsum S (fun s => nmul (lam s) (nmul (p s i) (p s j))).
Definition prod_ (target cz : bool) (lam : nat -> N) (Ts : nat -> gmat) (p : bmass) (i j : nat) : N :=
  match p with
  | Shared p => nmul (inv_ cz (p i)) (inv_ cz (p j))
  | PerSpace p => inv_ cz (quotient lam p i j)
  | FromPlans => inv_ cz (quotient lam (bary_marg target Ts) i j)
  end.
(** sum_s lambdas[s] * dot(dot(T, C), T.T), with T transposed if target; 783-789, 795-805 *)
Definition pulled (target : bool) (lam : nat -> N) (Ts Cs : nat -> gmat (N:=N)) (i j : nat) : N :=
  nsum S (fun s => nmul (lam s) (nsum (ns s) (fun c => nmul (nsum (ns s) (fun k => nmul (if target then Ts s k i else Ts s i k) (Cs s k c)))
                                                           (if target then Ts s c j else Ts s j c)))).
(** [floor] is the 1e-16 of line 803 *)
Definition update_barycenter_structure (l : gwl) (target cz : bool) (floor : N) (lam : nat -> N) (Ts Cs : nat -> gmat) (p : bmass) : gmat (N:=N) := fun i j =>
  match l, target with
  | KlLoss, false => ex (nmul (pulled false lam Ts (fun s a b => lg (nmax (Cs s a b) floor)) i j) (prod_ false cz lam Ts p i j))
  | _, _ => nmul (pulled target lam Ts Cs i j) (prod_ target cz lam Ts p i j)
  end.
(** update_barycenter_feature, 872-894 *)
Definition update_barycenter_feature (target cz : bool) (lam : nat -> N) (Ts Ys : nat -> gmat) (p : bmass) : gmat (N:=N) := fun i d =>
  nmul (nsum S (fun s => nmul (lam s) (nsum (ns s) (fun k => nmul (if target then Ts s k i else Ts s i k) (Ys s k d)))))
       (match p with
        | Shared p => inv_ cz (p i)
        | PerSpace p => inv_ cz (nsum S (fun s => nmul (lam s) (p s i)))
        | FromPlans => inv_ cz (nsum S (fun s => nmul (lam s) (bary_marg target Ts s i)))
        end).
End Bary.
