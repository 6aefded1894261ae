(** ot.emd on a dense cost matrix, from the rescaling of b to the returned log:
    /repo/ot/lp/_network_simplex.py:421-474 around EMD_wrap
    (ot/lp/EMD_wrapper.cpp:206-298), single thread, no warm start.
    Not modelled: array conversions and default weights (374-405), the
    assertion that the masses agree to 6 decimals (412-420; the masses are
    arbitrary here), dtype casts and warnings (476-519). *)
From Coq Require Import List Arith Bool.
From Verif Require Import Num NS_model NS_emd_model Duals_model.
Import ListNotations.

Section Emd.
Context {N : NumOps}.
Definition emd (fuel it : nat) (center_dual : bool) (n m : nat) (a b : nat -> N) (M : nat -> nat -> N)
  : ans emd_out :=
  let b := rescale_b n m a b in                                    (* 421 *)
  let asel := fun i => negb (neqb (a i) n0) in                     (* 423 *)
  let bsel := fun j => negb (neqb (b j) n0) in                     (* 424 *)
  match compute_active_subset n m a b M asel bsel with             (* 439-446 *)
  | (need_filter, r, c, a', b', M') =>
    do o <- emd_wrap fuel (length r) (length c) a' b' M' it;       (* 453-455 *)
    match inflate need_filter r c (eo_G o) (eo_alpha o) (eo_beta o) with  (* 457-459 *)
    | (Gf, uf, vf) =>
      let '(u1, v1) := maybe_center center_dual n m uf vf a b in       (* 466-467 *)
      let '(u2, v2) := maybe_estimate need_filter n m u1 v1 a b M in   (* 470-474 *)
      Ret (mkEmdOut (eo_type o) Gf (eo_cost o) u2 v2)
    end
  end.
End Emd.
