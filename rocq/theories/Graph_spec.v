(** Specification of the packed state vector: a plain array with its length. *)
From Coq Require Import List Arith.
Import ListNotations.
From Verif Require Import NS_model Graph_model.

(** the array a packed vector stands for *)
Definition arr_step (st : nat * (nat -> astate)) (o : pk_op) : nat * (nat -> astate) :=
  match o with
  | OpResize n => (n, fun _ => LOWER)
  | OpClear => (0, fun _ => LOWER)
  | OpSet i s => (fst st, fun j => if Nat.eqb j i then s else snd st j)
  | OpFill c s => (fst st, fun j => if Nat.ltb j c then s else snd st j)
  end.
Definition op_ok (size : nat) (o : pk_op) : Prop :=
  match o with OpSet i _ => i < size | OpFill c _ => c <= size | _ => True end.
Fixpoint ops_ok (size : nat) (l : list pk_op) : Prop :=
  match l with
  | [] => True
  | o :: r => op_ok size o /\ ops_ok (match o with OpResize n => n | OpClear => 0 | _ => size end) r
  end.
