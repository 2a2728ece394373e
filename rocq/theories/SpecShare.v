(** SpecShare: programs over one iterator and its copies. *)
From Verif Require Import Base MShare.
Local Open Scope nat_scope.

(** Every object used exists, if there are [n] at the beginning. *)
Fixpoint well_named (n : nat) (ops : list iop) : Prop :=
  match ops with
  | [] => True
  | OIter x :: ops => x < n /\ well_named (S n) ops
  | ONext x :: ops => x < n /\ well_named n ops
  end.

Definition steps (ops : list iop) : nat := length (filter (fun o => match o with ONext _ => true | OIter _ => false end) ops).

(** The first [m] results of an iterator over [l]. *)
Definition results {A : Type} (m : nat) (l : list A) : list (exc A) :=
  map Ret (firstn m l) ++ repeat (Raise EStopIteration) (m - length l).
