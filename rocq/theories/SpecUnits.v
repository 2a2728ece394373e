(** SpecUnits: the same program with weights measured in another unit (C101). No proofs here. *)
From Verif Require Import Base MUtils MGraph MApi MNW MNWEnum MNWApi SpecScript.
Local Open Scope Z_scope.

(** Reserved storage whose indeterminate contents are the same numbers in the other unit. *)
Definition env_in (c : Z) (e : nwenv) : nwenv := mkNWEnv (nw_lr e) (nw_srt e) (fun i => c * nw_junk e i).

(** The call with its bounds converted *)
Definition call_in (c : Z) (s : ncall) : ncall :=
  match s with
  | NGet e lb ub heur dfs => NGet (env_in c e) (c * lb) (c * ub) heur dfs
  | NCorrespondence e len2 lb ub heur dfs => NCorrespondence (env_in c e) len2 (c * lb) (c * ub) heur dfs
  | NIterate e T => NIterate (env_in c e) (c * T)
  | s => s
  end.

(** The result with its weights converted *)
Definition seen_in (c : Z) (x : seen) : seen :=
  match x with
  | SVertex (Ret (w, l)) => SVertex (Ret (c * w, l))
  | SWeight (Ret w) => SWeight (Ret (c * w))
  | SWeights (Ret l) => SWeights (Ret (map (Z.mul c) l))
  | x => x
  end.

Definition all_seen_in (c : Z) (o : outcome (list seen)) : outcome (list seen) :=
  match o with
  | Ok l => Ok (map (seen_in c) l)
  | UB u => UB u
  | OutOfFuel => OutOfFuel
  end.

(** Does the call use the heuristic? *)
Definition by_heuristic (s : ncall) : bool :=
  match s with NGet _ _ _ heur _ | NCorrespondence _ _ _ _ heur _ => heur | _ => false end.

(** The three ways to make a NWGraph *)
Inductive nsource : Type :=
| FromRows (rows : pairs) (n : nat)
| FromMatrix (rows cols : nat) (M : nat -> nat -> bool)
| FromAdjlist (n m : nat) (A : list (list nat)).

Definition nload (rnd : Z -> Z) (x : nsource) (w : list Z) : outcome (exc pynw) :=
  match x with
  | FromRows rows n => nw_from_edgelist rnd rows n w
  | FromMatrix r k M => nw_from_matrix rnd r k M w
  | FromAdjlist n m A => nw_from_adjlist rnd n m A w
  end.

(** Rounding commutes with the conversion. *)
Definition respects (c : Z) (rnd : Z -> Z) : Prop := forall x, rnd (c * x) = c * rnd x.
