(** CorrSamples: small inputs used in P_Corr. *)
From Verif Require Import Base MBits MUtils MGraph MHeur MStack MRec MEnum MApi MExt MGen MCorr Spec SpecDec SpecGen Samples ExtSamples GenSamples.
Local Open Scope nat_scope.

(** The same three points in both sets. *)
Definition thrice : gengraph nat nat := gen_init names3 (mkGS [7; 8; 9] None) (Some pos3) (Some pos3) true true 1.
Definition thriceg : gengraph nat nat := match gen_build_edges pd_sort thrice with Ok (Ret g) => g | _ => thrice end.
Lemma thrice_eq : gen_build_edges pd_sort thrice = Ok (Ret thriceg).
Proof. vm_compute. reflexivity. Qed.

Definition drained {E1 E2} (lr : bool) (g : gengraph E1 E2) (k : nat) : gengraph E1 E2 * enum :=
  match gen_drain 50 lr g (new_enum k) with Ok (g', en, _) => (g', en) | _ => (g, new_enum k) end.

Lemma thrice_3 : gen_drain 50 true thriceg (new_enum 3) = Ok (fst (drained true thriceg 3), snd (drained true thriceg 3), Ret []).
Proof. vm_compute. reflexivity. Qed.

(** get_correspondence finds the identity. *)
Definition thrice_max : gengraph nat nat :=
  match gen_get_elements (run_env None) thriceg 1 DEFAULT_UB true true false with Ok (g, _) => g | _ => thriceg end.
Lemma thrice_id : gen_get_elements (run_env None) thriceg 1 DEFAULT_UB true true false = Ok (thrice_max, Ret ([100; 101; 102], [7; 8; 9])).
Proof. vm_compute. reflexivity. Qed.

Lemma gcond_2 : gen_drain 50 true gcond (new_enum 2)
  = Ok (fst (drained true gcond 2), snd (drained true gcond 2), Ret [([100; 101], [9; 10]); ([100; 101], [10; 9])]).
Proof. vm_compute. reflexivity. Qed.

Definition tris : pygraph := product tri4 tri3.
Definition cdrained (lr : bool) (n2 : nat) (p : pygraph) (k : nat) : pygraph * enum :=
  match corr_drain 50 lr n2 p (new_enum k) with Ok (q, en, _) => (q, en) | _ => (p, new_enum k) end.
Lemma tris_3 : corr_drain 50 true 3 tris (new_enum 3) = Ok (fst (cdrained true 3 tris 3), snd (cdrained true 3 tris 3),
  Ret [([1; 2; 3], [0; 1; 2]); ([1; 2; 3], [0; 2; 1]); ([1; 2; 3], [1; 0; 2]); ([1; 2; 3], [1; 2; 0]); ([1; 2; 3], [2; 0; 1]); ([1; 2; 3], [2; 1; 0])]).
Proof. vm_compute. reflexivity. Qed.
