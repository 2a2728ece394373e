(** UnitSamples: weighted graphs in two units for the examples of P_Units. *)
From Verif Require Import Base MUtils MGraph MApi MNW MNWEnum MNWApi Spec SpecDec SpecNW SetFacts LoadFacts SpecRound NWRoundFacts NWProps NWSamples SpecScript SpecUnits UnitFacts.
Local Open Scope nat_scope.

Definition urows : pairs := [(1,2);(1,3);(1,4);(1,5);(2,4);(2,5);(2,6);(3,4);(3,6)].
Definition uwts : list Z := [1; 1; 2; 2; 1; 2]%Z.
Definition usample : pynw := match nw_from_edgelist half_even urows 6 uwts with Ok (Ret p) => p | _ => new_pynw end.
Definition usample16 : pynw := match nw_from_edgelist half_even urows 6 (map (Z.mul 16) uwts) with Ok (Ret p) => p | _ => new_pynw end.

Lemma usample_load : nload half_even (FromRows urows 6) uwts = Ok (Ret usample).
Proof. vm_compute. reflexivity. Qed.

Lemma usample16_load : nload half_even (FromRows urows 6) (map (Z.mul 16) uwts) = Ok (Ret usample16).
Proof. vm_compute. reflexivity. Qed.

Lemma usample_made : nmade half_even usample 6 (adj_rows urows) uwts.
Proof. apply nmade_edgelist; [unfold fits; vm_compute; reflexivity|]. exact usample_load. Qed.

Lemma usample16_made : nmade half_even usample16 6 (adj_rows urows) (map (Z.mul 16) uwts).
Proof. apply nmade_edgelist; [unfold fits; vm_compute; reflexivity|]. exact usample16_load. Qed.

Lemma usample_live : nstorage_live usample.
Proof. eexists. split; [reflexivity|]. vm_compute. reflexivity. Qed.

Lemma usample_edge : has_edge (adj_rows urows).
Proof. exists 1, 2. split; [lia|]. left. left. reflexivity. Qed.

(** A program: list the cliques of weight at least 4, search without the heuristic, ask for weights *)
Definition uprogram : list ncall :=
  [NIterate nw_env 4%Z; NNext true 0; NNext true 0; NGet nw_env 0%Z 1000%Z false true; NWeight [1; 3; 4]; NReset; NCorrespondence nw_env 2 5%Z 1000%Z false true; NWeights; NNeighbors 3].

Lemma usample_exact : sums_exact half_even uwts.
Proof. apply small_sums. reflexivity. Qed.
