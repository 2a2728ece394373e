(** NWBoundSamples: a graph with a heavy vertex that has no neighbours. *)
From Verif Require Import Base MUtils MGraph MApi MNW MNWEnum MNWApi Spec SpecNW SpecRound NWSum NWProps NWRoundFacts NWSamples.
Local Open Scope nat_scope.

Definition alone_w : list Z := [5; 1; 1; 1; 9; 2; 100]%Z.
Definition alone : pynw := match nw_from_edgelist half_even wrows 7 alone_w with Ok (Ret p) => p | _ => new_pynw end.

Lemma alone_made : nmade half_even alone 7 (adj_rows wrows) alone_w.
Proof. apply nmade_edgelist; [unfold fits; vm_compute; reflexivity|]. vm_compute. reflexivity. Qed.

Lemma alone_live : nstorage_live alone.
Proof. eexists. split; [vm_compute; reflexivity|reflexivity]. Qed.

Lemma alone_exact : sums_exact half_even alone_w.
Proof. apply small_sums; reflexivity. Qed.

Lemma alone_nonneg : nonnegative alone_w.
Proof. intros x I. simpl in I. lia. Qed.
