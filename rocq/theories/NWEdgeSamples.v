(** NWEdgeSamples: an NWGraph without edges. *)
From Verif Require Import Base MUtils MGraph MApi MNW MNWEnum MNWApi Spec SpecNW SpecRound NWSamples.
Local Open Scope nat_scope.

Definition lone_w : list Z := [9; 2; 7; 4]%Z.
Definition lone : pynw := match nw_from_edgelist half_even [] 4 lone_w with Ok (Ret p) => p | _ => new_pynw end.

Lemma lone_made : nmade half_even lone 4 (adj_rows []) lone_w.
Proof. apply nmade_edgelist; [unfold fits; vm_compute; reflexivity|]. vm_compute. reflexivity. Qed.

Lemma lone_none : forall u v, ~ adj_rows [] u v.
Proof. intros u v (_ & [[]|[]]). Qed.

Lemma lone_round : forall x, In x lone_w -> half_even x = x.
Proof. intros x [<-|[<-|[<-|[<-|[]]]]]; reflexivity. Qed.

Definition below_w : list Z := [-9; -2; -7; -4; -1; -3]%Z.
Definition below : pynw := match nw_from_edgelist half_even wrows 6 below_w with Ok (Ret p) => p | _ => new_pynw end.

Lemma below_made : nmade half_even below 6 (adj_rows wrows) below_w.
Proof. apply nmade_edgelist; [unfold fits; vm_compute; reflexivity|]. vm_compute. reflexivity. Qed.

Lemma below_live : nstorage_live below.
Proof. eexists. split; [vm_compute; reflexivity|reflexivity]. Qed.
