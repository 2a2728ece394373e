(** LoneSamples: graphs with vertices without neighbours, for P_Lone. *)
From Verif Require Import Base MUtils MGraph MApi MNW MNWEnum MNWApi Spec SpecDec SpecNW SpecLone SetFacts LoadFacts SpecRound NWRoundFacts NWProps Samples ExtSamples NWSamples.
Local Open Scope nat_scope.

(** [sample] and [wsample] with four and three vertices more *)
Definition lonely : pygraph := graph_of sample_rows 12.

Lemma lonely_made : made lonely 12 (adj_rows sample_rows).
Proof. apply made_of; [unfold fits; vm_compute; reflexivity|vm_compute; reflexivity]. Qed.

Lemma lonely_live : storage_live lonely.
Proof. apply liveb_sound. vm_compute. reflexivity. Qed.

Lemma lonely_padded : padded 8 12 (adj_rows sample_rows) (adj_rows sample_rows).
Proof. split; [lia|]. tauto. Qed.

Definition lwts : list Z := (wwts ++ [50; 0; 3])%Z.
Definition wlonely : pynw := match nw_from_edgelist half_even wrows 9 lwts with Ok (Ret p) => p | _ => new_pynw end.

Lemma wlonely_made : nmade half_even wlonely 9 (adj_rows wrows) lwts.
Proof. apply nmade_edgelist; [unfold fits; vm_compute; reflexivity|]. vm_compute. reflexivity. Qed.

Lemma wlonely_live : nstorage_live wlonely.
Proof. apply liveb_sound. vm_compute. reflexivity. Qed.

Lemma wlonely_padded : padded 6 9 (adj_rows wrows) (adj_rows wrows) /\ same_weights 6 wwts lwts.
Proof. split; [split; [lia|tauto]|]. intros v H. do 7 (destruct v as [|v]; [reflexivity|]). lia. Qed.

Lemma lwts_sums : sums_exact half_even lwts /\ nonnegative lwts.
Proof. split; [apply small_sums; reflexivity|]. intros y I. simpl in I. lia. Qed.

(** A light edge and a heavy triangle, and the same with a heavier vertex without neighbours *)
Definition hrows : list (nat * nat) := [(1, 2); (3, 4); (4, 5); (3, 5)].
Definition hwts : list Z := [2; 2; 10; 10; 10]%Z.
Definition whard : pynw := match nw_from_edgelist half_even hrows 5 hwts with Ok (Ret p) => p | _ => new_pynw end.
Definition whard' : pynw := match nw_from_edgelist half_even hrows 6 (hwts ++ [50%Z]) with Ok (Ret p) => p | _ => new_pynw end.

Lemma whard_made : nmade half_even whard 5 (adj_rows hrows) hwts.
Proof. apply nmade_edgelist; [unfold fits; vm_compute; reflexivity|]. vm_compute. reflexivity. Qed.
Lemma whard'_made : nmade half_even whard' 6 (adj_rows hrows) (hwts ++ [50%Z]).
Proof. apply nmade_edgelist; [unfold fits; vm_compute; reflexivity|]. vm_compute. reflexivity. Qed.
Lemma whard_live : nstorage_live whard /\ nstorage_live whard'.
Proof. split; apply liveb_sound; vm_compute; reflexivity. Qed.
Lemma whard_padded : padded 5 6 (adj_rows hrows) (adj_rows hrows) /\ same_weights 5 hwts (hwts ++ [50%Z]).
Proof. split; [split; [lia|tauto]|]. intros v H. do 6 (destruct v as [|v]; [reflexivity|]). lia. Qed.
Lemma whard_sums : sums_exact half_even hwts /\ sums_exact half_even (hwts ++ [50%Z]) /\ nonnegative hwts /\ nonnegative (hwts ++ [50%Z]).
Proof.
  split; [apply small_sums; reflexivity|]. split; [apply small_sums; reflexivity|]. split; intros y I; simpl in I; lia.
Qed.
