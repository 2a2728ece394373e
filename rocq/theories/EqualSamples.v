(** EqualSamples: the graph of Samples as a NWGraph whose weights are all 3 (C76). *)
From Verif Require Import Base MUtils MGraph MEnum MApi MNW MNWEnum MNWApi Spec SpecDec SpecNW SpecOrder SetFacts LoadFacts SpecRound NWRoundFacts NWProps ExtSamples NWSamples Samples SameSamples.
Local Open Scope nat_scope.

Definition threes : pynw := built sample_rows 8 (repeat 3%Z 8).

Lemma threes_made : nmade half_even threes 8 (adj_rows sample_rows) (repeat 3%Z 8).
Proof. apply nmade_edgelist; [unfold fits; vm_compute; reflexivity|]. vm_compute. reflexivity. Qed.

Lemma threes_live : nstorage_live threes.
Proof. apply liveb_sound. vm_compute. reflexivity. Qed.

Lemma threes_exact : sums_exact half_even (repeat 3%Z 8).
Proof. apply small_sums. reflexivity. Qed.

Lemma threes_within : all_within 8 (adj_rows sample_rows) (repeat 3%Z 8) 100.
Proof.
  intros d (C1 & C2 & _) _.
  assert (V : forall v, (vweight (repeat 3%Z 8) v <= 3)%Z) by (intros v; do 9 (destruct v as [|v]; [vm_compute; discriminate|]); destruct v; vm_compute; discriminate).
  assert (G : forall l, (weight (repeat 3%Z 8) l <= 3 * Z.of_nat (length l))%Z).
  { induction l as [|x l IH]; cbn [weight length]; [lia|]. pose proof (V x). lia. }
  assert (L : length d <= length (seq 1 8)).
  { apply NoDup_incl_length; [apply sorted_nodup; exact C1|]. intros x I. apply C2 in I. apply in_seq. lia. }
  cbn in L. pose proof (G d). lia.
Qed.

(** A triangle of the K4, and 5,6,7. *)
Lemma sample_triangles : exists q en, drain 20 true sample (new_enum 3) = Ok (q, en, [[2; 3; 4]; [5; 6; 7]]).
Proof. do 2 eexists. vm_compute. reflexivity. Qed.

Lemma threes_triangles : exists en q en', nw_all_cliques nw_env threes 9 = Ret en /\ nw_drain half_even 20 true threes en = Ok (q, en', [[2; 3; 4]; [5; 6; 7]]).
Proof. do 3 eexists. split; [vm_compute; reflexivity|]. vm_compute. reflexivity. Qed.

(** With size 1 and weight 3: the one lists the vertices, the other the edges. *)
Lemma sample_ones : exists q en l, drain 40 true sample (new_enum 1) = Ok (q, en, l) /\ (forall c, In c l -> length c = 1) /\ length l = 8.
Proof. do 3 eexists. split; [vm_compute; reflexivity|]. split; [|reflexivity]. intros c I. simpl in I. intuition (subst; reflexivity). Qed.

Lemma threes_ones : exists en q en' l, nw_all_cliques nw_env threes 3 = Ret en /\ nw_drain half_even 40 true threes en = Ok (q, en', l) /\ (forall c, In c l -> length c = 2) /\ length l = 7.
Proof. do 4 eexists. split; [vm_compute; reflexivity|]. split; [vm_compute; reflexivity|]. split; [|reflexivity]. intros c I. simpl in I. intuition (subst; reflexivity). Qed.
