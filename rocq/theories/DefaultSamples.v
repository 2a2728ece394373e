(** DefaultSamples: the graphs used by the examples and witnesses of P_Default. *)
From Verif Require Import Base MUtils MGraph MApi MNW MNWEnum MNWApi MDefault Spec SpecDec SpecNW SpecRound SetFacts LoadFacts NWRoundFacts NWSamples NWProps DefaultProps ExtSamples.
Local Open Scope nat_scope.

(** wrows with all weights 0.125, in eighths of 1.0. *)
Definition light_w : list Z := [1; 1; 1; 1; 1; 1]%Z.
Definition light : pynw := match nw_from_edgelist half_even wrows 6 light_w with Ok (Ret p) => p | _ => new_pynw end.

Lemma light_made : nmade half_even light 6 (adj_rows wrows) light_w.
Proof. apply nmade_edgelist; [unfold fits; vm_compute; reflexivity|]. vm_compute. reflexivity. Qed.
Lemma light_live : nstorage_live light.
Proof. apply liveb_sound. vm_compute. reflexivity. Qed.
Lemma light_nonneg : nonnegative light_w.
Proof. intros x I. simpl in I. lia. Qed.
Lemma light_exact : sums_exact half_even light_w.
Proof. apply small_sums. reflexivity. Qed.

Lemma light_all d : clique 6 (adj_rows wrows) d -> (weight light_w d < NW_LB 8)%Z.
Proof.
  intros (C1 & C2 & _).
  assert (V : forall v, (vweight light_w v <= 1)%Z) by (intros v; do 7 (destruct v as [|v]; [vm_compute; discriminate|]); destruct v; vm_compute; discriminate).
  assert (G : forall l, (weight light_w l <= Z.of_nat (length l))%Z).
  { induction l as [|x l IH]; cbn [weight length]; [lia|]. pose proof (V x). lia. }
  assert (L : length d <= length (seq 1 6)).
  { apply NoDup_incl_length; [apply sorted_nodup; exact C1|]. intros x I. apply C2 in I. apply in_seq. lia. }
  cbn in L. pose proof (G d). unfold NW_LB. lia.
Qed.

(** A cycle of four vertices of weight 40000 and two joined ones of weight 50000. *)
Definition heavy_rows : pairs := [(1,2);(2,3);(3,4);(1,4);(5,6)].
Definition heavy_w : list Z := [40000; 40000; 40000; 40000; 50000; 50000]%Z.
Definition heavy : pynw := match nw_from_edgelist half_even heavy_rows 6 heavy_w with Ok (Ret p) => p | _ => new_pynw end.

Lemma heavy_made : nmade half_even heavy 6 (adj_rows heavy_rows) heavy_w.
Proof. apply nmade_edgelist; [unfold fits; vm_compute; reflexivity|]. vm_compute. reflexivity. Qed.
Lemma heavy_live : nstorage_live heavy.
Proof. apply liveb_sound. vm_compute. reflexivity. Qed.
Lemma heavy_edge : has_edge (adj_rows heavy_rows).
Proof. exists 1, 2. split; [lia|]. left. left. reflexivity. Qed.
Lemma heavy_nonneg : nonnegative heavy_w.
Proof. intros x I. simpl in I. lia. Qed.
Lemma heavy_exact : sums_exact half_even heavy_w.
Proof. apply small_sums. reflexivity. Qed.
