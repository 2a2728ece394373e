(** SameSamples: weighted graphs on which a search changes what all_cliques lists (C71). *)
From Verif Require Import Base MUtils MGraph MApi MNW MNWEnum MNWApi Spec SpecDec SpecNW SetFacts LoadFacts SpecRound NWRoundFacts NWProps NWSamples.
Local Open Scope nat_scope.

Definition built (rows : pairs) (n : nat) (ws : list Z) : pynw := match nw_from_edgelist half_even rows n ws with Ok (Ret p) => p | _ => new_pynw end.

(** Vertex 2 with the triangles {2,3,4}, of weight 12, and {2,5,6}, of weight 20. *)
Definition frows : pairs := [(2,3);(3,4);(2,4);(2,5);(2,6);(5,6);(3,7);(4,8);(5,9);(6,10)].
Definition fwts : list Z := [0;10;1;1;5;5;13;13;13;13]%Z.
Definition fan : pynw := built frows 10 fwts.
(** With upper bound 12. *)
Definition fan12 : pynw := match nw_get_max_clique half_even nw_env fan 0 12 false true with Ok (q, _) => q | _ => fan end.

Lemma fan_made : nmade half_even fan 10 (adj_rows frows) fwts.
Proof. apply nmade_edgelist; [unfold fits; vm_compute; reflexivity|]. vm_compute. reflexivity. Qed.

Lemma fan_live : nstorage_live fan.
Proof. eexists. split; [reflexivity|]. vm_compute. reflexivity. Qed.

Lemma fan_edge : has_edge (adj_rows frows).
Proof. exists 2, 3. split; [lia|]. left. left. reflexivity. Qed.

Lemma fwts_nonneg : nonnegative fwts.
Proof. intros x I. simpl in I. lia. Qed.

Lemma fwts_exact : sums_exact half_even fwts.
Proof. apply small_sums. reflexivity. Qed.

Lemma fan12_eq : nw_get_max_clique half_even nw_env fan 0 12 false true = Ok (fan12, Ret [2; 3; 4]).
Proof. vm_compute. reflexivity. Qed.

Lemma fan_20 : nw_all_cliques nw_env fan 20 = Ret (wen fan 20)
  /\ nw_drain half_even 7 true fan (wen fan 20) = Ok (wafter fan 20, snd (fst (wout fan 20)), [[2; 5; 6]]).
Proof. split; vm_compute; reflexivity. Qed.

Lemma fan12_20 : nw_all_cliques nw_env fan12 20 = Ret (wen fan12 20)
  /\ nw_drain half_even 7 true fan12 (wen fan12 20) = Ok (wafter fan12 20, snd (fst (wout fan12 20)), []).
Proof. split; vm_compute; reflexivity. Qed.

Definition fan_reset : pynw := match nw_reset_search fan12 with Ok q => q | _ => fan end.

Lemma fan_reset_eq : nw_reset_search fan12 = Ok fan_reset.
Proof. vm_compute. reflexivity. Qed.

Lemma fan_reset_20 : nw_all_cliques nw_env fan_reset 20 = Ret (wen fan_reset 20)
  /\ nw_drain half_even 7 true fan_reset (wen fan_reset 20) = Ok (wafter fan_reset 20, snd (fst (wout fan_reset 20)), []).
Proof. split; vm_compute; reflexivity. Qed.

Lemma fan_14 : nw_all_cliques nw_env fan 14 = Ret (wen fan 14)
  /\ nw_drain half_even 7 true fan (wen fan 14) = Ok (wafter fan 14, snd (fst (wout fan 14)), [[2; 5]; [2; 6]; [3; 7]; [4; 8]; [5; 9]; [6; 10]]).
Proof. split; vm_compute; reflexivity. Qed.

Lemma fan12_14 : nw_all_cliques nw_env fan12 14 = Ret (wen fan12 14)
  /\ nw_drain half_even 7 true fan12 (wen fan12 14) = Ok (wafter fan12 14, snd (fst (wout fan12 14)), [[3; 7]; [4; 8]; [5; 9]; [6; 10]]).
Proof. split; vm_compute; reflexivity. Qed.

(** Vertex 4 weighs -1: the triangle {2,3,4} weighs 13, its edge {2,3} weighs 14. *)
Definition trows : pairs := [(2,3);(3,4);(2,4);(2,5);(3,6);(4,6);(5,6)].
Definition twts : list Z := [0;10;4;-1;1;6]%Z.
Definition dip : pynw := built trows 6 twts.
Definition dipped : pynw := match nw_get_max_clique half_even nw_env dip 0 100 false true with Ok (q, _) => q | _ => dip end.

Lemma dip_made : nmade half_even dip 6 (adj_rows trows) twts.
Proof. apply nmade_edgelist; [unfold fits; vm_compute; reflexivity|]. vm_compute. reflexivity. Qed.

Lemma dip_live : nstorage_live dip.
Proof. eexists. split; [reflexivity|]. vm_compute. reflexivity. Qed.

Lemma dip_edge : has_edge (adj_rows trows).
Proof. exists 2, 3. split; [lia|]. left. left. reflexivity. Qed.

Lemma twts_exact : sums_exact half_even twts.
Proof. apply small_sums. reflexivity. Qed.

Lemma dipped_eq : nw_get_max_clique half_even nw_env dip 0 100 false true = Ok (dipped, Ret [2; 3; 4]).
Proof. vm_compute. reflexivity. Qed.

Lemma dip_14 : nw_all_cliques nw_env dip 14 = Ret (wen dip 14)
  /\ nw_drain half_even 7 true dip (wen dip 14) = Ok (wafter dip 14, snd (fst (wout dip 14)), [[2; 3]]).
Proof. split; vm_compute; reflexivity. Qed.

Lemma dipped_14 : nw_all_cliques nw_env dipped 14 = Ret (wen dipped 14)
  /\ nw_drain half_even 7 true dipped (wen dipped 14) = Ok (wafter dipped 14, snd (fst (wout dipped 14)), []).
Proof. split; vm_compute; reflexivity. Qed.

(** Six vertices of weight at most 10. *)
Lemma dip_100 : forall d, clique 6 (adj_rows trows) d -> (weight twts d < 100)%Z.
Proof.
  intros d (C1 & C2 & _).
  assert (V : forall v, (vweight twts v <= 10)%Z) by (intros v; do 7 (destruct v as [|v]; [vm_compute; discriminate|]); destruct v; vm_compute; discriminate).
  assert (G : forall l, (weight twts l <= 10 * Z.of_nat (length l))%Z).
  { induction l as [|x l IH]; cbn [weight length]; [lia|]. pose proof (V x). lia. }
  assert (L : length d <= length (seq 1 6)).
  { apply NoDup_incl_length; [apply sorted_nodup; exact C1|]. intros x I. apply C2 in I. apply in_seq. lia. }
  cbn in L. pose proof (G d). lia.
Qed.
