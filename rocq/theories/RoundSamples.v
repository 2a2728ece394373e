(** RoundSamples: sets whose distances are doubles, in units of 2^-1074. *)
From Verif Require Import Base MBits MUtils MGraph MHeur MStack MRec MEnum MApi MExt MPy Spec SpecRound RoundFacts ExtSamples.
Local Open Scope Z_scope.

(** 10.0, and the doubles nearest to 0.1, 9.9 and 7.3 *)
Definition d10 : Z := 10 * 2 ^ 1074.
Definition d0_1 : Z := 3602879701896397 * 2 ^ 1019.
Definition d9_9 : Z := 5573204538870989 * 2 ^ 1025.
Definition d7_3 : Z := 8219069319951155 * 2 ^ 1024.

Lemma d10_double : double d10.
Proof. exists 10, 1074. repeat split; lia. Qed.
Lemma d0_1_double : double d0_1.
Proof. exists 3602879701896397, 1019. repeat split; lia. Qed.
Lemma d9_9_double : double d9_9.
Proof. exists 5573204538870989, 1025. repeat split; lia. Qed.
Lemma d7_3_double : double d7_3.
Proof. exists 8219069319951155, 1024. repeat split; lia. Qed.

Lemma tset_measured n l : Forall (fun x => 0 <= snd x /\ double (snd x)) l -> measured (tset n l).
Proof.
  intros F i j _. cbn [m_d tset]. induction F as [|((a, b), d) l H F IH]; cbn [lookup].
  - split; [lia|]. exists 0, 0. repeat split; lia.
  - destruct (((a =? i) && (b =? j)) || ((a =? j) && (b =? i)))%nat; auto.
Qed.

Definition at10 : mset := tset 2 [(0%nat, 1%nat, d10)].
Definition equal9_9 : mset := tset 3 [(0%nat, 1%nat, d9_9); (0%nat, 2%nat, d9_9); (1%nat, 2%nat, d9_9)].
Definition mixed : mset := tset 3 [(0%nat, 1%nat, d9_9); (0%nat, 2%nat, d10); (1%nat, 2%nat, d7_3)].

Lemma at10_measured : measured at10.
Proof. apply tset_measured. repeat constructor; cbn [snd]; auto using d10_double; vm_compute; discriminate. Qed.
Lemma equal9_9_measured : measured equal9_9.
Proof. apply tset_measured. repeat constructor; cbn [snd]; auto using d9_9_double; vm_compute; discriminate. Qed.
Lemma mixed_measured : measured mixed.
Proof. apply tset_measured. repeat constructor; cbn [snd]; auto using d9_9_double, d10_double, d7_3_double; vm_compute; discriminate. Qed.
