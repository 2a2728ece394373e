(** GenRoundSamples: small inputs used in P_GenRound. *)
From Verif Require Import Base BaseFacts MBits MUtils MGraph MHeur MStack MRec MEnum MApi MExt MPy MGen MAlign Spec SpecDec SpecGen SpecRound ExtSamples RoundFacts RoundSamples GenSamples.
Local Open Scope nat_scope.

(** Names all at the same distance from each other. *)
Definition apart (d : Z) : metric := fun i j => if i =? j then 0%Z else d.
Definition names3' : gset nat := mkGS [7; 8; 9] None.

Lemma apart_sym d k l : apart d k l = apart d l k.
Proof. unfold apart. rewrite Nat.eqb_sym. reflexivity. Qed.

Lemma apart_measured (S : gset nat) d : (0 <= d)%Z -> double d -> measured (wanted_set S (Some (apart d)) true (apart d)).
Proof. intros P D i j (_ & _ & N). cbn [wanted_set m_d]. unfold apart. rewrite (proj2 (Nat.eqb_neq i j) N). auto. Qed.

(** 10, 9.9 and 0.1 as doubles, times 2^-1019: the rounding is the same, the numbers are shorter. *)
Definition s10 : Z := (10 * 2 ^ 55)%Z.
Definition s9_9 : Z := (5573204538870989 * 2 ^ 6)%Z.
Definition s0_1 : Z := 3602879701896397%Z.

Lemma s10_double : double s10.
Proof. exists 10%Z, 55%Z. repeat split; discriminate. Qed.
Lemma s9_9_double : double s9_9.
Proof. exists 5573204538870989%Z, 6%Z. repeat split; discriminate. Qed.
Lemma s0_1_double : double s0_1.
Proof. exists 3602879701896397%Z, 0%Z. repeat split; discriminate. Qed.

(** Distances 10 and 9.9 *)
Definition far0 : gengraph nat nat := gen_init names3 names3' (Some (apart s10)) (Some (apart s9_9)) true true s0_1.
Definition far : gengraph nat nat := match gen_build_edges_r half_even pd_sort far0 with Ok (Ret g) => g | _ => far0 end.
Lemma far_eq : gen_build_edges_r half_even pd_sort far0 = Ok (Ret far).
Proof. vm_compute. reflexivity. Qed.

(** 9.9 and 9.9 *)
Definition same0 : gengraph nat nat := gen_init names3 names3' (Some (apart s9_9)) (Some (apart s9_9)) true true s0_1.
Definition same : gengraph nat nat := match gen_build_edges_r half_even pd_sort same0 with Ok (Ret g) => g | _ => same0 end.
Lemma same_eq : gen_build_edges_r half_even pd_sort same0 = Ok (Ret same).
Proof. vm_compute. reflexivity. Qed.
