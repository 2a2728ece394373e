(** GenSamples: small inputs used in P_Gen. *)
From Verif Require Import Base MBits MUtils MGraph MHeur MStack MRec MEnum MApi MExt MGen MAlign Spec SpecGen Samples ExtSamples.
From Coq Require Import QArith.
Local Open Scope nat_scope.

(** Points on a line. *)
Definition line (l : list Z) : metric := fun i j => Z.abs (nth i l 0 - nth j l 0)%Z.

Definition names3 : gset nat := mkGS [100; 101; 102] None.
Definition names4 : gset nat := mkGS [7; 8; 9; 10] None.
Definition pos3 : metric := line [0; 3; 10]%Z.
Definition pos4 : metric := line [50; 10; 0; 3]%Z.

Lemma line_sym l i j : line l i j = line l j i.
Proof. unfold line. lia. Qed.

Definition gline0 : gengraph nat nat := gen_init names3 names4 (Some pos3) (Some pos4) true true 1.
Definition gline : gengraph nat nat := match gen_build_edges pd_sort gline0 with Ok (Ret g) => g | _ => gline0 end.
Lemma gline_eq : gen_build_edges pd_sort gline0 = Ok (Ret gline).
Proof. vm_compute. reflexivity. Qed.

(** Only pairs keeping 10 (element 1 of set 2) out. *)
Definition no1 (i i' j j' : nat) : bool := negb (j =? 1) && negb (j' =? 1).
Definition gcond : gengraph nat nat := match gen_build_with_condition pd_sort gline0 no1 false with Ok (Ret g) => g | _ => gline0 end.
Lemma gcond_eq : gen_build_with_condition pd_sort gline0 no1 false = Ok (Ret gcond).
Proof. vm_compute. reflexivity. Qed.

(** Arrays: the distances of the rows are taken when no metric is given. *)
Definition arr3 : gset nat := mkGS [100; 101; 102] (Some pos3).
Definition arr4 : gset nat := mkGS [7; 8; 9; 10] (Some pos4).

(** ** Points in the plane *)
Definition at_pts (l : list point) : nat -> point := fun i => nth i l (0, 0)%Q.
Definition corners : list point := [(0, 0); (2, 0); (2, 2)]%Q.
Definition moved_corners : list point := [(5, 1); (5, 3); (3, 3)]%Q.
(** squared distances *)
Definition sqd (l : list point) : metric := fun i j =>
  let '(x, y) := at_pts l i in let '(x', y') := at_pts l j in
  (Z.abs (Qnum x - Qnum x') * Z.abs (Qnum x - Qnum x') + Z.abs (Qnum y - Qnum y') * Z.abs (Qnum y - Qnum y'))%Z.
Definition canvas (r c : nat) : mask := mkMask r c (fun _ _ => true).
(** only the left three columns *)
Definition left_part : mask := mkMask 8 8 (fun _ c => c <? 3).

Lemma sqd_sym l i j : sqd l i j = sqd l j i.
Proof. unfold sqd. destruct (at_pts l i), (at_pts l j). f_equal; f_equal; lia. Qed.
