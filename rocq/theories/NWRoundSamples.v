(** NWRoundSamples: weighted graphs whose sums of weights are rounded, for P_NWRound. *)
From Verif Require Import Base MUtils MGraph MApi MNW MNWEnum MNWApi Spec SpecDec SpecNW SetFacts LoadFacts SpecRound RoundFacts NWRoundFacts NWProps NWSamples.
From Coq Require Import Sorting.Sorted Sorting.Permutation.
Local Open Scope nat_scope.

Definition loaded (o : outcome (exc pynw)) : pynw := match o with Ok (Ret p) => p | _ => new_pynw end.

(** 0.1, 0.2 and 0.3 as doubles, in units of 2^-55 *)
Definition w0_1 : Z := 3602879701896397.
Definition w0_2 : Z := 7205759403792794.
Definition w0_3 : Z := 10808639105689190.

(** The edge {1,2}, of weight 0.3 + 0.3, and the triangle {3,4,5}, of weight 0.3 + 0.2 + 0.1 *)
Definition tenth_rows : pairs := [(1,2);(3,4);(3,5);(4,5)].
Definition tenths : list Z := [w0_3; w0_3; w0_3; w0_2; w0_1].
Definition tenth : pynw := Eval vm_compute in loaded (nw_from_edgelist half_even tenth_rows 5 tenths).

Lemma tenth_made : nmade half_even tenth 5 (adj_rows tenth_rows) tenths.
Proof. apply nmade_edgelist; [unfold fits; vm_compute; reflexivity|vm_compute; reflexivity]. Qed.

Lemma tenth_live : nstorage_live tenth.
Proof. eexists. split; [reflexivity|]. vm_compute. reflexivity. Qed.

Lemma tenth_edge : has_edge (adj_rows tenth_rows).
Proof. exists 1, 2. split; [lia|]. left. left. reflexivity. Qed.

Lemma tenths_nonneg : nonnegative tenths.
Proof. intros x I. cbn in I. unfold w0_1, w0_2, w0_3 in I. lia. Qed.

Lemma w0_1_double : double w0_1.
Proof. exists w0_1, 0%Z. vm_compute. repeat split; congruence. Qed.

Lemma w0_2_double : double w0_2.
Proof. exists w0_2, 0%Z. vm_compute. repeat split; congruence. Qed.

Lemma w0_3_double : double w0_3.
Proof. exists (w0_3 / 2)%Z, 1%Z. vm_compute. repeat split; congruence. Qed.

Lemma tenths_double : forall x, In x tenths -> double x.
Proof. intros x I. cbn in I. repeat (destruct I as [<-|I]; [first [apply w0_1_double|apply w0_2_double|apply w0_3_double]|]). destruct I. Qed.

(** The triangle {1,2,3} and the edge {4,5}, of weight 2^53 + 3, which is rounded to 2^53 + 4 *)
Definition big_rows : pairs := [(1,2);(1,3);(2,3);(4,5)].
Definition bigs : list Z := [1; 1; 2 ^ 53; 2 ^ 53; 3]%Z.
Definition big : pynw := Eval vm_compute in loaded (nw_from_edgelist half_even big_rows 5 bigs).

Lemma big_made : nmade half_even big 5 (adj_rows big_rows) bigs.
Proof. apply nmade_edgelist; [unfold fits; vm_compute; reflexivity|vm_compute; reflexivity]. Qed.

Lemma big_live : nstorage_live big.
Proof. eexists. split; [reflexivity|]. vm_compute. reflexivity. Qed.

Lemma big_edge : has_edge (adj_rows big_rows).
Proof. exists 2, 3. split; [lia|]. left. right. right. left. reflexivity. Qed.

Lemma bigs_nonneg : nonnegative bigs.
Proof. intros x I. cbn in I. lia. Qed.

Lemma bigs_double : forall x, In x bigs -> double x.
Proof.
  intros x I. cbn in I.
  repeat (destruct I as [<-|I]; [first [exists 1%Z, 0%Z; vm_compute; repeat split; congruence|exists 1%Z, 53%Z; vm_compute; repeat split; congruence|exists 3%Z, 0%Z; vm_compute; repeat split; congruence]|]).
  destruct I.
Qed.

(** The edge {1,2} and the triangle {3,4,5}, of weight 2^53 + 1 + 1, which comes to 2^53 *)
Definition drops : list Z := [1; 1; 2 ^ 53; 1; 1]%Z.
Definition drop : pynw := Eval vm_compute in loaded (nw_from_edgelist half_even tenth_rows 5 drops).

Lemma drop_made : nmade half_even drop 5 (adj_rows tenth_rows) drops.
Proof. apply nmade_edgelist; [unfold fits; vm_compute; reflexivity|vm_compute; reflexivity]. Qed.

Lemma drop_live : nstorage_live drop.
Proof. eexists. split; [reflexivity|]. vm_compute. reflexivity. Qed.

Lemma drops_nonneg : nonnegative drops.
Proof. intros x I. cbn in I. lia. Qed.

Lemma drops_double : forall x, In x drops -> double x.
Proof.
  intros x I. cbn in I.
  repeat (destruct I as [<-|I]; [first [exists 1%Z, 0%Z; vm_compute; repeat split; congruence|exists 1%Z, 53%Z; vm_compute; repeat split; congruence]|]).
  destruct I.
Qed.

Lemma drop_degree v x : 3 <= v <= 5 -> wdegree (adj_rows tenth_rows) drops v x -> x = (2 ^ 53 + 2)%Z.
Proof.
  intros V (l & ND & IN & ->). change (2 ^ 53 + 2)%Z with (weight drops [3; 4; 5]).
  assert (P : Permutation l [3; 4; 5]); [|clear -P; induction P; cbn [weight]; lia].
  apply NoDup_Permutation; [exact ND|repeat constructor; cbn; intuition lia|].
  intros u. rewrite IN. unfold adj_rows, tenth_rows. cbn.
  split; intros H.
  - destruct H as [-> |(N & H)]; [lia|]. intuition (try congruence); repeat match goal with H : (_, _) = _ |- _ => injection H as ? ?; subst end; lia.
  - destruct (Nat.eq_dec u v) as [->|N]; [left; reflexivity|right]. split; [congruence|].
    assert (v = 3 \/ v = 4 \/ v = 5) as [-> | [-> | ->]] by lia; (destruct H as [<- | [<- | [<- | []]]]; try congruence; auto 10).
Qed.

Lemma drop_heavy : heavy_minimal 5 (adj_rows tenth_rows) drops (2 ^ 53 + 2) [3; 4; 5] 3.
Proof.
  split; [apply cliqueb_sound; vm_compute; reflexivity|]. split; [cbn; lia|]. split; [vm_compute; discriminate|]. split.
  - split; [left; reflexivity|]. intros u xv xu I N X1 X2. right.
    rewrite (drop_degree 3 xv) by (auto; lia). rewrite (drop_degree u xu); [split; [reflexivity|cbn in I; lia]|cbn in I; lia|exact X2].
  - exists 5. split; [split; [cbn; auto|split; [lia|cbn; lia]]|]. right. vm_compute. reflexivity.
Qed.

(** The weights of [wsample], in units of 2^-60 *)
Definition wholes : list Z := map (fun x => x * 2 ^ 60)%Z wwts.
Definition whole : pynw := Eval vm_compute in loaded (nw_from_edgelist half_even wrows 6 wholes).

Lemma whole_made : nmade half_even whole 6 (adj_rows wrows) wholes.
Proof. apply nmade_edgelist; [unfold fits; vm_compute; reflexivity|vm_compute; reflexivity]. Qed.

Lemma whole_live : nstorage_live whole.
Proof. eexists. split; [reflexivity|]. vm_compute. reflexivity. Qed.

Lemma wholes_grid : on_grid wholes.
Proof.
  exists 60%Z. split; [lia|]. split; [|vm_compute; discriminate].
  intros x I. unfold wholes in I. apply in_map_iff in I. destruct I as (y & <- & _). exists y. reflexivity.
Qed.

Lemma wholes_nonneg : nonnegative wholes.
Proof.
  intros x I. unfold wholes in I. apply in_map_iff in I. destruct I as (y & <- & I). apply wwts_nonneg in I. apply Z.mul_nonneg_nonneg; [exact I|].
  apply Z.pow_nonneg. lia.
Qed.

(** Vertex 1 and eight pairs {2,3}, ..., {16,17} make triangles of increasing weight. Eighteen further vertices adjacent to all of 2..17
    see to it that these triangles are searched from vertex 1. {36,37,38} is a triangle by itself, 6 units lighter than {1,16,17}. *)
Definition drift_rows : pairs :=
  map (fun v => (1, v)) (seq 2 16) ++ map (fun i => (2 + 2 * i, 3 + 2 * i)) (seq 0 8)
  ++ flat_map (fun p => map (fun v => (p, v)) (seq 2 16)) (seq 18 18) ++ [(36,37);(37,38);(36,38)].
Definition drifts : list Z :=
  [2 ^ 52 + 1000]%Z ++ flat_map (fun i => [2 ^ 52 + 1 + Z.of_nat i; 2 ^ 52 + 4 * Z.of_nat i]%Z) (seq 0 8) ++ repeat (2 ^ 52)%Z 18
  ++ [2 ^ 52; 2 ^ 52; 2 ^ 52 + 1030]%Z.
Definition drift : pynw := loaded (nw_from_edgelist half_even drift_rows 38 drifts).

Lemma drift_made : nmade half_even drift 38 (adj_rows drift_rows) drifts.
Proof. apply nmade_edgelist; [unfold fits; vm_compute; reflexivity|vm_compute; reflexivity]. Qed.

Lemma drift_live : nstorage_live drift.
Proof. eexists. split; [vm_compute; reflexivity|]. vm_compute. reflexivity. Qed.

Lemma drift_edge : has_edge (adj_rows drift_rows).
Proof. exists 1, 2. split; [lia|]. left. left. reflexivity. Qed.

Lemma drifts_range x : In x drifts -> (0 <= x < 2 ^ 53)%Z.
Proof.
  assert (H : forallb (fun x => (0 <=? x) && (x <? 2 ^ 53))%Z drifts = true) by (vm_compute; reflexivity).
  rewrite forallb_forall in H. intros I. specialize (H x I). apply andb_prop in H. destruct H as [H1 H2]. apply Z.leb_le in H1. apply Z.ltb_lt in H2. lia.
Qed.

Lemma drifts_nonneg : nonnegative drifts.
Proof. intros x I. apply drifts_range in I. lia. Qed.

Lemma drifts_double : forall x, In x drifts -> double x.
Proof. intros x I. apply drifts_range in I. apply small_double. lia. Qed.
