(** GrowSamples: weighted graphs with a raised weight, for P_Grow. *)
From Verif Require Import Base MUtils MGraph MApi MNW MNWEnum MNWApi Spec SpecDec SpecNW SetFacts LoadFacts SpecRound NWRoundFacts NWProps NWSamples SpecScript SpecUnits UnitFacts SpecGrow GrowFacts ExtSamples.
Local Open Scope nat_scope.

(** The weight of 6 is raised from 5 to 10. *)
Definition hrows : pairs := [(1,2);(1,5);(2,3);(2,6);(3,5);(4,5)].
Definition hwts : list Z := [4; 2; 9; 5; 6; 5]%Z.
Definition hwts' : list Z := [4; 2; 9; 5; 6; 10]%Z.
Definition hsample : pynw := match nw_from_edgelist half_even hrows 6 hwts with Ok (Ret p) => p | _ => new_pynw end.
Definition hsample' : pynw := match nw_from_edgelist half_even hrows 6 hwts' with Ok (Ret p) => p | _ => new_pynw end.

Lemma hsample_made : nmade half_even hsample 6 (adj_rows hrows) hwts.
Proof. apply nmade_edgelist; [unfold fits; vm_compute; reflexivity|]. vm_compute. reflexivity. Qed.

Lemma hsample'_made : nmade half_even hsample' 6 (adj_rows hrows) hwts'.
Proof. apply nmade_edgelist; [unfold fits; vm_compute; reflexivity|]. vm_compute. reflexivity. Qed.

Lemma hsample_live : nstorage_live hsample.
Proof. apply liveb_sound. vm_compute. reflexivity. Qed.

Lemma hsample'_live : nstorage_live hsample'.
Proof. apply liveb_sound. vm_compute. reflexivity. Qed.

Lemma hsample_edge : has_edge (adj_rows hrows).
Proof. exists 1, 2. split; [lia|]. left. left. reflexivity. Qed.

Lemma hwts'_exact : sums_exact half_even hwts'.
Proof. apply small_sums. reflexivity. Qed.

Lemma raised n adj w w' : (forall v, 1 <= v <= n -> (vweight w v <= vweight w' v)%Z) -> grows n n adj adj w w' (fun v => v).
Proof. intros H. repeat split; auto; lia. Qed.

Lemma hsample_grows : grows 6 6 (adj_rows hrows) (adj_rows hrows) hwts hwts' (fun v => v).
Proof. apply raised. intros v H. do 7 (destruct v as [|v]; [vm_compute; discriminate|]). lia. Qed.

(** The weight of 5 is raised from 9 to 12. *)
Definition wwts' : list Z := [5; 1; 1; 1; 12; 2]%Z.
Definition wraised : pynw := match nw_from_edgelist half_even wrows 6 wwts' with Ok (Ret p) => p | _ => new_pynw end.

Lemma wraised_made : nmade half_even wraised 6 (adj_rows wrows) wwts'.
Proof. apply nmade_edgelist; [unfold fits; vm_compute; reflexivity|]. vm_compute. reflexivity. Qed.

Lemma wraised_live : nstorage_live wraised.
Proof. apply liveb_sound. vm_compute. reflexivity. Qed.

Lemma wraised_grows : grows 6 6 (adj_rows wrows) (adj_rows wrows) wwts wwts' (fun v => v).
Proof. apply raised. intros v H. do 7 (destruct v as [|v]; [vm_compute; discriminate|]). lia. Qed.

(** [wsample] with its vertices numbered backwards *)
Definition brows : pairs := map (fun '(a, b) => (7 - a, 7 - b)) wrows.
Definition bwts : list Z := rev wwts.
Definition bsample : pynw := match nw_from_edgelist half_even brows 6 bwts with Ok (Ret p) => p | _ => new_pynw end.

Lemma bsample_made : nmade half_even bsample 6 (adj_rows brows) bwts.
Proof. apply nmade_edgelist; [unfold fits; vm_compute; reflexivity|]. vm_compute. reflexivity. Qed.

Lemma bsample_live : nstorage_live bsample.
Proof. apply liveb_sound. vm_compute. reflexivity. Qed.

Lemma backwards : grows 6 6 (adj_rows wrows) (adj_rows brows) wwts bwts (fun v => 7 - v) /\ grows 6 6 (adj_rows brows) (adj_rows wrows) bwts wwts (fun v => 7 - v).
Proof.
  assert (A : forall rows rows', (forall u v, In (u, v) rows -> u <= 6 /\ v <= 6 /\ In (7 - u, 7 - v) rows') -> forall u v, adj_rows rows u v -> adj_rows rows' (7 - u) (7 - v)).
  { intros rows rows' H u v (N & [I|I]); destruct (H _ _ I) as (U & V & J); split; auto; lia. }
  assert (B : forall rows rows', forallb (fun '(u, v) => (u <=? 6) && (v <=? 6) && existsb (fun '(a, b) => (a =? 7 - u) && (b =? 7 - v)) rows') rows = true ->
    forall u v, In (u, v) rows -> u <= 6 /\ v <= 6 /\ In (7 - u, 7 - v) rows').
  { intros rows rows' H u v I. rewrite forallb_forall in H. specialize (H _ I). cbn beta iota in H. rewrite !andb_true_iff, !Nat.leb_le, existsb_exists in H.
    destruct H as ((U & V) & ([a b] & J & E)). rewrite andb_true_iff, !Nat.eqb_eq in E. destruct E as [-> ->]. auto. }
  split; (split; [intros; lia|]; split; [intros; lia|]; split; [apply A, B; vm_compute; reflexivity|]).
  - intros v H. do 7 (destruct v as [|v]; [vm_compute; discriminate|]). lia.
  - intros v H. do 7 (destruct v as [|v]; [vm_compute; discriminate|]). lia.
Qed.

Lemma bwts_sums : sums_exact half_even bwts /\ nonnegative bwts.
Proof. split; [apply small_sums; reflexivity|]. intros y I. simpl in I. lia. Qed.

(** Two triangles; the vertices 2 and 4 exchange their numbers. *)
Definition trows : pairs := [(2,3);(2,4);(3,4);(5,6);(5,7);(6,7)].
Definition twts : list Z := [0; 1; 1; 5; 1; 1; 1]%Z.
Definition twts' : list Z := [0; 5; 1; 1; 1; 1; 1]%Z.
Definition tswap (v : nat) : nat := match v with 2 => 4 | 4 => 2 | v => v end.
Definition tsample : pynw := match nw_from_edgelist half_even trows 7 twts with Ok (Ret p) => p | _ => new_pynw end.
Definition tsample' : pynw := match nw_from_edgelist half_even trows 7 twts' with Ok (Ret p) => p | _ => new_pynw end.

Lemma tsample_made : nmade half_even tsample 7 (adj_rows trows) twts.
Proof. apply nmade_edgelist; [unfold fits; vm_compute; reflexivity|]. vm_compute. reflexivity. Qed.

Lemma tsample'_made : nmade half_even tsample' 7 (adj_rows trows) twts'.
Proof. apply nmade_edgelist; [unfold fits; vm_compute; reflexivity|]. vm_compute. reflexivity. Qed.

Lemma tsample_live : nstorage_live tsample.
Proof. apply liveb_sound. vm_compute. reflexivity. Qed.

Lemma tsample'_live : nstorage_live tsample'.
Proof. apply liveb_sound. vm_compute. reflexivity. Qed.

Lemma tswap_grows w w' : (forall v, 1 <= v <= 7 -> (vweight w v <= vweight w' (tswap v))%Z) -> grows 7 7 (adj_rows trows) (adj_rows trows) w w' tswap.
Proof.
  intros H. split; [intros v V; do 8 (destruct v as [|v]; [cbn [tswap]; lia|]); lia|]. split; [|split; [|exact H]].
  - intros u v U V. do 8 (destruct u as [|u]; [do 8 (destruct v as [|v]; [cbn [tswap]; lia|]); lia|]); lia.
  - intros u v (N & [I|I]); cbn [trows In] in I; repeat (destruct I as [I|I]; [injection I as <- <-|]); try destruct I; (split; [discriminate|]); cbn; auto 10.
Qed.

Lemma twts_grows : grows 7 7 (adj_rows trows) (adj_rows trows) twts twts' tswap.
Proof. apply tswap_grows. intros v V. do 8 (destruct v as [|v]; [vm_compute; discriminate|]). lia. Qed.

Lemma twts'_grows : grows 7 7 (adj_rows trows) (adj_rows trows) twts' twts tswap.
Proof. apply tswap_grows. intros v V. do 8 (destruct v as [|v]; [vm_compute; discriminate|]). lia. Qed.

Lemma tsample_edge : has_edge (adj_rows trows).
Proof. exists 2, 3. split; [discriminate|]. left. left. reflexivity. Qed.
