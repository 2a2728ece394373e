(** ScriptSamples: the sample graphs given as a matrix, and sample programs. *)
From Verif Require Import Base MUtils MGraph MEnum MApi MExt MNW MNWEnum MNWApi Spec SpecDec SpecNW SpecScript BaseFacts LoadFacts SpecRound Samples NWFacts NWSamples.
Local Open Scope nat_scope.

Definition cells (rows : list (nat * nat)) (i j : nat) : bool :=
  existsb (fun '(a, b) => ((a =? i + 1) && (b =? j + 1)) || ((a =? j + 1) && (b =? i + 1))) rows.

Lemma cells_adj n rows : rows_ok n rows -> forall u v, adj_rows rows u v <-> adj_matrix n (cells rows) u v.
Proof.
  assert (X : forall u v, 1 <= u -> 1 <= v -> cells rows (u - 1) (v - 1) = true <-> In (u, v) rows \/ In (v, u) rows).
  { intros u v U V. unfold cells. rewrite existsb_exists. split.
    - intros ([a b] & I & E). apply orb_true_iff in E. rewrite !andb_true_iff, !Nat.eqb_eq in E. destruct E as [[E1 E2]|[E1 E2]].
      + left. replace u with a by lia. replace v with b by lia. auto.
      + right. replace v with a by lia. replace u with b by lia. auto.
    - intros [I|I]; [exists (u, v)|exists (v, u)]; (split; [auto|]); apply orb_true_iff; rewrite !andb_true_iff, !Nat.eqb_eq; lia. }
  intros OK u v. split.
  - intros (N & I). assert (1 <= u <= n /\ 1 <= v <= n) as [U V] by (destruct I as [I|I]; apply OK in I; tauto).
    split; auto. split; auto. split; auto. left. apply X; try lia. auto.
  - intros (N & U & V & I). split; auto. destruct I as [I|I]; apply X in I; try lia; tauto.
Qed.

Lemma small_rows n rows : forallb (fun '(a, b) => (1 <=? a) && (a <=? n) && (1 <=? b) && (b <=? n)) rows = true -> rows_ok n rows.
Proof.
  intros H u v I. rewrite forallb_forall in H. apply H in I. rewrite !andb_true_iff, !Nat.leb_le in I. lia.
Qed.

Definition msample : pygraph := match from_matrix 8 8 (cells (rev sample_rows)) with Ok (Ret p) => p | _ => new_pygraph end.
Definition wmsample : pynw := match nw_from_matrix half_even 6 6 (cells wrows) wwts with Ok (Ret p) => p | _ => new_pynw end.

(** A heuristic search, a full one, two loops over the cliques of size 3, one of them not finished, and a look at search_done. *)
Definition gprogram : list gcall :=
  [CIterate 3; CGet (run_env None) 1 DEFAULT_UB true false false; CNext true 0; CIterate 2; CGet (run_env None) 1 DEFAULT_UB false true false;
   CDone; CRepr; CNextPairs true 2 0; CReset; CNeighbors 4; CNext true 7].
Definition nprogram : list ncall :=
  [NIterate nw_env 3; NNext true 0; NGet nw_env 0 100 true true; NDone; NGet nw_env 0 100 true false; NWeight [4; 5; 6]; NWeights; NNextPairs true 2 0].

Lemma msample_made : made msample 8 (adj_matrix 8 (cells (rev sample_rows))) /\ (forall u v, adj_rows sample_rows u v <-> adj_matrix 8 (cells (rev sample_rows)) u v).
Proof.
  split; [apply made_matrix; [unfold fits; vm_compute; reflexivity|vm_compute; reflexivity]|].
  intros u v. rewrite <- (cells_adj 8 (rev sample_rows)) by (apply small_rows; reflexivity). unfold adj_rows. rewrite <- !in_rev. tauto.
Qed.

Lemma wmsample_made : nmade half_even wmsample 6 (adj_matrix 6 (cells wrows)) wwts /\ (forall u v, adj_rows wrows u v <-> adj_matrix 6 (cells wrows) u v).
Proof.
  split; [apply nmade_matrix; [unfold fits; vm_compute; reflexivity|vm_compute; reflexivity]|].
  apply cells_adj. apply small_rows. reflexivity.
Qed.

Lemma msample_live : storage_live sample /\ storage_live msample.
Proof. split; (eexists; split; [reflexivity|vm_compute; reflexivity]). Qed.

Lemma wmsample_live : nstorage_live wsample /\ nstorage_live wmsample.
Proof. split; (eexists; split; [reflexivity|vm_compute; reflexivity]). Qed.
