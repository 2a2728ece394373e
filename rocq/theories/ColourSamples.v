(** ColourSamples: colours for the sample graphs, for P_Colour. *)
From Verif Require Import Base MUtils MGraph MApi MNW MNWEnum MNWApi Spec SpecDec SpecNW SpecColour SetFacts LoadFacts SpecRound NWRoundFacts NWProps SearchProps Samples ExtSamples NWSamples BesideSamples.
Local Open Scope nat_scope.

Lemma rows_coloured k n rows col : forallb (fun v => col v <? k) (seq 1 n) = true -> forallb (fun r => negb (col (fst r) =? col (snd r))) rows = true ->
  coloured k n (adj_rows rows) col.
Proof.
  intros A B. rewrite forallb_forall in A, B. split.
  - intros v V. apply Nat.ltb_lt, A, in_seq. lia.
  - intros u v [N I] E. destruct I as [I|I]; specialize (B _ I); cbn [fst snd] in B; rewrite E, Nat.eqb_refl in B; discriminate.
Qed.

Lemma rows_folded n n' rows rows' s : forallb (fun v => (1 <=? s v) && (s v <=? n')) (seq 1 n) = true ->
  forallb (fun r => negb (s (fst r) =? s (snd r)) && existsb (fun r' => (fst r' =? s (fst r)) && (snd r' =? s (snd r)) || (snd r' =? s (fst r)) && (fst r' =? s (snd r))) rows') rows = true ->
  folds n n' (adj_rows rows) (adj_rows rows') s.
Proof.
  intros A B. rewrite forallb_forall in A, B. split.
  - intros v V. specialize (A v). rewrite in_seq in A. specialize (A ltac:(lia)). apply andb_prop in A. destruct A as [A1 A2].
    apply Nat.leb_le in A1, A2. lia.
  - assert (K : forall u v, In (u, v) rows -> s u <> s v /\ (In (s u, s v) rows' \/ In (s v, s u) rows')).
    { intros u v I. specialize (B _ I). cbn [fst snd] in B. apply andb_prop in B. destruct B as [B1 B2]. split.
      - intros E. rewrite E, Nat.eqb_refl in B1. discriminate.
      - apply existsb_exists in B2. destruct B2 as ([x y] & J & E). cbn [fst snd] in E. apply orb_prop in E.
        destruct E as [E|E]; apply andb_prop in E; destruct E as [E1 E2]; apply Nat.eqb_eq in E1, E2; subst; auto. }
    intros u v [N [I|I]]; destruct (K _ _ I) as [K1 K2]; (split; [congruence|]); tauto.
Qed.

(** Four colours for [sample] and [wsample] *)
Definition tint (v : nat) : nat := match v with 2 | 6 => 1 | 3 | 7 => 2 | 4 => 3 | _ => 0 end.
Definition shade (i : nat) : Z := match i with 0 => 9 | 1 => 2 | _ => 1 end.

Lemma sample_coloured : coloured 4 8 (adj_rows sample_rows) tint.
Proof. apply rows_coloured; reflexivity. Qed.

Lemma wsample_coloured : coloured 4 6 (adj_rows wrows) tint.
Proof. apply rows_coloured; reflexivity. Qed.

Lemma wsample_shade : (forall v, 1 <= v <= 6 -> (vweight wwts v <= shade (tint v))%Z) /\ forall i, (0 <= shade i)%Z.
Proof.
  split.
  - intros v R. assert (C : v = 1 \/ v = 2 \/ v = 3 \/ v = 4 \/ v = 5 \/ v = 6) by lia.
    destruct C as [-> |[-> |[-> |[-> |[-> | ->]]]]]; cbn; lia.
  - intros [|[|i]]; cbn; lia.
Qed.

(** [sample] folded onto a graph of five vertices *)
Definition fold_rows : list (nat * nat) := [(1,2);(1,3);(1,4);(2,3);(2,4);(3,4);(3,5)].
Definition folded : pygraph := graph_of fold_rows 5.

Lemma folded_made : made folded 5 (adj_rows fold_rows).
Proof. apply made_of; [unfold fits; vm_compute; reflexivity|vm_compute; reflexivity]. Qed.

Lemma folded_live : storage_live folded.
Proof. apply liveb_sound. vm_compute. reflexivity. Qed.

Lemma sample_folds : folds 8 5 (adj_rows sample_rows) (adj_rows fold_rows) (fun v => S (tint v)).
Proof. apply rows_folded; reflexivity. Qed.
