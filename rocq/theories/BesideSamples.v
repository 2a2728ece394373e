(** BesideSamples: sample graphs side by side, for P_Beside. *)
From Verif Require Import Base MUtils MGraph MApi MNW MNWEnum MNWApi Spec SpecDec SpecNW SpecBeside SetFacts LoadFacts SpecRound NWRoundFacts NWProps SearchProps Samples ExtSamples NWSamples.
Local Open Scope nat_scope.

Definition moved (m : nat) (rows : list (nat * nat)) : list (nat * nat) := map (fun r => (m + fst r, m + snd r)) rows.

Lemma moved_in m rows u v : In (u, v) (moved m rows) <-> exists x y, u = m + x /\ v = m + y /\ In (x, y) rows.
Proof.
  unfold moved. rewrite in_map_iff. split.
  - intros ([x y] & E & I). injection E as <- <-. exists x, y. auto.
  - intros (x & y & -> & -> & I). exists (x, y). auto.
Qed.

Lemma moved_beside m rows1 rows2 : beside m (adj_rows rows1) (adj_rows rows2) (adj_rows (rows1 ++ moved m rows2)).
Proof.
  intros u v. unfold adj_rows. rewrite !in_app_iff, !moved_in. split.
  - intros (N & [[I|(x & y & E1 & E2 & I)]|[I|(x & y & E1 & E2 & I)]]); [left; auto|right; exists x, y|left; auto|right; exists y, x];
      (split; [exact E1 || exact E2|]; split; [exact E2 || exact E1|]; split; [intros X; apply N; congruence|]; auto).
  - intros [(N & [I|I])|(x & y & -> & -> & N & [I|I])]; (split; [auto; intros X; apply N; lia|]); [left; left; exact I|right; left; exact I|left|right]; right; eauto.
Qed.

Lemma moved_behind m rows : beside m (fun _ _ => False) (adj_rows rows) (adj_rows (moved m rows)).
Proof.
  intros u v. pose proof (moved_beside m [] rows u v) as H. cbn [app] in H. rewrite H. unfold adj_rows at 1. cbn [In]. tauto.
Qed.

(** [sample] next to itself, and behind one vertex *)
Definition twin_rows : list (nat * nat) := sample_rows ++ moved 8 sample_rows.
Definition twin : pygraph := graph_of twin_rows 16.
Definition behind : pygraph := graph_of (moved 1 sample_rows) 9.

Lemma twin_made : made twin (8 + 8) (adj_rows twin_rows).
Proof. apply made_of; [unfold fits; vm_compute; reflexivity|vm_compute; reflexivity]. Qed.

Lemma twin_live : storage_live twin.
Proof. apply liveb_sound. vm_compute. reflexivity. Qed.

Lemma behind_made : made behind (1 + 8) (adj_rows (moved 1 sample_rows)).
Proof. apply made_of; [unfold fits; vm_compute; reflexivity|vm_compute; reflexivity]. Qed.

Lemma behind_live : storage_live behind.
Proof. apply liveb_sound. vm_compute. reflexivity. Qed.

(** [wsample] next to itself *)
Definition wtwin : pynw := match nw_from_edgelist half_even (wrows ++ moved 6 wrows) 12 (wwts ++ wwts) with Ok (Ret p) => p | _ => new_pynw end.

Lemma wtwin_made : nmade half_even wtwin (6 + 6) (adj_rows (wrows ++ moved 6 wrows)) (wwts ++ wwts).
Proof. apply nmade_edgelist; [unfold fits; vm_compute; reflexivity|]. vm_compute. reflexivity. Qed.

Lemma wtwin_live : nstorage_live wtwin.
Proof. apply liveb_sound. vm_compute. reflexivity. Qed.

Lemma wtwin_weights : weights_beside 6 wwts wwts (wwts ++ wwts).
Proof.
  split; intros v H; [do 7 (destruct v as [|v]; [lia || reflexivity|]); lia|]. destruct v as [|v]; [lia|]. reflexivity.
Qed.

Lemma wtwin_sums : sums_exact half_even (wwts ++ wwts) /\ nonnegative (wwts ++ wwts).
Proof. split; [apply small_sums; reflexivity|]. intros y I. simpl in I. lia. Qed.

(** [wsample] behind a vertex of weight 7 *)
Definition wbehind : pynw := match nw_from_edgelist half_even (moved 1 wrows) 7 (7%Z :: wwts) with Ok (Ret p) => p | _ => new_pynw end.

Lemma wbehind_made : nmade half_even wbehind (1 + 6) (adj_rows (moved 1 wrows)) (7%Z :: wwts).
Proof. apply nmade_edgelist; [unfold fits; vm_compute; reflexivity|]. vm_compute. reflexivity. Qed.

Lemma wbehind_live : nstorage_live wbehind.
Proof. apply liveb_sound. vm_compute. reflexivity. Qed.

Lemma wbehind_weights v : 1 <= v -> vweight (7%Z :: wwts) (1 + v) = vweight wwts v.
Proof. intros H. destruct v as [|v]; [lia|]. reflexivity. Qed.

Lemma wbehind_sums : sums_exact half_even (7%Z :: wwts) /\ nonnegative (7%Z :: wwts).
Proof. split; [apply small_sums; reflexivity|]. intros y I. simpl in I. lia. Qed.

(** Three vertices joined to three others, next to a triangle: with the heuristic alone *)
Definition bip_rows : list (nat * nat) := [(1,4);(1,5);(1,6);(2,4);(2,5);(2,6);(3,4);(3,5);(3,6)].
Definition tri_rows : list (nat * nat) := [(1,2);(2,3);(1,3)].

Lemma heuristic_beside : exists rows1 n1 p1 rows2 n2 p2 rows p e c1 c2 c, beside n1 (adj_rows rows1) (adj_rows rows2) (adj_rows rows)
  /\ from_edgelist rows1 n1 = Ok (Ret p1) /\ from_edgelist rows2 n2 = Ok (Ret p2) /\ from_edgelist rows (n1 + n2) = Ok (Ret p)
  /\ storage_live p1 /\ storage_live p2 /\ storage_live p /\ sorts e /\ untimed e
  /\ answer (get_max_clique e p1 1 DEFAULT_UB true false false) = Ok (Ret c1)
  /\ answer (get_max_clique e p2 1 DEFAULT_UB true false false) = Ok (Ret c2)
  /\ answer (get_max_clique e p 1 DEFAULT_UB true false false) = Ok (Ret c)
  /\ length c < Nat.max (length c1) (length c2).
Proof.
  exists bip_rows, 6. eexists. exists tri_rows, 3. eexists. exists (bip_rows ++ moved 6 tri_rows). eexists. exists (run_env None). do 3 eexists.
  split; [apply moved_beside|].
  split; [vm_compute; reflexivity|]. split; [vm_compute; reflexivity|]. split; [vm_compute; reflexivity|].
  split; [apply liveb_sound; vm_compute; reflexivity|]. split; [apply liveb_sound; vm_compute; reflexivity|]. split; [apply liveb_sound; vm_compute; reflexivity|].
  split; [apply run_env_sorts|]. split; [reflexivity|].
  split; [vm_compute; reflexivity|]. split; [vm_compute; reflexivity|]. split; [vm_compute; reflexivity|]. cbn. lia.
Qed.
