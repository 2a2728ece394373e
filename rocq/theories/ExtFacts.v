(** ExtFacts: the correspondence graphs built from two sets. *)
From Verif Require Import Base BaseFacts MBits MUtils MGraph MApi MExt Spec FindFacts FindTwo RowFacts ConstructFacts LoadFacts ExportFacts LoadProps.
From Coq Require Import Sorting.Sorted Sorting.Permutation.
Local Open Scope nat_scope.
Local Arguments Nat.sub : simpl never.
Local Arguments Nat.mul : simpl never.
Local Arguments Nat.div : simpl never.

Lemma NoDup_app_intro {A} (l1 l2 : list A) : NoDup l1 -> NoDup l2 -> (forall x, In x l1 -> ~ In x l2) -> NoDup (l1 ++ l2).
Proof.
  induction l1 as [|x l1 IH]; intros H1 H2 H; auto. inversion H1; subst. cbn [app]. constructor.
  - rewrite in_app_iff. intros [I|I]; [auto|]. exact (H x (or_introl eq_refl) I).
  - apply IH; auto. intros y I. apply H. right. auto.
Qed.

(** ** Vertex numbers *)
Lemma vid_inj n2 i j i' j' : j < n2 -> j' < n2 -> vid n2 i j = vid n2 i' j' -> i = i' /\ j = j'.
Proof. unfold vid. intros H1 H2 E. assert (i = i') by nia. subst. split; auto. lia. Qed.

Lemma vid_range n1 n2 i j : i < n1 -> j < n2 -> 1 <= vid n2 i j <= n1 * n2.
Proof. unfold vid. intros. nia. Qed.

Lemma vid_decode n2 i j : j < n2 -> (vid n2 i j - 1) / n2 = i /\ (vid n2 i j - 1) mod n2 = j.
Proof.
  intros H. unfold vid. replace (i * n2 + j + 1 - 1) with (j + i * n2) by lia.
  rewrite Nat.div_add, Nat.mod_add, Nat.div_small, Nat.mod_small by lia. lia.
Qed.

Lemma vid_onto n1 n2 v : 1 <= v <= n1 * n2 -> exists i j, i < n1 /\ j < n2 /\ v = vid n2 i j.
Proof.
  intros H. destruct (Nat.eq_dec n2 0) as [->|N]; [lia|]. exists ((v - 1) / n2), ((v - 1) mod n2).
  pose proof (Nat.div_mod (v - 1) n2 N). pose proof (Nat.mod_upper_bound (v - 1) n2 N). unfold vid.
  split; [apply Nat.div_lt_upper_bound; lia|]. split; auto. lia.
Qed.

(** ** load_rows on any object *)
Lemma load_graph_any p n m cap edges :
  load_graph p n m cap edges =
  (q <- load_graph new_pygraph n m cap edges;; Ok (mkP (p_G q) (p_nvert q) (p_nedges q) (p_cur p) (p_done p))).
Proof. unfold load_graph. destruct (construct n cap edges); auto. Qed.

Lemma neighbors_same p q : p_G p = p_G q -> p_nvert p = p_nvert q -> forall u, vertex_neighbors p u = vertex_neighbors q u.
Proof. intros E1 E2 u. unfold vertex_neighbors. rewrite E1, E2. auto. Qed.

Lemma made_neighbour p n adj u v : made p n adj -> (neighbour p u v <-> adj u v).
Proof.
  intros M. unfold neighbour. destruct (Nat.le_gt_cases u n) as [Hu|Hu].
  - pose proof (made_neighbors p n adj u M Hu) as W. apply wp_iff in W. destruct W as (r & E & l & -> & S & I). split.
    + intros (l' & E' & I'). rewrite E in E'. injection E' as <-. apply I. auto.
    + intros A. exists l. split; auto. apply I. auto.
  - split.
    + intros (l & E & _). unfold vertex_neighbors in E. rewrite (made_nvert p n adj M) in E.
      destruct (Nat.ltb_spec n u); [discriminate|lia].
    + intros A. apply (made_simple p n adj M) in A. lia.
Qed.

Lemma load_rows_neighbour p n rows q : fits (n + 1 + 2 * length rows) -> rows_ok n rows -> load_rows p n rows = Ok q ->
  p_nvert q = n /\ p_nedges q = length rows /\ (p = new_pygraph -> made q n (adj_rows rows))
  /\ forall u v, neighbour q u v <-> adj_rows rows u v.
Proof.
  intros HF HR E. unfold load_rows in E. rewrite load_graph_any in E. fold (load_rows new_pygraph n rows) in E.
  apply bind_ok in E. destruct E as (q0 & E0 & E). injection E as <-.
  pose proof (made_rows rows n q0 HF HR E0) as M. split; [apply (made_nvert q0 n _ M)|]. split; [|split].
  - unfold load_rows in E0. apply load_graph_ok in E0. destruct E0 as (g & _ & ->). reflexivity.
  - intros ->. replace (mkP _ _ _ _ _) with q0; auto.
    unfold load_rows in E0. apply load_graph_ok in E0. destruct E0 as (g & _ & ->). reflexivity.
  - intros u v. rewrite <- (made_neighbour q0 n _ u v M). unfold neighbour.
    rewrite (neighbors_same _ q0); [tauto|reflexivity|reflexivity].
Qed.

Lemma load_rows_counts p n rows q : load_rows p n rows = Ok q -> p_nvert q = n /\ p_nedges q = length rows.
Proof. intros E. unfold load_rows in E. apply load_graph_ok in E. destruct E as (g & _ & ->). auto. Qed.

Lemma load_rows_total p n rows : fits (n + 1 + 2 * length rows) -> rows_ok n rows -> exists q, load_rows p n rows = Ok q.
Proof.
  intros HF HR. destruct (load_rows_spec rows n HF HR) as (a & _ & W). apply wp_iff in W. destruct W as (q & E & _).
  unfold load_rows in *. rewrite load_graph_any, E. cbn [bind]. eauto.
Qed.

(** ** Rows between matches of different elements *)
Definition proper (n1 n2 : nat) (rows : pairs) : Prop :=
  forall u v, In (u, v) rows -> exists i i' j j', i < n1 /\ i' < n1 /\ j < n2 /\ j' < n2 /\ i <> i' /\ j <> j'
    /\ u = vid n2 i j /\ v = vid n2 i' j'.

Lemma proper_ok n1 n2 rows : proper n1 n2 rows -> rows_ok (n1 * n2) rows.
Proof.
  intros H u v I. destruct (H u v I) as (i & i' & j & j' & H1 & H2 & H3 & H4 & _ & _ & -> & ->).
  pose proof (vid_range n1 n2 i j H1 H3). pose proof (vid_range n1 n2 i' j' H2 H4). lia.
Qed.

Lemma proper_adj n1 n2 rows i i' j j' : proper n1 n2 rows -> j < n2 -> j' < n2 ->
  adj_rows rows (vid n2 i j) (vid n2 i' j') -> i <> i' /\ j <> j' /\ i < n1 /\ i' < n1.
Proof.
  intros H J J' [N [I|I]]; destruct (H _ _ I) as (a & a' & b & b' & A1 & A2 & B1 & B2 & N1 & N2 & E1 & E2);
    apply vid_inj in E1; auto; apply vid_inj in E2; auto; destruct E1, E2; subst; repeat split; auto.
Qed.

(** ** The metric builders *)
Lemma dist_len_pos sym n : 0 < dist_len sym n <-> 2 <= n.
Proof.
  unfold dist_len. destruct sym.
  - split.
    + intros H. destruct n as [|[|n]]; [vm_compute in H; lia|vm_compute in H; lia|lia].
    + intros H. apply Nat.div_str_pos. nia.
  - nia.
Qed.

Lemma dist_len_le sym n : dist_len sym n <= n * n.
Proof. unfold dist_len. destruct sym; [|nia]. apply Nat.div_le_upper_bound; nia. Qed.

Lemma sorted_ascending l : StronglySorted (fun x y => d_dist x <= d_dist y)%Z l -> ascending l.
Proof.
  intros H i j. revert i j. induction H as [|x l H IH F]; intros i j Hij; [simpl in Hij; lia|].
  destruct i as [|i], j as [|j]; cbn [length] in Hij; cbn [nth]; try lia.
  - rewrite Forall_forall in F. apply F. apply nth_In. lia.
  - apply IH. lia.
Qed.

Lemma metric_as_both_r rnd srt p S1 S2 eps :
  build_edges_metric_only_r rnd srt p S1 S2 eps = build_edges_r rnd srt p S1 S2 eps (fun _ _ _ _ => true).
Proof. reflexivity. Qed.

Lemma metric_as_both srt p S1 S2 eps :
  build_edges_metric_only srt p S1 S2 eps = build_edges srt p S1 S2 eps (fun _ _ _ _ => true).
Proof. reflexivity. Qed.

Section Build.
  Variable srt : list pdist -> list pdist.
  Variables S1 S2 : mset.
  Variable eps : Z.
  Variable cf : nat -> nat -> nat -> nat -> bool.
  Hypothesis Hsrt : sorts_dists srt.
  Variable rnd : Z -> Z.
  Hypothesis Hr : rises rnd.
  Hypothesis HF2 : table_fits S2.
  Definition lower (a : Z) : Z := rnd (a - eps)%Z.
  Definition upper (a : Z) : Z := rnd (lower a + 2 * eps)%Z.
  Let n1 := m_n S1.
  Let n2 := m_n S2.
  Let basym := negb (m_sym S1) && negb (m_sym S2).
  Let t1 := srt (entries (m_sym S1) n1 (m_d S1)).
  Let t2 := srt (entries (m_sym S2) n2 (m_d S2)).
  Let r1 := mkR n1 (m_sym S1) t1.
  Let r2 := mkR n2 (m_sym S2) t2.

  Lemma t1_len : length t1 = dist_len (m_sym S1) n1.
  Proof. unfold t1. rewrite (Permutation_length (proj1 (Hsrt _))). apply entries_len. Qed.
  Lemma t2_len : length t2 = dist_len (m_sym S2) n2.
  Proof. unfold t2. rewrite (Permutation_length (proj1 (Hsrt _))). apply entries_len. Qed.
  Lemma t1_in x : In x t1 <-> tabled (m_sym S1) n1 (d_fst x) (d_snd x) /\ d_dist x = m_d S1 (d_fst x) (d_snd x).
  Proof.
    rewrite <- entries_in. unfold t1. split; intros I.
    - eapply Permutation_in; [apply (Hsrt _)|exact I].
    - eapply Permutation_in; [apply Permutation_sym; apply (Hsrt _)|exact I].
  Qed.
  Lemma t2_in x : In x t2 <-> tabled (m_sym S2) n2 (d_fst x) (d_snd x) /\ d_dist x = m_d S2 (d_fst x) (d_snd x).
  Proof.
    rewrite <- entries_in. unfold t2. split; intros I.
    - eapply Permutation_in; [apply (Hsrt _)|exact I].
    - eapply Permutation_in; [apply Permutation_sym; apply (Hsrt _)|exact I].
  Qed.

  (** The entry binary_find2 stops at when looking for [v]. *)
  Definition stop_at (v : Z) : pdist := nth (position t2 v) t2 z0.

  (** Distances near the interval around [a], as the loop sees them. *)
  Definition close (a : Z) (j j' : nat) : Prop :=
    tabled (m_sym S2) n2 j j' /\
    ((lower a <= m_d S2 j j' <= upper a)%Z
     \/ ((m_d S2 j j' < lower a /\ forall k l, tabled (m_sym S2) n2 k l -> m_d S2 k l <= m_d S2 j j' \/ lower a < m_d S2 k l)%Z
         /\ j = d_fst (stop_at (lower a)) /\ j' = d_snd (stop_at (lower a)))
     \/ ((upper a < m_d S2 j j' /\ forall k l, tabled (m_sym S2) n2 k l -> m_d S2 j j' <= m_d S2 k l \/ m_d S2 k l < upper a)%Z
         /\ j = d_fst (stop_at (upper a)) /\ j' = d_snd (stop_at (upper a)))).

  Definition unique_dist (j j' : nat) : Prop := forall k l, tabled (m_sym S2) n2 k l ->
    m_d S2 k l = m_d S2 j j' -> k = j /\ l = j'.

  Definition agree (a : Z) (j j' : nat) : Prop :=
    tabled (m_sym S2) n2 j j' /\
    ((lower a < m_d S2 j j' < upper a)%Z \/ ((lower a <= m_d S2 j j' <= upper a)%Z /\ unique_dist j j')).

  Lemma nearby_close x y : In y t2 -> nearby lower upper t2 x y -> close (d_dist x) (d_fst y) (d_snd y).
  Proof.
    intros I H. apply t2_in in I. destruct I as (T & E). split; auto. unfold nearby in H. rewrite E in H.
    assert (Q : forall k l, tabled (m_sym S2) n2 k l -> In (mkPD k l (m_d S2 k l)) t2) by (intros k l K; apply t2_in; auto).
    destruct H as [H|[((H1 & H2) & H3)|((H1 & H2) & H3)]]; auto; right; [left|right];
      (split; [split; auto; intros k l K; apply (H2 _ (Q k l K))|unfold stop_at; rewrite <- H3; auto]).
  Qed.

  Lemma t2_nodup : NoDup t2.
  Proof.
    apply (Permutation_NoDup (l := entries (m_sym S2) n2 (m_d S2))); [apply Permutation_sym; apply (Hsrt _)|].
    unfold entries. assert (G : forall l, NoDup l -> NoDup (flat_map (fun i => map (fun j => mkPD i j (m_d S2 i j)) (row_ids (m_sym S2) n2 i)) l)).
    { induction l as [|i l IH]; intros N; cbn [flat_map]; [constructor|]. inversion N; subst.
      apply NoDup_app_intro; auto.
      - apply FinFun.Injective_map_NoDup; [intros x y E; congruence|]. unfold row_ids. apply NoDup_filter, seq_NoDup.
      - intros x I J. apply in_map_iff in I. destruct I as (j & <- & _). apply in_flat_map in J.
        destruct J as (k & K & J). apply in_map_iff in J. destruct J as (j' & E & _). injection E as -> _ _. auto. }
    apply G, seq_NoDup.
  Qed.

  Lemma agree_kept x y : In y t2 -> agree (d_dist x) (d_fst y) (d_snd y) -> kept lower upper t2 x y.
  Proof.
    intros I0 (_ & H). pose proof I0 as I. apply t2_in in I. destruct I as (T & E). unfold kept. rewrite E.
    destruct H as [H|[H U]]; auto. right. split; auto. rewrite <- E. apply once_entry; auto; [apply t2_nodup|].
    intros z J D. apply t2_in in J. destruct J as (T' & E'). destruct (U _ _ T') as (A & B); [congruence|].
    destruct y, z; cbn in *. subst. congruence.
  Qed.

  Definition rows_spec (rows : pairs) : Prop :=
    length rows <= 2 * (n1 * n1 * (n2 * n2))
    /\ (forall u v, In (u, v) rows -> exists i i' j j', tabled (m_sym S1) n1 i i' /\ close (m_d S1 i i') j j'
          /\ ((u = vid n2 i j /\ v = vid n2 i' j' /\ cf i i' j j' = true)
              \/ (basym = false /\ u = vid n2 i' j /\ v = vid n2 i j' /\ cf i i' j' j = true)))
    /\ (forall i i' j j', tabled (m_sym S1) n1 i i' -> agree (m_d S1 i i') j j' ->
          (cf i i' j j' = true -> In (vid n2 i j, vid n2 i' j') rows)
          /\ (basym = false -> cf i i' j' j = true -> In (vid n2 i' j, vid n2 i j') rows)).

  Lemma turn_len x y : length (efr_turn cf basym n2 x y) <= 2.
  Proof. unfold efr_turn. rewrite app_length. destruct (cf (d_fst x) (d_snd x) (d_fst y) (d_snd y)), basym, (cf (d_fst x) (d_snd x) (d_snd y) (d_fst y)); cbn [length]; lia. Qed.

  Lemma relset_rows_spec : 0 < n1 -> 0 < n2 -> (n1 = 1 \/ 2 <= n2) ->
    wp (efr_condition_r rnd r1 r2 eps cf) (fun r => exists rows, r = Ret rows /\ rows_spec rows).
  Proof.
    intros P1 P2 HN. unfold efr_condition_r, relset_rows. unfold r1 at 1, r2 at 1. cbn [rs_n].
    destruct (Nat.eqb_spec n1 0); [lia|]. destruct (Nat.eqb_spec n2 0); [lia|]. cbn [orb]. cbv zeta.
    unfold r1, r2. cbn [rs_n rs_sym rs_dists]. fold basym. rewrite <- t1_len, <- t2_len. apply wp_bind.
    destruct (Nat.le_gt_cases 2 n2) as [L2|L2].
    - pose proof (efr_loop_spec (efr_turn cf basym n2) t1 t2 eps rnd Hr (sorted_ascending _ (proj2 (Hsrt _))) (sorted_ascending _ (proj2 (Hsrt _)))) as W.
      specialize (W ltac:(rewrite t2_len; apply dist_len_pos; auto) turn_len).
      specialize (W ltac:(rewrite t2_len; pose proof (dist_len_le (m_sym S2) n2); unfold table_fits, fits in HF2; fold n2 in HF2; lia)).
      specialize (W 0 0%Z (Z.of_nat (length t2)) (Nat.le_0_l _)). rewrite Nat.sub_0_r in W.
      eapply wp_mono; [exact W|]. intros rows (R0 & R1 & R2). apply wp_ok. exists rows. split; auto. split; [|split].
      + pose proof (dist_len_le (m_sym S1) n1) as D1. pose proof (dist_len_le (m_sym S2) n2) as D2.
        rewrite t1_len, t2_len in R0. pose proof (Nat.mul_le_mono _ _ _ _ D1 D2). lia.
      + intros u v I. destruct (R1 _ I) as (x & y & X & Y & N & T).
        pose proof (nearby_close x y Y N) as C. apply t1_in in X. destruct X as (X1 & X2). rewrite X2 in C.
        exists (d_fst x), (d_snd x), (d_fst y), (d_snd y). split; auto. split; auto.
        unfold efr_turn in T. apply in_app_iff in T. destruct T as [T|T].
        * destruct (cf _ _ _ _) eqn:Ec; [|destruct T]. destruct T as [T|[]]. injection T as <- <-. left. auto.
        * destruct basym; [destruct T|]. destruct (cf _ _ _ _) eqn:Ec; [|destruct T]. destruct T as [T|[]]. injection T as <- <-. right. auto.
      + intros i i' j j' T A. set (x := mkPD i i' (m_d S1 i i')). set (y := mkPD j j' (m_d S2 j j')).
        assert (X : In x t1) by (apply t1_in; auto). assert (Y : In y t2) by (apply t2_in; split; auto; apply A).
        assert (K : kept lower upper t2 x y) by (apply agree_kept; auto).
        destruct (In_nth t1 x z0 X) as (k & K1 & K2).
        assert (R : forall r, In r (efr_turn cf basym n2 x y) -> In r rows).
        { intros r I. apply (R2 k y r); auto; [lia| |]; rewrite K2; auto. }
        split.
        * intros C. apply R. unfold efr_turn, x, y. cbn [d_fst d_snd]. rewrite C. left. reflexivity.
        * intros B C. apply R. unfold efr_turn, x, y. cbn [d_fst d_snd]. rewrite B, C. apply in_app_iff. right. left. reflexivity.
    - assert (n1 = 1) by lia. assert (E1 : length t1 = 0).
      { rewrite t1_len. pose proof (dist_len_pos (m_sym S1) n1). lia. }
      rewrite E1. cbn [seq efr_loop]. apply wp_ok. apply wp_ok. exists []. split; auto. split; [simpl; lia|]. split; [intros u v []|].
      intros i i' j j' T. unfold tabled in T. lia.
  Qed.

  Lemma relset_rows_oob : 2 <= n1 -> n2 = 1 -> efr_condition_r rnd r1 r2 eps cf = UB OobRead.
  Proof.
    intros P1 P2. unfold efr_condition_r, relset_rows. unfold r1 at 1, r2 at 1. cbn [rs_n].
    destruct (Nat.eqb_spec n1 0); [lia|]. destruct (Nat.eqb_spec n2 0); [lia|]. cbn [orb]. cbv zeta.
    unfold r1, r2. cbn [rs_n rs_sym rs_dists]. rewrite <- t1_len, <- t2_len.
    assert (L1 : 0 < length t1) by (rewrite t1_len; apply dist_len_pos; auto).
    assert (L2 : length t2 = 0) by (rewrite t2_len; pose proof (dist_len_pos (m_sym S2) n2); lia).
    destruct t1 as [|x t1']; [simpl in L1; lia|]. destruct t2; [|discriminate]. reflexivity.
  Qed.

  Lemma rows_proper rows : rows_spec rows -> proper n1 n2 rows.
  Proof.
    intros (_ & R & _) u v I. destruct (R u v I) as (i & i' & j & j' & (T1 & T2 & T3 & _) & ((U1 & U2 & U3 & _) & _) & H).
    destruct H as [(-> & -> & _)|(_ & -> & -> & _)].
    - exists i, i', j, j'. auto 10.
    - exists i', i, j, j'. auto 10.
  Qed.

  Lemma build_empty p : n1 = 0 \/ n2 = 0 -> build_edges_r rnd srt p S1 S2 eps cf = Ok (Raise EEmptySet).
  Proof.
    intros H. unfold build_edges_r. rewrite !fill_dists_eq. cbn [bind]. unfold efr_condition_r, relset_rows. cbn [rs_n]. fold n1 n2.
    destruct (Nat.eqb_spec n1 0); [reflexivity|]. destruct (Nat.eqb_spec n2 0); [reflexivity|]. lia.
  Qed.

  Lemma build_one p : 2 <= n1 -> n2 = 1 -> build_edges_r rnd srt p S1 S2 eps cf = UB OobRead.
  Proof.
    intros H1 H2. unfold build_edges_r. rewrite !fill_dists_eq. cbn [bind]. fold n1 n2 t1 t2 r1 r2. rewrite relset_rows_oob; auto.
  Qed.

  Lemma build_ok p q : build_edges_r rnd srt p S1 S2 eps cf = Ok (Ret q) -> edges_fit q ->
    exists rows, rows_spec rows /\ load_rows p (n1 * n2) rows = Ok q /\ p_nvert q = n1 * n2 /\ p_nedges q = length rows
      /\ 0 < n1 /\ 0 < n2 /\ (p = new_pygraph -> made q (n1 * n2) (adj_rows rows)) /\ forall u v, neighbour q u v <-> adj_rows rows u v.
  Proof.
    intros E HF. destruct (Nat.eq_dec n1 0) as [Z1|P1]; [rewrite (build_empty p) in E by auto; discriminate|].
    destruct (Nat.eq_dec n2 0) as [Z2|P2]; [rewrite (build_empty p) in E by auto; discriminate|].
    assert (HN : n1 = 1 \/ 2 <= n2).
    { destruct (Nat.eq_dec n2 1) as [O|O]; [|lia]. destruct (Nat.eq_dec n1 1); auto. rewrite (build_one p) in E by lia. discriminate. }
    unfold build_edges_r in E. rewrite !fill_dists_eq in E. cbn [bind] in E. fold n1 n2 t1 t2 r1 r2 in E.
    pose proof (relset_rows_spec ltac:(lia) ltac:(lia) HN) as W. apply wp_iff in W. destruct W as (r & E1 & rows & -> & R).
    rewrite E1 in E. cbn [bind] in E. apply bind_ok in E. destruct E as (q' & E2 & E3). injection E3 as ->.
    exists rows. split; auto. split; auto. destruct (load_rows_counts _ _ _ _ E2) as (C1 & C2).
    unfold edges_fit in HF. rewrite C1, C2 in HF.
    destruct (load_rows_neighbour p (n1 * n2) rows q HF (proper_ok _ _ _ (rows_proper rows R)) E2) as (A & B & C & D).
    split; [auto|]. split; [auto|]. split; [lia|]. split; [lia|]. split; [exact C|exact D].
  Qed.

  Lemma build_total p : 0 < n1 -> 0 < n2 -> (n1 = 1 \/ 2 <= n2) -> fits (n1 * n2 + 1 + 4 * (n1 * n1 * (n2 * n2))) ->
    exists q, build_edges_r rnd srt p S1 S2 eps cf = Ok (Ret q) /\ edges_fit q.
  Proof.
    intros P1 P2 HN HF. unfold build_edges_r. rewrite !fill_dists_eq. cbn [bind]. fold n1 n2 t1 t2 r1 r2.
    pose proof (relset_rows_spec P1 P2 HN) as W. apply wp_iff in W. destruct W as (r & E1 & rows & -> & R).
    rewrite E1. cbn [bind]. assert (HF' : fits (n1 * n2 + 1 + 2 * length rows)).
    { unfold fits in *. destruct R as (R & _). lia. }
    destruct (load_rows_total p (n1 * n2) rows HF' (proper_ok _ _ _ (rows_proper rows R))) as (q & E).
    rewrite E. cbn [bind]. exists q. split; auto. unfold edges_fit.
    destruct (load_rows_counts _ _ _ _ E) as (-> & ->). auto.
  Qed.

  (** Adjacent matches: which call of the condition accepted them, and which distances were compared. *)
  Lemma build_sound p q i i' j j' : build_edges_r rnd srt p S1 S2 eps cf = Ok (Ret q) -> edges_fit q -> j < n2 -> j' < n2 ->
    neighbour q (vid n2 i j) (vid n2 i' j') ->
    i <> i' /\ j <> j' /\ i < n1 /\ i' < n1 /\ exists a a' b b',
      ((a = i /\ a' = i' /\ b = j /\ b' = j') \/ (a = i' /\ a' = i /\ b = j' /\ b' = j))
      /\ tabled (m_sym S1) n1 a a' /\ cf a a' b b' = true
      /\ (close (m_d S1 a a') b b' \/ (basym = false /\ close (m_d S1 a a') b' b)).
  Proof.
    intros E HF J J' N. destruct (build_ok p q E HF) as (rows & R & _ & _ & _ & _ & _ & _ & NB). apply NB in N.
    destruct (proper_adj n1 n2 rows i i' j j' (rows_proper rows R) J J' N) as (D1 & D2 & D3 & D4). repeat split; auto.
    destruct R as (_ & R & _). destruct N as (_ & [I|I]); destruct (R _ _ I) as (x & x' & y & y' & T & C & H);
      pose proof C as ((Y1 & Y2 & Y3 & _) & _); destruct H as [(A & B & F)|(BA & A & B & F)];
      apply vid_inj in A; auto; apply vid_inj in B; auto; destruct A, B; subst.
    - exists x, x', y, y'. auto 10.
    - exists x, x', y', y. auto 10.
    - exists x, x', y, y'. auto 10.
    - exists x, x', y', y. auto 10.
  Qed.

  Lemma neighbour_sym p q u v : build_edges_r rnd srt p S1 S2 eps cf = Ok (Ret q) -> edges_fit q -> neighbour q u v -> neighbour q v u.
  Proof.
    intros E HF N. destruct (build_ok p q E HF) as (rows & _ & _ & _ & _ & _ & _ & _ & NB). apply NB in N. apply NB.
    destruct N as (N & I). split; auto. tauto.
  Qed.

  (** Matches whose distances agree and which the condition accepts are adjacent. *)
  Lemma build_complete p q i i' j j' : build_edges_r rnd srt p S1 S2 eps cf = Ok (Ret q) -> edges_fit q ->
    two S1 i i' -> two S2 j j' -> honest S1 -> honest S2 ->
    (m_sym S1 = false \/ i < i' -> cf i i' j j' = true) -> (m_sym S1 = true /\ i' < i -> cf i' i j' j = true) ->
    (lower (m_d S1 i i') < m_d S2 j j' < upper (m_d S1 i i') \/ (lower (m_d S1 i i') <= m_d S2 j j' <= upper (m_d S1 i i') /\ only S2 j j'))%Z ->
    neighbour q (vid n2 i j) (vid n2 i' j').
  Proof.
    intros E HF (I1 & I2 & I3) (J1 & J2 & J3) HO1 HO2 C C' D. destruct (build_ok p q E HF) as (rows & (_ & _ & R) & _ & _ & _ & _ & _ & _ & NB).
    fold n1 in I1, I2. fold n2 in J1, J2. apply NB. split.
    { intros X. apply vid_inj in X; auto. lia. }
    assert (A : forall a, a = m_d S1 i i' ->
              (tabled (m_sym S2) n2 j j' -> agree a j j') /\ (tabled (m_sym S2) n2 j' j -> m_sym S2 = true -> agree a j' j)).
    { intros a Ea. split.
      - intros T. split; auto. rewrite Ea. destruct D as [D|[D U]]; auto. right. split; auto.
        intros k l (K1 & K2 & K3 & K4) Ed. destruct (U k l) as [?|(Sy & -> & ->)]; auto; [repeat split; auto|].
        destruct T as (_ & _ & _ & T). specialize (T Sy). specialize (K4 Sy). lia.
      - intros T Sy. split; auto. rewrite (HO2 Sy j' j), Ea. destruct D as [D|[D U]]; auto. right. split; auto.
        intros k l (K1 & K2 & K3 & K4) Ed. rewrite (HO2 Sy j' j) in Ed. destruct (U k l) as [(-> & ->)|(_ & -> & ->)]; auto; [repeat split; auto|].
        destruct T as (_ & _ & _ & T). specialize (T Sy). specialize (K4 Sy). lia. }
    assert (T2 : tabled (m_sym S2) n2 j j' \/ (m_sym S2 = true /\ tabled (m_sym S2) n2 j' j)).
    { destruct (m_sym S2) eqn:Sy; [destruct (Nat.lt_ge_cases j j')|]; [left|right|left]; repeat split; auto; try lia; congruence. }
    assert (T1 : (tabled (m_sym S1) n1 i i' /\ (m_sym S1 = false \/ i < i')) \/ (m_sym S1 = true /\ tabled (m_sym S1) n1 i' i /\ i' < i)).
    { destruct (m_sym S1) eqn:Sy; [destruct (Nat.lt_ge_cases i i')|]; [left|right|left]; repeat split; auto; try lia; congruence. }
    assert (BA : m_sym S1 = true \/ m_sym S2 = true -> basym = false)
      by (intros [X|X]; unfold basym; rewrite X; [reflexivity|apply andb_false_r]).
    destruct T1 as [(T1 & O)|(Sy1 & T1 & O)].
    - destruct (A (m_d S1 i i') eq_refl) as (A1 & A2). destruct T2 as [T2|(Sy & T2)].
      + left. apply (R i i' j j' T1); auto.
      + right. apply (R i i' j' j T1); auto.
    - destruct (A (m_d S1 i' i)) as (A1 & A2); [rewrite (HO1 Sy1 i' i); auto|]. destruct T2 as [T2|(Sy & T2)].
      + left. apply (R i' i j j' T1); auto.
      + right. apply (R i' i j' j T1); auto.
  Qed.
End Build.
