(** FileCount: writing and reading a file for any n_edges (C08). *)
From Verif Require Import Base MBits MUtils MGraph MHeur MEnum MApi MExt MFile Spec SpecFile SpecBits BaseFacts SetFacts SortFacts RowFacts ConstructFacts FileFacts LoadFacts ExportFacts LoadProps FileProps FileAny FileShort.
From Coq Require Import Sorting.Sorted.
Local Open Scope nat_scope.
Local Arguments Nat.mul : simpl never.

Definition written (calls : list (nat * nat)) : list nat := flat_map (fun '(i, j) => decimal i ++ [32] ++ decimal j ++ [10]) calls.

Definition small (calls : list (nat * nat)) : Prop := forall u v, In (u, v) calls -> (Z.of_nat u < 2 ^ 64)%Z /\ (Z.of_nat v < 2 ^ 64)%Z.

Lemma written_cons pre u v calls : pre ++ written ((u, v) :: calls) = pre ++ decimal u ++ [32] ++ decimal v ++ [] ++ newline :: written calls.
Proof. unfold written. cbn [flat_map]. simpl. rewrite <- !app_assoc. simpl. rewrite <- !app_assoc. reflexivity. Qed.

Lemma small_tail x calls : small (x :: calls) -> small calls.
Proof. intros H u v I. apply H. right. exact I. Qed.

Lemma written_first k calls pre : small calls -> Forall blank pre -> edge_lines (firstn k calls) (pre ++ written calls).
Proof.
  revert k pre. induction calls as [|[u v] calls IH]; intros k pre H FB; [rewrite firstn_nil; constructor|].
  destruct k as [|k]; [constructor|]. cbn [firstn]. rewrite written_cons. destruct (H u v ltac:(left; auto)) as [H1 H2].
  apply el_line; auto using decimal_numeral, trailer_nil, gap_space. apply (IH k [] (small_tail _ _ H)). constructor.
Qed.

Lemma written_only calls pre : small calls -> Forall blank pre -> only_lines calls (pre ++ written calls).
Proof.
  revert pre. induction calls as [|[u v] calls IH]; intros pre H FB; [unfold written; cbn [flat_map]; rewrite app_nil_r; constructor; exact FB|].
  rewrite written_cons. destruct (H u v ltac:(left; auto)) as [H1 H2].
  apply ol_line; auto using decimal_numeral, trailer_nil, gap_space. apply (IH [] (small_tail _ _ H)). constructor.
Qed.

Lemma written_header n m calls : (Z.of_nat n < 2 ^ 64)%Z -> (Z.of_nat m < 2 ^ 64)%Z ->
  header (banner ++ decimal n ++ [32] ++ decimal n ++ [32] ++ decimal m ++ [10] ++ written calls) n m ([10] ++ written calls).
Proof.
  intros Hn Hm. exists [banner], [], (decimal n), [32], (decimal n), [32], (decimal m), n.
  split; [cbn [concat app]; rewrite app_nil_r; reflexivity|].
  split; [constructor; [apply banner_comment|constructor]|]. split; [constructor|].
  split; [apply decimal_numeral; auto|]. split; [apply gap_space|]. split; [apply decimal_numeral; auto|]. split; [apply gap_space|].
  split; [apply decimal_numeral; auto|]. simpl; unfold digit_char; lia.
Qed.

Lemma newline_fields : ~ two_fields [10].
Proof.
  intros (pre & sign & s & k & rest & E & _ & _ & (NE & FD & _) & _). destruct s as [|c s]; [congruence|]. inversion FD as [|? ? D _]; subst.
  assert (I : In c [10]) by (rewrite E, !in_app_iff; right; right; left; left; reflexivity). destruct I as [<-|[]]. unfold digit_char in D. lia.
Qed.

Lemma round_trip_any p n adj : made p n adj -> 1 <= n -> allocatable (n + 1 + 2 * p_nedges p) ->
  exists l text, edges_of adj l /\ StronglySorted lexless l /\ to_file true p = Ok (Ret text)
  /\ (l = [] -> 0 < p_nedges p -> from_file (Some text) = UB Uninit)
  /\ (l <> [] \/ p_nedges p = 0 -> exists q, from_file (Some text) = Ok (Ret q) /\ p_nvert q = p_nvert p /\ p_nedges q = p_nedges p
       /\ forall v, v <= n -> exists c, vertex_neighbors q v = Ok (Ret c) /\ StronglySorted lt c
         /\ forall u, In u c <-> In (u, v) (firstn (p_nedges p) l) \/ In (v, u) (firstn (p_nedges p) l)).
Proof.
  intros M Hn HA. destruct (made_holds p n adj M) as (a & g & EG & EN & G & S).
  exists (filter (fun p : nat * nat => fst p <? snd p) a). set (l := filter (fun p : nat * nat => fst p <? snd p) a).
  exists (banner ++ decimal n ++ [32] ++ decimal n ++ [32] ++ decimal (p_nedges p) ++ [10] ++ written l).
  pose proof (up_edges a n adj G) as UE. fold l in UE. split; [exact UE|]. split; [exact (up_sorted a n adj G)|].
  split.
  { unfold to_file, loaded. rewrite EG, EN. destruct (Nat.eqb_spec n 0); [lia|]. cbn [negb]. rewrite (send_data_spec a n adj G g S). reflexivity. }
  pose proof (made_simple _ _ _ M) as SI. destruct UE as [ND UE]. set (m := p_nedges p) in *.
  assert (B : forall u v, In (u, v) l -> u <> v /\ 1 <= u <= n /\ 1 <= v <= n).
  { intros u v I. apply UE in I. destruct I as [L A]. destruct (SI u v A) as (A' & _ & B1). destruct (SI v u A') as (_ & _ & B2). split; [lia|]. auto. }
  assert (BF : forall u v, In (u, v) (firstn m l) -> u <> v /\ 1 <= u <= n /\ 1 <= v <= n).
  { intros u v I. apply B. rewrite <- (firstn_skipn m l). apply in_app_iff. auto. }
  assert (SM : small l) by (intros u v I; apply B in I; unfold allocatable in HA; lia).
  assert (HD : header (banner ++ decimal n ++ [32] ++ decimal n ++ [32] ++ decimal m ++ [10] ++ written l) n m ([10] ++ written l)).
  { unfold allocatable in HA. apply written_header; lia. }
  assert (B10 : Forall blank [10]) by (constructor; [unfold blank; lia|constructor]).
  split.
  - intros EL Hm. rewrite EL in *. change ([10] ++ written []) with [10] in *. eapply header_no_fields; [exact HD|exact HA|exact Hm|discriminate|exact newline_fields].
  - intros NE. destruct (Nat.le_gt_cases m (length l)) as [LE|GT].
    + assert (LF : length (firstn m l) = m) by (apply firstn_length_le; exact LE).
      assert (MK : market (banner ++ decimal n ++ [32] ++ decimal n ++ [32] ++ decimal m ++ [10] ++ written l) n (firstn m l)).
      { exists ([10] ++ written l). rewrite LF. split; [exact HD|]. apply written_first; auto. }
      assert (NZ : no_zero n (firstn m l)) by (intros v Hv; split; intros I; apply BF in I; lia).
      pose proof (file_neighbors _ n (firstn m l) ltac:(rewrite LF; exact HA) MK NZ) as W. apply wp_iff in W.
      destruct W as (r & E & q & -> & E1 & E2 & NB). exists q. split; [exact E|]. split; [rewrite E1; auto|]. split; [rewrite E2; exact LF|].
      intros v Hv. specialize (NB v Hv). apply wp_iff in NB. destruct NB as (r & E3 & c & -> & SS & I). exists c. split; [exact E3|]. split; [exact SS|].
      intros u. rewrite I. split; [tauto|]. intros [X|X]; pose proof (BF _ _ X) as (NU & R1 & R2); repeat split; auto; lia.
    + assert (NL : l <> []) by (destruct NE as [X|X]; [exact X|lia]). assert (EF : firstn m l = l) by (apply firstn_all2; lia). rewrite EF in *.
      pose proof (short_file _ n m _ l HD (written_only l [10] SM B10) NL ltac:(lia) HA) as W. apply wp_iff in W.
      destruct W as (r & E & q & -> & E1 & E2 & NB). exists q. split; [exact E|]. split; [rewrite E1; auto|]. split; [exact E2|].
      intros v Hv. specialize (NB v Hv). apply wp_iff in NB. destruct NB as (r & E3 & c & -> & SS & I). exists c. split; [exact E3|]. split; [exact SS|].
      intros u. rewrite I. split; [tauto|]. intros [X|X]; pose proof (BF _ _ X) as (NU & R1 & R2); repeat split; auto; lia.
Qed.
