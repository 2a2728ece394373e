(** FileProps: from_file and to_file (C08, C09). *)
From Verif Require Import Base MBits MUtils MGraph MHeur MApi MExt MFile Spec SpecBits BaseFacts SetFacts SortFacts RowFacts ConstructFacts FileFacts LoadFacts ExportFacts LoadProps.
From Coq Require Import Sorting.Sorted.
Local Open Scope nat_scope.
Local Arguments Nat.mul : simpl never.

Lemma file_loaded text n rows : allocatable (n + 1 + 2 * length rows) -> market text n rows -> no_zero n rows ->
  ends_with (from_file (Some text)) (fun r => exists p, r = Ret p /\ made p n (adj_lines n rows) /\ p_nvert p = n /\ p_nedges p = length rows).
Proof.
  intros HA HM HZ. destruct (from_file_spec text n rows HA HM HZ) as (a & G & W). apply wp_iff in W. destruct W as (r & E & p & -> & F).
  rewrite E. simpl. exists p. split; auto. split; [eapply made_file; eauto|]. destruct F as (g & -> & _). auto.
Qed.

Lemma file_neighbors text n rows : allocatable (n + 1 + 2 * length rows) -> market text n rows -> no_zero n rows ->
  ends_with (from_file (Some text)) (fun r => exists p, r = Ret p /\ p_nvert p = n /\ p_nedges p = length rows /\
    forall v, v <= n -> ends_with (vertex_neighbors p v) (fun r => exists l, r = Ret l /\ StronglySorted lt l
      /\ forall u, In u l <-> u <> v /\ 1 <= u <= n /\ 1 <= v <= n /\ (In (u, v) rows \/ In (v, u) rows))).
Proof.
  intros HA HM HZ. eapply wp_mono; [apply (file_loaded text n rows HA HM HZ)|]. intros r (p & -> & M & E1 & E2).
  exists p. split; auto. split; auto. split; auto. intros v Hv. eapply wp_mono; [eapply made_neighbors; eauto|].
  intros r (l & -> & SS & I). exists l. split; auto. split; auto. intros u. rewrite I. unfold adj_lines. intuition.
Qed.

Lemma file_round_trip p n adj : made p n adj -> 1 <= n -> (forall l, edges_of adj l -> p_nedges p = length l) ->
  allocatable (n + 1 + 2 * p_nedges p) ->
  ends_with (to_file true p) (fun r => exists text, r = Ret text /\
    ends_with (from_file (Some text)) (fun r => exists q, r = Ret q /\ p_nvert q = p_nvert p /\ p_nedges q = p_nedges p
      /\ forall v, v <= n -> exists l, vertex_neighbors p v = Ok (Ret l) /\ vertex_neighbors q v = Ok (Ret l))).
Proof.
  intros M Hn HC HA. destruct (made_holds p n adj M) as (a & g & EG & EN & G & S).
  unfold to_file, loaded. rewrite EG, EN. destruct (Nat.eqb_spec n 0); [lia|]. cbn [negb].
  rewrite (send_data_spec a n adj G g S). cbn [bind].
  set (calls := filter (fun p : nat * nat => fst p <? snd p) a).
  pose proof (up_edges a n adj G) as UE. fold calls in UE. rewrite (HC _ UE) in *. cbn [ends_with]. eexists. split; [reflexivity|].
  pose proof (made_simple _ _ _ M) as SI. destruct UE as [ND UE].
  assert (B : forall u v, In (u, v) calls -> 1 <= u <= n /\ 1 <= v <= n).
  { intros u v I. apply UE in I. destruct I as [L A]. destruct (SI u v A) as (A' & _ & B1). destruct (SI v u A') as (_ & _ & B2). auto. }
  assert (MK : market (banner ++ decimal n ++ [32] ++ decimal n ++ [32] ++ decimal (length calls) ++ [10]
          ++ flat_map (fun '(i, j) => decimal i ++ [32] ++ decimal j ++ [10]) calls) n calls).
  { unfold allocatable in HA. apply written_market; try lia. intros u v I. apply B in I. lia. }
  assert (NZ : no_zero n calls).
  { intros v Hv. split; intros I; apply B in I; lia. }
  eapply wp_mono; [apply (file_loaded _ n calls HA MK NZ)|]. intros r (q & -> & MQ & E1 & E2).
  exists q. split; auto. split; [rewrite E1; auto|]. split; auto. intros v Hv.
  pose proof (made_neighbors p n adj v M Hv) as W1. apply wp_iff in W1. destruct W1 as (r1 & -> & l1 & -> & S1 & I1).
  pose proof (made_neighbors q n _ v MQ Hv) as W2. apply wp_iff in W2. destruct W2 as (r2 & -> & l2 & -> & S2 & I2).
  exists l1. split; auto. f_equal. f_equal. apply sorted_ext; auto. intros u. rewrite I1, I2. unfold adj_lines. split.
  - intros (NE & B1 & B2 & [I|I]); apply UE in I; destruct I as [_ A]; auto. apply SI in A. apply A.
  - intros A. destruct (SI v u A) as (A' & NE & B1). destruct (SI u v A') as (_ & _ & B2). split; auto. split; auto. split; auto.
    destruct (Nat.lt_ge_cases u v); [right|left]; apply UE; split; auto; lia.
Qed.
