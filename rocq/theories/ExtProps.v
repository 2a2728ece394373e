(** ExtProps: the correspondence properties. *)
From Verif Require Import Base BaseFacts MBits MUtils MGraph MHeur MStack MRec MEnum MApi MExt MPy Spec SpecDec FindTwo RowFacts ConstructFacts LoadFacts ExportFacts LoadProps ExtFacts SearchBase IsoFacts SearchProps Samples.
From Coq Require Import Sorting.Sorted Sorting.Permutation.
Local Open Scope nat_scope.
Local Arguments Nat.sub : simpl never.
Local Arguments Nat.mul : simpl never.
Local Arguments Nat.div : simpl never.
Local Arguments Nat.modulo : simpl never.

(** ** C41 *)
Lemma vertices_decode n1 n2 v : 1 <= v <= n1 * n2 ->
  exists i j, i < n1 /\ j < n2 /\ v = i * n2 + j + 1 /\ forall i' j', j' < n2 -> v = i' * n2 + j' + 1 -> i' = i /\ j' = j.
Proof.
  intros H. destruct (vid_onto n1 n2 v H) as (i & j & I & J & ->). exists i, j. do 3 (split; auto).
  intros i' j' J' E. apply vid_inj in E; auto. lia.
Qed.

Lemma decode_clique n2 c : 1 <= n2 -> (forall v, In v c -> 1 <= v) ->
  exists a b, correspondence2 n2 c = Ok (Ret (a, b)) /\ length a = length c /\ length b = length c
    /\ c = map (fun ij => vid n2 (fst ij) (snd ij)) (combine a b) /\ (forall j, In j b -> j < n2).
Proof.
  intros N. induction c as [|v c IH]; intros H.
  - exists [], []. cbn. do 4 (split; auto). intros j [].
  - destruct IH as (a & b & E & LA & LB & EC & B); [intros; apply H; right; auto|].
    assert (V : 1 <= v) by (apply H; left; auto). cbn [correspondence2].
    destruct (Nat.eqb_spec v 0); [lia|]. destruct (Nat.eqb_spec n2 0); [lia|]. rewrite E. cbn [bind].
    exists ((v - 1) / n2 :: a), ((v - 1) mod n2 :: b). split; auto. cbn [length combine map fst snd].
    split; [lia|]. split; [lia|]. split.
    + rewrite <- EC. f_equal. unfold vid. pose proof (Nat.div_mod (v - 1) n2 ltac:(lia)). lia.
    + intros j [<-|J]; auto. apply Nat.mod_upper_bound. lia.
Qed.

Lemma combine_nth_vid n2 a b k : length a = length b -> k < length a ->
  nth k (map (fun ij => vid n2 (fst ij) (snd ij)) (combine a b)) 0 = vid n2 (nth k a 0) (nth k b 0).
Proof.
  intros L H. rewrite (nth_indep _ 0 (vid n2 (fst (0, 0)) (snd (0, 0)))) by (rewrite map_length, combine_length; lia).
  rewrite (map_nth (fun ij => vid n2 (fst ij) (snd ij))). rewrite combine_nth by auto. reflexivity.
Qed.

Lemma correspondence_decodes n1 n2 e p lb ub heur dfs cont p' c : 1 <= n2 ->
  get_max_clique e p lb ub heur dfs cont = Ok (p', Ret c) -> (forall v, In v c -> 1 <= v <= n1 * n2) ->
  exists a b, get_correspondence e p n2 lb ub heur dfs cont = Ok (p', Ret (a, b))
    /\ length a = length c /\ length b = length c
    /\ forall k, k < length c -> nth k a 0 < n1 /\ nth k b 0 < n2 /\ nth k c 0 = nth k a 0 * n2 + nth k b 0 + 1.
Proof.
  intros N E H. destruct (decode_clique n2 c N) as (a & b & D & LA & LB & EC & B); [intros v I; apply H; auto|].
  exists a, b. unfold get_correspondence. rewrite E. cbn [bind]. rewrite D. cbn [bind]. do 3 (split; auto).
  intros k K. assert (V : nth k c 0 = vid n2 (nth k a 0) (nth k b 0)) by (rewrite EC at 1; apply combine_nth_vid; lia).
  pose proof (H (nth k c 0) (nth_In c 0 K)) as R. assert (J : nth k b 0 < n2) by (apply B, nth_In; lia).
  split; [|split; auto]. rewrite V in R. unfold vid in R. nia.
Qed.

(** ** Correspondence graphs *)
Lemma corr_made n1 n2 q : corr_graph n1 n2 q -> edges_fit q -> exists rows, proper n1 n2 rows /\ made q (n1 * n2) (adj_rows rows)
  /\ forall u v, neighbour q u v <-> adj_rows rows u v.
Proof.
  intros C HF. destruct C as [rnd srt S1 S2 eps <- <- Hs HT Hr E|rnd srt S1 S2 eps f <- <- Hs HT Hr E|f E|s1 s2 adj1 adj2 M1 M2 E].
  - rewrite metric_as_both_r in E. destruct (build_ok srt S1 S2 eps _ Hs rnd Hr HT _ _ E HF) as (rows & R & _ & _ & _ & _ & _ & M & NB).
    exists rows. split; [eapply rows_proper; eauto|auto].
  - destruct (build_ok srt S1 S2 eps _ Hs rnd Hr HT _ _ E HF) as (rows & R & _ & _ & _ & _ & _ & M & NB).
    exists rows. split; [eapply rows_proper; eauto|auto].
  - destruct (cond_ok _ n1 n2 f q E HF) as (_ & M & NB). eexists. split; [apply cond_proper|auto].
  - destruct (iso_ok s1 s2 n1 n2 adj1 adj2 M1 M2 _ q E HF) as (g1 & g2 & _ & _ & _ & M & NB & _). eexists. split; [apply iso_proper|auto].
Qed.

Lemma clique_matching n1 n2 rows c : proper n1 n2 rows -> clique (n1 * n2) (adj_rows rows) c ->
  exists a b, correspondence2 n2 c = Ok (Ret (a, b)) /\ length a = length c /\ matching n1 n2 a b
    /\ forall k, k < length c -> nth k c 0 = vid n2 (nth k a 0) (nth k b 0).
Proof.
  intros P (SS & R & A). destruct (Nat.eq_dec n2 0) as [Z|N2].
  { destruct c as [|v c]; [|specialize (R v (or_introl eq_refl)); nia].
    exists [], []. cbn. do 2 (split; auto). split; [repeat split; auto; try constructor; intros ? []|]. intros k K. lia. }
  destruct (decode_clique n2 c) as (a & b & D & LA & LB & EC & B); [lia|intros v I; apply R; auto|].
  assert (V : forall k, k < length c -> nth k c 0 = vid n2 (nth k a 0) (nth k b 0)).
  { intros k K. rewrite EC at 1. apply combine_nth_vid; lia. }
  assert (ND : NoDup c).
  { clear - SS. induction SS as [|x l SS IH F]; constructor; auto. intros I. rewrite Forall_forall in F. specialize (F x I). lia. }
  assert (BJ : forall k, k < length c -> nth k b 0 < n2) by (intros k K; apply B, nth_In; lia).
  assert (Q : forall k l, k < length c -> l < length c -> k <> l -> nth k a 0 <> nth l a 0 /\ nth k b 0 <> nth l b 0).
  { intros k l K L N. assert (AD : adj_rows rows (nth k c 0) (nth l c 0)).
    { apply A; try (apply nth_In; auto). intros E. apply N. apply (proj1 (NoDup_nth c 0) ND); auto. }
    rewrite !V in AD by auto. destruct (proper_adj n1 n2 rows _ _ _ _ P (BJ k K) (BJ l L) AD) as (X & Y & _). auto. }
  exists a, b. split; auto. split; auto. split; [|auto]. split; [lia|]. split; [|split; [|split; auto]].
  - apply (NoDup_nth a 0). intros k l K L E. destruct (Nat.eq_dec k l); auto. destruct (Q k l) as (X & _); auto; try lia.
  - apply (NoDup_nth b 0). intros k l K L E. destruct (Nat.eq_dec k l); auto. destruct (Q k l) as (_ & X); auto; try lia.
  - intros i I. destruct (In_nth a i 0 I) as (k & K & <-). assert (K' : k < length c) by lia. pose proof (R _ (nth_In c 0 K')) as W.
    rewrite V in W by lia. pose proof (BJ k ltac:(lia)). unfold vid in W. nia.
Qed.

Section Corr.
  Variables (n1 n2 : nat) (p : pygraph).
  Hypothesis CG : corr_graph n1 n2 p.
  Hypothesis HF : edges_fit p.
  Hypothesis LV : storage_live p.
  Hypothesis NE : exists u v, neighbour p u v.

  Lemma clique_compatible rows c a b : (forall u v, neighbour p u v <-> adj_rows rows u v) -> clique (n1 * n2) (adj_rows rows) c ->
    length a = length c -> (forall k, k < length c -> nth k c 0 = vid n2 (nth k a 0) (nth k b 0)) -> compatible p n2 a b.
  Proof.
    intros NB (SS & R & A) L V k l K K' N. rewrite <- !V by lia. apply NB. apply A; try (apply nth_In; lia).
    assert (ND : NoDup c).
    { clear - SS. induction SS as [|x c' SS IH F]; constructor; auto. intros I. rewrite Forall_forall in F. specialize (F x I). lia. }
    intros E. apply N. apply (proj1 (NoDup_nth c 0) ND); auto; lia.
  Qed.

  Lemma correspondences q e lb ub heur dfs cont : history p q -> lawful e lb ->
    ends_with (get_correspondence e q n2 lb ub heur dfs cont) (fun r =>
      match snd r with
      | Ret (a, b) => matching n1 n2 a b /\ compatible p n2 a b /\ lb <= length a
      | Raise x => x = EBounds
      end).
  Proof.
    intros H LA. destruct (corr_made n1 n2 p CG HF) as (rows & P & M & NB).
    assert (HE : has_edge (adj_rows rows)) by (destruct NE as (u & v & N); exists u, v; apply NB; auto).
    pose proof (history_ends p _ _ q e lb ub heur dfs cont M HE LV H LA) as W. unfold get_correspondence.
    apply wp_bind. eapply wp_mono; [exact W|]. intros [q' [c|x]] (_ & C); cbn [snd] in *; [|apply wp_ok; auto].
    destruct C as (C & L). destruct (clique_matching n1 n2 rows c P C) as (a & b & D & LA' & MT & V).
    rewrite D. cbn [bind]. apply wp_ok. cbn [snd]. split; auto. split; [eapply clique_compatible; eauto|lia].
  Qed.

  Lemma nexts_snoc lr i : forall q en q1 en1 l q2 en2 c, nexts i lr q en = Ok (q1, en1, l) -> length l = i ->
    next_clique lr q1 en1 = Ok (q2, en2, Ret c) -> nexts (S i) lr q en = Ok (q2, en2, l ++ [c]).
  Proof.
    induction i as [|i IH]; intros q en q1 en1 l q2 en2 c E L C.
    - cbn [nexts] in E. injection E as -> -> <-. cbn [nexts]. rewrite C. reflexivity.
    - cbn [nexts] in E. apply bind_ok in E. destruct E as ([[q' en'] r] & E1 & E). destruct r as [c0|x].
      2:{ injection E as -> -> <-. discriminate. }
      apply bind_ok in E. destruct E as ([[q'' en''] l'] & E2 & E). injection E as -> -> <-. cbn [length] in L.
      specialize (IH _ _ _ _ _ _ _ _ E2 ltac:(lia) C).
      change (nexts (S (S i)) lr q en) with
        ('(p0, en0, r0) <- next_clique lr q en;; match r0 with Ret c1 => '(p1, en3, l0) <- nexts (S i) lr p0 en0;; Ok (p1, en3, c1 :: l0) | Raise _ => Ok (p0, en0, []) end).
      rewrite E1. cbn [bind]. rewrite IH. reflexivity.
  Qed.

  Lemma enumerated_correspondences q lr k i q1 en1 l q2 en2 a b : history p q ->
    nexts i lr q (new_enum k) = Ok (q1, en1, l) -> length l = i ->
    next_correspondence lr n2 q1 en1 = Ok (q2, en2, Ret (a, b)) ->
    matching n1 n2 a b /\ compatible p n2 a b /\ length a = k.
  Proof.
    intros H E L C. destruct (corr_made n1 n2 p CG HF) as (rows & P & M & NB).
    assert (HE : has_edge (adj_rows rows)) by (destruct NE as (u & v & N); exists u, v; apply NB; auto).
    unfold next_correspondence in C. apply bind_ok in C. destruct C as ([[q3 en3] r] & C & C').
    destruct r as [c|x]; [|discriminate]. apply bind_ok in C'. destruct C' as (y & D & C'). injection C' as -> -> ->.
    pose proof (nexts_snoc _ _ _ _ _ _ _ _ _ _ E L C) as E'.
    destruct (enumerated_are_cliques p _ _ M LV q lr k (S i) _ _ _ c HE H E') as (C1 & C2 & C3 & C4).
    { apply in_app_iff. right. left. auto. }
    assert (CL : clique (n1 * n2) (adj_rows rows) c) by (split; auto).
    destruct (clique_matching n1 n2 rows c P CL) as (a' & b' & D' & LA' & MT & V).
    rewrite D in D'. injection D' as -> ->. split; auto. split; [eapply clique_compatible; eauto|lia].
  Qed.
End Corr.

(** ** C43 - C48: the metric builders *)
Lemma close_next rnd srt S2 eps a j j' : (forall k l, m_d S2 k l = m_d S2 l k) -> close srt S2 eps rnd a j j' ->
  (lower eps rnd a <= m_d S2 j j' <= upper eps rnd a)%Z \/ past S2 (lower eps rnd a) (upper eps rnd a) (m_d S2 j j').
Proof.
  intros Sy (_ & H). assert (Q : forall P : Z -> Prop, (forall k l, tabled (m_sym S2) (m_n S2) k l -> P (m_d S2 k l)) -> forall k l, two S2 k l -> P (m_d S2 k l)).
  { intros P HP k l (K & L & N). destruct (Nat.lt_ge_cases k l); [apply HP; repeat split; auto|].
    rewrite Sy. apply HP. repeat split; auto. lia. }
  destruct H as [H|[((H1 & H2) & _)|((H1 & H2) & _)]]; auto; right; [left|right]; split; auto.
  - apply (Q (fun t => t <= m_d S2 j j' \/ lower eps rnd a < t)%Z). auto.
  - apply (Q (fun t => m_d S2 j j' <= t \/ t < upper eps rnd a)%Z). auto.
Qed.

Section Rounded.
  Variables (rnd : Z -> Z) (srt : list pdist -> list pdist) (S1 S2 : mset) (eps : Z).
  Hypothesis Hr : rises rnd.
  Hypothesis Hs : sorts_dists srt.
  Hypothesis HT : table_fits S2.
  Let lo (a : Z) : Z := rnd (a - eps)%Z.
  Let hi (a : Z) : Z := rnd (rnd (a - eps) + 2 * eps)%Z.

  Lemma both_keeps_r f p q i i' j j' : honest S1 -> honest S2 -> build_edges_r rnd srt p S1 S2 eps f = Ok (Ret q) -> edges_fit q ->
    two S1 i i' -> two S2 j j' ->
    (m_sym S1 = false \/ i < i' -> f i i' j j' = true) -> (m_sym S1 = true /\ i' < i -> f i' i j' j = true) ->
    (lo (m_d S1 i i') < m_d S2 j j' < hi (m_d S1 i i') \/ (lo (m_d S1 i i') <= m_d S2 j j' <= hi (m_d S1 i i') /\ only S2 j j'))%Z ->
    neighbour q (vid (m_n S2) i j) (vid (m_n S2) i' j').
  Proof. intros H1 H2 E HF T1 T2 F F' D. eapply build_complete; eauto. Qed.

  Lemma both_adds_r f p q i i' j j' : (forall k l, m_d S1 k l = m_d S1 l k) -> (forall k l, m_d S2 k l = m_d S2 l k) ->
    build_edges_r rnd srt p S1 S2 eps f = Ok (Ret q) -> edges_fit q ->
    j < m_n S2 -> j' < m_n S2 -> neighbour q (vid (m_n S2) i j) (vid (m_n S2) i' j') ->
    two S1 i i' /\ j <> j'
    /\ ((lo (m_d S1 i i') <= m_d S2 j j' <= hi (m_d S1 i i'))%Z \/ past S2 (lo (m_d S1 i i')) (hi (m_d S1 i i')) (m_d S2 j j')).
  Proof.
    intros Y1 Y2 E HF J J' N. destruct (build_sound srt S1 S2 eps f Hs rnd Hr HT p q i i' j j' E HF J J' N) as (N1 & N2 & I & I' & a & a' & b & b' & O & T & F & C).
    split; [repeat split; auto|]. split; auto.
    assert (E1 : m_d S1 a a' = m_d S1 i i') by (destruct O as [(-> & -> & _)|(-> & -> & _)]; auto).
    assert (E2 : m_d S2 b b' = m_d S2 j j') by (destruct O as [(_ & _ & -> & ->)|(_ & _ & -> & ->)]; auto).
    rewrite E1 in C. destruct C as [C|[_ C]]; apply (close_next rnd srt S2 eps) in C; auto; [|rewrite (Y2 b' b) in C]; rewrite E2 in C; auto.
  Qed.

  (** On either side of the interval at most one pair of set 2 is matched with a pair of set 1. *)
  Lemma both_one_r f p q i i' j j' k k' : (forall x y, m_d S1 x y = m_d S1 y x) -> (forall x y, m_d S2 x y = m_d S2 y x) ->
    build_edges_r rnd srt p S1 S2 eps f = Ok (Ret q) -> edges_fit q -> j < m_n S2 -> j' < m_n S2 -> k < m_n S2 -> k' < m_n S2 ->
    neighbour q (vid (m_n S2) i j) (vid (m_n S2) i' j') -> neighbour q (vid (m_n S2) i k) (vid (m_n S2) i' k') ->
    (m_d S2 j j' < lo (m_d S1 i i') /\ m_d S2 k k' < lo (m_d S1 i i') /\ lo (m_d S1 i i') <= hi (m_d S1 i i')
     \/ hi (m_d S1 i i') < m_d S2 j j' /\ hi (m_d S1 i i') < m_d S2 k k' /\ lo (m_d S1 i i') <= hi (m_d S1 i i'))%Z -> (j = k /\ j' = k') \/ (j = k' /\ j' = k).
  Proof.
    intros Y1 Y2 E HF J J' K K' N M D.
    assert (Q : forall j j', j < m_n S2 -> j' < m_n S2 -> neighbour q (vid (m_n S2) i j) (vid (m_n S2) i' j') -> (lo (m_d S1 i i') <= hi (m_d S1 i i'))%Z ->
      ((m_d S2 j j' < lo (m_d S1 i i'))%Z -> exists z, z = stop_at srt S2 (lo (m_d S1 i i')) /\ (j = d_fst z /\ j' = d_snd z \/ j = d_snd z /\ j' = d_fst z))
      /\ ((hi (m_d S1 i i') < m_d S2 j j')%Z -> exists z, z = stop_at srt S2 (hi (m_d S1 i i')) /\ (j = d_fst z /\ j' = d_snd z \/ j = d_snd z /\ j' = d_fst z))).
    { clear - Hs Hr HT Y1 Y2 E HF. intros j j' J J' N LH.
      destruct (build_sound srt S1 S2 eps f Hs rnd Hr HT p q i i' j j' E HF J J' N) as (N1 & N2 & I & I' & a & a' & b & b' & O & T & F & C).
      assert (E1 : m_d S1 a a' = m_d S1 i i') by (destruct O as [(-> & -> & _)|(-> & -> & _)]; auto). rewrite E1 in C.
      assert (C' : exists c c', close srt S2 eps rnd (m_d S1 i i') c c' /\ (j = c /\ j' = c' \/ j = c' /\ j' = c)).
      { destruct C as [C|[_ C]]; destruct O as [(_ & _ & -> & ->)|(_ & _ & -> & ->)]; eauto 6. }
      clear - Y2 LH C'. destruct C' as (c & c' & (_ & C) & O).
      assert (E2 : m_d S2 c c' = m_d S2 j j') by (destruct O as [(-> & ->)|(-> & ->)]; auto). rewrite !E2 in C.
      change (lower eps rnd (m_d S1 i i')) with (lo (m_d S1 i i')) in C. change (upper eps rnd (m_d S1 i i')) with (hi (m_d S1 i i')) in C.
      destruct C as [C|[((C & _) & -> & ->)|((C & _) & -> & ->)]]; (split; intros L; [|]); try (exfalso; clear - C L LH; lia); eauto. }
    destruct D as [(D1 & D2 & LH)|(D1 & D2 & LH)]; destruct (Q j j' J J' N LH) as (Q1 & Q2), (Q k k' K K' M LH) as (Q3 & Q4).
    - destruct (Q1 D1) as (z & -> & O1), (Q3 D2) as (z & -> & O2). destruct O1 as [(-> & ->)|(-> & ->)], O2 as [(-> & ->)|(-> & ->)]; auto.
    - destruct (Q2 D1) as (z & -> & O1), (Q4 D2) as (z & -> & O2). destruct O1 as [(-> & ->)|(-> & ->)], O2 as [(-> & ->)|(-> & ->)]; auto.
  Qed.

  Lemma both_obeys_r f p q i i' j j' : build_edges_r rnd srt p S1 S2 eps f = Ok (Ret q) -> edges_fit q ->
    j < m_n S2 -> j' < m_n S2 -> neighbour q (vid (m_n S2) i j) (vid (m_n S2) i' j') ->
    (f i i' j j' = true \/ f i' i j' j = true) /\ (m_sym S1 = true -> i < i' -> f i i' j j' = true).
  Proof.
    intros E HF J J' N. destruct (build_sound srt S1 S2 eps f Hs rnd Hr HT p q i i' j j' E HF J J' N) as (N1 & N2 & I & I' & a & a' & b & b' & O & T & F & C).
    destruct O as [(-> & -> & -> & ->)|(-> & -> & -> & ->)]; split; auto. intros Sy L. destruct T as (_ & _ & _ & T). specialize (T Sy). lia.
  Qed.

  Lemma one_element_r p f : 2 <= m_n S1 -> m_n S2 = 1 ->
    build_edges_metric_only_r rnd srt p S1 S2 eps = UB OobRead /\ build_edges_r rnd srt p S1 S2 eps f = UB OobRead.
  Proof. intros H1 H2. rewrite metric_as_both_r. split; apply build_one; auto. Qed.

  Lemma other_sizes_r p f : fits (m_n S1 * m_n S2 + 1 + 4 * (m_n S1 * m_n S1 * (m_n S2 * m_n S2))) -> m_n S2 <> 1 \/ m_n S1 < 2 ->
    exists r r', build_edges_metric_only_r rnd srt p S1 S2 eps = Ok r /\ build_edges_r rnd srt p S1 S2 eps f = Ok r'
      /\ (m_n S1 = 0 \/ m_n S2 = 0 -> r = Raise EEmptySet /\ r' = Raise EEmptySet)
      /\ (1 <= m_n S1 -> 1 <= m_n S2 -> exists q q', r = Ret q /\ r' = Ret q' /\ edges_fit q /\ edges_fit q').
  Proof.
    intros HF HN. rewrite metric_as_both_r. destruct (Nat.eq_dec (m_n S1) 0) as [Z1|P1]; [|destruct (Nat.eq_dec (m_n S2) 0) as [Z2|P2]].
    - exists (Raise EEmptySet), (Raise EEmptySet). rewrite !build_empty by auto. do 3 (split; auto). lia.
    - exists (Raise EEmptySet), (Raise EEmptySet). rewrite !build_empty by auto. do 3 (split; auto). lia.
    - destruct (build_total srt S1 S2 eps (fun _ _ _ _ => true) Hs rnd Hr HT p) as (q & E & F); auto; try lia.
      destruct (build_total srt S1 S2 eps f Hs rnd Hr HT p) as (q' & E' & F'); auto; try lia.
      exists (Ret q), (Ret q'). do 2 (split; auto). split; [lia|]. intros _ _. exists q, q'. auto.
  Qed.
End Rounded.

Lemma exact_rises : rises exact.
Proof. intros a b H. exact H. Qed.

Section Metric.
  Variables (srt : list pdist -> list pdist) (S1 S2 : mset) (eps : Z).
  Hypothesis Hs : sorts_dists srt.
  Hypothesis He : (0 <= eps)%Z.
  Hypothesis HT : table_fits S2.

  Lemma both_keeps f p q i i' j j' : honest S1 -> honest S2 -> build_edges srt p S1 S2 eps f = Ok (Ret q) -> edges_fit q ->
    two S1 i i' -> two S2 j j' ->
    (m_sym S1 = false \/ i < i' -> f i i' j j' = true) -> (m_sym S1 = true /\ i' < i -> f i' i j' j = true) ->
    (Z.abs (m_d S1 i i' - m_d S2 j j') < eps \/ (Z.abs (m_d S1 i i' - m_d S2 j j') <= eps /\ only S2 j j'))%Z ->
    neighbour q (vid (m_n S2) i j) (vid (m_n S2) i' j').
  Proof.
    intros H1 H2 E HF T1 T2 F F' D. eapply (both_keeps_r exact srt S1 S2 eps exact_rises Hs HT); eauto. unfold exact. clear - D.
    destruct D as [D|[D U]]; [left; lia|right; split; auto; lia].
  Qed.

  Lemma metric_keeps p q i i' j j' : honest S1 -> honest S2 -> build_edges_metric_only srt p S1 S2 eps = Ok (Ret q) -> edges_fit q ->
    two S1 i i' -> two S2 j j' ->
    (Z.abs (m_d S1 i i' - m_d S2 j j') < eps \/ (Z.abs (m_d S1 i i' - m_d S2 j j') <= eps /\ only S2 j j'))%Z ->
    neighbour q (vid (m_n S2) i j) (vid (m_n S2) i' j').
  Proof. intros H1 H2 E HF T1 T2 D. rewrite metric_as_both in E. eapply both_keeps; eauto. Qed.

  Lemma both_adds f p q i i' j j' : (forall k l, m_d S1 k l = m_d S1 l k) -> (forall k l, m_d S2 k l = m_d S2 l k) ->
    build_edges srt p S1 S2 eps f = Ok (Ret q) -> edges_fit q ->
    j < m_n S2 -> j' < m_n S2 -> neighbour q (vid (m_n S2) i j) (vid (m_n S2) i' j') ->
    two S1 i i' /\ j <> j'
    /\ ((Z.abs (m_d S1 i i' - m_d S2 j j') <= eps)%Z \/ next_to S2 eps (m_d S1 i i') (m_d S2 j j')).
  Proof.
    intros Y1 Y2 E HF J J' N. destruct (both_adds_r exact srt S1 S2 eps exact_rises Hs HT f p q i i' j j' Y1 Y2 E HF J J' N) as (A & B & C).
    split; auto. split; auto. unfold exact in C. replace (m_d S1 i i' - eps + 2 * eps)%Z with (m_d S1 i i' + eps)%Z in C by lia.
    destruct C as [C|C]; [left; lia|right; exact C].
  Qed.

  Lemma metric_adds p q i i' j j' : (forall k l, m_d S1 k l = m_d S1 l k) -> (forall k l, m_d S2 k l = m_d S2 l k) ->
    build_edges_metric_only srt p S1 S2 eps = Ok (Ret q) -> edges_fit q ->
    j < m_n S2 -> j' < m_n S2 -> neighbour q (vid (m_n S2) i j) (vid (m_n S2) i' j') ->
    two S1 i i' /\ j <> j'
    /\ ((Z.abs (m_d S1 i i' - m_d S2 j j') <= eps)%Z \/ next_to S2 eps (m_d S1 i i') (m_d S2 j j')).
  Proof. intros Y1 Y2 E HF. rewrite metric_as_both in E. eapply both_adds; eauto. Qed.

  Lemma both_one f p q i i' j j' k k' : (forall x y, m_d S1 x y = m_d S1 y x) -> (forall x y, m_d S2 x y = m_d S2 y x) ->
    build_edges srt p S1 S2 eps f = Ok (Ret q) -> edges_fit q -> j < m_n S2 -> j' < m_n S2 -> k < m_n S2 -> k' < m_n S2 ->
    neighbour q (vid (m_n S2) i j) (vid (m_n S2) i' j') -> neighbour q (vid (m_n S2) i k) (vid (m_n S2) i' k') ->
    (m_d S2 j j' < m_d S1 i i' - eps /\ m_d S2 k k' < m_d S1 i i' - eps
     \/ m_d S1 i i' + eps < m_d S2 j j' /\ m_d S1 i i' + eps < m_d S2 k k')%Z -> (j = k /\ j' = k') \/ (j = k' /\ j' = k).
  Proof.
    intros Y1 Y2 E HF J J' K K' N M D. eapply (both_one_r exact srt S1 S2 eps exact_rises Hs HT); eauto. unfold exact. clear - D He. lia.
  Qed.

  Lemma metric_one p q i i' j j' k k' : (forall x y, m_d S1 x y = m_d S1 y x) -> (forall x y, m_d S2 x y = m_d S2 y x) ->
    build_edges_metric_only srt p S1 S2 eps = Ok (Ret q) -> edges_fit q -> j < m_n S2 -> j' < m_n S2 -> k < m_n S2 -> k' < m_n S2 ->
    neighbour q (vid (m_n S2) i j) (vid (m_n S2) i' j') -> neighbour q (vid (m_n S2) i k) (vid (m_n S2) i' k') ->
    (m_d S2 j j' < m_d S1 i i' - eps /\ m_d S2 k k' < m_d S1 i i' - eps
     \/ m_d S1 i i' + eps < m_d S2 j j' /\ m_d S1 i i' + eps < m_d S2 k k')%Z -> (j = k /\ j' = k') \/ (j = k' /\ j' = k).
  Proof. intros Y1 Y2 E HF. rewrite metric_as_both in E. eapply both_one; eauto. Qed.

End Metric.

(** ** C50: embeddings as cliques *)
Section IsoSearch.
  Variables (s1 s2 q : pygraph) (n1 n2 : nat) (adj1 adj2 : nat -> nat -> Prop).
  Hypothesis M1 : made s1 n1 adj1.
  Hypothesis M2 : made s2 n2 adj2.
  Hypothesis E : build_edges_for_iso new_pygraph s1 s2 = Ok (Ret q).
  Hypothesis HF : edges_fit q.
  Hypothesis LV : storage_live q.

  Lemma embedding_clique adj a b : (forall u v, neighbour q u v <-> adj u v) -> embedding n1 adj1 n2 adj2 a b ->
    exists d, clique (n1 * n2) adj d /\ length d = length a.
  Proof.
    intros NB (L & NA & NB' & RA & RB & EM). set (w := fun k => vid n2 (nth k a 0 - 1) (nth k b 0 - 1)).
    assert (RA' : forall k, k < length a -> 1 <= nth k a 0 <= n1) by (intros k K; apply RA, nth_In; auto).
    assert (RB' : forall k, k < length a -> 1 <= nth k b 0 <= n2) by (intros k K; apply RB, nth_In; lia).
    set (l := map w (seq 0 (length a))).
    assert (ND : NoDup l).
    { unfold l. apply (NoDup_nth _ 0). rewrite map_length, seq_length. intros k k' K K' EQ.
      rewrite !(nth_indep _ 0 (w 0)) in EQ by (rewrite map_length, seq_length; auto). rewrite !map_nth, !seq_nth in EQ by auto.
      unfold w in EQ. cbn [plus] in EQ. pose proof (RA' k K). pose proof (RA' k' K'). pose proof (RB' k K). pose proof (RB' k' K').
      apply vid_inj in EQ; try lia. apply (proj1 (NoDup_nth a 0) NA); auto; lia. }
    assert (IN : forall v, In v l <-> exists k, k < length a /\ v = w k).
    { intros v. unfold l. rewrite in_map_iff. split; [intros (k & <- & I); apply in_seq in I; exists k; split; auto; lia|].
      intros (k & K & ->). exists k. split; auto. apply in_seq. lia. }
    assert (RL : forall v, In v l -> 1 <= v <= n1 * n2).
    { intros v I. apply IN in I. destruct I as (k & K & ->). pose proof (RA' k K). pose proof (RB' k K). apply vid_range; lia. }
    exists (filter (fun v => existsb (Nat.eqb v) l) (seq 1 (n1 * n2))).
    assert (INF : forall v, In v (filter (fun v => existsb (Nat.eqb v) l) (seq 1 (n1 * n2))) <-> In v l).
    { intros v. rewrite filter_In, existsb_exists, in_seq. split.
      - intros (_ & x & I & X). apply Nat.eqb_eq in X. subst. auto.
      - intros I. pose proof (RL v I). split; [lia|]. exists v. split; auto. apply Nat.eqb_refl. }
    split; [split; [|split]|].
    - clear. generalize (seq 1 (n1 * n2)) (fun v => existsb (Nat.eqb v) l) (SetFacts.seq_sorted 1 (n1 * n2)). intros s f SS.
      induction SS as [|x s SS IH F]; cbn [filter]; [constructor|]. destruct (f x); auto. constructor; auto.
      rewrite Forall_forall in *. intros y I. apply filter_In in I. apply F. tauto.
    - intros v I. apply INF in I. auto.
    - intros u v I J N. apply INF, IN in I. apply INF, IN in J. destruct I as (k & K & ->), J as (k' & K' & ->).
      apply NB. unfold w. pose proof (RA' k K). pose proof (RA' k' K'). pose proof (RB' k K). pose proof (RB' k' K').
      apply (iso_iff s1 s2 n1 n2 adj1 adj2 M1 M2 new_pygraph q); auto. assert (KK : k <> k') by congruence.
      split; [intros X; apply KK, (proj1 (NoDup_nth a 0) NA); auto|]. split; [intros X; apply KK, (proj1 (NoDup_nth b 0) NB'); auto; lia|].
      intros A. apply EM; auto.
    - transitivity (length l); [|unfold l; rewrite map_length; apply seq_length].
      apply Permutation_length. apply NoDup_Permutation; auto. apply NoDup_filter, seq_NoDup.
  Qed.

  Lemma compatible_embedding a b : matching n1 n2 a b -> compatible q n2 a b -> embedding n1 adj1 n2 adj2 (map S a) (map S b).
  Proof.
    intros (L & NA & NB & RA & RB) C. assert (SI : FinFun.Injective S) by (intros x y X; lia).
    split; [rewrite !map_length; auto|]. split; [apply FinFun.Injective_map_NoDup; auto|]. split; [apply FinFun.Injective_map_NoDup; auto|].
    split; [intros x I; apply in_map_iff in I; destruct I as (y & <- & I); apply RA in I; lia|].
    split; [intros x I; apply in_map_iff in I; destruct I as (y & <- & I); apply RB in I; lia|].
    rewrite map_length. intros k l K K' A.
    assert (NS : forall c i, i < length c -> nth i (map S c) 0 = S (nth i c 0)).
    { intros c i H. rewrite (nth_indep _ 0 1) by (rewrite map_length; auto). apply (map_nth S). }
    rewrite !NS in * by lia. destruct (Nat.eq_dec k l) as [->|N]; [apply (made_simple _ _ _ M2) in A; lia|].
    specialize (C k l K K' N).
    pose proof (RA _ (nth_In a 0 K)) as A1. pose proof (RA _ (nth_In a 0 K')) as A2.
    assert (KB : k < length b) by lia. assert (LB : l < length b) by lia.
    pose proof (RB _ (nth_In b 0 KB)) as B1. pose proof (RB _ (nth_In b 0 LB)) as B2.
    pose proof (iso_iff s1 s2 n1 n2 adj1 adj2 M1 M2 new_pygraph q (S (nth k a 0)) (S (nth l a 0)) (S (nth k b 0)) (S (nth l b 0)) E HF) as W.
    replace (S (nth k a 0) - 1) with (nth k a 0) in W by lia. replace (S (nth l a 0) - 1) with (nth l a 0) in W by lia.
    replace (S (nth k b 0) - 1) with (nth k b 0) in W by lia. replace (S (nth l b 0) - 1) with (nth l b 0) in W by lia.
    apply W in C; auto; try lia. tauto.
  Qed.

  Lemma iso_answers q' e lb ub heur dfs cont : (exists u v, neighbour q u v) -> history q q' -> lawful e lb ->
    ends_with (iso_get_correspondence e q' s2 lb ub heur dfs cont) (fun r =>
      match snd r with
      | Ret (a, b) => embedding n1 adj1 n2 adj2 a b /\ lb <= length a
      | Raise x => x = EBounds
      end).
  Proof.
    intros NE H LA. unfold iso_get_correspondence. rewrite (made_nvert _ _ _ M2). apply wp_bind.
    eapply wp_mono; [apply (correspondences n1 n2 q (cg_iso _ _ _ s1 s2 adj1 adj2 M1 M2 E) HF LV NE q' e lb ub heur dfs cont H LA)|].
    intros [p' [[a b]|x]] R; cbn [snd] in R; apply wp_ok; cbn [snd]; auto. destruct R as (R1 & R2 & R3).
    split; [apply compatible_embedding; auto|rewrite map_length; auto].
  Qed.

  Lemma iso_maximum e ub heur cont : (exists u v, neighbour q u v) -> permutes e -> never_late e ->
    (forall a b, embedding n1 adj1 n2 adj2 a b -> length a <= ub) ->
    ends_with (iso_get_correspondence e q s2 1 ub heur true cont) (fun r => exists a b, snd r = Ret (a, b)
      /\ embedding n1 adj1 n2 adj2 a b /\ forall a' b', embedding n1 adj1 n2 adj2 a' b' -> length a' <= length a).
  Proof.
    intros NE HP U HU. pose proof (cg_iso _ _ _ s1 s2 adj1 adj2 M1 M2 E) as CG. destruct (corr_made n1 n2 q CG HF) as (rows & P & M & NB).
    assert (HE : has_edge (adj_rows rows)) by (destruct NE as (u & v & N); exists u, v; apply NB; auto).
    assert (CE : forall d, clique (n1 * n2) (adj_rows rows) d -> exists a b, correspondence2 n2 d = Ok (Ret (a, b)) /\ length a = length d
               /\ embedding n1 adj1 n2 adj2 (map S a) (map S b)).
    { intros d D. destruct (clique_matching n1 n2 rows d P D) as (a & b & DE & L & MT & V). exists a, b. do 2 (split; auto).
      apply compatible_embedding; auto. eapply clique_compatible; eauto. }
    assert (HU' : forall d, clique (n1 * n2) (adj_rows rows) d -> length d <= ub).
    { intros d D. destruct (CE d D) as (a & b & _ & L & EM). apply HU in EM. rewrite map_length in EM. lia. }
    unfold iso_get_correspondence, get_correspondence. rewrite (made_nvert _ _ _ M2). apply wp_bind. apply wp_bind.
    eapply wp_mono; [apply (fresh_max_only q _ _ e ub heur cont M HE LV HP U HU')|].
    intros [q' r] (c & X & C & MX). cbn [snd] in X. subst r. destruct (CE c C) as (a & b & D & L & EM). rewrite D. cbn [bind].
    apply wp_ok. apply wp_ok. cbn [snd]. exists (map S a), (map S b). split; auto. split; auto.
    intros a' b' EM'. destruct (embedding_clique (adj_rows rows) a' b' NB EM') as (d & D' & L'). apply MX in D'. rewrite map_length. lia.
  Qed.

  Lemma embedding_length a b : embedding n1 adj1 n2 adj2 a b -> length a <= n1 /\ length a <= n2.
  Proof.
    intros (L & NA & NB & RA & RB & _). split.
    - rewrite <- (seq_length n1 1). apply NoDup_incl_length; auto. intros x I. apply in_seq. apply RA in I. lia.
    - rewrite L, <- (seq_length n2 1). apply NoDup_incl_length; auto. intros x I. apply in_seq. apply RB in I. lia.
  Qed.

  Lemma iso_default e heur cont : (exists u v, neighbour q u v) -> permutes e -> untimed e -> (Z.of_nat n1 <= 65535 \/ Z.of_nat n2 <= 65535)%Z ->
    ends_with (iso_get_correspondence e q s2 1 DEFAULT_UB heur true cont) (fun r => exists a b, snd r = Ret (a, b)
      /\ embedding n1 adj1 n2 adj2 a b /\ forall a' b', embedding n1 adj1 n2 adj2 a' b' -> length a' <= length a).
  Proof.
    intros NE HP U HN. apply iso_maximum; auto; [apply untimed_never_late; auto|].
    intros a b EM. apply embedding_length in EM. pose proof default_ub_z. lia.
  Qed.
End IsoSearch.
