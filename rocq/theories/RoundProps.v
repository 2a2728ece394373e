(** RoundProps: the graphs of the metric builders, with the ends of the interval rounded to nearest (C69, C70). *)
From Verif Require Import Base MBits MUtils MGraph MHeur MStack MRec MEnum MApi MExt MPy Spec SpecRound ExtFacts ExtProps RoundFacts.
Local Open Scope Z_scope.

Section Round.
  Variables (rnd : Z -> Z) (srt : list pdist -> list pdist) (S1 S2 : mset) (eps : Z).
  Hypothesis Hn : nearest rnd.
  Hypothesis Hs : sorts_dists srt.
  Hypothesis HT : table_fits S2.
  Hypothesis Pe : 0 <= eps.
  Let Hr : rises rnd := round_rises rnd Hn.

  Lemma inside_ends a t : 0 <= a -> well_inside eps a t -> rnd (a - eps) < t < rnd (rnd (a - eps) + 2 * eps).
  Proof.
    unfold well_inside. intros A W. pose proof (round_error rnd Hn (a - eps)) as E1. pose proof (round_error rnd Hn (rnd (a - eps) + 2 * eps)) as E2. lia.
  Qed.

  Lemma round_keeps f p q i i' j j' : measured S1 -> measured S2 -> honest S1 -> honest S2 ->
    build_edges_r rnd srt p S1 S2 eps f = Ok (Ret q) -> edges_fit q -> two S1 i i' -> two S2 j j' ->
    (m_sym S1 = false \/ (i < i')%nat -> f i i' j j' = true) -> (m_sym S1 = true /\ (i' < i)%nat -> f i' i j' j = true) ->
    double eps /\ Z.abs (m_d S1 i i' - m_d S2 j j') <= eps
      /\ (only S2 j j' \/ m_d S2 j j' <> rnd (m_d S1 i i' - eps) /\ m_d S2 j j' <> rnd (rnd (m_d S1 i i' - eps) + 2 * eps))
    \/ well_inside eps (m_d S1 i i') (m_d S2 j j') ->
    neighbour q (vid (m_n S2) i j) (vid (m_n S2) i' j').
  Proof.
    intros M1 M2 H1 H2 E HF T1 T2 F F' C. eapply (both_keeps_r rnd srt S1 S2 eps Hr Hs HT); eauto.
    destruct (M1 _ _ T1) as [P1 D1], (M2 _ _ T2) as [P2 D2].
    destruct C as [(De & C & O)|W]; [|left; apply inside_ends; auto].
    pose proof (interval_contains rnd Hn _ eps D1 De P1 Pe _ D2 C) as I.
    destruct O as [O|[N1 N2]]; [right; split; auto|left; lia].
  Qed.

  Lemma round_adds f p q i i' j j' : measured S1 -> measured S2 -> double eps ->
    (forall k l, m_d S1 k l = m_d S1 l k) -> (forall k l, m_d S2 k l = m_d S2 l k) ->
    build_edges_r rnd srt p S1 S2 eps f = Ok (Ret q) -> edges_fit q ->
    (j < m_n S2)%nat -> (j' < m_n S2)%nat -> neighbour q (vid (m_n S2) i j) (vid (m_n S2) i' j') ->
    two S1 i i' /\ j <> j'
    /\ (about eps (m_d S1 i i') (m_d S2 j j')
        \/ m_d S2 j j' < m_d S1 i i' - eps /\ (forall k l, two S2 k l -> m_d S2 k l <= m_d S2 j j' \/ m_d S1 i i' - eps < m_d S2 k l)
        \/ m_d S1 i i' + eps < m_d S2 j j' /\ (forall k l, two S2 k l -> m_d S2 j j' <= m_d S2 k l \/ m_d S2 k l < m_d S1 i i' \/ about eps (m_d S1 i i') (m_d S2 k l))).
  Proof.
    intros M1 M2 De Y1 Y2 E HF J J' N. destruct (both_adds_r rnd srt S1 S2 eps Hr Hs HT f p q i i' j j' Y1 Y2 E HF J J' N) as (T1 & NJ & C).
    split; auto. split; auto. assert (T2 : two S2 j j') by (repeat split; auto).
    destruct (M1 _ _ T1) as [P1 D1], (M2 _ _ T2) as [P2 D2]. set (a := m_d S1 i i') in *. set (t := m_d S2 j j') in *.
    pose proof (round_error rnd Hn (a - eps)) as E1. destruct (Hn (a - eps)) as [DL _].
    destruct C as [C|[[C Q]|[C Q]]].
    - left. pose proof (interval_high rnd Hn a eps t P1 Pe ltac:(lia)) as IH. unfold about. lia.
    - right. left. split.
      + destruct (Z.le_gt_cases (a - eps) t) as [L|G]; [|auto]. pose proof (round_below rnd Hn _ _ D2 L). lia.
      + intros k l T. destruct (Q k l T) as [L|L]; [auto|right]. destruct (M2 _ _ T) as [P3 D3].
        destruct (interval_low rnd Hn a eps (m_d S2 k l) D3 ltac:(lia)) as [X|X]; [|lia].
        destruct (Z.eq_dec (m_d S2 k l) (a - eps)) as [EQ|NE]; [|lia]. rewrite <- EQ, (round_double rnd Hn _ D3) in L. lia.
    - right. right. split.
      + destruct (Z.le_gt_cases t (a + eps)) as [L|G]; [|auto].
        assert (LH : rnd (a - eps) <= rnd (rnd (a - eps) + 2 * eps)) by (apply round_above; auto; lia).
        destruct (interval_low rnd Hn a eps t D2 ltac:(lia)) as [X|X]; [|lia].
        pose proof (interval_contains rnd Hn a eps D1 De P1 Pe t D2 ltac:(lia)). lia.
      + intros k l T. destruct (Q k l T) as [L|L]; [auto|right]. destruct (Z.lt_ge_cases (m_d S2 k l) a) as [B|B]; [auto|right].
        pose proof (interval_high rnd Hn a eps (m_d S2 k l) P1 Pe ltac:(lia)) as IH. unfold about. lia.
  Qed.

  Lemma round_one f p q i i' j j' k k' : measured S1 -> measured S2 -> two S1 i i' ->
    (forall x y, m_d S1 x y = m_d S1 y x) -> (forall x y, m_d S2 x y = m_d S2 y x) ->
    build_edges_r rnd srt p S1 S2 eps f = Ok (Ret q) -> edges_fit q -> two S2 j j' -> two S2 k k' ->
    neighbour q (vid (m_n S2) i j) (vid (m_n S2) i' j') -> neighbour q (vid (m_n S2) i k) (vid (m_n S2) i' k') ->
    ~ about eps (m_d S1 i i') (m_d S2 j j') -> ~ about eps (m_d S1 i i') (m_d S2 k k') ->
    (m_d S2 j j' < m_d S1 i i' <-> m_d S2 k k' < m_d S1 i i') -> (j = k /\ j' = k') \/ (j = k' /\ j' = k).
  Proof.
    intros M1 M2 T1 Y1 Y2 E HF TJ TK N M AJ AK SD. destruct TJ as (J & J' & NJ), TK as (K & K' & NK).
    eapply (both_one_r rnd srt S1 S2 eps Hr Hs HT); eauto.
    destruct (M1 _ _ T1) as [P1 D1]. destruct (M2 j j' ltac:(repeat split; auto)) as [P2 D2]. destruct (M2 k k' ltac:(repeat split; auto)) as [P3 D3].
    set (a := m_d S1 i i') in *. pose proof (round_error rnd Hn (a - eps)) as E1. destruct (Hn (a - eps)) as [DL _].
    assert (LH : rnd (a - eps) <= rnd (rnd (a - eps) + 2 * eps)) by (apply round_above; auto; lia).
    assert (OUT : forall t, double t -> ~ about eps a t -> t < a -> t < rnd (a - eps)).
    { intros t D A L. destruct (Z.lt_ge_cases t (rnd (a - eps))) as [|G]; auto. exfalso. apply A.
      destruct (interval_low rnd Hn a eps t D G) as [X|X]; unfold about; lia. }
    assert (OUT' : forall t, double t -> ~ about eps a t -> a <= t -> rnd (rnd (a - eps) + 2 * eps) < t).
    { intros t D A L. destruct (Z.lt_ge_cases (rnd (rnd (a - eps) + 2 * eps)) t) as [|G]; auto. exfalso. apply A.
      pose proof (interval_high rnd Hn a eps t P1 Pe G). unfold about. lia. }
    destruct (Z.lt_ge_cases (m_d S2 j j') a) as [L|L]; [left|right].
    - split; [apply OUT; auto|]. split; [apply OUT; auto; apply SD; auto|auto].
    - assert (a <= m_d S2 k k') by (destruct (Z.lt_ge_cases (m_d S2 k k') a) as [X|X]; auto; apply SD in X; lia). auto.
  Qed.
End Round.

Lemma metric_rounded : forall rnd srt S1 S2 eps, nearest rnd -> sorts_dists srt -> table_fits S2 -> 0 <= eps -> double eps ->
  forall p q i i' j j', measured S1 -> measured S2 -> honest S1 -> honest S2 ->
  build_edges_metric_only_r rnd srt p S1 S2 eps = Ok (Ret q) -> edges_fit q -> two S1 i i' -> two S2 j j' ->
  Z.abs (m_d S1 i i' - m_d S2 j j') <= eps ->
  only S2 j j' \/ (m_d S2 j j' <> rnd (m_d S1 i i' - eps) /\ m_d S2 j j' <> rnd (rnd (m_d S1 i i' - eps) + 2 * eps)) ->
  neighbour q (vid (m_n S2) i j) (vid (m_n S2) i' j').
Proof.
  intros rnd srt S1 S2 eps Hn Hs HT Pe De p q i i' j j' M1 M2 H1 H2 E F T1 T2 C O. rewrite metric_as_both_r in E.
  apply (round_keeps rnd srt S1 S2 eps Hn Hs HT Pe (fun _ _ _ _ => true) p q i i' j j'); auto.
Qed.

Lemma metric_inside : forall rnd srt S1 S2 eps, nearest rnd -> sorts_dists srt -> table_fits S2 -> 0 <= eps ->
  forall p q i i' j j', measured S1 -> measured S2 -> honest S1 -> honest S2 ->
  build_edges_metric_only_r rnd srt p S1 S2 eps = Ok (Ret q) -> edges_fit q -> two S1 i i' -> two S2 j j' ->
  well_inside eps (m_d S1 i i') (m_d S2 j j') -> neighbour q (vid (m_n S2) i j) (vid (m_n S2) i' j').
Proof.
  intros rnd srt S1 S2 eps Hn Hs HT Pe p q i i' j j' M1 M2 H1 H2 E F T1 T2 W. rewrite metric_as_both_r in E.
  apply (round_keeps rnd srt S1 S2 eps Hn Hs HT Pe (fun _ _ _ _ => true) p q i i' j j'); auto.
Qed.
