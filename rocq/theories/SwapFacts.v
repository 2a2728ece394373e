(** SwapFacts: the two sets exchanged (C96), subgraph isomorphism (C97). *)
From Verif Require Import Base BaseFacts MBits MUtils MGraph MHeur MStack MRec MEnum MApi MExt MPy Spec SpecSwap ExtFacts SearchBase IsoFacts SearchProps ExtProps GenProps LoadFacts LoadProps.
Local Open Scope nat_scope.

Section Corr.
  Variables (n1 n2 : nat) (q : pygraph).
  Hypothesis C : corr_graph n1 n2 q.
  Hypothesis HF : edges_fit q.

  Lemma corr_sym u v : neighbour q u v -> neighbour q v u.
  Proof. destruct (corr_made n1 n2 q C HF) as (rows & _ & _ & NB). rewrite !NB. intros (N & I). split; auto. tauto. Qed.

  Lemma corr_apart i i' j j' : j < n2 -> j' < n2 -> neighbour q (vid n2 i j) (vid n2 i' j') -> i <> i' /\ j <> j'.
  Proof.
    destruct (corr_made n1 n2 q C HF) as (rows & P & _ & NB). rewrite NB. intros J J' A.
    destruct (proper_adj n1 n2 rows i i' j j' P J J' A) as (A1 & A2 & _). auto.
  Qed.
End Corr.

(** It is enough to compare matches in increasing order of the first set. *)
Lemma transposed_of n1 n2 q q' : corr_graph n1 n2 q -> edges_fit q -> corr_graph n2 n1 q' -> edges_fit q' ->
  (forall i i' j j', i < i' < n1 -> j < n2 -> j' < n2 -> j <> j' ->
     (neighbour q (vid n2 i j) (vid n2 i' j') <-> neighbour q' (vid n1 j i) (vid n1 j' i'))) -> transposed n1 n2 q q'.
Proof.
  intros C HF C' HF' H i i' j j' I I' J J'.
  assert (D : i = i' \/ j = j' -> (neighbour q (vid n2 i j) (vid n2 i' j') <-> neighbour q' (vid n1 j i) (vid n1 j' i'))).
  { intros D. split; intros N; exfalso.
    - destruct (corr_apart n1 n2 q C HF i i' j j' J J' N). tauto.
    - destruct (corr_apart n2 n1 q' C' HF' j j' i i' I I' N). tauto. }
  destruct (Nat.eq_dec j j') as [E|NJ]; [apply D; auto|]. destruct (lt_eq_lt_dec i i') as [[L|E]|L]; [apply H; auto|apply D; auto|].
  split; intros N.
  - apply (corr_sym n2 n1 q' C' HF'), H; auto. apply (corr_sym n1 n2 q C HF); auto.
  - apply (corr_sym n1 n2 q C HF), H; auto. apply (corr_sym n2 n1 q' C' HF'); auto.
Qed.

Lemma condition_swap n1 n2 f f' q q' : (forall i i' j j', f' j j' i i' = f i i' j j') ->
  build_edges_condition_only new_pygraph n1 n2 f = Ok (Ret q) -> edges_fit q ->
  build_edges_condition_only new_pygraph n2 n1 f' = Ok (Ret q') -> edges_fit q' -> transposed n1 n2 q q'.
Proof.
  intros Hf E HF E' HF'. assert (C' : corr_graph n2 n1 q') by (eapply cg_condition; eauto).
  apply transposed_of; auto; [eapply cg_condition; eauto|]. intros i i' j j' I J J' N.
  rewrite (cond_iff _ _ _ _ _ i i' j j' E HF I J J' N), <- Hf.
  destruct (lt_eq_lt_dec j j') as [[L|X]|L]; [|congruence|].
  - rewrite (cond_iff _ _ _ _ _ j j' i i' E' HF') by lia. replace (Nat.min i i') with i by lia. replace (Nat.max i i') with i' by lia.
    replace (Nat.min j j') with j by lia. replace (Nat.max j j') with j' by lia. tauto.
  - assert (SY : neighbour q' (vid n1 j i) (vid n1 j' i') <-> neighbour q' (vid n1 j' i') (vid n1 j i)) by (split; apply (corr_sym n2 n1 q' C' HF')).
    rewrite SY, (cond_iff _ _ _ _ _ j' j i' i E' HF') by lia. replace (Nat.min i' i) with i by lia. replace (Nat.max i' i) with i' by lia.
    replace (Nat.min j j') with j' by lia. replace (Nat.max j j') with j by lia. tauto.
Qed.

(** ** Answers *)
Lemma matching_swap n1 n2 a b : matching n1 n2 a b -> matching n2 n1 b a.
Proof. intros (L & A & B & RA & RB). repeat split; auto. Qed.

Lemma compatible_swap n1 n2 q q' a b : transposed n1 n2 q q' -> matching n1 n2 a b -> (compatible q n2 a b <-> compatible q' n1 b a).
Proof.
  intros T (L & _ & _ & RA & RB).
  assert (X : forall k, k < length a -> nth k a 0 < n1 /\ nth k b 0 < n2) by (intros k K; split; [apply RA, nth_In|apply RB, nth_In]; lia).
  split; intros H k l K K' N.
  - apply T; try apply X; try lia. apply H; lia.
  - apply T; try apply X; try lia. apply H; lia.
Qed.

Lemma transposed_sym n1 n2 q q' : transposed n1 n2 q q' -> transposed n2 n1 q' q.
Proof. intros T i i' j j' I I' J J'. symmetry. apply T; auto. Qed.

Lemma swap_maximum n1 n2 q q' : transposed n1 n2 q q' -> corr_graph n1 n2 q -> edges_fit q -> storage_live q -> corr_graph n2 n1 q' -> edges_fit q' -> storage_live q' ->
  (exists u v, neighbour q u v) ->
  forall e e' ub ub' heur heur' cont cont', permutes e -> never_late e -> permutes e' -> never_late e' ->
  n1 <= ub \/ n2 <= ub -> n1 <= ub' \/ n2 <= ub' ->
  exists r r' a b a' b', get_correspondence e q n2 1 ub heur true cont = Ok (r, Ret (a, b))
    /\ get_correspondence e' q' n1 1 ub' heur' true cont' = Ok (r', Ret (a', b')) /\ length a = length a'.
Proof.
  intros T C HF LV C' HF' LV' NE e e' ub ub' heur heur' cont cont' P U P' U' B B'.
  assert (NE' : exists u v, neighbour q' u v).
  { destruct NE as (u & v & N). destruct (corr_made n1 n2 q C HF) as (rows & PR & _ & NB). pose proof N as N0. apply NB in N. destruct N as (N & [I|I]);
      destruct (PR _ _ I) as (i & i' & j & j' & I1 & I2 & J1 & J2 & _ & _ & E1 & E2); subst; eexists; eexists; (apply T; [| | | |exact N0]; auto). }
  pose proof (corr_maximum n1 n2 q C HF LV NE e ub heur cont P U B) as W.
  assert (B2 : n2 <= ub' \/ n1 <= ub') by tauto.
  pose proof (corr_maximum n2 n1 q' C' HF' LV' NE' e' ub' heur' cont' P' U' B2) as W'.
  apply wp_iff in W, W'. destruct W as ([r x] & W & a & b & Ex & M & CM & X). destruct W' as ([r' x'] & W' & a' & b' & Ex' & M' & CM' & X').
  cbn [snd] in Ex, Ex'. subst x x'. exists r, r', a, b, a', b'. split; [exact W|]. split; [exact W'|].
  pose proof M as (L & _). pose proof M' as (L' & _).
  assert (length b <= length a') by (apply (X' b a); [apply matching_swap; auto|apply (compatible_swap n1 n2 q q'); auto]).
  assert (length b' <= length a) by (apply (X b' a'); [apply matching_swap; auto|apply (compatible_swap n2 n1 q' q); auto; apply transposed_sym; auto]).
  lia.
Qed.

(** ** Metrics *)
Lemma metric_swap srt srt' S1 S2 eps : sorts_dists srt -> sorts_dists srt' -> table_fits S1 -> table_fits S2 ->
  (forall k l, m_d S1 k l = m_d S1 l k) -> (forall k l, m_d S2 k l = m_d S2 l k) ->
  forall q q', build_edges_metric_only srt new_pygraph S1 S2 eps = Ok (Ret q) -> edges_fit q ->
  build_edges_metric_only srt' new_pygraph S2 S1 eps = Ok (Ret q') -> edges_fit q' ->
  forall i i' j j', i < m_n S1 -> i' < m_n S1 -> j < m_n S2 -> j' < m_n S2 ->
  Z.abs (m_d S1 i i' - m_d S2 j j') <> eps \/ only S1 i i' ->
  neighbour q (vid (m_n S2) i j) (vid (m_n S2) i' j') ->
  neighbour q' (vid (m_n S1) j i) (vid (m_n S1) j' i') \/ next_to S2 eps (m_d S1 i i') (m_d S2 j j').
Proof.
  intros Hs Hs' HT1 HT2 Y1 Y2 q q' E HF E' HF' i i' j j' I I' J J' K N.
  destruct (metric_adds srt S1 S2 eps Hs HT2 _ q i i' j j' Y1 Y2 E HF J J' N) as (T1 & NJ & [D|D]); [left|auto].
  assert (T2 : two S2 j j') by (split; auto). assert (H1 : honest S1) by (intros _; auto). assert (H2 : honest S2) by (intros _; auto).
  apply (metric_keeps srt' S2 S1 eps Hs' HT1 _ q' j j' i i' H2 H1 E' HF' T2 T1). destruct K as [K|K]; [left; lia|right; split; auto; lia].
Qed.

(** ** Products of graphs *)
Fixpoint index (x : nat) (l : list nat) : nat := match l with [] => 0 | y :: l => if x =? y then 0 else S (index x l) end.
Lemma index_in x l : In x l -> index x l < length l /\ nth (index x l) l 0 = x.
Proof.
  induction l as [|y l IH]; [intros []|]. intros H. cbn [index]. destruct (Nat.eqb_spec x y) as [<-|N]; [cbn; split; auto; lia|].
  destruct H as [H|H]; [congruence|]. destruct (IH H) as (A & B). cbn [length nth]. split; [lia|auto].
Qed.

Section Iso.
  Variables (s1 s2 q q' : pygraph) (n1 n2 : nat) (adj1 adj2 : nat -> nat -> Prop).
  Hypothesis M1 : made s1 n1 adj1.
  Hypothesis M2 : made s2 n2 adj2.
  Hypothesis E : build_edges_for_iso new_pygraph s1 s2 = Ok (Ret q).
  Hypothesis HF : edges_fit q.

  Lemma iso_swap : build_edges_for_iso new_pygraph s2 s1 = Ok (Ret q') -> edges_fit q' ->
    forall i i' j j', 1 <= i <= n1 -> 1 <= i' <= n1 -> 1 <= j <= n2 -> 1 <= j' <= n2 ->
    (neighbour q (vid n2 (i - 1) (j - 1)) (vid n2 (i' - 1) (j' - 1)) /\ neighbour q' (vid n1 (j - 1) (i - 1)) (vid n1 (j' - 1) (i' - 1))
     <-> i <> i' /\ j <> j' /\ (adj1 i i' <-> adj2 j j')).
  Proof.
    intros E' HF' i i' j j' I I' J J'. rewrite (iso_iff s1 s2 n1 n2 adj1 adj2 M1 M2 _ q i i' j j' E HF I I' J J').
    rewrite (iso_iff s2 s1 n2 n1 adj2 adj1 M2 M1 _ q' j j' i i' E' HF' J J' I I'). tauto.
  Qed.

  Lemma embedding_copy a b : embedding n1 adj1 n2 adj2 a b -> length a = n2 -> exists phi, copy_in n1 adj1 n2 adj2 phi.
  Proof.
    intros (L & NA & NB & RA & RB & AD) LN.
    assert (FU : forall x, 1 <= x <= n2 -> In x b).
    { assert (IC : incl (seq 1 n2) b).
      { apply NoDup_length_incl; auto; [rewrite seq_length; lia|]. intros x X. apply in_seq. apply RB in X. lia. }
      intros x X. apply IC, in_seq. lia. }
    exists (fun x => nth (index x b) a 0).
    assert (IX : forall x, 1 <= x <= n2 -> index x b < length b /\ nth (index x b) b 0 = x).
    { intros x X. apply index_in, FU, X. }
    split; [|split].
    - intros x X. apply RA, nth_In. destruct (IX x X). lia.
    - intros x y X Y EQ. destruct (IX x X) as (K & Ek). destruct (IX y Y) as (K' & Ek').
      assert (index x b = index y b) by (apply (proj1 (NoDup_nth a 0) NA); auto; lia). congruence.
    - intros x y AXY. assert (V : 1 <= x <= n2 /\ 1 <= y <= n2) by (destruct (made_simple _ _ _ M2 _ _ AXY) as (BXY & _ & ?); destruct (made_simple _ _ _ M2 _ _ BXY) as (_ & _ & ?); auto). destruct V as (X & Y).
      destruct (IX x X) as (K & Ek). destruct (IX y Y) as (K' & Ek'). apply AD; try lia. rewrite Ek, Ek'. auto.
  Qed.

  Lemma copy_embedding phi : copy_in n1 adj1 n2 adj2 phi -> embedding n1 adj1 n2 adj2 (map phi (seq 1 n2)) (seq 1 n2).
  Proof.
    intros (R & IJ & AD). split; [rewrite map_length; auto|].
    assert (X : forall k, k < n2 -> nth k (seq 1 n2) 0 = S k) by (intros k K; rewrite seq_nth by lia; lia).
    assert (Y : forall k, k < n2 -> nth k (map phi (seq 1 n2)) 0 = phi (S k)).
    { intros k K. rewrite (nth_indep _ 0 (phi 0)) by (rewrite map_length, seq_length; lia). rewrite map_nth, X by auto. reflexivity. }
    split. { apply NoDup_nth with (d := 0). rewrite map_length, seq_length. intros k l K K'. rewrite !Y by auto. intros EQ. apply IJ in EQ; lia. }
    split; [apply seq_NoDup|]. split; [intros x I; apply in_map_iff in I; destruct I as (y & <- & I); apply in_seq in I; apply R; lia|].
    split; [intros x I; apply in_seq in I; lia|]. rewrite map_length, seq_length. intros k l K K' A.
    rewrite !X in A by lia. rewrite !Y by auto. auto.
  Qed.

  Hypothesis LV : storage_live q.

  Lemma iso_decides e heur cont : (exists u v, neighbour q u v) -> permutes e -> untimed e -> (Z.of_nat n1 <= 65535 \/ Z.of_nat n2 <= 65535)%Z ->
    ends_with (iso_get_correspondence e q s2 1 DEFAULT_UB heur true cont) (fun r => exists a b, snd r = Ret (a, b)
      /\ embedding n1 adj1 n2 adj2 a b /\ (length a = n2 <-> exists phi, copy_in n1 adj1 n2 adj2 phi)).
  Proof.
    intros NE P U HN. eapply wp_mono; [apply (iso_default s1 s2 q n1 n2 adj1 adj2 M1 M2 E HF LV e heur cont NE P U HN)|].
    intros r (a & b & X & EM & MX). exists a, b. split; auto. split; auto. split; [apply (embedding_copy a b EM)|].
    intros (phi & CP). apply copy_embedding in CP. pose proof (MX _ _ CP) as LE. rewrite map_length, seq_length in LE.
    pose proof EM as (L & _ & NB & _ & RB & _). assert (IC : incl b (seq 1 n2)) by (intros x I; apply in_seq; apply RB in I; lia).
    pose proof (NoDup_incl_length NB IC) as LI. rewrite seq_length in LI. lia.
  Qed.
End Iso.
