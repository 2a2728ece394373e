(** EpsProps: the lemmas of P_Eps. *)
From Verif Require Import Base BaseFacts MBits MUtils MGraph MHeur MStack MRec MEnum MApi MExt MPy Spec SpecDec SpecRound ExtFacts ExtProps ExtSamples RoundFacts RoundSamples GenProps EpsFacts.
Local Open Scope nat_scope.

Lemma two_maxima srt S1 S2 f f' eps eps' : sorts_dists srt -> table_fits S2 -> (eps <= eps')%Z ->
  (forall i i' j j', f i i' j j' = true -> f' i i' j j' = true) ->
  forall q q', build_edges srt new_pygraph S1 S2 eps f = Ok (Ret q) -> edges_fit q -> storage_live q ->
  build_edges srt new_pygraph S1 S2 eps' f' = Ok (Ret q') -> edges_fit q' -> storage_live q' -> (exists u v, neighbour q u v) ->
  forall e e' ub ub' heur heur' cont cont', permutes e -> never_late e -> permutes e' -> never_late e' ->
  m_n S1 <= ub \/ m_n S2 <= ub -> m_n S1 <= ub' \/ m_n S2 <= ub' ->
  exists r r' a b a' b', get_correspondence e q (m_n S2) 1 ub heur true cont = Ok (r, Ret (a, b))
    /\ get_correspondence e' q' (m_n S2) 1 ub' heur' true cont' = Ok (r', Ret (a', b')) /\ length a <= length a'.
Proof.
  intros Hs HT He Hf q q' E HF L E' HF' L' N e e' ub ub' heur heur' cont cont' P U P' U' B B'.
  assert (G : forall u v, neighbour q u v -> neighbour q' u v).
  { intros u v. exact (epsilon_grows srt S1 S2 f f' eps eps' Hs HT He Hf _ _ q q' u v E HF E' HF'). }
  assert (C : corr_graph (m_n S1) (m_n S2) q).
  { apply (cg_both _ _ q exact srt S1 S2 eps f); auto. intros x y; auto. }
  assert (C' : corr_graph (m_n S1) (m_n S2) q').
  { apply (cg_both _ _ q' exact srt S1 S2 eps' f'); auto. intros x y; auto. }
  assert (N' : exists u v, neighbour q' u v) by (destruct N as (u & v & N); exists u, v; auto).
  pose proof (corr_maximum _ _ q C HF L N e ub heur cont P U B) as W. pose proof (corr_maximum _ _ q' C' HF' L' N' e' ub' heur' cont' P' U' B') as W'.
  apply wp_iff in W, W'. destruct W as ([r x] & W & a & b & Ex & M & CM & _). destruct W' as ([r' x'] & W' & a' & b' & Ex' & _ & _ & X).
  cbn [snd] in Ex, Ex'. subst x x'. exists r, r', a, b, a', b'. split; [exact W|]. split; [exact W'|]. apply (X a b); auto.
  eapply compatible_grows; eauto.
Qed.

(** ** Witnesses *)
Definition fine : Z := (2 ^ 54 + 4)%Z.
Definition fine2 : mset := tset 2 [(0, 1, fine)].
Definition fine3 : mset := tset 3 [(0, 1, fine); (0, 2, fine); (1, 2, fine)].

Lemma fine_double : double fine.
Proof. exists (2 ^ 52 + 1)%Z, 2%Z. vm_compute. repeat split; congruence. Qed.
Lemma fine2_measured : measured fine2.
Proof. apply tset_measured. repeat constructor; cbn [snd]; auto using fine_double; vm_compute; discriminate. Qed.
Lemma fine3_measured : measured fine3.
Proof. apply tset_measured. repeat constructor; cbn [snd]; auto using fine_double; vm_compute; discriminate. Qed.
Lemma one_double : double 1.
Proof. exists 1%Z, 0%Z. vm_compute. repeat split; congruence. Qed.
Lemma two_double : double 2.
Proof. exists 2%Z, 0%Z. vm_compute. repeat split; congruence. Qed.
