(** GrowFacts: lemmas for C103. *)
From Coq Require Import Permutation.
From Verif Require Import Base MUtils MGraph MApi MNW MNWEnum MNWApi Spec SpecDec SpecNW SpecChange SpecGrow NWProps ChangeFacts.
Local Open Scope nat_scope.

Lemma weight_perm w c d : Permutation c d -> weight w c = weight w d.
Proof. induction 1; cbn [weight]; lia. Qed.

Section Grow.
  Variables (n n' : nat) (adj adj' : nat -> nat -> Prop) (w w' : list Z) (s : nat -> nat).
  Hypothesis G : grows n n' adj adj' w w' s.

  Lemma grown_clique c : clique n adj c -> exists d, clique n' adj' d /\ length d = length c /\ (weight w c <= weight w' d)%Z.
  Proof.
    destruct G as (RR & RI & RA & RW). intros (C1 & C2 & C3). exists (ordered n' (map s c)).
    assert (RG : forall x, In x (map s c) -> 1 <= x <= n'). { intros x. rewrite in_map_iff. intros (y & <- & I). auto. }
    assert (ND : NoDup (map s c)).
    { pose proof (lt_nodup c C1) as N. clear C1 C3 RG. induction c as [|x c IH]; cbn; constructor; inversion_clear N.
      - rewrite in_map_iff. intros (y & E & I). apply RI in E; [subst; auto| |]; apply C2; cbn; auto.
      - apply IH; auto. intros; apply C2; cbn; auto. }
    assert (P : Permutation (ordered n' (map s c)) (map s c)).
    { apply NoDup_Permutation; [apply lt_nodup, ordered_sorted|exact ND|]. intros v. apply in_ordered. exact RG. }
    split; [|split].
    - split; [apply ordered_sorted|]. split.
      + intros v I. apply RG. eapply Permutation_in; eauto.
      + intros u v U V N. apply (Permutation_in _ P) in U, V. apply in_map_iff in U as (x & <- & X). apply in_map_iff in V as (y & <- & Y).
        apply RA. apply C3; auto; congruence.
    - rewrite (Permutation_length P). apply map_length.
    - rewrite (weight_perm w' _ _ P). clear - C2 RW. induction c as [|x c IH]; cbn [map weight]; [lia|].
      specialize (IH (fun v I => C2 v (or_intror I))). specialize (RW x (C2 x (or_introl eq_refl))). lia.
  Qed.

  Variables (rnd : Z -> Z) (p p' : pynw).
  Hypothesis MK : nmade rnd p n adj w.
  Hypothesis MK' : nmade rnd p' n' adj' w'.
  Hypothesis HE : has_edge adj.
  Hypothesis LV : nstorage_live p.
  Hypothesis LV' : nstorage_live p'.
  Hypothesis SE' : sums_exact rnd w'.
  Hypothesis NN' : nonnegative w'.

  Lemma grown_edge : has_edge adj'.
  Proof. destruct HE as (u & v & A). destruct G as (_ & _ & RA & _). exists (s u), (s v). apply RA. exact A. Qed.

  Lemma grown_best q q' e e' lb lb' ub ub' heur heur' dfs c : nhistory rnd p q -> nrested rnd n' adj' w' p' q' -> npermutes e -> npermutes e' -> all_within n' adj' w' ub' ->
    answer (nw_get_max_clique rnd e q lb ub heur dfs) = Ok (Ret c) -> 2 <= length c ->
    ends_with (nw_get_max_clique rnd e' q' lb' ub' heur' true) (fun '(_, r) => match r with
      | Ret c' => weight w c <= weight w' c'
      | Raise x => x = EBounds /\ weight w c <= lb'
      end)%Z.
  Proof.
    intros H H' HP HP' HU A HL.
    assert (CL : clique n adj c).
    { pose proof (nw_clique rnd p n adj w MK HE LV q e lb ub heur dfs H HP) as K.
      destruct (nw_get_max_clique rnd e q lb ub heur dfs) as [[q1 r]| |]; cbn [answer ends_with] in *; try discriminate. injection A as ->.
      destruct K as [[-> | K] _]; [cbn in HL; lia|exact K]. }
    destruct (grown_clique c CL) as (d & D & DL & DW).
    pose proof (nw_heaviest rnd p' n' adj' w' MK' grown_edge LV' SE' NN' q' e' lb' ub' heur' H' HP' HU) as K.
    destruct (nw_get_max_clique rnd e' q' lb' ub' heur' true) as [[q1 [c'|x]]| |]; cbn [ends_with] in *; auto.
    - specialize (K d D ltac:(lia)). lia.
    - destruct K as [-> K]. split; [reflexivity|]. specialize (K d D ltac:(lia)). lia.
  Qed.
End Grow.

Lemma grows_refl n adj w : grows n n adj adj w w (fun v => v).
Proof. repeat split; auto; lia. Qed.

(** Renumbering both ways *)
Lemma renumber_weight rnd p p' n adj adj' w w' s t : nmade rnd p n adj w -> nmade rnd p' n adj' w' -> grows n n adj adj' w w' s -> grows n n adj' adj w' w t ->
  has_edge adj -> nstorage_live p -> nstorage_live p' -> sums_exact rnd w -> nonnegative w -> sums_exact rnd w' -> nonnegative w' ->
  forall e e' lb lb' ub ub' heur heur' c c', npermutes e -> npermutes e' -> all_within n adj w ub -> all_within n adj' w' ub' ->
  answer (nw_get_max_clique rnd e p lb ub heur true) = Ok (Ret c) -> answer (nw_get_max_clique rnd e' p' lb' ub' heur' true) = Ok (Ret c') ->
  2 <= length c -> 2 <= length c' -> weight w c = weight w' c'.
Proof.
  intros MK MK' G G' HE LV LV' SE NN SE' NN' e e' lb lb' ub ub' heur heur' c c' HP HP' HU HU' A A' HL HL'.
  pose proof (grown_edge n n adj adj' w w' s G HE) as HE'.
  pose proof (grown_best n n adj adj' w w' s G rnd p p' MK MK' HE LV LV' SE' NN' p p' e e' lb lb' ub ub' heur heur' true c
    (nh_start rnd p) (or_introl eq_refl) HP HP' HU' A HL) as K.
  pose proof (grown_best n n adj' adj w' w t G' rnd p' p MK' MK HE' LV' LV SE NN p' p e' e lb' lb ub' ub heur' heur true c'
    (nh_start rnd p') (or_introl eq_refl) HP' HP HU A' HL') as K'.
  destruct (nw_get_max_clique rnd e p lb ub heur true) as [[q1 r]| |]; cbn [answer ends_with] in *; try discriminate. injection A as ->.
  destruct (nw_get_max_clique rnd e' p' lb' ub' heur' true) as [[q2 r]| |]; cbn [answer ends_with] in *; try discriminate. injection A' as ->. lia.
Qed.
