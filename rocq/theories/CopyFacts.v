(** CopyFacts: what an exporter writes, the loader of the same name reads back (C105). *)
From Verif Require Import Base MUtils MGraph MEnum MApi MExt MNW MNWEnum MNWApi Spec SpecNW SpecKeep SpecScript SpecCopy BaseFacts LoadFacts SetFacts LoadProps ExportFacts ExtFacts KeepProps NWProps ScriptFacts.
From Coq Require Import Sorting.Sorted.
Local Open Scope nat_scope.

Lemma made_ends p n adj : made p n adj -> forall u v, adj u v -> u <> v /\ 1 <= u <= n /\ 1 <= v <= n.
Proof. intros H u v A. destruct (made_simple _ _ _ H _ _ A) as (B & ? & ?). destruct (made_simple _ _ _ H _ _ B) as (_ & _ & ?). auto. Qed.

Lemma made_copies p n adj adj' : made p n adj' -> (forall u v, adj u v <-> adj' u v) -> (forall l, edges_of adj' l -> p_nedges p = length l) -> copies n adj p.
Proof.
  intros H AE C. split; [eapply made_nvert; eauto|]. split.
  - intros l [L1 L2]. apply C. split; auto. intros u v. rewrite L2, AE. tauto.
  - intros v Hv. pose proof (made_neighbors p n _ v H Hv) as W. apply wp_iff in W. destruct W as (r & W & l & -> & S & I). exists l.
    split; auto. split; auto. intros u. rewrite I, AE. tauto.
Qed.

Lemma pairs_bound n (adj : nat -> nat -> Prop) l : (forall u v, adj u v -> u <> v /\ 1 <= u <= n /\ 1 <= v <= n) -> edges_of adj l -> 2 * length l <= n * n.
Proof.
  intros AS [N H].
  assert (length (l ++ map (fun x => (snd x, fst x)) l) <= length (list_prod (seq 1 n) (seq 1 n))) as B.
  { apply NoDup_incl_length.
    - apply NoDup_app_intro; auto.
      + apply FinFun.Injective_map_NoDup; auto. intros [a b] [c d] E. cbn in E. congruence.
      + intros [u v] I J. apply in_map_iff in J. destruct J as ([a b] & E & J). cbn in E. inversion E; subst. apply H in I, J. lia.
    - intros [u v] I. apply in_app_iff in I. apply in_prod_iff. rewrite !in_seq. destruct I as [I|I].
      + apply H in I. destruct I as [_ I]. apply AS in I. lia.
      + apply in_map_iff in I. destruct I as ([a b] & E & I). cbn in E. inversion E; subst. apply H in I. destruct I as [_ I]. apply AS in I. lia. }
  rewrite app_length, map_length, prod_length, !seq_length in B. lia.
Qed.

Lemma copy_matrix p n adj : made p n adj -> 1 <= n -> fits (1 + 2 * (n * n)) -> forall q, calls p q ->
  exists M p', to_matrix q = Ok (Ret M) /\ from_matrix n n (cell M) = Ok (Ret p') /\ copies n adj p' /\ same_for_programs p p'.
Proof.
  intros H Hn HF q C. destruct (calls_exports _ _ C) as (_ & -> & _).
  pose proof (made_to_matrix p n adj H Hn) as W. apply wp_iff in W. destruct W as (r & -> & M & -> & L & R & K).
  pose proof (matrix_neighbors n (cell M) HF) as W. apply wp_iff in W. destruct W as (r & W & p' & -> & _).
  pose proof (made_ends _ _ _ H) as AS. assert (forall u v, adj u v -> adj v u) as SY by (intros u v A; apply (made_simple _ _ _ H) in A; apply A).
  assert (forall u v, adj u v <-> adj_matrix n (cell M) u v) as AE.
  { intros u v. unfold adj_matrix, cell. split.
    - intros A. destruct (AS _ _ A) as (A1 & A2 & A3). repeat split; try lia. left. apply K; auto.
    - intros (A1 & A2 & A3 & [A|A]); [apply K in A; auto|]. apply SY. apply K in A; auto. }
  exists M, p'. split; auto. split; auto. pose proof (made_matrix _ _ _ HF W) as H'. split.
  - eapply made_copies; [exact H'|exact AE|]. intros l. apply (matrix_nedges n (cell M)); auto. intros i j Hi Hj.
    pose proof (K (i + 1) (j + 1) ltac:(lia) ltac:(lia)) as K1. pose proof (K (j + 1) (i + 1) ltac:(lia) ltac:(lia)) as K2.
    replace (i + 1 - 1) with i in * by lia. replace (j + 1 - 1) with j in * by lia. unfold cell.
    destruct (nth j (nth i M []) false), (nth i (nth j M []) false); auto.
    + symmetry. apply K2, SY, K1. reflexivity.
    + apply K1, SY, K2. reflexivity.
  - intros LV s. symmetry. eapply made_indistinct; eauto.
Qed.

Lemma copy_edgelist p n adj : made p n adj -> 1 <= n -> fits (1 + 2 * (n * n)) -> (forall l, edges_of adj l -> p_nedges p = length l) ->
  forall q, calls p q ->
  exists rows p', to_edgelist q = Ok (Ret (map Some rows)) /\ from_edgelist rows n = Ok (Ret p') /\ copies n adj p' /\ same_for_programs p p'.
Proof.
  intros H Hn HF HC q C. destruct (calls_exports _ _ C) as (_ & _ & _ & -> & _).
  pose proof (made_to_edgelist p n adj H Hn HC) as W. apply wp_iff in W. destruct W as (r & -> & rows & -> & L & [N E] & S).
  pose proof (made_ends _ _ _ H) as AS. assert (forall u v, adj u v -> adj v u) as SY by (intros u v A; apply (made_simple _ _ _ H) in A; apply A).
  pose proof (pairs_bound n adj rows AS (conj N E)) as B.
  assert (fits (n + 1 + 2 * length rows)) as HF' by (unfold fits in *; nia).
  pose proof (edgelist_accepts rows n HF') as W. apply wp_iff in W. destruct W as (r & W & [(_ & p' & ->)|(K & _)]).
  2:{ destruct K. intros u v I. apply E in I. destruct I as [_ I]. apply AS in I. lia. }
  assert (forall u v, adj u v <-> adj_rows rows u v) as AE.
  { intros u v. unfold adj_rows. rewrite !E. split.
    - intros A. pose proof (AS _ _ A). split; [lia|]. destruct (Nat.lt_ge_cases u v); [left|right]; split; auto; try lia.
    - intros (_ & [[_ A]|[_ A]]); auto. }
  exists rows, p'. split; auto. split; auto. pose proof (made_edgelist _ _ _ HF' W) as H'. split.
  - eapply made_copies; [exact H'|exact AE|]. intros l HL. apply (edgelist_nedges rows n p' HF' W l HL). split.
    + replace (map _ rows) with rows; auto. rewrite <- (map_id rows) at 1. apply map_ext_in. intros [u v] I. apply E in I. cbn.
      rewrite Nat.min_l, Nat.max_r by lia. reflexivity.
    + intros u I. apply E in I. lia.
  - intros LV s. symmetry. eapply made_indistinct; eauto.
Qed.

Lemma sum_bound (A : list (list nat)) k : (forall x, In x A -> length x <= k) -> list_sum (map (@length nat) A) <= length A * k.
Proof.
  induction A as [|x A IH]; intros H; cbn; auto. pose proof (H x (or_introl eq_refl)). specialize (IH (fun y I => H y (or_intror I))).
  unfold list_sum in *. lia.
Qed.

Lemma copy_adjlist p n adj : made p n adj -> 1 <= n -> fits (1 + 2 * (n * n)) -> forall q, calls p q ->
  exists A, to_adjlist q = Ok (Ret A)
    /\ (forall l, edges_of adj l -> exists p', from_adjlist n (length l) A = Ok (Ret p') /\ copies n adj p' /\ same_for_programs p p')
    /\ (forall l m, edges_of adj l -> m <> length l -> exists x, from_adjlist n m A = Ok (Raise x)).
Proof.
  intros H Hn HF q C. destruct (calls_exports _ _ C) as (_ & _ & -> & _).
  pose proof (made_to_adjlist p n adj H Hn) as W. apply wp_iff in W. destruct W as (r & -> & A & -> & L & Z0 & K).
  pose proof (made_ends _ _ _ H) as AS. assert (forall u v, adj u v -> adj v u) as SY by (intros u v B; apply (made_simple _ _ _ H) in B; apply B).
  assert (forall v, StronglySorted lt (nth v A [])) as SO.
  { intros v. destruct (Nat.le_gt_cases v n) as [Hv|Hv]; [|rewrite nth_overflow by lia; constructor].
    pose proof (made_neighbors p n _ v H Hv) as W. apply wp_iff in W. destruct W as (r & W & l & -> & S & _).
    destruct (K v Hv) as [K1 _]. rewrite W in K1. inversion K1. subst. auto. }
  assert (real_sets A) as RS.
  { apply Forall_forall. intros x I. apply (In_nth _ _ []) in I. destruct I as (v & _ & <-). apply SO. }
  assert (forall u v, adj u v <-> adj_sets A u v) as AE.
  { intros u v. unfold adj_sets. destruct (Nat.le_gt_cases u n) as [Hu|Hu]; [symmetry; apply K; auto|].
    rewrite nth_overflow by lia. split; [|intros []]. intros B. apply AS in B. lia. }
  assert (forall v, length (nth v A []) <= n) as LB.
  { intros v. rewrite <- (seq_length n 1). apply NoDup_incl_length; [apply sorted_nodup; auto|]. intros u I. apply in_seq.
    apply AE in I. apply AS in I. lia. }
  assert (list_sum (map (@length nat) A) <= n * n) as SB.
  { destruct A as [|x A]; [cbn; lia|]. cbn in Z0. subst x. cbn [map list_sum fold_right length] in *. fold (list_sum (map (@length nat) A)).
    etransitivity; [apply sum_bound with (k := n)|].
    - intros x I. apply (In_nth _ _ []) in I. destruct I as (v & _ & <-). apply (LB (S v)).
    - nia. }
  assert (fits (length A + list_sum (map (@length nat) A))) as HF' by (unfold fits in *; nia).
  set (m0 := list_sum (map (@length nat) A) / 2).
  assert (sets_ok n m0 A) as OK.
  { split; auto. split; auto. split; [|reflexivity]. intros i j I. apply AE in I. pose proof (AS _ _ I). repeat split; try lia.
    apply AE, SY. auto. }
  pose proof (adjlist_accepts n m0 A HF') as W. apply wp_iff in W. destruct W as (r & W & [(_ & p' & ->)|(X & _)]); [|contradiction].
  assert (forall l, edges_of adj l -> edges_of (adj_sets A) l) as EE.
  { intros l [E1 E2]. split; auto. intros u v. rewrite E2, AE. tauto. }
  assert (forall l, edges_of adj l -> m0 = length l) as CT.
  { intros l HL. rewrite <- (adjlist_nedges _ _ _ _ HF' RS W l (EE l HL)). symmetry. apply (adjlist_neighbors _ _ _ _ HF' RS W). }
  exists A. split; auto. pose proof (made_adjlist _ _ _ _ HF' RS W) as H'. split.
  - intros l HL. rewrite <- (CT l HL). exists p'. split; auto. split.
    + eapply made_copies; [exact H'|exact AE|]. intros l' HL'. apply (adjlist_nedges _ _ _ _ HF' RS W); auto.
    + intros LV s. symmetry. eapply made_indistinct; eauto.
  - intros l m HL NE. pose proof (adjlist_accepts n m A HF') as V. apply wp_iff in V. destruct V as (r & V & [((_ & _ & _ & X) & _)|(_ & x & ->)]).
    + destruct NE. rewrite <- X. apply CT. auto.
    + exists x. auto.
Qed.

Section NW.
  Variable rnd : Z -> Z.

  Lemma nw_copy_matrix p n adj w : nmade rnd p n adj w -> 1 <= n -> fits (1 + 2 * (n * n)) -> forall q, ncalls rnd p q ->
    exists M p', nw_to_matrix q = Ok (Ret M) /\ nw_all_weights q = Ok (Ret w) /\ nw_from_matrix rnd n n (cell M) w = Ok (Ret p')
      /\ ncopies n adj w p' /\ nsame_for_programs rnd p p'.
  Proof.
    intros H Hn HF q C. destruct (ncalls_exports _ _ _ C) as (_ & -> & _ & -> & _). destruct (nmade_made _ _ _ _ _ H) as [LW MD].
    destruct (copy_matrix _ _ _ MD Hn HF _ (c_start _)) as (M & p0 & EM & E0 & _ & _). unfold nw_to_matrix.
    pose proof (nw_matrix_accepts rnd n n (cell M) w HF) as W. apply wp_iff in W. destruct W as (r & W & [(_ & _ & p' & ->)|(X & _)]); [|destruct X; auto].
    destruct (copy_matrix _ _ _ MD Hn HF _ (c_start _)) as (M' & p1 & EM' & E1 & CP & _). rewrite EM in EM'. inversion EM'; subst M'. clear EM' E0.
    destruct (nw_matrix_as _ _ _ _ _ W) as [_ E2]. rewrite E2 in E1. inversion E1. subst p1.
    pose proof (nmade_matrix rnd _ _ _ _ HF W) as H'.
    assert (forall u v, adj u v <-> adj_matrix n (cell M) u v) as AE.
    { intros u v. destruct CP as (_ & _ & CP). destruct (nmade_made _ _ _ _ _ H') as [_ MD'].
      destruct (Nat.le_gt_cases u n) as [Hu|Hu].
      - pose proof (made_neighbors _ _ _ u MD' Hu) as V. apply wp_iff in V. destruct V as (r & V & l & -> & _ & I).
        destruct (CP u Hu) as (l' & V' & _ & I'). rewrite V in V'. inversion V'; subst l'. rewrite <- I, <- I'. tauto.
      - split; intros A; [apply (made_ends _ _ _ MD) in A|apply (made_ends _ _ _ MD') in A]; lia. }
    exists M, p'. split; auto. split; [eapply nmade_weights; eauto|]. split; auto. split.
    - split; auto. eapply nmade_weights; eauto.
    - intros LV s. symmetry. eapply nmade_indistinct; eauto.
  Qed.

  Lemma nw_copy_edgelist p n adj w : nmade rnd p n adj w -> 1 <= n -> fits (1 + 2 * (n * n)) -> (forall l, edges_of adj l -> q_nedges p = length l) ->
    forall q, ncalls rnd p q ->
    exists rows p', nw_to_edgelist q = Ok (Ret (map Some rows)) /\ nw_all_weights q = Ok (Ret w) /\ nw_from_edgelist rnd rows n w = Ok (Ret p')
      /\ ncopies n adj w p' /\ nsame_for_programs rnd p p'.
  Proof.
    intros H Hn HF HC q C. destruct (ncalls_exports _ _ _ C) as (_ & -> & _ & _ & _ & ->). destruct (nmade_made _ _ _ _ _ H) as [LW MD].
    destruct (copy_edgelist _ _ _ MD Hn HF HC _ (c_start _)) as (rows & p1 & EM & E1 & CP & _). unfold nw_to_edgelist.
    pose proof (made_to_edgelist _ n adj MD Hn HC) as W. rewrite EM in W. destruct W as (rows' & R & _ & E & _). inversion R as [R'].
    assert (rows = rows') as <-.
    { clear - R'. revert rows' R'. induction rows as [|x l IH]; intros [|y l'] Q; try discriminate; auto. cbn in Q. inversion Q. f_equal; auto. }
    clear R R'. pose proof (pairs_bound n adj rows (made_ends _ _ _ MD) E) as B.
    assert (fits (n + 1 + 2 * length rows)) as HF' by (unfold fits in *; nia).
    pose proof (nw_edgelist_accepts rnd rows n w HF') as W. apply wp_iff in W. destruct W as (r & W & [(_ & _ & p' & ->)|(X & _)]).
    2:{ destruct X. split; auto. intros u v I. apply E in I. destruct I as [_ I]. apply (made_ends _ _ _ MD) in I. lia. }
    destruct (nw_edgelist_as _ _ _ _ _ W) as [_ E2]. rewrite E2 in E1. inversion E1. subst p1.
    pose proof (nmade_edgelist rnd _ _ _ _ HF' W) as H'.
    assert (forall u v, adj u v <-> adj_rows rows u v) as AE.
    { intros u v. destruct CP as (_ & _ & CP). destruct (nmade_made _ _ _ _ _ H') as [_ MD'].
      destruct (Nat.le_gt_cases u n) as [Hu|Hu].
      - pose proof (made_neighbors _ _ _ u MD' Hu) as V. apply wp_iff in V. destruct V as (r & V & l & -> & _ & I).
        destruct (CP u Hu) as (l' & V' & _ & I'). rewrite V in V'. inversion V'; subst l'. rewrite <- I, <- I'. tauto.
      - split; intros A; [apply (made_ends _ _ _ MD) in A|apply (made_ends _ _ _ MD') in A]; lia. }
    exists rows, p'. split; auto. split; [eapply nmade_weights; eauto|]. split; auto. split.
    - split; auto. eapply nmade_weights; eauto.
    - intros LV s. symmetry. eapply nmade_indistinct; eauto.
  Qed.
End NW.
