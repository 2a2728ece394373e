(** ChangeFacts: cliques and degrees of a graph whose vertices are renumbered or that gets another edge. *)
From Coq Require Import Permutation.
From Verif Require Import Base MBits MUtils MGraph MHeur MStack MRec MEnum MApi Spec SpecCont SpecBits BaseFacts BitsFacts SetFacts SortFacts RowFacts ConstructFacts CardFacts LoadFacts SearchBase StackFacts RecFacts HeurFacts SearchFacts CliqueFacts ApiFacts EnumFacts EnumApi SatFacts SearchProps SpecChange SearchProps Samples SwapFacts.
Local Open Scope nat_scope.

Lemma lt_nodup l : StronglySorted lt l -> NoDup l.
Proof.
  induction 1 as [|x l S IH F]; constructor; auto. intros I. rewrite Forall_forall in F. specialize (F x I). lia.
Qed.

(** The members of a list, in increasing order. *)
Definition ordered (n : nat) (l : list nat) : list nat := filter (fun v => existsb (Nat.eqb v) l) (seq 1 n).
Lemma in_ordered n l v : (forall x, In x l -> 1 <= x <= n) -> (In v (ordered n l) <-> In v l).
Proof.
  intros R. unfold ordered. rewrite filter_In, existsb_exists, in_seq. split.
  - intros (_ & x & I & E). apply Nat.eqb_eq in E. subst. auto.
  - intros I. pose proof (R v I). split; [lia|]. exists v. split; auto. apply Nat.eqb_refl.
Qed.
Lemma seq_sorted a n : StronglySorted lt (seq a n).
Proof.
  revert a. induction n as [|n IH]; intros a; cbn; constructor; auto. apply Forall_forall. intros x X. apply in_seq in X. lia.
Qed.
Lemma ordered_sorted n l : StronglySorted lt (ordered n l).
Proof. apply filter_sorted, seq_sorted. Qed.

Lemma same_length (c d : list nat) : NoDup c -> NoDup d -> (forall v, In v c <-> In v d) -> length c = length d.
Proof. intros C D H. apply Permutation_length, NoDup_Permutation; auto. Qed.

Section Renumber.
  Variables (n : nat) (adj adj' : nat -> nat -> Prop) (s : nat -> nat).
  Hypothesis R : renumbers n adj adj' s.
  Hypothesis SI : simple n adj.
  Hypothesis SI' : simple n adj'.

  Lemma map_nodup l : (forall v, In v l -> 1 <= v <= n) -> NoDup l -> NoDup (map s l).
  Proof.
    destruct R as (_ & RI & _). induction l as [|x l IH]; intros H N; cbn; constructor; inversion_clear N.
    - rewrite in_map_iff. intros (y & E & I). apply RI in E; [subst; auto| |]; apply H; cbn; auto.
    - apply IH; auto. intros; apply H; cbn; auto.
  Qed.

  Lemma image_clique c : clique n adj c -> exists d, clique n adj' d /\ length d = length c /\ image s c d.
  Proof.
    destruct R as (RR & RI & RA). intros (C1 & C2 & C3). exists (ordered n (map s c)).
    assert (RG : forall x, In x (map s c) -> 1 <= x <= n). { intros x. rewrite in_map_iff. intros (y & <- & I). auto. }
    assert (IM : image s c (ordered n (map s c))).
    { intros v. rewrite in_ordered by auto. rewrite in_map_iff. split; intros (u & A & B); exists u; auto. }
    split; [|split; auto].
    - split; [apply ordered_sorted|]. split.
      + intros v I. apply IM in I. destruct I as (u & I & ->). auto.
      + intros u v U V N. apply IM in U, V. destruct U as (x & X & ->). destruct V as (y & Y & ->). apply RA; auto; apply C3; auto; congruence.
    - rewrite <- (map_length s c). apply same_length; [apply lt_nodup, ordered_sorted|apply map_nodup; auto; apply lt_nodup; auto|].
      intros v. apply in_ordered. auto.
  Qed.

  (** All numbers are used. *)
  Lemma onto v : 1 <= v <= n -> exists u, 1 <= u <= n /\ s u = v.
  Proof.
    destruct R as (RR & RI & RA). intros V.
    assert (I : incl (seq 1 n) (map s (seq 1 n))).
    { apply NoDup_length_incl; [apply map_nodup|rewrite map_length; lia|].
      - intros x X. apply in_seq in X. lia.
      - apply seq_NoDup.
      - intros x. rewrite in_map_iff. intros (y & <- & Y). apply in_seq in Y. apply in_seq. specialize (RR y). lia. }
    specialize (I v). rewrite in_map_iff in I. destruct I as (u & E & U); [apply in_seq; lia|]. apply in_seq in U. exists u. split; [lia|auto].
  Qed.

  Lemma inverse : exists t, renumbers n adj' adj t /\ (forall v, 1 <= v <= n -> t (s v) = v) /\ (forall v, 1 <= v <= n -> s (t v) = v).
  Proof.
    pose proof onto as O. destruct R as (RR & RI & RA).
    assert (X : forall v, 1 <= v <= n -> index v (map s (seq 1 n)) < n /\ s (1 + index v (map s (seq 1 n))) = v).
    { intros v V. destruct (O v V) as (u & U & E). destruct (index_in v (map s (seq 1 n))) as (A & B).
      { rewrite in_map_iff. exists u. split; auto. apply in_seq. lia. }
      rewrite map_length, seq_length in A. split; auto.
      rewrite (nth_indep _ 0 (s 0)) in B by (rewrite map_length, seq_length; auto). rewrite map_nth in B. rewrite seq_nth in B by auto. exact B. }
    exists (fun v => 1 + index v (map s (seq 1 n))).
    assert (RT : forall v, 1 <= v <= n -> 1 <= 1 + index v (map s (seq 1 n)) <= n). { intros v V. destruct (X v V). lia. }
    split; [split; [exact RT|split]|split].
    - intros u v U V E. rewrite <- (proj2 (X u U)), <- (proj2 (X v V)). congruence.
    - intros u v U V. rewrite (RA _ _ (RT u U) (RT v V)), (proj2 (X u U)), (proj2 (X v V)). tauto.
    - intros v V. apply RI; [apply RT; auto|auto|apply X; auto].
    - intros v V. apply X; auto.
  Qed.

  Lemma in_range u v : adj u v -> 1 <= u <= n /\ 1 <= v <= n.
  Proof. intros A. destruct (SI _ _ A) as (B & _ & H). destruct (SI _ _ B) as (_ & _ & H'). auto. Qed.

  Lemma image_degree v d : 1 <= v <= n -> degree adj v d -> degree adj' (s v) d.
  Proof.
    intros V (l & N & A & L). exists (map s l). assert (RG : forall u, In u l -> 1 <= u <= n) by (intros u U; apply A in U; apply in_range in U; tauto).
    split; [apply map_nodup; auto|]. split; [|rewrite map_length; auto]. intros u. rewrite in_map_iff. pose proof onto as O. destruct R as (RR & RI & RA).
    split.
    - intros (x & <- & I). apply RA; auto. apply A; auto.
    - intros H. destruct (SI' _ _ H) as (H' & _ & _). destruct (SI' _ _ H') as (_ & _ & U). destruct (O u U) as (x & X & E). exists x. split; auto.
      apply A. apply RA; auto. rewrite E. auto.
  Qed.
End Renumber.

Lemma image_back n adj adj' s t c d : renumbers n adj adj' s -> (forall v, In v c -> 1 <= v <= n) -> (forall v, 1 <= v <= n -> t (s v) = v) -> image s c d -> image t d c.
Proof.
  intros R RC T I v. split.
  - intros V. exists (s v). split; [apply I; eauto|symmetry; auto].
  - intros (u & U & ->). apply I in U. destruct U as (x & X & ->). rewrite T; auto.
Qed.

Lemma sorted_same c d : StronglySorted lt c -> StronglySorted lt d -> (forall v : nat, In v c <-> In v d) -> c = d.
Proof.
  intros C. revert d. induction C as [|x c C IH F]; intros d D H.
  - destruct d as [|y d]; auto. destruct (proj2 (H y)); cbn; auto.
  - destruct D as [|y d D F']; [destruct (proj1 (H x)); cbn; auto|]. rewrite Forall_forall in F, F'.
    assert (x = y).
    { destruct (proj1 (H x) (or_introl eq_refl)) as [E|E]; auto. destruct (proj2 (H y) (or_introl eq_refl)) as [E'|E']; auto.
      specialize (F y E'). specialize (F' x E). lia. }
    subst y. f_equal. apply IH; auto. intros v. split; intros I.
    + destruct (proj1 (H v) (or_intror I)) as [<-|]; auto. specialize (F x I). lia.
    + destruct (proj2 (H v) (or_intror I)) as [<-|]; auto. specialize (F' x I). lia.
Qed.

Lemma renumber_max p p' n adj adj' s : made p n adj -> made p' n adj' -> renumbers n adj adj' s -> has_edge adj -> storage_live p -> storage_live p' ->
  forall e e' ub ub' heur heur' cont cont', permutes e -> untimed e -> permutes e' -> untimed e' ->
  (forall d, clique n adj d -> length d <= ub) -> (forall d, clique n adj d -> length d <= ub') ->
  exists q c q' c', get_max_clique e p 1 ub heur true cont = Ok (q, Ret c) /\ get_max_clique e' p' 1 ub' heur' true cont' = Ok (q', Ret c')
    /\ length c = length c' /\ exists d, image s c d /\ clique n adj' d.
Proof.
  intros M M' R HE LV LV' e e' ub ub' heur heur' cont cont' P U P' U' B B'. pose proof (made_simple _ _ _ M) as SI. pose proof (made_simple _ _ _ M') as SI'.
  destruct (inverse n adj adj' s R) as (t & RT & TS & ST).
  assert (HE' : has_edge adj'). { destruct HE as (u & v & A). exists (s u), (s v). destruct (in_range n adj SI u v A). destruct R as (_ & _ & RA). apply RA; auto. }
  assert (B2 : forall d, clique n adj' d -> length d <= ub').
  { intros d D. destruct (image_clique n adj' adj t RT d D) as (c & C & L & _). rewrite <- L. auto. }
  pose proof (untimed_max p n adj e ub heur cont M HE LV P U B) as W. pose proof (untimed_max p' n adj' e' ub' heur' cont' M' HE' LV' P' U' B2) as W'.
  apply wp_iff in W, W'. destruct W as ([q r] & W & c & Er & C & X). destruct W' as ([q' r'] & W' & c' & Er' & C' & X'). cbn [snd] in Er, Er'. subst r r'.
  exists q, c, q', c'. split; [exact W|]. split; [exact W'|].
  destruct (image_clique n adj adj' s R c C) as (d & D & L & I). destruct (image_clique n adj' adj t RT c' C') as (d' & D' & L' & _).
  specialize (X d' D'). specialize (X' d D). split; [lia|eauto].
Qed.

Section Listed.
  Variables (p p' : pygraph) (n : nat) (adj adj' : nat -> nat -> Prop) (s : nat -> nat).
  Hypothesis M : made p n adj.
  Hypothesis M' : made p' n adj'.
  Hypothesis R : renumbers n adj adj' s.

  Lemma first_image c d : (forall v, In v c -> 1 <= v <= n) -> image s c d -> s 1 = 1 -> first_at_1 adj' d -> first_at_1 adj c.
  Proof.
    intros RC I S1 (F1 & F2). pose proof (made_simple _ _ _ M) as SI. pose proof (made_simple _ _ _ M') as SI'.
    apply I in F1. destruct F1 as (u & U & E). pose proof (RC u U). assert (u = 1). { destruct R as (_ & RI & _). apply RI; auto; lia. } subst u.
    split; auto. intros v d1 dv V D1 DV. apply (F2 (s v)).
    - apply I. eauto.
    - rewrite <- S1. apply (image_degree n adj adj' s R SI SI'); auto.
    - apply (image_degree n adj adj' s R SI SI'); auto.
  Qed.
End Listed.

Lemma renumber_listed p p' n adj adj' s : made p n adj -> made p' n adj' -> renumbers n adj adj' s -> storage_live p -> storage_live p' ->
  forall lr lr' k, 2 <= k -> exists q en l q' en' l',
    (forall fuel, length l < fuel -> drain fuel lr p (new_enum k) = Ok (q, en, l))
    /\ (forall fuel, length l' < fuel -> drain fuel lr' p' (new_enum k) = Ok (q', en', l'))
    /\ (forall c d, StronglySorted lt d -> image s c d -> In c l -> In d l' \/ In 1 d)
    /\ (s 1 = 1 -> forall c d, StronglySorted lt c -> StronglySorted lt d -> (forall v, In v c -> 1 <= v <= n) -> image s c d -> (In c l <-> In d l')).
Proof.
  intros M M' R LV LV' lr lr' k K. destruct (enumerated_exactly p n adj M LV lr k K) as (q & en & l & D & L).
  destruct (enumerated_exactly p' n adj' M' LV' lr' k K) as (q' & en' & l' & D' & L').
  destruct (inverse n adj adj' s R) as (t & RT & TS & ST).
  assert (KEY : forall adj adj' s c d, renumbers n adj adj' s -> StronglySorted lt d -> image s c d -> clique n adj c -> clique n adj' d /\ length d = length c).
  { clear. intros adj adj' s c d R SD I C. destruct (image_clique n adj adj' s R c C) as (d' & D' & LE & I').
    assert (d = d'). { apply sorted_same; auto; [apply D'|]. intros v. rewrite (I v), (I' v). tauto. } subst d'. auto. }
  exists q, en, l, q', en', l'. split; [exact D|]. split; [exact D'|]. split.
  - intros c d SD I IC. apply L in IC. destruct IC as (C & LC & F). destruct (KEY adj adj' s c d R SD I C) as (CD & LD).
    destruct (in_dec Nat.eq_dec 1 d) as [H|H]; auto. left. apply L'. split; auto. split; [lia|]. intros (H' & _). auto.
  - intros S1 c d SC SD RC I. pose proof (image_back n adj adj' s t c d R RC TS I) as I'.
    split; intros H.
    + apply L in H. destruct H as (C & LC & F). destruct (KEY adj adj' s c d R SD I C) as (CD & LD).
      apply L'. split; auto. split; [lia|]. intros F'. apply F. apply (first_image p p' n adj adj' s M M' R c d); auto.
    + apply L' in H. destruct H as (C & LC & F). destruct (KEY adj' adj t d c RT SC I' C) as (CD & LD).
      apply L. split; auto. split; [lia|]. intros F'. apply F.
      assert (In 1 c) by apply F'. pose proof (RC 1 H).
      apply (first_image p' p n adj' adj t M' M RT d c); auto; [apply C|]. rewrite <- (TS 1) at 2 by lia. congruence.
Qed.

(** ** Another edge *)
Lemma clique_wider n (adj adj' : nat -> nat -> Prop) c : (forall u v, adj u v -> adj' u v) -> clique n adj c -> clique n adj' c.
Proof. intros H (A & B & C). split; auto. Qed.

Lemma without_end n adj adj' a b c : with_edge adj adj' a b -> clique n adj' c -> exists d, clique n adj d /\ length c <= length d + 1.
Proof.
  intros W (C1 & C2 & C3). exists (filter (fun v => negb (v =? a)) c). split.
  - split; [apply filter_sorted; auto|]. split.
    + intros v V. apply filter_In in V. apply C2. tauto.
    + intros u v U V N. apply filter_In in U, V. destruct U as (U & NU). destruct V as (V & NV). apply negb_true_iff, Nat.eqb_neq in NU, NV.
      specialize (C3 u v U V N). apply W in C3. tauto.
  - clear C2 C3. induction C1 as [|x c S IH F]; cbn; [lia|]. destruct (Nat.eqb_spec x a) as [->|N]; cbn; [|lia].
    assert (E : filter (fun v => negb (v =? a)) c = c); [|rewrite E; lia].
    clear IH. rewrite Forall_forall in F. clear S. induction c as [|y c IH]; auto. cbn. destruct (Nat.eqb_spec y a) as [->|N]; cbn.
    + specialize (F a (or_introl eq_refl)). lia.
    + f_equal. apply IH. intros z Z. apply F. cbn. auto.
Qed.

Lemma edges_max p p' n (adj adj' : nat -> nat -> Prop) : made p n adj -> made p' n adj' -> (forall u v, adj u v -> adj' u v) -> has_edge adj -> storage_live p -> storage_live p' ->
  forall e e' ub ub' heur heur' cont cont', permutes e -> untimed e -> permutes e' -> untimed e' ->
  (forall d, clique n adj d -> length d <= ub) -> (forall d, clique n adj' d -> length d <= ub') ->
  exists q c q' c', get_max_clique e p 1 ub heur true cont = Ok (q, Ret c) /\ get_max_clique e' p' 1 ub' heur' true cont' = Ok (q', Ret c')
    /\ length c <= length c' /\ forall a b, with_edge adj adj' a b -> length c' <= length c + 1.
Proof.
  intros M M' IN HE LV LV' e e' ub ub' heur heur' cont cont' P U P' U' B B'.
  assert (HE' : has_edge adj') by (destruct HE as (u & v & A); exists u, v; auto).
  pose proof (untimed_max p n adj e ub heur cont M HE LV P U B) as W. pose proof (untimed_max p' n adj' e' ub' heur' cont' M' HE' LV' P' U' B') as W'.
  apply wp_iff in W, W'. destruct W as ([q r] & W & c & Er & C & X). destruct W' as ([q' r'] & W' & c' & Er' & C' & X'). cbn [snd] in Er, Er'. subst r r'.
  exists q, c, q', c'. split; [exact W|]. split; [exact W'|]. split; [apply X'; eapply clique_wider; eauto|].
  intros a b WE. destruct (without_end n adj adj' a b c' WE C') as (d & D & L). specialize (X d D). lia.
Qed.

(** Every edge but the new one, and every degree but those of its ends, is the same. *)
Lemma degree_apart adj adj' a b v d : with_edge adj adj' a b -> v <> a -> v <> b -> (degree adj' v d <-> degree adj v d).
Proof.
  intros W A B. assert (E : forall u, adj' v u <-> adj v u). { intros u. rewrite (W v u). tauto. }
  split; intros (l & N & H & L); exists l; (split; [auto|split; [|auto]]); intros u; rewrite (H u), (E u); tauto.
Qed.

Lemma made_degree p n adj v : made p n adj -> 1 <= v <= n -> exists d, degree adj v d.
Proof. intros M V. destruct (made_fresh _ _ _ M) as (a & cap & m & g & _ & G & _). exists (rlen a v - 1). apply (row_degree a n adj G). lia. Qed.

Lemma edges_listed p p' n adj adj' a b : made p n adj -> made p' n adj' -> with_edge adj adj' a b -> storage_live p -> storage_live p' ->
  forall lr lr' k, 2 <= k -> exists q en l q' en' l',
    (forall fuel, length l < fuel -> drain fuel lr p (new_enum k) = Ok (q, en, l))
    /\ (forall fuel, length l' < fuel -> drain fuel lr' p' (new_enum k) = Ok (q', en', l'))
    /\ forall c, In c l -> ~ In 1 c \/ (forall v, In v c -> v <> 1 -> v <> a /\ v <> b) -> In c l'.
Proof.
  intros M M' W LV LV' lr lr' k K. destruct (enumerated_exactly p n adj M LV lr k K) as (q & en & l & D & L).
  destruct (enumerated_exactly p' n adj' M' LV' lr' k K) as (q' & en' & l' & D' & L').
  exists q, en, l, q', en', l'. split; [exact D|]. split; [exact D'|]. intros c I H. apply L in I. destruct I as (C & LC & F). apply L'.
  split; [apply (clique_wider n adj adj'); auto; intros u v A; apply W; auto|]. split; auto. intros F'. apply F. destruct F' as (I1 & F'). destruct H as [H|H]; [tauto|].
  split; auto. intros u d1 du U D1 DU. destruct C as (_ & RC & _). destruct (made_degree p' n adj' 1 M' (RC 1 I1)) as (e1 & E1).
  assert (d1 <= e1).
  { destruct D1 as (x & NX & X & <-). destruct E1 as (y & NY & Y & <-). apply NoDup_incl_length; auto. intros z Z. apply Y, W. left. apply X, Z. }
  destruct (Nat.eq_dec u 1) as [->|N1]; [rewrite (degree_fun adj 1 d1 du); auto|].
  destruct (H u U N1) as (NA & NB). pose proof (proj2 (degree_apart adj adj' a b u du W NA NB) DU) as DU'. specialize (F' u e1 du U E1 DU'). lia.
Qed.

(** ** Concrete cases *)
Lemma with_edge_rows rows a b : a <> b -> with_edge (adj_rows rows) (adj_rows (rows ++ [(a, b)])) a b.
Proof.
  intros N u v. unfold adj_rows. rewrite !in_app_iff. cbn. split.
  - intros (X & [[H|[H|[]]]|[H|[H|[]]]]); try (injection H as <- <-); tauto.
  - intros [(X & H)|[(-> & ->)|(-> & ->)]]; [tauto|split; [auto|]|split; [auto|]]; auto 6.
Qed.

Definition adj_rowsb (rows : list (nat * nat)) (u v : nat) : bool :=
  negb (u =? v) && existsb (fun r => (fst r =? u) && (snd r =? v) || (fst r =? v) && (snd r =? u)) rows.
Lemma adj_rowsb_iff rows u v : adj_rowsb rows u v = true <-> adj_rows rows u v.
Proof.
  unfold adj_rowsb, adj_rows. rewrite andb_true_iff, negb_true_iff, Nat.eqb_neq, existsb_exists. apply and_iff_compat_l. split.
  - intros ([x y] & I & H). cbn in H. rewrite orb_true_iff, !andb_true_iff, !Nat.eqb_eq in H. destruct H as [(-> & ->)|(-> & ->)]; auto.
  - intros [I|I]; eexists; (split; [exact I|]); cbn; rewrite !Nat.eqb_refl; cbn; auto. apply orb_true_r.
Qed.
Definition renumbersb (n : nat) (rows rows' : list (nat * nat)) (s : nat -> nat) : bool :=
  forallb (fun u => (1 <=? s u) && (s u <=? n)) (seq 1 n)
  && forallb (fun u => forallb (fun v => (negb (s u =? s v) || (u =? v)) && Bool.eqb (adj_rowsb rows u v) (adj_rowsb rows' (s u) (s v))) (seq 1 n)) (seq 1 n).
Lemma renumbersb_sound n rows rows' s : renumbersb n rows rows' s = true -> renumbers n (adj_rows rows) (adj_rows rows') s.
Proof.
  unfold renumbersb. rewrite andb_true_iff, !forallb_forall. intros (A & B).
  assert (B' : forall u v, 1 <= u <= n -> 1 <= v <= n -> (s u = s v -> u = v) /\ (adj_rows rows u v <-> adj_rows rows' (s u) (s v))).
  { intros u v U V. specialize (B u ltac:(apply in_seq; lia)). rewrite forallb_forall in B. specialize (B v ltac:(apply in_seq; lia)).
    apply andb_true_iff in B. destruct B as (B1 & B2). apply eqb_prop in B2. rewrite <- !adj_rowsb_iff, B2. split; [|tauto].
    intros E. rewrite E, Nat.eqb_refl in B1. apply Nat.eqb_eq in B1. auto. }
  split; [|split].
  - intros v V. specialize (A v ltac:(apply in_seq; lia)). apply andb_true_iff in A. rewrite !Nat.leb_le in A. auto.
  - intros u v U V. apply B'; auto.
  - intros u v U V. apply B'; auto.
Qed.
