(** OrderFacts: the order of all_cliques, and what follows from it (C34, C35, C68). *)
From Verif Require Import Base MBits MUtils MGraph MHeur MStack MRec MEnum MApi MNW MNWEnum MNWApi Spec SpecNW SpecCont SpecOrder SpecNest SpecBits BaseFacts BitsFacts SetFacts SortFacts RowFacts ConstructFacts CardFacts LoadFacts SearchBase StackFacts SearchFacts CliqueFacts ApiFacts EnumFacts EnumApi SatFacts SearchProps NWSum NWBase NWFacts NWEnumFacts NWEnumApi NWProps NestFacts Samples.
From Coq Require Import Sorting.Sorted Sorting.Permutation.
Local Open Scope nat_scope.

Lemma drain_same lr p en q1 en1 l1 q2 en2 l2 : (forall fuel, length l1 < fuel -> drain fuel lr p en = Ok (q1, en1, l1)) ->
  (forall fuel, length l2 < fuel -> drain fuel lr p en = Ok (q2, en2, l2)) -> q1 = q2 /\ en1 = en2 /\ l1 = l2.
Proof.
  intros D1 D2. pose proof (drain_unique _ _ _ _ _ _ _ _ (D1 _ (Nat.lt_succ_diag_r _)) D2) as EQ. injection EQ as -> -> ->. auto.
Qed.

Lemma sorted_firstn {A} (R : A -> A -> Prop) l : StronglySorted R l -> forall i, StronglySorted R (firstn i l).
Proof.
  induction 1 as [|x l S IH F]; intros [|i]; cbn [firstn]; constructor; auto.
  rewrite Forall_forall in *. intros y I. apply F. rewrite <- (firstn_skipn i l). apply in_app_iff. auto.
Qed.

(** Two lists in order with the same elements are equal. *)
Lemma sorted_equal {A} (R : A -> A -> Prop) l L : (forall x y, In x L -> In y L -> R x y -> R y x -> False) ->
  StronglySorted R L -> StronglySorted R l -> (forall d, In d l <-> In d L) -> L = l.
Proof.
  intros AS SL Sl E. destruct (sorted_prefix R l L AS SL Sl) as (rest & EL).
  - intros d I. apply E. auto.
  - intros d I NI. destruct NI. apply E. auto.
  - destruct rest as [|x rest]; [rewrite EL; apply app_nil_r|]. exfalso.
    assert (IL : In x L) by (rewrite EL; apply in_app_iff; right; left; auto). assert (Il : In x l) by (apply E; auto).
    subst L. clear - AS SL Il. assert (IX : In x (l ++ x :: rest)) by (apply in_app_iff; auto).
    apply (AS x x IX IX); clear AS IX.
    + induction l as [|y l IH]; [destruct Il|]. inversion SL as [|? ? S F]; subst. rewrite Forall_forall in F. destruct Il as [->|I]; auto.
      apply F, in_app_iff. right. left. auto.
    + induction l as [|y l IH]; [destruct Il|]. inversion SL as [|? ? S F]; subst. rewrite Forall_forall in F. destruct Il as [->|I]; auto.
      apply F, in_app_iff. right. left. auto.
Qed.

(** ** C68 *)
Lemma order_history p n adj q lr k : made p n adj -> has_edge adj -> storage_live p -> history p q ->
  exists q' en l, (forall fuel, length l < fuel -> drain fuel lr q (new_enum k) = Ok (q', en, l)) /\ StronglySorted (listed_before adj) l.
Proof.
  intros M HE LV H. destruct (made_hinv p n adj M HE LV) as (a & cap & m & g & GR & B & -> & _ & _ & _ & _ & _ & HI & _).
  pose proof (has_edge_n a n adj GR HE) as Hn.
  destruct (history_hinv a n adj GR _ q Hn HI H) as (g1 & mcs & m1 & cur & fin & -> & G & Z & SS).
  destruct (drain_order a n adj GR g1 mcs (good_ready a n g1 mcs G) m1 cur fin lr k) as (l & (g' & en' & DR & _) & SO).
  exists (mkP (Some g') n m1 cur fin), en', l. auto.
Qed.

Lemma order_fresh p n adj lr k : made p n adj -> storage_live p ->
  exists q' en l, (forall fuel, length l < fuel -> drain fuel lr p (new_enum k) = Ok (q', en, l)) /\ StronglySorted (listed_before adj) l.
Proof.
  intros M (g & EG & LV). destruct (made_fresh p n adj M) as (a & cap & m & g0 & -> & GR & B). cbn [p_G] in EG. injection EG as ->.
  destruct (drain_order a n adj GR g (bound a) (fresh_ready a n adj cap g GR B LV) m 0 false lr k) as (l & (g' & en' & DR & _) & SO).
  exists (mkP (Some g') n m 0 false), en', l. auto.
Qed.

Lemma listed_in_order p n adj : made p n adj -> storage_live p -> forall q lr k i q' en l,
  has_edge adj -> history p q -> nexts i lr q (new_enum k) = Ok (q', en, l) -> StronglySorted (listed_before adj) l.
Proof.
  intros M LV q lr k i q' en l HE H E. destruct (order_history p n adj q lr k M HE LV H) as (q1 & en1 & l1 & D & SO).
  destruct (drain_nexts lr _ _ _ _ _ _ i (D _ (Nat.lt_succ_diag_r _))) as (q2 & en2 & E2). rewrite E2 in E. injection E as <- <- <-.
  apply sorted_firstn. auto.
Qed.

Lemma fresh_in_order p n adj : made p n adj -> storage_live p -> forall lr k i q' en l,
  nexts i lr p (new_enum k) = Ok (q', en, l) -> StronglySorted (listed_before adj) l.
Proof.
  intros M LV lr k i q' en l E. destruct (order_fresh p n adj lr k M LV) as (q1 & en1 & l1 & D & SO).
  destruct (drain_nexts lr _ _ _ _ _ _ i (D _ (Nat.lt_succ_diag_r _))) as (q2 & en2 & E2). rewrite E2 in E. injection E as <- <- <-.
  apply sorted_firstn. auto.
Qed.

Lemma nw_listed_in_order rnd p n adj w : nmade rnd p n adj w -> has_edge adj -> nstorage_live p -> forall q e T lr, nhistory rnd p q ->
  exists en q' en' l, nw_all_cliques e q T = Ret en
    /\ (forall fuel, length l < fuel -> nw_drain rnd fuel lr q en = Ok (q', en', l)) /\ (sums_exact rnd w -> StronglySorted (nw_listed_before n adj w T) l).
Proof.
  intros MK HE LV q e T lr H. destruct (nmade_inv rnd p n adj w MK HE LV) as (a & GR & LW & Hn & IP & _).
  destruct (history_ninv rnd p n adj w a q GR LW Hn IP H) as [(W & mcs & m & cur & fin & -> & G) _].
  destruct (nw_drain_full a n adj w rnd GR LW W mcs G m cur fin lr T (map (nw_junk e) (seq 0 (max_degree (w_g W)))))
    as (l & (W' & en2 & DR & _) & _ & _ & _ & SO); [rewrite map_length, seq_length; auto|].
  do 4 eexists. split; [apply nw_all_new; auto|]. split; [exact DR|]. intros SE. apply SO, (exact_sums a n adj w rnd GR LW SE).
Qed.

(** The order settles which of two cliques comes first. *)
Lemma order_total p n adj : made p n adj -> storage_live p -> forall d d', clique n adj d -> clique n adj d' -> d <> [] -> d' <> [] -> d <> d' ->
  (listed_before adj d d' /\ ~ listed_before adj d' d) \/ (listed_before adj d' d /\ ~ listed_before adj d d').
Proof.
  intros M LV d d' C C' NE NE' ND. destruct (made_fresh p n adj M) as (a & cap & m & g0 & -> & GR & B).
  assert (AS : listed_before adj d d' -> ~ listed_before adj d' d) by (intros H1 H2; exact (listed_asym a n adj GR d d' C C' H1 H2)).
  assert (AS' : listed_before adj d' d -> ~ listed_before adj d d') by (intros H1 H2; exact (listed_asym a n adj GR d' d C' C H1 H2)).
  assert (X : listed_before adj d d' \/ listed_before adj d' d); [|destruct X; auto].
  destruct (clique_rooted a n adj GR d C NE) as (v & K & Hv & I & R & P & E & ED).
  destruct (clique_rooted a n adj GR d' C' NE') as (v' & K' & Hv' & I' & R' & P' & E' & ED').
  pose proof (rooted_opens a n adj GR v K Hv R P) as O. pose proof (rooted_opens a n adj GR v' K' Hv' R' P') as O'.
  unfold decode in O, O'. rewrite <- ED in O. rewrite <- ED' in O'.
  assert (LT : forall l l', l <> l' -> lex l l' \/ lex l' l).
  { clear. induction l as [|x l IH]; intros [|y l'] N; [congruence|right; constructor|left; constructor|].
    destruct (Nat.lt_trichotomy x y) as [L|[->|L]]; [left; constructor; auto| |right; constructor; auto].
    destruct (IH l') as [H|H]; [congruence|left; constructor 3; auto|right; constructor 3; auto]. }
  destruct (Nat.lt_trichotomy v v') as [L|[->|L]].
  - left. exists v, v'. auto.
  - destruct (LT d d' ND) as [H|H]; [left|right]; exists v', v'; auto.
  - right. exists v', v. auto.
Qed.

(** ** C35 *)
Section Same.
  Variables (p : pygraph) (n : nat) (adj : nat -> nat -> Prop).
  Hypothesis M : made p n adj.
  Hypothesis LV : storage_live p.

  Lemma listed_same (l L : list (list nat)) : StronglySorted (listed_before adj) l -> StronglySorted (listed_before adj) L ->
    (forall d, In d L -> clique n adj d) -> Permutation l L -> l = L.
  Proof.
    intros S1 S2 C PE. destruct (made_fresh p n adj M) as (a & cap & m & g0 & _ & GR & _).
    symmetry. apply (sorted_equal (listed_before adj)); auto.
    - intros x y Ix Iy. apply (listed_asym a n adj GR); auto.
    - intros d. split; apply Permutation_in; [|apply Permutation_sym]; exact PE.
  Qed.

  Lemma same_sequence q lr lr' k : has_edge adj -> unhurried n adj p q -> exists q1 en1 q2 en2 l,
    (forall fuel, length l < fuel -> drain fuel lr p (new_enum k) = Ok (q1, en1, l))
    /\ (forall fuel, length l < fuel -> drain fuel lr' q (new_enum k) = Ok (q2, en2, l)).
  Proof.
    intros HE H. destruct (search_then_enumerate p n adj M LV q lr lr' k HE H) as (q1 & en1 & l1 & q2 & en2 & l2 & D1 & D2 & PE).
    destruct (order_fresh p n adj lr k M LV) as (q3 & en3 & l3 & D3 & S3).
    destruct (order_history p n adj q lr' k M HE LV (unhurried_history p n adj q H)) as (q4 & en4 & l4 & D4 & S4).
    destruct (drain_same _ _ _ _ _ _ _ _ _ D1 D3) as (<- & <- & <-). destruct (drain_same _ _ _ _ _ _ _ _ _ D2 D4) as (<- & <- & <-).
    destruct (enumerate_history p n adj q lr' k M HE LV (unhurried_history p n adj q H)) as (q5 & en5 & l5 & D5 & _ & _ & C5 & _).
    destruct (drain_same _ _ _ _ _ _ _ _ _ D2 D5) as (<- & <- & <-).
    rewrite <- (listed_same l1 l2 S3 S4 (fun d I => proj1 (C5 d I)) PE) in D2. exists q1, en1, q2, en2, l1. auto.
  Qed.

  Lemma default_same_sequence e heur cont lr lr' k : has_edge adj -> permutes e -> untimed e -> (Z.of_nat n <= 65535)%Z ->
    exists q r, get_max_clique e p 1 DEFAULT_UB heur true cont = Ok (q, r) /\ exists q1 en1 q2 en2 l,
    (forall fuel, length l < fuel -> drain fuel lr p (new_enum k) = Ok (q1, en1, l))
    /\ (forall fuel, length l < fuel -> drain fuel lr' q (new_enum k) = Ok (q2, en2, l)).
  Proof.
    intros HE HP U Hn. destruct (ends_ok _ _ (default_max p n adj e heur cont M HE LV HP U Hn)) as ([q r] & E & _).
    exists q, r. split; auto. apply same_sequence; auto.
    eapply u_get; [apply u_start|exact HP|apply (untimed_never_late e U)| |exact E].
    intros d D. pose proof (clique_length n adj d D). pose proof default_ub_z. lia.
  Qed.

  (** ** C34 *)
  Lemma nest_prefix lr st q k en l : has_edge adj -> loops n adj lr true p st q -> In (mkL k en l) st ->
    exists q' en' rest, forall fuel, length (l ++ rest) < fuel -> drain fuel lr p (new_enum k) = Ok (q', en', l ++ rest).
  Proof.
    intros HE H I. destruct (made_linv p n adj true lr M HE LV) as (a & GR & Hn & I0).
    destruct (loops_linv a n adj GR lr true p st q Hn I0 H) as (g & mcs & m & cu & fin & -> & L).
    destruct (enumerate_fresh p n adj lr k M LV) as (q1 & en1 & L1 & D1 & _ & N1 & C1 & _ & A1 & A2).
    destruct (order_fresh p n adj lr k M LV) as (q2 & en2 & L2 & D2 & S2).
    destruct (drain_same _ _ _ _ _ _ _ _ _ D1 D2) as (<- & <- & <-).
    assert (X : exists g c1 c2, slot a n lr true g c1 c2 (mkL k en l)).
    { clear - L I. pose proof (lg_stack _ _ _ _ _ _ _ L) as S. clear L. revert S. generalize (search_cur g). induction st as [|x st IH]; intros c S; [destruct I|].
      cbn [stacked] in S. destruct S as (c1 & S1 & S2). destruct I as [->|I]; eauto. }
    destruct X as (g1 & c1 & c2 & S).
    destruct (slot_prefix a n adj GR lr true g1 c1 c2 k en l L1 eq_refl S A1) as (rest & ->).
    - intros Hk. split; auto. intros d. rewrite (A2 Hk). split.
      + intros (X1 & X2 & X3). split; auto. split; auto. intros F. apply X3. apply (missed_iff a n adj GR); auto.
      + intros (X1 & X2 & X3). split; auto. split; auto. intros F. apply X3. apply (missed_iff a n adj GR); auto.
    - exists q1, en1, rest. auto.
  Qed.

  Lemma nest_whole lr st q k en l : has_edge adj -> loops n adj lr true p (mkL k en l :: st) q -> roomleft n adj st ->
    ends_with (next_clique lr q en) (fun r => match snd r with
      | Ret c => exists q' en' rest, forall fuel, length (l ++ c :: rest) < fuel -> drain fuel lr p (new_enum k) = Ok (q', en', l ++ c :: rest)
      | Raise x => x = EStopIteration /\ exists q' en', forall fuel, length l < fuel -> drain fuel lr p (new_enum k) = Ok (q', en', l)
      end).
  Proof.
    intros HE H F. pose proof (nest_next p n adj lr true st q k en l M HE LV H F) as W.
    destruct (next_clique lr q en) as [[[q' en'] [c|x]]| |] eqn:E; cbn [ends_with snd] in *; try contradiction.
    - destruct (nest_prefix lr (mkL k en' (l ++ [c]) :: st) q' k en' (l ++ [c]) HE) as (q1 & en1 & rest & D).
      + eapply l_next; eauto.
      + left. auto.
      + exists q1, en1, rest. intros fuel. specialize (D fuel). rewrite <- app_assoc in D. exact D.
    - destruct W as [-> W]. split; auto.
      destruct (nest_prefix lr (mkL k en l :: st) q k en l HE H (or_introl eq_refl)) as (q1 & en1 & rest & D).
      destruct rest as [|d rest]; [exists q1, en1; intros fuel Hf; specialize (D fuel); rewrite app_nil_r in D; auto|]. exfalso.
      destruct (enumerate_fresh p n adj lr k M LV) as (q2 & en2 & L2 & D2 & _ & N2 & C2 & A0 & _ & A2).
      destruct (drain_same _ _ _ _ _ _ _ _ _ D D2) as (_ & _ & <-).
      assert (I : In d (l ++ d :: rest)) by (apply in_app_iff; right; left; auto). destruct (C2 d I) as [K1 K2].
      apply (NoDup_remove_2 _ _ _ N2). apply in_app_iff. left. apply W; auto.
      + destruct k; [|lia]. rewrite (A0 eq_refl) in I. destruct I.
      + intros Hk. apply (A2 Hk) in I. tauto.
  Qed.
End Same.
