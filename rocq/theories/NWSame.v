(** NWSame: what calls made before do to the sequence of all_cliques, for Graph and NWGraph (C35, C71). *)
From Verif Require Import Base MBits MUtils MGraph MHeur MApi MNW MNWEnum MNWApi MExt Spec SpecNW SpecCont SpecOrder BaseFacts SetFacts RowFacts LoadFacts MEnum SearchProps SearchBase CliqueFacts EnumApi NWSum NWBase NWFacts NWEnumFacts NWEnumApi NWProps OrderFacts.
From Coq Require Import Sorting.Sorted Sorting.Permutation.
Local Open Scope nat_scope.

(** Two lists in order, one with elements of the other only. *)
Lemma sorted_subseq {A} (R : A -> A -> Prop) L : (forall x y, In x L -> In y L -> R x y -> R y x -> False) ->
  StronglySorted R L -> forall l, StronglySorted R l -> incl l L -> subseq l L.
Proof.
  induction L as [|y L IH]; intros AS SL l Sl I.
  - destruct l as [|x l]; [constructor|]. destruct (I x (or_introl eq_refl)).
  - apply StronglySorted_inv in SL. destruct SL as [SL FL]. rewrite Forall_forall in FL.
    assert (AS' : forall x z, In x L -> In z L -> R x z -> R z x -> False) by (intros; eapply AS; eauto; right; auto).
    destruct l as [|x l]; [constructor|]. pose proof Sl as Sl'. apply StronglySorted_inv in Sl. destruct Sl as [Sl Fl]. rewrite Forall_forall in Fl.
    assert (NR : forall z, In z (y :: L) -> ~ R z z) by (intros z Iz Q; exact (AS z z Iz Iz Q Q)).
    destruct (I x (or_introl eq_refl)) as [E|Ix].
    + subst x. constructor. apply IH; auto. intros z Iz. destruct (I z (or_intror Iz)) as [<-|]; auto. destruct (NR y); [left; auto|]. auto.
    + constructor. apply IH; auto. intros z Iz. destruct (I z Iz) as [<-|]; auto. exfalso. destruct Iz as [->|Iz].
      * apply (NR y); [left; auto|]. apply FL. auto.
      * apply (AS x y); [right; auto|left; auto|apply Fl; auto|apply FL; auto].
Qed.

(** ** C35 *)
Lemma later_subseq p n adj : made p n adj -> storage_live p -> forall q lr lr' k, has_edge adj -> history p q ->
  exists q1 en1 l q2 en2 l', (forall fuel, length l < fuel -> drain fuel lr p (new_enum k) = Ok (q1, en1, l))
    /\ (forall fuel, length l' < fuel -> drain fuel lr' q (new_enum k) = Ok (q2, en2, l')) /\ subseq l' l.
Proof.
  intros M LV q lr lr' k HE H.
  destruct (enumerate_fresh p n adj lr k M LV) as (q1 & en1 & l1 & D1 & _ & _ & C1 & A0 & A1 & A2).
  destruct (enumerate_history p n adj q lr' k M HE LV H) as (q2 & en2 & l2 & D2 & _ & _ & C2 & B0 & B1 & B2).
  destruct (order_fresh p n adj lr k M LV) as (q3 & en3 & l3 & D3 & S3).
  destruct (order_history p n adj q lr' k M HE LV H) as (q4 & en4 & l4 & D4 & S4).
  destruct (drain_same _ _ _ _ _ _ _ _ _ D1 D3) as (<- & <- & <-). destruct (drain_same _ _ _ _ _ _ _ _ _ D2 D4) as (<- & <- & <-).
  exists q1, en1, l1, q2, en2, l2. split; auto. split; auto. destruct (made_fresh p n adj M) as (a & cap & m & g0 & _ & GR & _).
  apply (sorted_subseq (listed_before adj)); auto.
  - intros x y Ix Iy. apply (listed_asym a n adj GR); apply C1; auto.
  - intros d I. destruct k as [|[|k]]; [rewrite B0 in I by auto; destruct I|rewrite B1 in I by auto; rewrite A1 by auto; exact I|].
    apply A2; [lia|]. destruct (C2 d I) as [Cd Ld]. split; auto. split; auto. apply B2; auto. lia.
Qed.

(** ** C71 *)
Lemma starts_one rnd p n adj w d v v' : nmade rnd p n adj w -> clique n adj d -> starts_at adj w d v -> starts_at adj w d v' -> v = v'.
Proof.
  intros M C S S'. destruct (nmade_made _ _ _ _ _ M) as [LW MD]. destruct (made_fresh _ _ _ MD) as (a & cap & m & g & _ & GR & _).
  apply (starts_before a n adj w exact GR) in S, S'; try (intros ? ? ? ?; reflexivity); auto. destruct S as [I H], S' as [I' H'].
  destruct (H v' I') as [->|X]; auto. destruct (H' v I) as [->|Y]; auto. exfalso.
  pose proof (wbef_trans _ _ _ _ X Y) as Z. rewrite wbef_irrefl in Z. discriminate.
Qed.

Lemma nw_listed_asym rnd p n adj w T d d' : nmade rnd p n adj w -> nw_listed_before n adj w T d d' -> nw_listed_before n adj w T d' d -> False.
Proof.
  intros M (v & v' & O & O' & X) (u & u' & Q & Q' & Y).
  assert (E1 : v = u') by (eapply starts_one; [exact M|apply O|apply O|apply Q']).
  assert (E2 : v' = u) by (eapply starts_one; [exact M|apply O'|apply O'|apply Q]). subst u' u.
  destruct X as [X|[-> X]], Y as [Y|[E Y]]; try lia. exact (lex_asym _ _ X Y).
Qed.

Lemma nw_drain_same rnd lr p en q1 en1 l1 q2 en2 l2 : (forall fuel, length l1 < fuel -> nw_drain rnd fuel lr p en = Ok (q1, en1, l1)) ->
  (forall fuel, length l2 < fuel -> nw_drain rnd fuel lr p en = Ok (q2, en2, l2)) -> q1 = q2 /\ en1 = en2 /\ l1 = l2.
Proof.
  intros D1 D2. pose proof (nw_drain_unique _ _ _ _ _ _ _ _ _ (D1 _ (Nat.lt_succ_diag_r _)) D2) as EQ. injection EQ as -> -> ->. auto.
Qed.

Lemma nu_history rnd n adj w p q : nunhurried rnd n adj w p q -> nhistory rnd p q.
Proof. induction 1; [constructor|eapply nh_get|eapply nh_reset|eapply nh_all]; eauto. Qed.

(** What is listed, completely. *)
Lemma nw_lists rnd p n adj w : nmade rnd p n adj w -> has_edge adj -> nstorage_live p -> sums_exact rnd w -> rises rnd -> nonnegative w ->
  forall q e T lr, nunhurried rnd n adj w p q -> exists en q' en' l, nw_all_cliques e q T = Ret en
    /\ (forall fuel, length l < fuel -> nw_drain rnd fuel lr q en = Ok (q', en', l))
    /\ StronglySorted (nw_listed_before n adj w T) l /\ forall d, In d l <-> exists v, v <> 1 /\ heavy_minimal n adj w T d v.
Proof.
  intros M HE LV SE MO NN q e T lr U.
  destruct (nw_all_complete rnd p n adj w M HE LV SE NN q e T lr MO U) as (en & q1 & en1 & l & E & D & C).
  destruct (nw_all_minimal rnd p n adj w M HE LV q e T lr (nu_history _ _ _ _ _ _ U)) as (en2 & q2 & en2' & l2 & E2 & D2 & _ & S2).
  destruct (nw_listed_in_order rnd p n adj w M HE LV q e T lr (nu_history _ _ _ _ _ _ U)) as (en3 & q3 & en3' & l3 & E3 & D3 & S3).
  rewrite E in E2, E3. injection E2 as <-. injection E3 as <-.
  destruct (nw_drain_same _ _ _ _ _ _ _ _ _ _ D D2) as (<- & <- & <-). destruct (nw_drain_same _ _ _ _ _ _ _ _ _ _ D D3) as (<- & <- & <-).
  exists en, q1, en1, l. split; auto. split; auto. split; auto. intros d. split; [intros I; apply S2; auto|]. intros (v & NV & H). apply (C d v); auto.
Qed.

Lemma nw_same_sequence rnd p n adj w : nmade rnd p n adj w -> has_edge adj -> nstorage_live p -> sums_exact rnd w -> rises rnd -> nonnegative w ->
  forall q e e' T lr lr', nunhurried rnd n adj w p q -> exists en1 q1 en1' en2 q2 en2' l,
    nw_all_cliques e p T = Ret en1 /\ (forall fuel, length l < fuel -> nw_drain rnd fuel lr p en1 = Ok (q1, en1', l))
    /\ nw_all_cliques e' q T = Ret en2 /\ (forall fuel, length l < fuel -> nw_drain rnd fuel lr' q en2 = Ok (q2, en2', l)).
Proof.
  intros M HE LV SE MO NN q e e' T lr lr' U.
  destruct (nw_lists rnd p n adj w M HE LV SE MO NN p e T lr (nu_start _ _ _ _ _)) as (en1 & q1 & en1' & l1 & E1 & D1 & S1 & C1).
  destruct (nw_lists rnd p n adj w M HE LV SE MO NN q e' T lr' U) as (en2 & q2 & en2' & l2 & E2 & D2 & S2 & C2).
  assert (EQ : l2 = l1).
  { apply (sorted_equal (nw_listed_before n adj w T)); auto.
    - intros x y _ _. apply (nw_listed_asym rnd p n adj w T x y M).
    - intros d. rewrite C1, C2. tauto. }
  subst l2. exists en1, q1, en1', en2, q2, en2', l1. auto.
Qed.

Lemma nw_later_subseq rnd p n adj w : nmade rnd p n adj w -> has_edge adj -> nstorage_live p -> sums_exact rnd w -> rises rnd -> nonnegative w ->
  forall q e e' T lr lr', nhistory rnd p q -> exists en1 q1 en1' l en2 q2 en2' l',
    nw_all_cliques e p T = Ret en1 /\ (forall fuel, length l < fuel -> nw_drain rnd fuel lr p en1 = Ok (q1, en1', l))
    /\ nw_all_cliques e' q T = Ret en2 /\ (forall fuel, length l' < fuel -> nw_drain rnd fuel lr' q en2 = Ok (q2, en2', l')) /\ subseq l' l.
Proof.
  intros M HE LV SE MO NN q e e' T lr lr' H.
  destruct (nw_lists rnd p n adj w M HE LV SE MO NN p e T lr (nu_start _ _ _ _ _)) as (en1 & q1 & en1' & l1 & E1 & D1 & S1 & C1).
  destruct (nw_all_minimal rnd p n adj w M HE LV q e' T lr' H) as (en2 & q2 & en2' & l2 & E2 & D2 & _ & C2).
  destruct (nw_listed_in_order rnd p n adj w M HE LV q e' T lr' H) as (en3 & q3 & en3' & l3 & E3 & D3 & S3).
  rewrite E2 in E3. injection E3 as <-. destruct (nw_drain_same _ _ _ _ _ _ _ _ _ _ D2 D3) as (<- & <- & <-).
  exists en1, q1, en1', l1, en2, q2, en2', l2. do 4 (split; auto). apply (sorted_subseq (nw_listed_before n adj w T)); auto.
  - intros x y _ _. apply (nw_listed_asym rnd p n adj w T x y M).
  - intros d I. apply C1. apply C2; auto.
Qed.
