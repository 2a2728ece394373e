(** NWMono: repeated node-weighted searches (C63). *)
From Verif Require Import Base MBits MUtils MGraph MHeur MApi MNW MNWEnum MNWApi SpecBits BaseFacts BitsFacts SetFacts SortFacts RowFacts
  ConstructFacts CardFacts SearchBase StackFacts SearchFacts FrameFacts FrameInv LoadFacts Spec SpecNW SpecKeep NWSum NWBase NWStack NWHeur NWSearch EnumFacts CliqueFacts ApiFacts EnumApi NWFacts NWProps.
Local Open Scope nat_scope.
Local Arguments Nat.sub : simpl never.
Local Arguments Nat.mul : simpl never.

Lemma rep_same m off n P Q : rep m off n P -> rep m off n Q -> forall i, i < n -> P i = Q i.
Proof.
  intros [_ H1] [_ H2] i Hi. assert (L : i < 64 * words n) by (pose proof (words_bounds n); lia).
  specialize (H1 i L). specialize (H2 i L). rewrite H1 in H2. destruct (Nat.ltb_spec i n); [|lia]. exact H2.
Qed.

Section Mono.
  Variables (rnd : Z -> Z) (p : pynw) (n : nat) (adj : nat -> nat -> Prop) (w : list Z).
  Hypothesis MK : nmade rnd p n adj w.
  Hypothesis HE : has_edge adj.
  Hypothesis LV : nstorage_live p.
  Hypothesis SE : sums_exact rnd w.
  Notation wt := (mkwts (vweight w) rnd).

  (** The stored clique is a single vertex, or no heavier than w_size. *)
  Definition covered (a : pairs) (W : nwgraph) : Prop :=
    forall K, wholds a wt (w_g W) (w_loc W) K -> card (rlen a (w_loc W)) K = 1 \/ (wsum (rlen a (w_loc W)) (pw a wt (w_loc W)) K <= w_size W)%Z.

  Lemma same_block a W0 W K : gra a n adj -> w_loc W < n + 1 -> w_loc W = w_loc W0 -> length (edge_bits (w_g W)) = length (edge_bits (w_g W0)) ->
    (forall k, k < eb a (n + 1) -> nth k (edge_bits (w_g W)) 0%N = nth k (edge_bits (w_g W0)) 0%N) ->
    wholds a wt (w_g W) (w_loc W) K -> wholds a wt (w_g W0) (w_loc W0) K.
  Proof.
    intros GR L E LE H HK. rewrite <- E. apply (holds_nth a wt (edge_bits (w_g W)) (edge_bits (w_g W0)) (w_g W) (w_g W0)); auto.
    intros x Hx. symmetry. apply H. pose proof (block_end a (n + 1) (w_loc W) L). unfold in_block in Hx. lia.
  Qed.

  Lemma covered_called a W0 W mcs : gra a n adj -> length w = n -> ngood a (n + 1) wt W mcs -> ncalled a (n + 1) wt W0 W -> covered a W0 -> covered a W.
  Proof.
    intros GR LW G C H K HK. destruct (nc_best _ _ _ _ _ C) as [(E1 & E2 & E3)|(K' & HK' & _ & E0)]; [|pose proof (E0 (exact_sums a n adj w rnd GR LW SE)) as E].
    - rewrite E1. pose proof (same_block a W0 W K GR (nb_loc _ _ _ _ _ _ (proj1 G)) E2 (nc_len _ _ _ _ _ C) E3 HK) as HK0.
      rewrite E2. apply H. exact HK0.
    - right. rewrite <- E. rewrite (wsum_ext _ _ K K'); [lia|]. exact (rep_same _ _ _ _ _ (proj1 HK) (proj1 HK')).
  Qed.

  Lemma covered_prepared a W lb ub : covered a W -> covered a (nprepared W lb ub).
  Proof. intros H K HK. destruct (H K HK); auto. right. cbn [nprepared w_size w_loc] in *. lia. Qed.

  Definition cinv (a : pairs) (q : pynw) : Prop :=
    exists W mcs m cur fin, q = mkQ (Some W) n m cur fin /\ ngood a (n + 1) wt W mcs /\ covered a W.

  Lemma made_cinv : exists a, gra a n adj /\ length w = n /\ 1 <= n /\ cinv a p.
  Proof.
    destruct (nmade_fresh _ _ _ _ _ MK) as (a & cap & m & GR & LW & NF). exists a. pose proof (has_edge_n _ _ _ GR HE) as Hn.
    destruct LV as (g & EG & HL). pose proof NF as (W & EP & B & F1 & F2 & F3 & F4 & F5 & F6). rewrite EP in EG.
    cbn [nw_as_pygraph q_G option_map p_G] in EG. injection EG as EG. subst g. rewrite EP in NF.
    pose proof (nfresh_good a n adj w rnd GR LW _ m cap W NF eq_refl HE HL) as G. do 3 (split; auto).
    exists W, (bound a), m, 0, false. do 2 (split; auto). intros K HK. left. pose proof (nb_loc _ _ _ _ _ _ (proj1 G)) as L.
    pose proof (gra_ctx a n adj GR) as HC.
    rewrite (card_ext _ K (fun x => x =? sp a (w_loc W))); [|exact (rep_same _ _ _ _ _ (proj1 HK) (b_rep _ _ _ _ B (w_loc W) L))].
    rewrite card_single. destruct (sp_spec a (n + 1) (gc_sorted _ _ HC) (gc_self _ _ HC) _ L) as [S1 _].
    destruct (Nat.ltb_spec (sp a (w_loc W)) (rlen a (w_loc W))); auto. lia.
  Qed.

  (** One call: [c] is the stored clique, and the state stays covered. *)
  Lemma get_cinv a q e lb ub heur dfs q' r : gra a n adj -> length w = n -> 1 <= n -> cinv a q -> npermutes e ->
    nw_get_max_clique rnd e q lb ub heur dfs = Ok (q', r) -> cinv a q'.
  Proof.
    intros GR LW Hn (W & mcs & m & cur & fin & -> & G & CV) HP E.
    pose proof (nw_get_core a n adj w rnd GR LW e W mcs m cur fin lb ub heur dfs HP Hn G) as X. rewrite E in X. cbn [ends_with fst snd] in X.
    destruct X as (W' & cur' & c & x & -> & _ & _ & A). exists W', mcs, m, cur', (n <=? cur'). split; auto. split; [exact (na_good _ _ _ _ _ _ _ _ _ _ _ _ _ _ A)|].
    eapply covered_called; [exact GR|exact LW|exact (na_good _ _ _ _ _ _ _ _ _ _ _ _ _ _ A)|exact (na_called _ _ _ _ _ _ _ _ _ _ _ _ _ _ A)|].
    apply covered_prepared; auto.
  Qed.

  Lemma gets_cinv a q : gra a n adj -> length w = n -> 1 <= n -> cinv a p -> ngets rnd p q -> cinv a q.
  Proof. intros GR LW Hn IP H. induction H as [|q e lb ub heur dfs q' r H IH HP E]; auto. eapply get_cinv; eauto. Qed.

  Lemma gets_history q : ngets rnd p q -> nhistory rnd p q.
  Proof. induction 1; [constructor|econstructor; eauto]. Qed.

  (** Two calls in a row. *)
  Lemma two_calls a q e1 lb1 ub1 h1 d1 q1 c1 e2 lb2 ub2 h2 d2 q2 c2 : gra a n adj -> length w = n -> 1 <= n -> ninv rnd n w a q -> npermutes e1 -> npermutes e2 ->
    nw_get_max_clique rnd e1 q lb1 ub1 h1 d1 = Ok (q1, Ret c1) -> nw_get_max_clique rnd e2 q1 lb2 ub2 h2 d2 = Ok (q2, Ret c2) ->
    exists W1 W2 mcs m cur1 cur2 fin1, q1 = mkQ (Some W1) n m cur1 fin1 /\ nasked a n adj w rnd W1 mcs lb2 ub2 h2 d2 W2 cur2 c2
      /\ ngood a (n + 1) wt W1 mcs /\ (c1 = [0] \/ clique n adj c1) /\ (exists K, wholds a wt (w_g W1) (w_loc W1) K /\ c1 = decode a (w_loc W1) K)
      /\ (c2 = c1 \/ weight w c2 = w_size W2).
  Proof.
    intros GR LW Hn (W & mcs & m & cur & fin & -> & G) HP1 HP2 E1 E2.
    pose proof (nw_get_core a n adj w rnd GR LW e1 W mcs m cur fin lb1 ub1 h1 d1 HP1 Hn G) as X. rewrite E1 in X. cbn [ends_with fst snd] in X.
    destruct X as (W1 & cur1 & c & x & -> & EC & _ & A). destruct (x <? lb1)%Z; [discriminate|]. injection EC as <-.
    pose proof (na_good _ _ _ _ _ _ _ _ _ _ _ _ _ _ A) as G1.
    pose proof (nw_get_core a n adj w rnd GR LW e2 W1 mcs m cur1 (n <=? cur1) lb2 ub2 h2 d2 HP2 Hn G1) as X. rewrite E2 in X. cbn [ends_with fst snd] in X.
    destruct X as (W2 & cur2 & c' & x' & -> & EC & _ & B). destruct (x' <? lb2)%Z; [discriminate|]. injection EC as <-.
    pose proof (na_good _ _ _ _ _ _ _ _ _ _ _ _ _ _ B) as G2.
    exists W1, W2, mcs, m, cur1, cur2, (n <=? cur1). do 3 (split; auto). split.
    { destruct (na_clique _ _ _ _ _ _ _ _ _ _ _ _ _ _ A) as [[-> _]|[C _]]; auto. }
    destruct (na_block _ _ _ _ _ _ _ _ _ _ _ _ _ _ A) as (K1 & HK1 & D1). split; [eauto|].
    destruct (na_block _ _ _ _ _ _ _ _ _ _ _ _ _ _ B) as (K2 & HK2 & D2).
    destruct (nc_best _ _ _ _ _ (na_called _ _ _ _ _ _ _ _ _ _ _ _ _ _ B)) as [(F1 & F2 & F3)|(K' & HK' & _ & F0)]; [|pose proof (F0 (exact_sums a n adj w rnd GR LW SE)) as F].
    - left. pose proof (same_block a _ W2 K2 GR (nb_loc _ _ _ _ _ _ (proj1 G2)) F2 (nc_len _ _ _ _ _ (na_called _ _ _ _ _ _ _ _ _ _ _ _ _ _ B)) F3 HK2) as HK0.
      cbn [nprepared w_g w_loc] in *. rewrite D1, D2, F2. apply decode_ext. rewrite <- F2 in HK0 |- *.
      rewrite F2 in HK0. rewrite F2. exact (rep_same _ _ _ _ _ (proj1 HK0) (proj1 HK1)).
    - right. rewrite D2, (decode_weight a w rnd), <- F. apply wsum_ext. exact (rep_same _ _ _ _ _ (proj1 HK2) (proj1 HK')).
  Qed.

  Lemma cinv_ninv a q : cinv a q -> ninv rnd n w a q.
  Proof. intros (W & mcs & m & cur & fin & E & G & _). exists W, mcs, m, cur, fin. auto. Qed.

  Lemma repeat_dfs q e1 lb1 ub1 h1 d1 q1 c1 e2 lb2 ub2 d2 q2 c2 : ngets rnd p q -> npermutes e1 -> npermutes e2 ->
    nw_get_max_clique rnd e1 q lb1 ub1 h1 d1 = Ok (q1, Ret c1) -> nw_get_max_clique rnd e2 q1 lb2 ub2 false d2 = Ok (q2, Ret c2) ->
    2 <= length c1 -> (weight w c1 <= weight w c2)%Z.
  Proof.
    intros H HP1 HP2 E1 E2 L. destruct made_cinv as (a & GR & LW & Hn & IP). pose proof (gets_cinv a q GR LW Hn IP H) as IQ.
    destruct (two_calls a q _ _ _ _ _ _ _ _ _ _ _ _ _ _ GR LW Hn (cinv_ninv a q IQ) HP1 HP2 E1 E2)
      as (W1 & W2 & mcs & m & cur1 & cur2 & fin1 & Q1 & B & G1 & C1 & (K1 & HK1 & D1) & [->|F]); [lia|].
    destruct (get_cinv a q e1 lb1 ub1 h1 d1 q1 (Ret c1) GR LW Hn IQ HP1 E1) as (W1' & mcs' & m' & cur' & fin' & Q1' & _ & CV).
    rewrite Q1 in Q1'. injection Q1' as <- _ _ _. destruct (CV K1 HK1) as [X|X].
    - rewrite D1, (decode_length a), X in L. lia.
    - rewrite D1, (decode_weight a w rnd). pose proof (na_mono _ _ _ _ _ _ _ _ _ _ _ _ _ _ B eq_refl). lia.
  Qed.

  Lemma repeat_complete q e1 lb1 ub1 h1 d1 q1 c1 e2 lb2 ub2 h2 q2 c2 : nonnegative w -> nunhurried rnd n adj w p q -> npermutes e1 -> npermutes e2 ->
    all_within n adj w ub1 -> all_within n adj w ub2 ->
    nw_get_max_clique rnd e1 q lb1 ub1 h1 d1 = Ok (q1, Ret c1) -> nw_get_max_clique rnd e2 q1 lb2 ub2 h2 true = Ok (q2, Ret c2) ->
    2 <= length c1 -> (weight w c1 <= weight w c2)%Z.
  Proof.
    intros NN H HP1 HP2 U1 U2 E1 E2 L. destruct (nmade_inv rnd p n adj w MK HE LV) as (a & GR & LW & Hn & IP & _ & VP).
    assert (VI : nvinv rnd n w a p).
    { destruct IP as (W & mcs & m & cur & fin & EP & G). destruct (VP SE NN) as (W0 & E0 & _ & SV & WD). rewrite EP in E0. cbn [q_G] in E0. injection E0 as <-.
      exists W, mcs, m, cur, fin. auto. }
    pose proof (unhurried_nvinv rnd p n adj w SE NN a q GR LW Hn VI H) as VQ.
    assert (H1 : nunhurried rnd n adj w p q1) by (eapply nu_get; [exact H|exact HP1|exact U1|exact E1]).
    pose proof (unhurried_nvinv rnd p n adj w SE NN a q1 GR LW Hn VI H1) as VQ1.
    assert (IQ : ninv rnd n w a q) by (destruct VQ as (W & mcs & m & cur & fin & E & G & _); exists W, mcs, m, cur, fin; auto).
    destruct (two_calls a q _ _ _ _ _ _ _ _ _ _ _ _ _ _ GR LW Hn IQ HP1 HP2 E1 E2)
      as (W1 & W2 & mcs & m & cur1 & cur2 & fin1 & Q1 & B & G1 & C1 & _ & [->|F]); [lia|].
    destruct VQ1 as (W1' & mcs' & m' & cur' & fin' & Q1' & _ & SV & WD). rewrite Q1 in Q1'. injection Q1' as <- _ _ _.
    destruct (na_wide _ _ _ _ _ _ _ _ _ _ _ _ _ _ B (conj (exact_sums a n adj w rnd GR LW SE) (fun u _ => vweight_nonneg w NN u)) (prepared_wide rnd n adj w a W1 lb2 ub2 GR LW U2 WD) SV) as [_ AL].
    rewrite F. apply (AL eq_refl); auto. destruct C1 as [->|C1]; auto. cbn in L. lia.
  Qed.
End Mono.
