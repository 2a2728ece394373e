(** DepthFacts: the recursion of the timed search is no deeper than a clique is large (C107). *)
From Verif Require Import Base MBits MUtils MGraph MHeur MStack MRec MEnum MApi MDepth Spec SpecBits BaseFacts BitsFacts SetFacts SortFacts RowFacts ConstructFacts CardFacts LoadFacts SearchBase FrameFacts FrameInv LexFacts StackFacts RecFacts HeurFacts SearchFacts CliqueFacts ApiFacts EnumApi SearchProps.
Local Open Scope nat_scope.
Local Arguments Nat.sub : simpl never.
Local Arguments Nat.mul : simpl never.

(** ** More room changes nothing *)
Definition okle {A} (o o' : outcome A) : Prop := forall r, o = Ok r -> o' = Ok r.

Lemma okle_refl {A} (o : outcome A) : okle o o. Proof. intros r; auto. Qed.

Lemma okle_bind {A B} (o : outcome A) (k k' : A -> outcome B) : (forall x, okle (k x) (k' x)) -> okle (bind o k) (bind o k').
Proof. intros H r. destruct o; cbn [bind]; auto. apply H. Qed.

Lemma okle_bind2 {A B} (o o' : outcome A) (k k' : A -> outcome B) : okle o o' -> (forall x, okle (k x) (k' x)) -> okle (bind o k) (bind o' k').
Proof. intros O H r. destruct o as [x| |]; cbn [bind]; try discriminate. rewrite (O x eq_refl). cbn [bind]. apply H. Qed.

Lemma okle_for {S} lo hi (F F' : nat -> S -> outcome S) : (forall i s, okle (F i s) (F' i s)) -> forall s, okle (for_ lo hi F s) (for_ lo hi F' s).
Proof.
  intros H. unfold for_. induction (seq lo (hi - lo)) as [|i l IH]; intros s; cbn [foldM]; [apply okle_refl|]. apply okle_bind2; auto.
Qed.

Lemma rec_search_more clk cur v : forall f f' g pc res t, f <= f' -> okle (rec_search f clk cur v g pc res t) (rec_search f' clk cur v g pc res t).
Proof.
  induction f as [|f IH]; intros f' g pc res t L; [intros r; discriminate|]. destruct f' as [|f']; [lia|]. cbn [rec_search].
  apply okle_bind. intros [m cl]. apply okle_bind. intros [m2 rc]. cbv zeta.
  destruct (clk t); [apply okle_refl|]. destruct (_ <=? _); [apply okle_refl|]. destruct (_ <=? _); [apply okle_refl|]. destruct (cl =? 0); [apply okle_refl|].
  apply okle_bind. intros [g1 p1]. apply okle_bind. intros [m3 cand]. apply okle_bind. intros [g2 p2]. apply okle_bind. intros [m4 fc].
  apply okle_bind2; [|intros x; apply okle_refl]. apply okle_for. intros j [h u]. apply okle_bind. intros b. destruct (negb b); [apply okle_refl|].
  do 6 (apply okle_bind; intros ?). apply okle_bind2; [apply IH; lia|]. intros [? ?]. apply okle_refl.
Qed.

(** ** Equal runs *)
Lemma bind_eq {A B} (o : outcome A) (k k' : A -> outcome B) (Q : A -> Prop) : wp o Q -> (forall x, Q x -> k x = k' x) -> bind o k = bind o k'.
Proof. intros W H. destruct o; cbn [bind]; auto. Qed.

Lemma loopN_eq {S R} fuel (F F' : S -> outcome (step S R)) (I : S -> Prop) s : I s -> (forall s, I s -> F s = F' s) ->
  (forall s, I s -> wp (F s) (fun r => match r with Cont s' => I s' | Done _ => True end)) -> loopN fuel F s = loopN fuel F' s.
Proof.
  intros HI E W. revert s HI. induction fuel as [|f IH]; intros s HI; cbn [loopN]; auto. rewrite <- (E s HI).
  apply (bind_eq _ _ _ _ (W s HI)). intros [s'|x] H; auto.
Qed.

(** ** One root *)
Section Root.
  Variables (a : pairs) (nv cur : nat) (g0 : graph) (mcs0 : nat -> nat) (clk : nat -> bool).
  Hypothesis HC : gctx a nv.
  Hypothesis Hc : cur < nv.
  Hypothesis SH0 : shape a nv g0 mcs0.
  Notation N := (rlen a cur).
  Notation w := (words (rlen a cur)).
  Notation c0 := (search_cur g0).
  Hypothesis He : eb a nv <= c0.
  Let HS := gc_sorted _ _ HC.
  Let Hself := gc_self _ _ HC.
  Hypothesis HZ0 : zero_from (edge_bits g0) c0.
  Hypothesis HSP0 : c0 + 2 * w * bound a cur <= length (edge_bits g0).
  Variable D : nat.
  Hypothesis HD : forall K, rooted a cur K -> pclique a cur K -> card N K <= D.

  Lemma root_within t : rec_vertex_within D clk g0 cur t = rec_process_vertex clk g0 cur t.
  Proof.
    pose proof (len_pos a nv HS Hself cur Hc) as LP. pose proof (words_pos _ LP) as W.
    destruct (sp_spec a nv HS Hself cur Hc) as [S1 S2]. pose proof (block_end a nv cur Hc) as BE.
    unfold rec_vertex_within, rec_process_vertex. rewrite (sh_vs _ _ _ _ SH0), rd_vert by auto. cbn [bind].
    change (vN (mkvert a (mcs0 cur) cur)) with N. change (vspos (mkvert a (mcs0 cur) cur)) with (sp a cur). cbv zeta.
    assert (SPX : c0 + 2 * w + 2 * w * card N (candp a cur) <= length (edge_bits g0)).
    { rewrite (bound_card a), Nat.mul_succ_r in HSP0. lia. }
    assert (SP : c0 + 2 * w <= length (edge_bits g0)) by (etransitivity; [apply Nat.le_add_r|exact SPX]).
    rewrite load_memory_ok by lia. cbn [bind].
    rewrite load_memory_ok by (cbn [set_cur search_cur edge_bits]; lia). cbn [bind set_cur search_cur edge_bits].
    assert (Z1 : rep (edge_bits g0) c0 N (fun _ => false)) by (apply rep_zero; [lia|intros; apply HZ0; lia]).
    assert (Z2 : rep (edge_bits g0) (c0 + w) N (fun _ => false)) by (apply rep_zero; [lia|intros; apply HZ0; lia]).
    eapply bind_eq; [apply (bits_set_spec (edge_bits g0) c0 N _ _ (sp a cur) (sh_mem _ _ _ _ SH0) Z1); auto|].
    intros m1 (K1 & K2 & K3). pose proof K3 as [K3l K3o].
    match goal with |- context [root_cands ?G _ _] => set (g1 := G) end.
    assert (SH1 : shape a nv g1 mcs0) by (destruct SH0; split; auto).
    eapply bind_eq; [apply (root_cands_spec a nv HC g1 mcs0 cur (mcs0 cur) (c0 + w) SH1 Hc)|].
    { eapply rep_frame; [exact Z2|exact K3|lia]. }
    change (edge_bits g1) with m1. intros [m2 pot] (L1 & L2 & L3 & EPOT). cbn [fst snd] in L1, L2, L3, EPOT. subst pot. pose proof L3 as [L3l L3o].
    match goal with |- context [if CUR_MAX_SIZE ?G <? _ then _ else _] => set (g2 := G) end.
    assert (P2 : prog a nv g0 g2 mcs0 cur).
    { change g2 with (set_cur (set_mem g0 m2) (c0 + w + w)). apply prog_arena; auto; [apply prog_refl; auto|congruence|].
      intros k Hk. rewrite L3o, K3o; auto; lia. }
    assert (Z3 : zero_from m2 (c0 + 2 * w)).
    { intros k Hk. rewrite L3o, K3o by lia. apply HZ0. lia. }
    destruct (Nat.ltb_spec (CUR_MAX_SIZE g2) (bound a cur)) as [HB|HB]; [|reflexivity].
    assert (RUN : forall f, (forall K, rooted a cur K -> pclique a cur K -> card N K <= f) -> exists r, rec_search f clk cur (mkvert a (mcs0 cur) cur) g2 (refer_from (c0 + w) N) (refer_from c0 N) t = Ok r).
    { intros f LF. set (R := fun x => (x =? sp a cur) || false).
      assert (CR : 1 <= card N R).
      { unfold R. apply card_pos. exists (sp a cur). split; auto. rewrite Nat.eqb_refl. auto. }
      assert (X : wp (rec_search f clk cur (mkvert a (mcs0 cur) cur) g2 (refer_from (c0 + w) N) (refer_from c0 N) t) (fun _ => True)); [|destruct (rec_search f clk cur _ g2 _ _ t); cbn in X; try tauto; eauto].
      eapply wp_mono; [apply (rec_search_spec a nv cur g0 mcs0 clk HC Hc SH0 He (mcs0 cur) f g2 (c0 + w) c0 R (candp a cur) t)|]; auto.
      - change (edge_bits g2) with m2. eapply rep_frame; [exact K2|exact L3|lia].
      - split; [unfold R; rewrite Nat.eqb_refl; auto|]. intros p Hp E. unfold R in E. destruct (Nat.eqb_spec p (sp a cur)); auto. discriminate.
      - intros p q Hp Hq Ep Eq NE. unfold R in Ep, Eq. destruct (Nat.eqb_spec p (sp a cur)), (Nat.eqb_spec q (sp a cur)); try discriminate. congruence.
      - intros x Hx E. split; auto. split.
        + unfold R. destruct (Nat.eqb_spec x (sp a cur)) as [->|]; auto. rewrite (candp_sp a nv HS Hself cur Hc) in E. discriminate.
        + intros p Hp Ep. unfold R in Ep. destruct (Nat.eqb_spec p (sp a cur)) as [->|]; [|discriminate]. apply (padj_root a nv HC); auto.
      - lia.
      - change (search_cur g2) with (c0 + w + w). lia.
      - change (search_cur g2) with (c0 + w + w). replace (c0 + w + w) with (c0 + 2 * w) by lia. exact Z3.
      - change (search_cur g2) with (c0 + w + w). change (edge_bits g2) with m2. replace (c0 + w + w) with (c0 + 2 * w) by lia. lia.
      - intros K RK PK _. specialize (LF K RK PK). lia. }
    f_equal. destruct (RUN D HD) as (r & E). destruct (RUN (S N)) as (r' & E'); [intros K _ _; pose proof (card_bound N K); lia|].
    rewrite E, E'. destruct (Nat.le_ge_cases D (S N)) as [L|L].
    - pose proof (rec_search_more clk cur _ D (S N) _ _ _ _ L r E). congruence.
    - pose proof (rec_search_more clk cur _ (S N) D _ _ _ _ L r' E'). congruence.
  Qed.
End Root.

(** ** The whole search *)
Section Gra.
  Variables (a : pairs) (n : nat) (adj : nat -> nat -> Prop).
  Hypothesis GR : gra a n adj.
  Hypothesis HE : has_edge adj.
  Notation nv := (n + 1).
  Let HC := gra_ctx a n adj GR.
  Variable D : nat.
  Hypothesis HD : forall d, clique n adj d -> length d <= D.

  Lemma depth_clique cur : cur < nv -> forall K, rooted a cur K -> pclique a cur K -> card (rlen a cur) K <= D.
  Proof.
    intros Hc K RK PK. destruct (Nat.eq_dec cur 0) as [->|NZ].
    - pose proof (card_bound (rlen a 0) K) as B. rewrite (gra_len0 a n adj GR) in *.
      destruct HE as (u & v & A). assert (X : length [u] <= D); [|cbn in X; lia]. apply HD.
      pose proof (gr_simple _ _ _ GR) as G1. split; [repeat constructor|]. split; [|intros x y [<- |[]] [<- |[]]; congruence].
      intros x [<- |[]]. apply G1 in A. apply A.
    - pose proof (HD _ (rooted_clique a n adj GR cur K ltac:(lia) RK PK)) as L. rewrite map_length in L. exact L.
  Qed.

  Lemma vertex_within clk g mcs cur t : good a nv g mcs -> cur < nv -> rec_vertex_within D clk g cur t = rec_process_vertex clk g cur t.
  Proof.
    intros G Hc. destruct (good_room_s a nv g mcs _ cur (proj1 G) Hc) as [R1 R2]. specialize (R2 eq_refl).
    apply (root_within a nv cur g mcs clk HC Hc (go_shape _ _ _ _ _ (proj1 G)) (go_eb _ _ _ _ _ (proj1 G)) (proj2 G) R2 D (depth_clique cur Hc)).
  Qed.

  Lemma graph_within clk start g mcs : good a nv g mcs -> rec_graph_within D clk start g = rec_process_graph clk start g.
  Proof.
    intros G. unfold rec_graph_within, rec_process_graph. pose proof (go_loc _ _ _ _ _ (proj1 G)) as L.
    rewrite (vertex_within clk g mcs _ 0 G L).
    eapply bind_eq; [apply (rec_step a nv HC clk g mcs _ 0 eq_refl G L)|]. intros [g1 t1] (_ & mcs1 & G1 & _). cbn [fst] in G1.
    apply (loopN_eq _ _ _ (fun s => exists mcs, good a nv (fst (fst s)) mcs)); [exists mcs1; exact G1| |].
    - intros [[h i] t] (mh & H). cbn [fst] in H. rewrite (sh_nv _ _ _ _ (go_shape _ _ _ _ _ (proj1 H))). destruct (Nat.ltb_spec i nv) as [Hi|]; [|reflexivity].
      rewrite (vertex_within clk h mh i (S t) H Hi). reflexivity.
    - intros [[h i] t] (mh & H). cbn [fst] in H. rewrite (sh_nv _ _ _ _ (go_shape _ _ _ _ _ (proj1 H))). destruct (Nat.ltb_spec i nv) as [Hi|]; [|apply wp_ok; exact I].
      rewrite (good_rd a nv h mh i H Hi). cbn [bind]. destruct (_ || _); [apply wp_ok; exists mh; exact H|]. destruct (clk t); [apply wp_ok; exact I|].
      rewrite (vertex_within clk h mh i (S t) H Hi). apply wp_bind. eapply wp_mono; [apply (rec_step a nv HC clk h mh i (S t) eq_refl H Hi)|].
      intros [g2 t2] (_ & m2 & G2 & _). apply wp_ok. exists m2. exact G2.
  Qed.

  Lemma find_within e g mcs start heur dfs : permutes e -> good a nv g mcs -> find_max_within D e g start heur dfs = find_max_cliques e g start heur dfs.
  Proof.
    intros HP G. unfold find_max_within, find_max_cliques.
    assert (H1 : wp (if heur then heur_process_graph (srt_fun e) g else Ok g) (fun g1 => good a nv g1 mcs)).
    { destruct heur; [|apply wp_ok; exact G]. eapply wp_mono; [exact (heur_process_graph_spec a nv HC (gra_len0 a n adj GR) (srt_fun e) g mcs HP G)|]. intros ? (? & _); auto. }
    apply (bind_eq _ _ _ _ H1). intros g1 G1. destruct (clock e); [|reflexivity]. destruct dfs; [|reflexivity]. apply (graph_within _ _ _ mcs G1).
  Qed.
End Gra.

Lemma depth_bound p n adj q e lb ub heur dfs cont D : made p n adj -> has_edge adj -> storage_live p -> history p q -> permutes e ->
  (forall d, clique n adj d -> length d <= D) -> get_max_within D e q lb ub heur dfs cont = get_max_clique e q lb ub heur dfs cont.
Proof.
  intros M HE LV H HP HD. destruct (made_hinv p n adj M HE LV) as (a & cap & m & g & GR & B & -> & _ & _ & _ & _ & _ & HI & _).
  pose proof (has_edge_n a n adj GR HE) as Hn. destruct (history_hinv a n adj GR _ q Hn HI H) as (h & mcs & m' & cur & fin & -> & G & _).
  unfold get_max_within, get_max_clique, loaded. cbn [p_cur p_G p_nvert p_nedges]. destruct (n =? 0); [reflexivity|]. cbv zeta.
  rewrite (find_within a n adj GR HE D HD e _ mcs); auto.
  destruct G as [[X1 X2 X3 X4 X5] Z]. destruct X1. split; [split; auto; split; auto|auto].
Qed.
