(** EnumFacts: CliqueEnumerator::process_graph is memory safe, terminates, and yields every clique of the required size
    rooted at a vertex after the first, each once. *)
From Verif Require Import Base MBits MUtils MGraph MEnum SpecBits SpecOrder BaseFacts BitsFacts SetFacts SortFacts RowFacts ConstructFacts CardFacts SearchBase FrameFacts FrameInv StackFacts SearchFacts CliqueFacts.
From Verif Require Export LexFacts.
Local Open Scope nat_scope.
Local Arguments Nat.sub : simpl never.
Local Arguments Nat.mul : simpl never.

Section Cover.
  Variables (a : pairs) (cur k : nat).
  Notation N := (rlen a cur).
  Notation A := (padj a cur).
  Notation ecovered := (ecovered a cur).
  Notation fdisj := (fdisj a cur).
  Notation lexlt := (lexlt a cur).

  Definition target (K : nat -> bool) : Prop := rooted a cur K /\ pclique a cur K /\ card N K = k.

  Section Step.
    Variables (id : nat) (S : nat -> bool) (fs : list frame) (j : nat).
    Notation R := (id :: ids fs).
    Hypothesis ND : NoDup R.
    Hypothesis RN : forall x, In x R -> x < N.
    Hypothesis Hj : j < N.
    Hypothesis Sj : S j = true.
    Hypothesis NJ : ~ In j R.

    Lemma minus_sub x : minus S j x = true -> S x = true.
    Proof. unfold minus. intros E. apply andb_prop in E. tauto. Qed.

    Lemma ecov_less K : ecovered ((id, minus S j) :: fs) K -> ecovered ((id, S) :: fs) K.
    Proof.
      intros [(C1 & C2)|C]; [left|right; auto]. split; auto. intros x Hx Kx. destruct (C2 x Hx Kx) as [|E]; auto.
      right. apply minus_sub; auto.
    Qed.

    Lemma ecov_without K : K j = false -> ecovered ((id, S) :: fs) K -> ecovered ((id, minus S j) :: fs) K.
    Proof.
      intros Kj [(C1 & C2)|C]; [left|right; auto]. split; auto. intros x Hx Kx. destruct (C2 x Hx Kx) as [|E]; auto.
      right. unfold minus. rewrite E. destruct (Nat.eqb_spec x j); [congruence|auto].
    Qed.

    Lemma ecov_prune K : target K -> card N (inter a cur (minus S j) j) + length R + 1 < k ->
      (ecovered ((id, S) :: fs) K <-> ecovered ((id, minus S j) :: fs) K).
    Proof.
      intros (K1 & K2 & K3) HT. split; [|apply ecov_less]. intros C. destruct (K j) eqn:Kj; [|apply ecov_without; auto].
      destruct C as [(C1 & C2)|C]; [|right; auto]. exfalso.
      pose proof (card_three N R j _ K ND RN (cov_has_j a cur id S fs j Hj K K2 C2 Kj)). lia.
    Qed.

    Lemma ecov_push K : target K ->
      (ecovered ((id, S) :: fs) K <-> ecovered ((j, inter a cur (minus S j) j) :: (id, minus S j) :: fs) K).
    Proof.
      intros (K1 & K2 & K3). split.
      - intros C. destruct (K j) eqn:Kj; [|right; apply ecov_without; auto].
        destruct C as [(C1 & C2)|C]; [left|right; right; auto]. split.
        + intros x [<-|I]; auto.
        + intros x Hx Kx. destruct (cov_has_j a cur id S fs j Hj K K2 C2 Kj x Hx Kx) as [I|[->|E]]; auto.
          * left. right. auto.
          * left. left. auto.
      - intros [(C1 & C2)|C]; [|apply ecov_less; auto]. left. split.
        + intros x I. apply C1. right. auto.
        + intros x Hx Kx. destruct (C2 x Hx Kx) as [[<-|I]|E]; auto. right. unfold inter in E. apply andb_prop in E.
          apply minus_sub. tauto.
    Qed.

    Lemma path_card : card N (fun x => inb x (j :: R)) = length R + 1.
    Proof.
      rewrite card_list; [cbn [length]; lia|constructor; auto|]. intros x [<-|I]; auto.
    Qed.

    Lemma ecov_found K : target K -> length R + 1 = k -> ecovered ((id, S) :: fs) K ->
      (forall x, x < N -> K x = inb x (j :: R)) \/ ecovered ((id, minus S j) :: fs) K.
    Proof.
      intros (K1 & K2 & K3) HL C. destruct (K j) eqn:Kj; [|right; apply ecov_without; auto].
      destruct C as [(C1 & C2)|C]; [left|right; right; auto]. intros x Hx. symmetry.
      apply (card_same N (fun x => inb x (j :: R)) K); auto.
      - intros y Hy E. apply inb_in in E. destruct E as [<-|I]; auto.
      - rewrite path_card. congruence.
    Qed.

    Lemma ecov_here K : (forall x, x < N -> K x = inb x (j :: R)) -> ecovered ((id, S) :: fs) K.
    Proof.
      intros E. left. split.
      - intros x I. rewrite E by auto. apply inb_in. right. auto.
      - intros x Hx Kx. rewrite E in Kx by auto. apply inb_in in Kx. destruct Kx as [<-|I]; auto.
    Qed.

    Lemma ecov_after K0 K : fdisj ((id, S) :: fs) -> (forall x, x < N -> minus S j x = true -> j < x) ->
      (forall x, K0 x = inb x (j :: R)) -> ecovered ((id, minus S j) :: fs) K -> lexlt K0 K.
    Proof.
      intros FD GT E [(C1 & C2)|C].
      - exists j. split; auto. split; [rewrite E; apply inb_in; left; auto|]. split.
        + destruct (K j) eqn:Kj; auto. destruct (C2 j Hj Kj) as [I|E']; [destruct (NJ I)|]. pose proof (GT j Hj E'). lia.
        + intros y Hy. rewrite E. destruct (inb y (j :: R)) eqn:I.
          * apply inb_in in I. destruct I as [->|I]; [lia|]. symmetry. auto.
          * destruct (K y) eqn:Ky; auto. destruct (C2 y ltac:(lia) Ky) as [I'|E']; [|pose proof (GT y ltac:(lia) E'); lia].
            assert (inb y (j :: R) = true) by (apply inb_in; right; exact I'). congruence.
      - refine (after_below a cur ((id, S) :: fs) RN ND FD K0 K _ _ C); cbn [ids map fst hd tl].
        + intros x I. rewrite E. apply inb_in. right. exact I.
        + intros NE x Hx Ex. rewrite E in Ex. apply inb_in in Ex. destruct Ex as [<-|I]; [|left; exact I]. right.
          destruct fs as [|[id' X'] fs']; [congruence|]. destruct FD as [(FD1 & FD2 & _) _]. auto.
    Qed.
  End Step.

  Lemma ecov_pop id S fs K : NoDup (id :: ids fs) -> (forall x, In x (id :: ids fs) -> x < N) -> (forall x, x < N -> S x = false) ->
    length fs + 1 < k -> target K -> (ecovered ((id, S) :: fs) K <-> ecovered fs K).
  Proof.
    intros ND RN HE HL (K1 & K2 & K3). split; [|right; auto]. intros [(C1 & C2)|C]; auto. exfalso.
    assert (card N K <= card N (fun x => inb x (id :: ids fs))) as L.
    { apply card_le. intros x Hx Kx. apply inb_in. destruct (C2 x Hx Kx) as [|E]; auto. rewrite HE in E by auto. discriminate. }
    rewrite card_list in L by auto. cbn [length] in L. unfold ids in L. rewrite map_length in L. lia.
  Qed.

  Lemma ecov_init K : rooted a cur K -> ecovered [(sp a cur, candp a cur)] K.
  Proof.
    intros [K1 K2]. left. split.
    - intros x [<-|[]]. auto.
    - intros x Hx Kx. destruct (K2 x Hx Kx) as [->|]; auto. left. left. auto.
  Qed.
End Cover.

(** ** The cliques still to be reported *)
Section Pend.
  Variables (a : pairs) (nv : nat).
  Hypothesis HC : gctx a nv.
  Let HS := gc_sorted _ _ HC.
  Let Hself := gc_self _ _ HC.
  Variable k : nat.

  Definition decode (v : nat) (K : nat -> bool) : list nat := map (fun p => nbr a v p) (members (rlen a v) K).

  Lemma decode_in v K x : In x (decode v K) <-> exists p, p < rlen a v /\ K p = true /\ nbr a v p = x.
  Proof.
    unfold decode. rewrite in_map_iff. split.
    - intros (p & E & I). apply filter_In in I. destruct I as [I Kp]. apply in_seq in I. exists p. split; [lia|auto].
    - intros (p & Hp & Kp & E). exists p. split; auto. apply filter_In. split; auto. apply in_seq. lia.
  Qed.

  Lemma decode_ext v K K' : (forall x, x < rlen a v -> K x = K' x) -> decode v K = decode v K'.
  Proof.
    intros E. unfold decode, members. f_equal. apply filter_ext_in. intros x I. apply in_seq in I. apply E. lia.
  Qed.

  Lemma decode_root v K : v < nv -> rooted a v K -> In v (decode v K).
  Proof.
    intros Hv [R _]. destruct (sp_spec a nv HS Hself v Hv) as [S1 S2]. apply decode_in. exists (sp a v). auto.
  Qed.

  Lemma decode_before v K u : v < nv -> rooted a v K -> In u (decode v K) -> u = v \/ before a v u = true.
  Proof.
    intros Hv [_ R] I. apply decode_in in I. destruct I as (p & Hp & Kp & <-).
    destruct (sp_spec a nv HS Hself v Hv) as [S1 S2]. destruct (R p Hp Kp) as [->|E]; auto.
  Qed.

  Lemma decode_inj v v' K K' : v < nv -> v' < nv -> rooted a v K -> rooted a v' K' -> decode v K = decode v' K' ->
    v = v' /\ forall x, x < rlen a v -> K x = K' x.
  Proof.
    intros Hv Hv' R R' E.
    assert (v = v') as <-.
    { pose proof (decode_root v K Hv R) as I. rewrite E in I. apply decode_before in I; auto. destruct I as [|B]; auto.
      pose proof (decode_root v' K' Hv' R') as I'. rewrite <- E in I'. apply decode_before in I'; auto. destruct I' as [|B']; auto.
      destruct (before_asym a _ _ B B'). }
    split; auto.
    assert (SUB : forall K K', decode v K = decode v K' -> forall x, x < rlen a v -> K x = true -> K' x = true).
    { intros K1 K2 E12 x Hx Kx. assert (I : In (nbr a v x) (decode v K2)) by (rewrite <- E12; apply decode_in; eauto).
      apply decode_in in I. destruct I as (p & Hp & Kp & EP). apply (nbr_inj a nv HC v) in EP; auto. congruence. }
    intros x Hx. destruct (K x) eqn:E1, (K' x) eqn:E2; auto.
    - rewrite (SUB K K' E x Hx E1) in E2. discriminate.
    - rewrite (SUB K' K (eq_sym E) x Hx E2) in E1. discriminate.
  Qed.

  Definition pend (cur : nat) (fs : list frame) (d : list nat) : Prop :=
    exists v K, v < nv /\ target a v k K /\ d = decode v K /\ (cur < v \/ (v = cur /\ ecovered a cur fs K)).

  Lemma pend_iff cur fs fs' : (forall K, target a cur k K -> (ecovered a cur fs K <-> ecovered a cur fs' K)) ->
    forall d, pend cur fs d <-> pend cur fs' d.
  Proof.
    intros H d. split; intros (v & K & Hv & T & E & C); exists v, K; (split; [auto|]); (split; [auto|]); (split; [auto|]);
      (destruct C as [|[-> C]]; [left; auto|right; split; auto; apply H; auto]).
  Qed.

  Lemma ecov_ext cur fs K K' : (forall x, In x (ids fs) -> x < rlen a cur) -> (forall x, x < rlen a cur -> K x = K' x) ->
    ecovered a cur fs K -> ecovered a cur fs K'.
  Proof.
    intros RN E. induction fs as [|[id X] fs IH]; [intros []|]. intros [(C1 & C2)|C].
    - left. split.
      + intros x I. rewrite <- E by (apply RN; exact I). auto.
      + intros x Hx Kx. apply C2; auto. rewrite E; auto.
    - right. apply IH; auto. intros x I. apply RN. right. exact I.
  Qed.
End Pend.

Section Enum.
  Variables (a : pairs) (nv : nat) (lr : bool) (k : nat) (g0 : graph) (mcs : nat -> nat).
  Hypothesis HC : gctx a nv.
  Hypothesis SH0 : shape a nv g0 mcs.
  Notation c0 := (search_cur g0).
  Notation D := (max_degree g0).
  Hypothesis He : eb a nv <= c0.
  Hypothesis ROOM : forall v, v < nv -> 2 <= mcs v ->
    c0 + (bound a v + 1) * words (rlen a v) <= length (edge_bits g0) /\ rlen a v <= D.
  Hypothesis Hk : 2 <= k.
  Let HS := gc_sorted _ _ HC.
  Let Hself := gc_self _ _ HC.

  (** What an enumeration may change: the scratch space, and the stored cliques (for other cliques of the same root). *)
  Record kept (g : graph) : Prop := {
    ke_core : core g = core g0;
    ke_vs : vertices g = vertices g0;
    ke_size : CUR_MAX_SIZE g = CUR_MAX_SIZE g0;
    ke_loc : CUR_MAX_LOC g = CUR_MAX_LOC g0;
    ke_len : length (edge_bits g) = length (edge_bits g0);
    ke_mem : memok (edge_bits g);
    ke_low : forall i, eb a nv <= i < c0 -> nth i (edge_bits g) 0%N = nth i (edge_bits g0) 0%N;
    ke_bits : forall v, v < nv -> exists s, stores a g v s
  }.

  Lemma kept_shape g : kept g -> shape a nv g mcs.
  Proof.
    intros [K1 K2 K3 K4 K5 K6 K8 K7]. unfold core in K1. inversion K1. destruct SH0. split; congruence.
  Qed.

  Lemma kept_arena g m c : kept g -> memok m -> length m = length (edge_bits g) ->
    (forall i, i < c0 -> nth i m 0%N = nth i (edge_bits g) 0%N) -> kept (set_cur (set_mem g m) c).
  Proof.
    intros [K1 K2 K3 K4 K5 K6 K8 K7] M1 M2 M3. split; auto; [cbn [set_cur set_mem edge_bits]; congruence|intros i Hi; cbn [set_cur set_mem edge_bits]; rewrite M3 by (apply Hi); auto|].
    intros v Hv. destruct (K7 v Hv) as (s & K & R1 & R2). exists s, K. split; auto. cbn [set_cur set_mem edge_bits].
    eapply rep_nth; [|exact M2|exact R1]. intros i Hi. apply M3. pose proof (block_end a nv v Hv). lia.
  Qed.

  Lemma kept_store g m v K : kept g -> v < nv -> memok m -> same_out (edge_bits g) m (eb a v) (words (rlen a v)) ->
    rep m (eb a v) (rlen a v) K -> rooted a v K -> pclique a v K -> kept (set_mem g m).
  Proof.
    intros [K1 K2 K3 K4 K5 K6 K8 K7] Hv M1 [M2 M3] R1 R2 R3. split; auto; [cbn [set_mem edge_bits]; congruence|intros i Hi; cbn [set_mem edge_bits]; rewrite M3; [auto|pose proof (block_end a nv v Hv) as BE; clear - Hi BE; lia]|].
    intros u Hu. destruct (Nat.eq_dec u v) as [->|NE]; [exists (card (rlen a v) K), K; auto|].
    destruct (K7 u Hu) as (s & K' & Q1 & Q2). exists s, K'. split; auto. cbn [set_mem edge_bits].
    eapply rep_nth; [|exact M2|exact Q1]. intros i Hi. apply M3. intros Hi'.
    apply (block_disjoint a nv u v i Hu Hv NE); [exact Hi|exact Hi'].
  Qed.

  Section Inner.
    Variables (cur : nat).
    Hypothesis Hc : cur < nv.
    Notation N := (rlen a cur).
    Notation w := (words (rlen a cur)).
    Notation A := (padj a cur).
    Notation arena := (arena a cur c0 lr (candp a cur) (bound a cur)).
    Notation ecov := (ecovered a cur).
    Notation target := (target a cur k).
    Notation fdisj := (fdisj a cur).

    Lemma en_inner_spec id S0 fs st0 sts g1 mv : kept g1 ->
      arena (edge_bits g1) (search_cur g1) ((id, S0) :: fs) (st0 :: sts) -> fdisj ((id, S0) :: fs) -> length fs + 1 < k ->
      wp (en_inner cur (mkvert a mv cur) k (S (length fs)) g1 st0 (card N S0))
         (fun r => let '(g, st, res) := r in kept g
            /\ match res with
               | EnExhausted => exists S1, arena (edge_bits g) (search_cur g) ((id, S1) :: fs) (st :: sts)
                    /\ (forall x, x < N -> S1 x = false)
                    /\ (forall K, target K -> (ecov ((id, S0) :: fs) K <-> ecov ((id, S1) :: fs) K))
               | EnFound => exists S1 K0, arena (edge_bits g) (search_cur g) ((id, S1) :: fs) (st :: sts)
                    /\ card N S1 < card N S0 /\ target K0 /\ rep (edge_bits g) (eb a cur) N K0
                    /\ ecov ((id, S0) :: fs) K0
                    /\ (forall K, ecov ((id, S1) :: fs) K -> ecov ((id, S0) :: fs) K)
                    /\ (forall K, target K -> ecov ((id, S0) :: fs) K -> (forall x, x < N -> K x = K0 x) \/ ecov ((id, S1) :: fs) K)
                    /\ fdisj ((id, S1) :: fs) /\ (forall K, ecov ((id, S1) :: fs) K -> lexlt a cur K0 K)
               | EnPush f => exists j S1 S2, arena (edge_bits g) (search_cur g) ((j, S2) :: (id, S1) :: fs) (f :: st :: sts)
                    /\ fdisj ((j, S2) :: (id, S1) :: fs) /\ length fs + 2 < k /\ card N S1 < card N S0 /\ card N S2 < card N S0
                    /\ (forall K, target K -> (ecov ((id, S0) :: fs) K <-> ecov ((j, S2) :: (id, S1) :: fs) K))
               end).
    Proof.
      intros P1 A1 FD HLK. unfold en_inner.
      apply (wp_loopN _ _ (fun '(g, j, st, cl) => exists S1, kept g
          /\ arena (edge_bits g) (search_cur g) ((id, S1) :: fs) (st :: sts)
          /\ fdisj ((id, S1) :: fs) /\ (forall x, x < N -> S1 x = true -> j <= x) /\ cl = card N S1 /\ card N S1 <= card N S0 /\ j <= N + s_start st0
          /\ (forall K, ecov ((id, S1) :: fs) K -> ecov ((id, S0) :: fs) K)
          /\ (forall K, target K -> (ecov ((id, S0) :: fs) K <-> ecov ((id, S1) :: fs) K)))
          (fun '(g, j, st, cl) => N - j)).
      { exists S0. destruct (arena_top _ _ _ _ _ _ _ _ _ _ _ _ _ A1) as (_ & _ & _ & _ & T5).
        split; auto. split; auto. split; auto. split; [intros x Hx E; apply T5; auto|]. repeat split; auto; lia. }
      { cbn [mkvert vN]. lia. }
      clear g1 P1 A1 FD.
      intros [[[g j] st] cl] (S1 & P & AR & FD1 & LOW & -> & LE & LJ & MO & EQ). cbn [mkvert vN velo].
      destruct (Nat.ltb_spec j N) as [Hj|Hj].
      2:{ apply wp_ok. split; auto. exists S1. split; auto. split; auto. intros x Hx. destruct (S1 x) eqn:E; auto.
          pose proof (LOW x Hx E). lia. }
      pose proof (kept_shape g P) as SH.
      destruct (arena_top _ _ _ _ _ _ _ _ _ _ _ _ _ AR) as (T1 & T2 & T3 & T4 & T5).
      destruct (finv_ids a nv cur c0 lr HC _ _ _ _ (ar_fr _ _ _ _ _ _ _ _ _ _ AR)) as (ID1 & ID2 & ID3 & ID4).
      change (ids ((id, S1) :: fs)) with (id :: ids fs) in *.
      rewrite T2, (bits_get_spec (edge_bits g) (blk a cur c0 lr (length fs)) N S1) by auto. cbn [bind].
      destruct (S1 j) eqn:Sj; cbn [negb].
      2:{ apply wp_ok. split; [|lia]. exists S1. split; auto. split; auto. split; auto. split; [|repeat split; auto; try lia].
          intros x Hx E. pose proof (LOW x Hx E). assert (x <> j) by congruence. lia. 
          apply EQ; auto. }
      pose proof (card_remove N S1 j Hj Sj) as CR. change (fun i => negb (i =? j) && S1 i) with (minus S1 j) in CR.
      rewrite <- T2. apply wp_bind. eapply wp_mono; [apply (arena_minus a nv cur c0 lr HC Hc _ _ _ _ _ _ _ _ _ j AR Hj)|].
      intros m1 (M1 & M2 & M3 & M4).
      set (b := blk a cur c0 lr (length fs)) in *.
      assert (GT : forall x, x < N -> minus S1 j x = true -> j < x).
      { intros x Hx Ex. unfold minus in Ex. apply andb_prop in Ex. destruct Ex as [E1 E2].
        pose proof (LOW x Hx E2). destruct (Nat.eqb_spec x j); [discriminate|lia]. }
      assert (AR1 : arena m1 (search_cur g) ((id, minus S1 j) :: fs) (set_start st (j + 1) :: sts)).
      { apply M4. intros x Hx E NE. pose proof (LOW x Hx E). lia. }
      cbn [set_start s_id s_start s_res s_cand] in *.
      set (g1 := set_mem g m1).
      assert (P1 : kept g1).
      { unfold g1. rewrite set_mem_cur. apply kept_arena; auto; [apply M1|]. intros i Hi. apply M1.
        pose proof (blk_ge a nv cur c0 lr Hc (length fs)) as HH. fold b in HH. lia. }
      pose proof (kept_shape g1 P1) as SH1.
      rewrite (sh_el _ _ _ _ SH1), (rd_el a nv HC) by auto. cbn [bind].
      rewrite (sh_vs _ _ _ _ SH1), rd_vert by (apply (nbr_lt a nv HC); auto). cbn [bind].
      apply wp_bind. replace (card N S1 - 1) with (card N (minus S1 j)) by lia.
      change {| vN := N; vspos := sp a cur; velo := off a cur; vebo := eb a cur; vmcs := mv; vbits := refer_from (eb a cur) N |} with (mkvert a mv cur).
      rewrite T2.
      eapply wp_mono; [apply (en_scan_spec a nv HC g1 mcs SH1 cur Hc b (minus S1 j) j (S (length fs)) mv); auto|].
      intros [rem pot] HP. cbn [fst snd] in HP.
      change (fun x => minus S1 j x && A j x) with (inter a cur (minus S1 j) j) in HP.
      assert (LR : length (id :: ids fs) = S (length fs)) by (simpl; unfold ids; rewrite map_length; auto).
      assert (RN : forall x, In x (id :: ids fs) -> x < N) by (intros; apply ID2; auto).
      destruct (T5 j Hj Sj) as (U1 & U2 & U3 & U4).
      assert (SUB : forall x, x < N -> minus S1 j x = true -> S1 x = true) by (intros x Hx E; apply (minus_sub S1 j x E)).
      destruct HP as [(HP1 & HP2 & HP3)|(HP1 & HP2)].
      - destruct (Nat.leb_spec k pot) as [_|]; [|lia].
        destruct (path_clique a nv cur c0 lr HC Hc _ _ _ _ _ _ j (ar_fr _ _ _ _ _ _ _ _ _ _ AR) Hj Sj) as (PC1 & PC2 & PC3).
        destruct (Nat.leb_spec k (S (length fs) + 1)) as [HF|HF].
        + (* found *)
          pose proof (rp_ge a nv cur c0 lr Hc) as RG. pose proof (block_end a nv cur Hc) as BE.
          set (r := rp a cur c0 lr) in *.
          rewrite T1. apply wp_bind.
          eapply wp_mono; [apply (bits_set_spec m1 r N _ _ j M2 (ar_res _ _ _ _ _ _ _ _ _ _ AR1)); auto|].
          intros m2 (K1 & K2 & K3).
          assert (P2 : kept (set_mem g1 m2)).
          { rewrite set_mem_cur. apply kept_arena; auto; [apply K3|]. intros i Hi. apply K3. lia. }
          rewrite rd_vert by auto. cbn [bind]. unfold live. rewrite (sh_live _ _ _ _ SH1). cbn [bind].
          apply wp_bind.
          pose proof (ke_bits _ P2 cur Hc) as (s & K' & [RL _] & _). cbn [set_mem edge_bits] in RL.
          eapply wp_mono; [apply (bits_copy_data_spec m2 (eb a cur) r N _ _ _ K1 K2); auto; lia|].
          intros m3 (J1 & J2 & J3).
          assert (P3 : kept (set_mem (set_mem g1 m2) m3)).
          { eapply kept_store; eauto. }
          assert (K4 : rep m3 r N (fun x => (x =? j) || inb x (ids ((id, minus S1 j) :: fs)))).
          { eapply rep_frame; [exact K2|exact J3|]. lia. }
          apply wp_bind. eapply wp_mono; [apply (bits_reset_spec m3 r N _ _ j J1 K4); auto|].
          intros m4 (L1 & L2 & L3). apply wp_ok.
          assert (P4 : kept (set_mem g1 m4)).
          { change (set_mem g1 m4) with (set_mem (set_mem (set_mem g1 m2) m3) m4). rewrite set_mem_cur.
            apply kept_arena; auto; [apply L3|]. intros i Hi. apply L3. lia. }
          split; [exact P4|].
          exists (minus S1 j), (fun x => inb x (j :: id :: ids fs)).
          assert (TG : target (fun x => inb x (j :: id :: ids fs))).
          { split; auto. split; auto. rewrite PC3. lia. }
          cbn [set_mem edge_bits search_cur]. split; [|split; [lia|split; [exact TG|split; [|split; [|split; [|split; [|split]]]]]]].
          * destruct K3 as [K3l K3], J3 as [J3l J3], L3 as [L3l L3].
            apply (arena_upd a nv cur c0 lr HC Hc _ _ m1); auto; [discriminate|congruence| |].
            -- eapply rep_ext; [exact L2|]. intros x Hx. cbv beta. destruct (Nat.eqb_spec x j) as [->|]; auto.
               cbn [negb andb]. symmetry. apply inb_not. exact U3.
            -- intros i Hi1 Hi2. rewrite L3, J3, K3; auto; lia.
          * eapply rep_frame; [|exact L3|lia]. exact J2.
          * apply EQ; auto. apply ecov_here with (j := j); auto.
          * intros K C. apply MO. eapply ecov_less. exact C.
          * intros K TK C. apply EQ in C; auto. apply (ecov_found a cur k id S1 fs j); auto. lia.
          * apply (fdisj_less a cur id S1); auto.
          * intros K C. apply (ecov_after a cur id S1 fs j); auto.
        + (* push *)
          apply wp_bind. eapply wp_mono.
          * apply (arena_push a nv cur c0 lr HC Hc _ _ g1 id (minus S1 j) fs _ sts j rem AR1); auto.
            -- unfold minus. rewrite Nat.eqb_refl. auto.
            -- rewrite <- PC3. apply (rooted_bound a nv); auto. lia.
          * intros [g2 f] (m2 & E2 & L2 & O2 & AR2). cbn [fst snd] in *. subst g2. apply wp_ok.
            split; [apply kept_arena; auto; apply (ar_ok _ _ _ _ _ _ _ _ _ _ AR2)|].
            exists j, (minus S1 j), (inter a cur (minus S1 j) j). cbn [set_cur set_mem edge_bits search_cur].
            split; [exact AR2|]. split; [apply (fdisj_push a cur j _ id S1); auto; intros x Hx E; unfold inter in E; apply andb_prop in E; tauto|]. split; [lia|]. split; [lia|]. split.
            -- assert (card N (inter a cur (minus S1 j) j) <= card N (minus S1 j)); [|lia].
               apply card_le. intros i Hi E. unfold inter in E. apply andb_prop in E. tauto.
            -- intros K TK. rewrite (EQ K TK). apply (ecov_push a cur k); auto.
      - destruct (Nat.leb_spec k pot) as [|_]; [lia|]. apply wp_ok. split; [|lia].
        exists (minus S1 j). split; auto. split; [exact AR1|]. split; [apply (fdisj_less a cur id S1); auto|]. split; [intros x Hx E; pose proof (GT x Hx E); lia|].
        split; auto. split; [lia|]. split; [lia|]. split.
        + intros K C. apply MO. eapply ecov_less. exact C.
        + intros K TK. rewrite (EQ K TK). apply (ecov_prune a cur k); auto. rewrite LR. lia.
    Qed.
  End Inner.

  Notation W := (2 ^ (D + 2)).
  Notation pend := (pend a nv k).

  (** The state of an enumerator between two turns, with the stack as frames and a measure of the work left. *)
  Definition est (g : graph) (en : enum) (n : nat) (fs : list frame) : Prop :=
    kept g /\ e_size en = k /\ 1 <= e_cur en
    /\ ((e_cur en < nv /\ arena a (e_cur en) c0 lr (candp a (e_cur en)) (bound a (e_cur en)) (edge_bits g) (search_cur g) fs (e_states en)
         /\ e_req en = words (rlen a (e_cur en)) /\ e_csz en = length fs /\ length fs < k /\ fdisj a (e_cur en) fs
         /\ weigh a (e_cur en) fs < W /\ n = (nv - e_cur en) * W + weigh a (e_cur en) fs)
        \/ (fs = [] /\ e_states en = [] /\ search_cur g = c0 /\ zero_from (edge_bits g) c0
            /\ (e_req en = 0 \/ nv <= e_cur en) /\ n = (nv - e_cur en) * W)).

  Lemma W_pos : 0 < W. Proof. apply pow2_pos. Qed.

  Lemma steps_down x y : y < x -> y < nv -> forall z, z < W -> (nv - x) * W + z < (nv - y) * W.
  Proof.
    intros H Hy z Hz. assert ((nv - x + 1) * W <= (nv - y) * W) as L by (apply Nat.mul_le_mono_r; lia).
    rewrite Nat.mul_add_distr_r, Nat.mul_1_l in L. lia.
  Qed.

  Lemma target_le v K : v < nv -> target a v k K -> svalid a nv mcs -> k <= mcs v.
  Proof. intros Hv (T1 & T2 & T3) SV. rewrite <- T3. apply (SV v Hv); auto. lia. Qed.

  Lemma target_bound v K : v < nv -> target a v k K -> k <= bound a v.
  Proof. intros Hv (T1 & T2 & T3). rewrite <- T3. apply (rooted_bound a nv); auto. lia. Qed.

  Lemma verts_length m : length (verts a nv m) = nv.
  Proof. unfold verts. rewrite map_length, seq_length. auto. Qed.

  Lemma en_process_vertex_spec g1 en1 : kept g1 -> e_size en1 = k -> 1 <= e_cur en1 -> e_states en1 = [] ->
    search_cur g1 = c0 -> zero_from (edge_bits g1) c0 -> e_cur en1 < nv ->
    wp (en_process_vertex lr g1 en1) (fun r => let '(g, en) := r in exists n fs, est g en n fs /\ n < (nv - e_cur en1) * W
       /\ (forall d, pend (e_cur en) fs d -> pend (e_cur en1) [] d)
       /\ (svalid a nv mcs -> forall d, pend (e_cur en1) [] d -> pend (e_cur en) fs d)).
  Proof.
    intros P1 Z1 L1 S1 C1 O1 H1. unfold en_process_vertex.
    set (cur1 := e_cur en1) in *.
    apply (wp_loopN _ _ (fun '(g, en) => kept g /\ e_size en = k /\ cur1 < e_cur en /\ e_states en = [] /\ search_cur g = c0
        /\ zero_from (edge_bits g) c0 /\ (svalid a nv mcs -> forall v K, cur1 < v < e_cur en -> v < nv -> ~ target a v k K))
        (fun '(g, en) => nv - e_cur en)).
    { cbn [e_size e_cur e_states]. repeat (split; [solve [auto|lia]|]). intros _ v K Hv. lia. }
    { cbn [e_cur]. rewrite (sh_vs _ _ _ _ (kept_shape g1 P1)), verts_length. lia. }
    clear g1 P1 Z1 C1 O1 S1.
    intros [g en] (P & Z & L & ES & C & O & SK). pose proof (kept_shape g P) as SH.
    rewrite (sh_vs _ _ _ _ SH), verts_length.
    destruct (Nat.ltb_spec (e_cur en) nv) as [Hc|Hc].
    2:{ apply wp_ok. exists ((nv - e_cur en) * W), []. split; [|split; [|split]].
        - split; auto. split; auto. split; [lia|]. right. repeat (split; [solve [auto]|]). auto.
        - pose proof (steps_down (e_cur en) cur1 L H1 0 W_pos). lia.
        - intros d (v & K & Hv & _ & _ & [X|[_ []]]). lia.
        - intros SV d (v & K & Hv & T & E & [X|[_ []]]). destruct (SK SV v K ltac:(lia) Hv T). }
    rewrite rd_vert by auto. cbn [bind].
    destruct (Nat.ltb_spec (vmcs (mkvert a (mcs (e_cur en)) (e_cur en))) (e_size en)) as [HM|HM]; cbn [mkvert vmcs] in HM.
    { apply wp_ok. cbn [e_size e_cur e_states]. split; [|lia]. repeat (split; [solve [auto|lia]|]).
      intros SV v K Hv Hv' T. destruct (Nat.eq_dec v (e_cur en)) as [->|NE]; [|apply (SK SV v K); auto; lia].
      pose proof (target_le _ _ Hv' T SV). lia. }
    destruct (ROOM (e_cur en) Hc ltac:(lia)) as [R1 R2].
    unfold en_load_vertex. rewrite (sh_vs _ _ _ _ SH), rd_vert by auto. cbn [bind].
    pose proof (w_pos a nv (e_cur en) HC Hc) as WP.
    pose proof (arena_init a nv (e_cur en) c0 lr HC Hc g mcs (mcs (e_cur en)) SH C O) as INI.
    rewrite (ke_len _ P) in INI. specialize (INI R1).
    apply wp_bind.
    apply wp_bind_inv in INI. apply wp_bind. eapply wp_mono; [exact INI|]. clear INI. intros [g1 x] INI.
    apply wp_bind_inv in INI. apply wp_bind. eapply wp_mono; [exact INI|]. clear INI. intros [m1 pot] INI. cbn [ends_with] in INI.
    destruct INI as (m' & E1 & L1' & O1 & -> & AR). rewrite E1. cbn [mkvert vN].
    set (w := words (rlen a (e_cur en))) in *.
    assert (P2 : kept (set_cur (set_mem g m') (c0 + 2 * w))).
    { apply kept_arena; auto. apply (ar_ok _ _ _ _ _ _ _ _ _ _ AR). rewrite (ke_len _ P). auto. }
    set (g2 := set_cur (set_mem g m') (c0 + 2 * w)) in *.
    destruct (Nat.ltb_spec (bound a (e_cur en)) (e_size en)) as [HB|HB].
    - apply wp_bind. eapply wp_mono; [apply clear_memory_spec|].
      + apply (ar_ok _ _ _ _ _ _ _ _ _ _ AR).
      + pose proof (ar_space _ _ _ _ _ _ _ _ _ _ AR) as H. pose proof (finv_depth a nv (e_cur en) c0 lr HC Hc _ _ (fun K HK _ => rooted_card a nv HC (e_cur en) K Hc HK) _ _ _ (ar_fr _ _ _ _ _ _ _ _ _ _ AR)) as Dp. cbn [length] in Dp.
        change (search_cur g2) with (c0 + 2 * w). split; [lia|].
        etransitivity; [|exact H]. apply Nat.add_le_mono_l, Nat.mul_le_mono_r. lia.
      + change (search_cur g2) with (c0 + 2 * w). change (edge_bits g2) with m'.
        intros g' (m3 & -> & K1 & K2 & K3). replace (c0 + 2 * w - 2 * w) with c0 in * by lia. destruct K2 as [K2l K2].
        apply wp_ok. cbn [bind]. apply wp_ok. cbn [e_size e_cur e_states]. split; [|lia]. split; [|split; [auto|split; [lia|split; [auto|split; [auto|split]]]]].
        * apply kept_arena; auto. intros i Hi. apply K2. lia.
        * intros i Hi. cbn [set_cur set_mem edge_bits]. destruct (Nat.lt_ge_cases i (c0 + 2 * w)); [apply K3; lia|].
          rewrite K2 by lia. apply (ar_zero _ _ _ _ _ _ _ _ _ _ AR). lia.
        * intros SV v K Hv Hv' T. destruct (Nat.eq_dec v (e_cur en)) as [->|NE]; [|apply (SK SV v K); auto; lia].
          pose proof (target_bound _ _ Hv' T). lia.
    - apply wp_ok. cbn [bind]. apply wp_ok. cbn [e_size e_cur e_states].
      assert (WW : weigh a (e_cur en) [(sp a (e_cur en), candp a (e_cur en))] < W).
      { unfold weigh. cbn [fold_right snd]. pose proof (card_bound (rlen a (e_cur en)) (candp a (e_cur en))) as CB.
        pose proof (Nat.pow_le_mono_r 2 (S (card (rlen a (e_cur en)) (candp a (e_cur en)))) (D + 2) ltac:(lia) ltac:(lia)).
        pose proof (pow2_pos (S (card (rlen a (e_cur en)) (candp a (e_cur en))))). lia. }
      eexists _, [(sp a (e_cur en), candp a (e_cur en))]. split; [|split; [|split]].
      + split; auto. cbn [e_size e_cur e_states e_req e_csz]. split; auto. split; [lia|]. left. rewrite ES.
        split; auto. split; [exact AR|]. repeat (split; [solve [auto|cbn [length]; lia]|]). split; [cbn; auto|]. split; [exact WW|]. reflexivity.
      + apply steps_down; auto.
      + intros d (v & K & Hv & T & E & X). exists v, K. split; auto. split; auto. split; auto. left. destruct X as [X|[-> _]]; lia.
      + intros SV d (v & K & Hv & T & E & [X|[_ []]]). exists v, K. split; auto. split; auto. split; auto.
        destruct (Nat.lt_trichotomy v (e_cur en)) as [Y|[->|Y]]; auto.
        * destruct (SK SV v K ltac:(lia) Hv T).
        * right. split; auto. apply ecov_init. apply T.
  Qed.

  (** The order in which the turns find cliques. *)
  Definition prior (d d' : list nat) : Prop :=
    exists v K v' K', v < nv /\ v' < nv /\ target a v k K /\ target a v' k K' /\ d = decode a v K /\ d' = decode a v' K'
      /\ (v < v' \/ v = v' /\ lexlt a v K K').

  Section Call.
    Variables (n0 : nat) (P0 : list nat -> Prop).

    Definition turn_inv (s : graph * enum) (n : nat) : Prop :=
      let '(g, en) := s in exists fs, est g en n fs /\ n <= n0
        /\ (forall d, pend (e_cur en) fs d -> P0 d) /\ (svalid a nv mcs -> forall d, P0 d -> pend (e_cur en) fs d).

    Definition turn_post (r : graph * enum * nat) : Prop :=
      let '(g, en, v) := r in
      (1 <= v < nv /\ exists n fs K, n < n0 /\ est g en n fs /\ target a v k K /\ rep (edge_bits g) (eb a v) (rlen a v) K
         /\ P0 (decode a v K) /\ (forall d, pend (e_cur en) fs d -> P0 d /\ d <> decode a v K /\ prior (decode a v K) d)
         /\ (svalid a nv mcs -> forall d, P0 d -> d = decode a v K \/ pend (e_cur en) fs d))
      \/ (nv <= v /\ kept g /\ search_cur g = c0 /\ zero_from (edge_bits g) c0 /\ e_states en = [] /\ nv <= e_cur en /\ e_size en = k
          /\ (svalid a nv mcs -> forall d, ~ P0 d)).

    Lemma en_turn_spec s n : turn_inv s n ->
      wp (en_turn lr s) (fun r => match r with Cont s' => exists n', n' < n /\ turn_inv s' n' | Done x => turn_post x end).
    Proof.
      destruct s as [g en]. intros (fs & (P & Z & L & X) & LN & I1 & I2). unfold en_turn.
      pose proof (kept_shape g P) as SH. rewrite (sh_nv _ _ _ _ SH).
      destruct (Nat.ltb_spec (e_cur en) nv) as [Hc|Hc].
      2:{ apply wp_ok. right. destruct X as [(X & _)|(-> & X1 & X2 & X3 & X4 & X5)]; [lia|].
          repeat (split; [solve [auto]|]). intros SV d Pd. destruct (I2 SV d Pd) as (v & K & Hv & _ & _ & [Y|[_ []]]). lia. }
      destruct (e_states en) as [|st rest] eqn:ES.
      - (* the next root *)
        assert (CL : wp (clear_memory g (e_req en)) (fun g' => kept g' /\ search_cur g' = c0 /\ zero_from (edge_bits g') c0) /\ fs = []
                  /\ n = (nv - e_cur en) * W).
        { destruct X as [(_ & AR & X2 & X3 & X4 & X5 & X6 & X7)|(-> & X1 & X2 & X3 & X4 & X5)].
          - pose proof (finv_len _ _ _ _ _ _ _ _ (ar_fr _ _ _ _ _ _ _ _ _ _ AR)) as HL. destruct fs; [|discriminate].
            split; [|split; auto].
            + rewrite X2. eapply wp_mono; [apply (arena_release a nv (e_cur en) c0 lr HC Hc _ _ (fun K HK _ => rooted_card a nv HC (e_cur en) K Hc HK) g [] [] AR)|].
              intros g' (m' & -> & M1 & M2 & M3 & M4). split; [apply kept_arena; auto|]. split; auto.
            + rewrite X7. unfold weigh. cbn [fold_right]. lia.
          - destruct X4 as [X4|X4]; [|lia]. rewrite X4. unfold clear_memory. destruct (Nat.ltb_spec (search_cur g) 0); [lia|].
            cbn [for_ Nat.sub foldM seq]. split; [|auto]. unfold for_. cbn [Nat.sub seq foldM bind]. apply wp_ok.
            replace (set_cur (set_mem g (edge_bits g)) (search_cur g - 0)) with g; [auto|].
            rewrite Nat.sub_0_r. destruct g; reflexivity. }
        destruct CL as (CL & -> & EN).
        apply wp_bind. eapply wp_mono; [exact CL|]. intros g1 (P1 & C1 & O1).
        apply wp_bind. eapply wp_mono; [apply (en_process_vertex_spec g1 en P1 Z L ES C1 O1 Hc)|].
        intros [g2 en2] (n2 & fs2 & E2 & L2 & J1 & J2). apply wp_ok. exists n2. split; [lia|]. exists fs2. split; auto. split; [lia|].
        split; [intros d Q; apply I1, J1, Q|intros SV d Q; apply J2; auto].
      - (* a turn of the search *)
        destruct X as [(_ & AR & X2 & X3 & X4 & X5 & X6 & X7)|(_ & X1 & _)]; [|discriminate].
        destruct fs as [|[id S0] fs]; [destruct (ar_fr _ _ _ _ _ _ _ _ _ _ AR)|].
        set (cur := e_cur en) in *.
        destruct (arena_top _ _ _ _ _ _ _ _ _ _ _ _ _ AR) as (T1 & T2 & T3 & T4 & T5).
        pose proof (len_pos a nv HS Hself cur Hc) as LP.
        rewrite (sh_vs _ _ _ _ SH), rd_vert by auto. cbn [bind].
        rewrite (bits_count_spec (edge_bits g) (blk a cur c0 lr (length fs)) (rlen a cur) S0) by (auto; apply (ar_ok _ _ _ _ _ _ _ _ _ _ AR)).
        cbn [bind]. replace (set_mem g (edge_bits g)) with g by (destruct g; reflexivity).
        apply wp_bind. change (length (sel (rlen a cur) S0)) with (card (rlen a cur) S0). rewrite Z, X3. cbn [length] in *.
        eapply wp_mono; [apply (en_inner_spec cur Hc id S0 fs st rest g (mcs cur) P AR X5); lia|].
        intros [[g2 st2] res] (P2 & H2).
        assert (P2S : forall c, 2 ^ S c = 2 ^ c + 2 ^ c) by (intros; simpl; lia).
        destruct res as [| |f].
        + destruct H2 as (S1 & AR2 & EM & EQ). rewrite X2.
          pose proof (arena_pop a nv cur c0 lr HC Hc _ _ (fun K HK _ => rooted_card a nv HC cur K Hc HK) g2 id S1 fs st2 rest AR2 EM) as POP. apply wp_bind_inv in POP.
          apply wp_bind. eapply wp_mono; [exact POP|]. clear POP. intros g3 POP. apply wp_bind_inv in POP.
          apply wp_bind. eapply wp_mono; [exact POP|]. clear POP. cbv beta. intros m3 POP. cbn [ends_with] in POP.
          destruct POP as (m' & E3 & L3 & O3 & AR3). rewrite E3. apply wp_ok.
          assert (WL : weigh a cur fs < weigh a cur ((id, S0) :: fs)).
          { unfold weigh. cbn [fold_right snd]. pose proof (pow2_pos (card (rlen a cur) S0)). rewrite P2S. lia. }
          exists ((nv - cur) * W + weigh a cur fs). split; [lia|]. exists fs. cbn [e_cur].
          assert (PI : forall d, pend cur ((id, S0) :: fs) d <-> pend cur fs d).
          { apply pend_iff. intros K TK. rewrite (EQ K TK). 
            destruct (finv_ids a nv cur c0 lr HC _ _ _ _ (ar_fr _ _ _ _ _ _ _ _ _ _ AR2)) as (ID1 & ID2 & _).
            apply (ecov_pop a cur k); auto; [intros x I; apply ID2; auto|lia]. }
          split; [|split; [lia|split]].
          * split; [apply kept_arena; auto; apply (ar_ok _ _ _ _ _ _ _ _ _ _ AR3)|]. cbn [e_size e_cur e_states e_req e_csz].
            split; auto. split; auto. left. split; auto. cbn [set_cur set_mem edge_bits search_cur].
            split; [exact AR3|]. split; auto. split; [lia|]. split; [lia|]. split; [apply X5|]. split; [change (weigh a cur ((id, S0) :: fs) < W) in X6; lia|reflexivity].
          * intros d Q. apply I1, PI, Q.
          * intros SV d Q. apply PI, I2; auto.
        + destruct H2 as (S1 & K0 & AR2 & LT & TG & RP & EC & MO & FO & FD & GO). apply wp_ok. left. split; [lia|].
          assert (WL : weigh a cur ((id, S1) :: fs) < weigh a cur ((id, S0) :: fs)).
          { unfold weigh. cbn [fold_right snd]. pose proof (Nat.pow_lt_mono_r 2 (S (card (rlen a cur) S1)) (S (card (rlen a cur) S0)) ltac:(lia) ltac:(lia)).
            pose proof (pow2_pos (S (card (rlen a cur) S1))). lia. }
          exists ((nv - cur) * W + weigh a cur ((id, S1) :: fs)), ((id, S1) :: fs), K0. split; [lia|]. cbn [e_cur].
          split; [|split; [exact TG|split; [exact RP|split; [|split]]]].
          * split; auto. cbn [e_size e_cur e_states e_req e_csz]. split; auto. split; auto. left. split; auto. split; [exact AR2|].
            split; auto. split; [reflexivity|]. split; [cbn [length]; lia|]. split; [exact FD|]. split; [change (weigh a cur ((id, S0) :: fs) < W) in X6; lia|reflexivity].
          * apply I1. exists cur, K0. auto 10.
          * intros d (v & K & Hv & TK & E & Q). split.
            -- apply I1. exists v, K. split; auto. split; auto. split; auto. destruct Q as [Q|[EV Q]]; auto.
            -- assert (PR : cur < v \/ cur = v /\ lexlt a cur K0 K) by (destruct Q as [Q|[-> Q]]; [left; auto|right; auto]).
               split; [|exists cur, K0, v, K; auto 10].
               intros E'. rewrite E in E'. apply (decode_inj a nv HC) in E'; auto; [|apply TK|apply TG]. destruct E' as [-> E'].
               destruct PR as [PR|(_ & x & Hx & A1 & A2 & _)]; [lia|]. rewrite (E' x Hx) in A2. congruence.
          * intros SV d Q. apply I2 in Q; auto. destruct Q as (v & K & Hv & TK & E & Q). destruct Q as [Q|[EV Q]]; [|subst v].
            -- right. exists v, K. auto 10.
            -- destruct (FO K TK Q) as [EK|C]; [left; subst d; apply decode_ext; auto|right; exists cur, K; auto 10].
        + destruct H2 as (j & S1 & S2 & AR2 & SJ & HL & LT1 & LT2 & EQ). apply wp_ok.
          assert (WL : weigh a cur ((j, S2) :: (id, S1) :: fs) < weigh a cur ((id, S0) :: fs)).
          { unfold weigh. cbn [fold_right snd].
            pose proof (Nat.pow_le_mono_r 2 (S (card (rlen a cur) S1)) (card (rlen a cur) S0) ltac:(lia) LT1).
            pose proof (Nat.pow_le_mono_r 2 (S (card (rlen a cur) S2)) (card (rlen a cur) S0) ltac:(lia) LT2).
            pose proof (pow2_pos (S (card (rlen a cur) S1))). pose proof (pow2_pos (S (card (rlen a cur) S2))).
            rewrite (P2S (card (rlen a cur) S0)). lia. }
          exists ((nv - cur) * W + weigh a cur ((j, S2) :: (id, S1) :: fs)). split; [lia|].
          exists ((j, S2) :: (id, S1) :: fs). cbn [e_cur]. pose proof (pend_iff a nv k cur _ _ EQ) as PI.
          split; [|split; [lia|split]].
          * split; auto. cbn [e_size e_cur e_states e_req e_csz]. split; auto. split; auto. left. split; auto. split; [exact AR2|].
            split; auto. split; [cbn [length]; lia|]. split; [cbn [length]; lia|]. split; [exact SJ|].
            split; [change (weigh a cur ((id, S0) :: fs) < W) in X6; lia|reflexivity].
          * intros d Q. apply I1, PI, Q.
          * intros SV d Q. apply PI, I2; auto.
    Qed.
  End Call.

  Lemma en_process_graph_spec g en n fs : est g en n fs ->
    wp (en_process_graph lr g en) (turn_post n (pend (e_cur en) fs)).
  Proof.
    intros E. pose proof E as (P & Z & L & X). unfold en_process_graph. rewrite Z.
    destruct (Nat.eqb_spec k 0); [lia|]. destruct (Nat.eqb_spec k 1); [lia|]. cbn [andb].
    apply (wp_run2_rel _ _ (turn_inv n (pend (e_cur en) fs)) _ n).
    - exists fs. split; auto.
    - rewrite (sh_nv _ _ _ _ (kept_shape g P)), (core_deg g g0 (ke_core _ P)). rewrite <- Nat.add_assoc, Nat.pow_add_r.
      pose proof W_pos as WP. assert (n < nv * W \/ nv <= e_cur en) as [H|H].
      { destruct X as [(X1 & _ & _ & _ & _ & _ & X6 & X7)|(_ & _ & _ & _ & _ & X7)].
        - left. pose proof (steps_down (e_cur en) 0 ltac:(lia) ltac:(lia) _ X6). rewrite Nat.sub_0_r in *. lia.
        - destruct (Nat.lt_ge_cases (e_cur en) nv); auto. left.
          pose proof (steps_down (e_cur en) 0 ltac:(lia) ltac:(lia) 0 WP). rewrite Nat.sub_0_r in *. lia. }
      + eapply Nat.lt_le_trans; [exact H|]. apply Nat.mul_le_mono_r. apply Nat.lt_le_incl, Nat.pow_gt_lin_r. lia.
      + assert (n = 0) as ->.
        { destruct X as [(X1 & _)|(_ & _ & _ & _ & _ & X7)]; [lia|]. rewrite X7. replace (nv - e_cur en) with 0 by lia. reflexivity. }
        apply Nat.mul_pos_pos; [apply pow2_pos|auto].
    - intros s n' I. apply en_turn_spec. auto.
  Qed.
End Enum.
