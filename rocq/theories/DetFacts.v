(** DetFacts: what StackDFS::process_vertex leaves behind is determined by the graph it starts from: the order in which the two
    bitsets of the root are allocated does not matter. The run is followed by a machine on sets of positions that has no memory;
    both runs follow the same machine. *)
From Verif Require Import Base MBits MUtils MGraph MStack SpecBits BaseFacts BitsFacts SetFacts SortFacts RowFacts ConstructFacts CardFacts SearchBase LexFacts StackFacts SearchFacts FrameFacts FrameInv NWSum NWBase NWStack NWHeur NWDetFacts.
Local Open Scope nat_scope.
Local Arguments Nat.sub : simpl never.
Local Arguments Nat.mul : simpl never.

Section Machine.
  Variables (a : pairs) (cur L : nat).
  Notation N := (rlen a cur).

  (** Frames with the top first, the size of the best clique, the clique recorded last, and whether the machine is between two
      turns of the main loop. *)
  Definition gstate : Type := (list frame * nat * option (nat -> bool) * bool)%type.

  Definition gstep (s : gstate) : option gstate :=
    let '(fs, sz, rec, b) := s in
    match fs with
    | [] => None
    | (id, X) :: fs' =>
        if b then if L <=? sz then None else Some (fs, sz, rec, false)
        else
          match find X (seq 0 N) with
          | None => Some (fs', sz, rec, true)
          | Some j =>
              let I2 := inter a cur (minus X j) j in
              let pot := card N I2 + S (length fs') + 1 in
              if sz <? pot then
                if card N (minus X j) =? 0 then
                  Some ((id, minus X j) :: fs', pot, Some (fun x => (x =? j) || inb x (ids ((id, minus X j) :: fs'))), false)
                else Some ((j, I2) :: (id, minus X j) :: fs', sz, rec, true)
              else Some ((id, minus X j) :: fs', sz, rec, false)
          end
    end.

  Inductive greach : gstate -> gstate -> Prop :=
  | gr_refl s : greach s s
  | gr_step s t u : greach s t -> gstep t = Some u -> greach s u.

  Lemma greach_trans s t u : greach s t -> greach t u -> greach s u.
  Proof. intros H1 H2. revert H1. induction H2; intros; auto. eapply gr_step; [|eassumption]; auto. Qed.

  Lemma greach_first s t : greach s t -> s = t \/ exists u, gstep s = Some u /\ greach u t.
  Proof.
    induction 1 as [|s t u H [->|(x & E & R)] A]; auto; right.
    - exists u. split; auto. constructor.
    - exists x. split; auto. eapply gr_step; [|eassumption]; auto.
  Qed.

  Lemma greach_det s t u : greach s t -> greach s u -> gstep u = None -> greach t u.
  Proof.
    intros H1 H2 E. induction H1 as [|s t v H IH A]; auto.
    specialize (IH H2). destruct (greach_first t u IH) as [->|(x & E1 & R)]; congruence.
  Qed.

  Lemma greach_end s t u : greach s t -> greach s u -> gstep t = None -> gstep u = None -> t = u.
  Proof.
    intros H1 H2 E1 E2. pose proof (greach_det s t u H1 H2 E2) as R. destruct (greach_first t u R) as [|(x & E & _)]; congruence.
  Qed.
End Machine.

Section Vertex.
  Variables (a : pairs) (nv cur : nat) (g0 : graph) (mcs0 : nat -> nat).
  Hypothesis HC : gctx a nv.
  Hypothesis Hc : cur < nv.
  Hypothesis SH0 : shape a nv g0 mcs0.
  Notation N := (rlen a cur).
  Notation w := (words (rlen a cur)).
  Notation A := (padj a cur).
  Notation c0 := (search_cur g0).
  Hypothesis He : eb a nv <= c0.
  Hypothesis HZ : zero_from (edge_bits g0) c0.
  Hypothesis HSP : c0 + (bound a cur + 1) * w <= length (edge_bits g0).
  Let HS := gc_sorted _ _ HC.
  Let Hself := gc_self _ _ HC.

  Notation prog := (prog a nv g0).
  Notation first_of := (first_of a cur).
  Notation L := (CLIQUE_LIMIT g0).
  Notation gstep := (gstep a cur L).
  Notation greach := (greach a cur L).

  (** What the graph holds when [rec] was recorded last. *)
  Definition grec (g : graph) (rec : option (nat -> bool)) : Prop :=
    match rec with
    | None => CUR_MAX_SIZE g = CUR_MAX_SIZE g0 /\ CUR_MAX_LOC g = CUR_MAX_LOC g0 /\ vertices g = vertices g0
              /\ forall k, in_block a cur k -> nth k (edge_bits g) 0%N = nth k (edge_bits g0) 0%N
    | Some K => CUR_MAX_LOC g = cur /\ vertices g = upd (vertices g0) cur (mkvert a (CUR_MAX_SIZE g) cur) /\ rep (edge_bits g) (eb a cur) N K
    end.

  Lemma grec_arena g m c rec : grec g rec -> length m = length (edge_bits g) ->
    (forall k, k < c0 -> nth k m 0%N = nth k (edge_bits g) 0%N) -> grec (set_cur (set_mem g m) c) rec.
  Proof.
    intros R M1 M2. pose proof (block_end a nv cur Hc) as BE. destruct rec as [K|]; cbn [grec set_cur set_mem edge_bits CUR_MAX_SIZE CUR_MAX_LOC vertices] in *.
    - destruct R as (R1 & R2 & R3). do 2 (split; auto). eapply rep_nth; [|exact M1|exact R3]. intros i Hi. apply M2. lia.
    - destruct R as (R1 & R2 & R3 & R4). do 3 (split; auto). intros k Hk. rewrite M2 by (unfold in_block in Hk; lia). auto.
  Qed.

  Lemma grec_mem g m rec : grec g rec -> length m = length (edge_bits g) ->
    (forall k, k < c0 -> nth k m 0%N = nth k (edge_bits g) 0%N) -> grec (set_mem g m) rec.
  Proof. intros. rewrite set_mem_cur. apply grec_arena; auto. Qed.

  Lemma record_det g mcs r R size : shape a nv g mcs -> prog g mcs0 cur -> (exists rec, grec g rec) -> rep (edge_bits g) r N R -> c0 <= r ->
    wp (record_max g cur (refer_from r N) size) (fun g' => grec g' (Some R)).
  Proof.
    intros SH P (rec & RO) HR Hr. pose proof (block_end a nv cur Hc) as BE.
    unfold record_max. rewrite (sh_vs _ _ _ _ SH), rd_vert by auto. cbn [bind]. unfold live. rewrite (sh_live _ _ _ _ SH). cbn [bind].
    cbn [mkvert vbits]. pose proof HR as [HRl _].
    apply wp_bind. eapply wp_mono; [apply (bits_copy_data_spec (edge_bits g) (eb a cur) r N R); auto; try (apply (sh_mem _ _ _ _ SH)); lia|].
    intros m (M1 & M2 & M3).
    assert (EV : upd (vertices g) cur (mkvert a size cur) = upd (vertices g0) cur (mkvert a size cur)).
    { destruct rec as [K|]; cbn [grec] in RO; [destruct RO as (_ & -> & _); apply upd_upd|destruct RO as (_ & _ & -> & _); auto]. }
    rewrite <- (sh_vs _ _ _ _ SH).
    rewrite wr_ok by (rewrite (sh_vs _ _ _ _ SH); unfold verts; rewrite map_length, seq_length; auto). cbn [bind]. apply wp_ok.
    cbn [grec set_best set_vertices set_mem CUR_MAX_SIZE CUR_MAX_LOC vertices edge_bits]. rewrite <- EV. auto.
  Qed.

  Section Run.
  Variable lr : bool.
  Notation arena := (arena a cur c0 lr (candp a cur) (bound a cur)).

  Lemma sd_inner_det id S0 fs st0 sts g1 j1 mv rec0 :
    prog g1 mcs0 cur -> grec g1 rec0 -> arena (edge_bits g1) (search_cur g1) ((id, S0) :: fs) (st0 :: sts) ->
    first_of S0 j1 ->
    wp (sd_inner cur (mkvert a mv cur) (S (length fs)) g1 j1 st0 (card N S0))
       (fun r => let '(g, j, st, fut) := r in prog g mcs0 cur
          /\ match fut with
             | None => j = N /\ exists S1 rec, grec g rec /\ arena (edge_bits g) (search_cur g) ((id, S1) :: fs) (st :: sts)
                         /\ (forall x, x < N -> S1 x = false)
                         /\ greach ((id, S0) :: fs, CUR_MAX_SIZE g1, rec0, false) ((id, S1) :: fs, CUR_MAX_SIZE g, rec, false)
             | Some f => j < N /\ exists S1 S2 rec, grec g rec /\ arena (edge_bits g) (search_cur g) ((j, S2) :: (id, S1) :: fs) (f :: st :: sts)
                         /\ card N S1 < card N S0 /\ card N S2 < card N S0
                         /\ greach ((id, S0) :: fs, CUR_MAX_SIZE g1, rec0, false) ((j, S2) :: (id, S1) :: fs, CUR_MAX_SIZE g, rec, true)
             end).
  Proof.
    intros P1 RO1 A1 F1. unfold sd_inner.
    set (s0 := ((id, S0) :: fs, CUR_MAX_SIZE g1, rec0, false)).
    apply (wp_loopN _ _ (fun '(g, j, st, cl) => exists S1 rec, prog g mcs0 cur /\ grec g rec
        /\ arena (edge_bits g) (search_cur g) ((id, S1) :: fs) (st :: sts)
        /\ first_of S1 j /\ cl = card N S1 /\ card N S1 <= card N S0
        /\ greach s0 ((id, S1) :: fs, CUR_MAX_SIZE g, rec, false))
        (fun '(g, j, st, cl) => N - j)).
    { exists S0, rec0. do 6 (split; auto). constructor. }
    { cbn [mkvert vN]. lia. }
    clearbody s0. clear g1 j1 st0 rec0 P1 A1 F1 RO1.
    intros [[[g j] st] cl] (S1 & rec & P & RO & AR & F & -> & LE & RE). cbn [mkvert vN velo].
    destruct (Nat.ltb_spec j N) as [Hj|Hj].
    2:{ apply wp_ok. split; auto. destruct F as [(F1 & _)|(F1 & F2)]; [lia|]. split; auto. exists S1, rec. auto. }
    pose proof (find_first a cur S1 j F) as FF. destruct (Nat.ltb_spec j N) as [_|]; [|lia].
    destruct F as [(_ & Sj & Fj)|(F & _)]; [|lia].
    destruct (prog_shape a nv g0 g mcs0 cur SH0 P) as [mcs SH].
    destruct (arena_top _ _ _ _ _ _ _ _ _ _ _ _ _ AR) as (T1 & T2 & T3 & T4 & T5).
    destruct (finv_ids a nv cur c0 lr HC _ _ _ _ (ar_fr _ _ _ _ _ _ _ _ _ _ AR)) as (ID1 & ID2 & ID3 & ID4).
    change (ids ((id, S1) :: fs)) with (id :: ids fs) in *.
    pose proof (card_remove N S1 j Hj Sj) as CR. change (fun i => negb (i =? j) && S1 i) with (minus S1 j) in CR.
    apply wp_bind. eapply wp_mono; [apply (arena_minus a nv cur c0 lr HC Hc _ _ _ _ _ _ _ _ _ j AR Hj)|].
    intros m1 (M1 & M2 & M3 & M4).
    set (b := blk a cur c0 lr (length fs)) in *.
    assert (GT : forall x, x < N -> minus S1 j x = true -> j < x).
    { intros x Hx Ex. unfold minus in Ex. apply andb_prop in Ex. destruct Ex as [E1 E2].
      destruct (Nat.lt_trichotomy x j) as [Q|[->|Q]]; auto; [rewrite Fj in E2 by auto; discriminate|rewrite Nat.eqb_refl in E1; discriminate]. }
    apply wp_bind. cbn [set_mem edge_bits]. rewrite T2.
    eapply wp_mono; [apply (bits_next_spec m1 b N (minus S1 j)); auto|].
    intros nx Hnx.
    assert (Hfirst : first_of (minus S1 j) nx).
    { assert (LOW : forall x, x < j + 1 -> x < N -> minus S1 j x = false).
      { intros x Hx HxN. destruct (minus S1 j x) eqn:E; auto. pose proof (GT x HxN E). lia. }
      destruct Hnx as [(H1 & H2 & H3)|(H1 & H2)].
      - left. repeat split; auto; [lia|]. intros x Hx. destruct (Nat.lt_ge_cases x (j + 1)); [apply LOW; lia|apply H3; lia].
      - right. split; auto. intros x Hx. destruct (Nat.lt_ge_cases x (j + 1)); [apply LOW; lia|apply H2; lia]. }
    assert (NXJ : j < nx) by (destruct Hnx as [(H1 & _)|(H1 & _)]; lia).
    assert (AR1 : arena m1 (search_cur g) ((id, minus S1 j) :: fs) (set_start st nx :: sts)).
    { apply M4. intros x Hx E NE. assert (minus S1 j x = true) as EM by (unfold minus; rewrite E; destruct (Nat.eqb_spec x j); [congruence|auto]).
      destruct Hfirst as [(F1 & F2 & F3)|(F1 & F2)]; [|rewrite F2 in EM by auto; discriminate].
      destruct (Nat.le_gt_cases nx x); auto. rewrite F3 in EM by auto. discriminate. }
    cbn [set_start s_id s_start s_res s_cand] in *.
    set (g1 := set_mem g m1).
    pose proof (blk_ge a nv cur c0 lr Hc (length fs)) as BG. fold b in BG.
    assert (P1 : prog g1 mcs0 cur).
    { unfold g1. rewrite set_mem_cur. apply prog_arena; auto; [apply M1|]. intros k Hk. apply M1. lia. }
    assert (RO1 : grec g1 rec).
    { apply grec_mem; auto; [apply M1|]. intros k Hk. apply M1. lia. }
    assert (SH1 : shape a nv g1 mcs) by (destruct SH; split; auto).
    rewrite (sh_el _ _ _ _ SH1), (rd_el a nv HC) by auto. cbn [bind].
    rewrite (sh_vs _ _ _ _ SH1), rd_vert by (apply (nbr_lt a nv HC); auto). cbn [bind].
    apply wp_bind. replace (card N S1 - 1) with (card N (minus S1 j)) by lia.
    change (set_mem g m1) with g1.
    change {| vN := N; vspos := sp a cur; velo := off a cur; vebo := eb a cur; vmcs := mv; vbits := refer_from (eb a cur) N |} with (mkvert a mv cur).
    rewrite T2.
    eapply wp_mono; [apply (sd_scan_spec a nv HC g1 mcs SH1 cur Hc b (minus S1 j) j (S (length fs)) mv); auto|].
    intros [rem pot] HP. cbn [fst snd] in HP. change (CUR_MAX_SIZE g1) with (CUR_MAX_SIZE g) in HP |- *.
    change (fun x => minus S1 j x && A j x) with (inter a cur (minus S1 j) j) in HP.
    assert (LR : length (id :: ids fs) = S (length fs)) by (simpl; unfold ids; rewrite map_length; auto).
    assert (RN : forall x, In x (id :: ids fs) -> x < N) by (intros; apply ID2; auto).
    set (I2 := inter a cur (minus S1 j) j) in *.
    assert (ST : gstep ((id, S1) :: fs, CUR_MAX_SIZE g, rec, false) =
      if CUR_MAX_SIZE g <? card N I2 + S (length fs) + 1 then
        if card N (minus S1 j) =? 0 then
          Some ((id, minus S1 j) :: fs, card N I2 + S (length fs) + 1, Some (fun x => (x =? j) || inb x (ids ((id, minus S1 j) :: fs))), false)
        else Some ((j, I2) :: (id, minus S1 j) :: fs, CUR_MAX_SIZE g, rec, true)
      else Some ((id, minus S1 j) :: fs, CUR_MAX_SIZE g, rec, false)).
    { unfold DetFacts.gstep. rewrite FF. reflexivity. }
    destruct HP as [(HP1 & HP2 & HP3)|(HP1 & HP2)].
    - destruct (Nat.ltb_spec (CUR_MAX_SIZE g) pot) as [_|]; [|lia].
      assert (EPT : card N I2 + S (length fs) + 1 = pot) by lia. rewrite EPT in ST.
      destruct (Nat.ltb_spec (CUR_MAX_SIZE g) pot) as [_|]; [|lia].
      destruct (Nat.eqb_spec (card N (minus S1 j)) 0) as [E0|N0].
      + (* record *)
        pose proof (proj1 (card_zero _ _) E0) as HE.
        assert (pot = S (length fs) + 1) as EP.
        { assert (card N I2 = 0); [|lia]. apply card_zero. intros i Hi. unfold I2, inter. rewrite HE; auto. }
        destruct (path_clique a nv cur c0 lr HC Hc _ _ _ _ _ _ j (ar_fr _ _ _ _ _ _ _ _ _ _ AR) Hj Sj) as (PC1 & PC2 & PC3).
        pose proof (rp_ge a nv cur c0 lr Hc) as RG. set (r := rp a cur c0 lr) in *.
        rewrite T1. apply wp_bind.
        eapply wp_mono; [apply (bits_set_spec m1 r N _ _ j M2 (ar_res _ _ _ _ _ _ _ _ _ _ AR1)); auto|].
        intros m2 (K1 & K2 & K3).
        assert (SH2 : shape a nv (set_mem g1 m2) mcs) by (destruct SH1; split; auto).
        assert (P2 : prog (set_mem g1 m2) mcs0 cur).
        { rewrite set_mem_cur. apply prog_arena; auto; [apply K3|]. intros k Hk. apply K3. lia. }
        assert (RO2 : grec (set_mem g1 m2) rec).
        { apply grec_mem; auto; [apply K3|]. intros k Hk. apply K3. lia. }
        assert (REC := record_spec a nv g0 (set_mem g1 m2) mcs0 mcs cur r _ pot Hc He SH2 P2 RG K2 PC1 PC2).
        specialize (REC ltac:(change (card N (fun x => inb x (j :: id :: ids fs)) = pot); lia) ltac:(cbn [set_mem CUR_MAX_SIZE]; exact HP1)).
        pose proof (record_det (set_mem g1 m2) mcs r _ pot SH2 P2 (ex_intro _ rec RO2) K2 RG) as DET.
        apply wp_bind. eapply wp_mono; [exact (wp_conj _ _ _ REC DET)|]. clear REC DET.
        intros g3 ((P3 & Q3 & Q4 & Q5 & Q6) & RO3).
        assert (K4 : rep (edge_bits g3) r N (fun x => (x =? j) || inb x (ids ((id, minus S1 j) :: fs)))).
        { eapply rep_frame; [exact K2|exact Q5|]. pose proof (block_end a nv cur Hc). lia. }
        apply wp_bind. eapply wp_mono; [apply (bits_reset_spec (edge_bits g3) r N _ _ j (pr_mem _ _ _ _ _ _ P3) K4); auto|].
        intros m4 (L1 & L2 & L3). apply wp_ok. split; [|lia].
        exists (minus S1 j), (Some (fun x => (x =? j) || inb x (ids ((id, minus S1 j) :: fs)))).
        split; [|split; [|split; [|split; [|split; [|split]]]]]; auto; [| | |lia|].
        * rewrite set_mem_cur. apply prog_arena; auto; [apply L3|]. intros k Hk. apply L3. lia.
        * apply grec_mem; auto; [apply L3|]. intros k Hk. apply L3. lia.
        * cbn [set_mem edge_bits search_cur]. rewrite Q4. change (search_cur (set_mem g1 m2)) with (search_cur g).
          destruct K3 as [K3l K3], Q5 as [Q5l Q5], L3 as [L3l L3]. cbn [set_mem edge_bits] in Q5l, Q5.
          pose proof (block_end a nv cur Hc) as BE.
          apply (arena_upd a nv cur c0 lr HC Hc _ _ m1); auto; [discriminate|congruence| |].
          -- eapply rep_ext; [exact L2|]. intros x Hx. cbv beta. destruct (Nat.eqb_spec x j) as [->|]; auto.
             cbn [negb andb]. symmetry. apply inb_not. destruct (T5 j Hj Sj) as (_ & _ & T & _). exact T.
          -- intros k Hk1 Hk2. rewrite L3, Q5, K3; auto; lia.
        * cbn [set_mem CUR_MAX_SIZE]. rewrite Q3. eapply gr_step; eauto.
      + (* push *)
        assert (NE : exists x, x < N /\ minus S1 j x = true) by (apply card_pos; lia).
        destruct (T5 j Hj Sj) as (U1 & U2 & U3 & U4).
        apply wp_bind. eapply wp_mono.
        * apply (arena_push a nv cur c0 lr HC Hc _ _ g1 id (minus S1 j) fs _ sts j rem AR1); auto.
          -- unfold minus. rewrite Nat.eqb_refl. auto.
          -- intros x Hx Ex. pose proof (GT x Hx Ex). lia.
          -- pose proof (path_clique a nv cur c0 lr HC Hc _ _ _ _ _ _ j (ar_fr _ _ _ _ _ _ _ _ _ _ AR) Hj Sj) as (PC1 & PC2 & PC3).
             rewrite <- PC3, (bound_card a), <- (card_add N (candp a cur) (sp a cur)).
             ++ apply card_le. intros i Hi Ki. destruct (proj2 PC1 i Hi Ki) as [->|E]; [rewrite Nat.eqb_refl; auto|rewrite E, orb_true_r; auto].
             ++ apply (sp_spec a nv HS Hself cur Hc).
             ++ apply (candp_sp a nv HS Hself cur Hc).
        * intros [g2 f] (m2 & E2 & L2 & O2 & AR2). cbn [fst snd] in *. subst g2. apply wp_ok. split; [|split; auto].
          -- apply prog_arena; auto. apply (ar_ok _ _ _ _ _ _ _ _ _ _ AR2).
          -- exists (minus S1 j), I2, rec. split; [apply grec_arena; auto|]. cbn [set_cur set_mem edge_bits search_cur CUR_MAX_SIZE].
             split; [exact AR2|]. split; [lia|]. split; [|eapply gr_step; eauto].
             assert (card N I2 <= card N (minus S1 j)); [|lia].
             apply card_le. intros i Hi E. unfold I2, inter in E. apply andb_prop in E. tauto.
    - destruct (Nat.ltb_spec (CUR_MAX_SIZE g) pot) as [|_]; [lia|]. apply wp_ok. split; [|lia].
      destruct (Nat.ltb_spec (CUR_MAX_SIZE g) (card N I2 + S (length fs) + 1)) as [|_]; [lia|].
      exists (minus S1 j), rec. split; auto. split; auto. split; [exact AR1|]. split; auto. split; auto. split; [lia|].
      change (CUR_MAX_SIZE g1) with (CUR_MAX_SIZE g). eapply gr_step; eauto.
  Qed.

  Definition gturn_inv (s0 : gstate) (s : graph * list sstate * nat) (n : nat) : Prop :=
    let '(g, sts, csz) := s in
    exists fs rec, prog g mcs0 cur /\ grec g rec /\ arena (edge_bits g) (search_cur g) fs sts /\ csz = length fs
      /\ greach s0 (fs, CUR_MAX_SIZE g, rec, true) /\ n = weigh a cur fs.

  Definition gturn_post (s0 : gstate) (r : graph * list sstate) : Prop :=
    let '(g, sts) := r in
    exists fs rec, prog g mcs0 cur /\ grec g rec /\ arena (edge_bits g) (search_cur g) fs sts
      /\ greach s0 (fs, CUR_MAX_SIZE g, rec, true) /\ gstep (fs, CUR_MAX_SIZE g, rec, true) = None.

  Lemma sd_turn_det s0 mv s n : gturn_inv s0 s n ->
    wp (sd_turn cur (mkvert a mv cur) s) (fun r => match r with Cont s' => exists n', n' < n /\ gturn_inv s0 s' n' | Done x => gturn_post s0 x end).
  Proof.
    destruct s as [[g sts] csz]. intros (fs & rec & P & RO & AR & -> & RE & ->). unfold sd_turn.
    destruct sts as [|st rest].
    { apply wp_ok. exists fs, rec. pose proof (finv_len _ _ _ _ _ _ _ _ (ar_fr _ _ _ _ _ _ _ _ _ _ AR)) as Q. destruct fs; [|discriminate]. auto. }
    destruct fs as [|[id S0] fs]; [destruct (ar_fr _ _ _ _ _ _ _ _ _ _ AR)|].
    pose proof (core_lim _ _ (pr_core _ _ _ _ _ _ P)) as LIM.
    assert (AS : gstep ((id, S0) :: fs, CUR_MAX_SIZE g, rec, true) = if CLIQUE_LIMIT g <=? CUR_MAX_SIZE g then None else Some ((id, S0) :: fs, CUR_MAX_SIZE g, rec, false)).
    { unfold DetFacts.gstep. rewrite LIM. reflexivity. }
    destruct (Nat.leb_spec (CLIQUE_LIMIT g) (CUR_MAX_SIZE g)) as [HL|HL].
    { apply wp_ok. exists ((id, S0) :: fs), rec. auto. }
    destruct (arena_top _ _ _ _ _ _ _ _ _ _ _ _ _ AR) as (T1 & T2 & T3 & T4 & T5).
    pose proof (len_pos a nv HS Hself cur Hc) as LP.
    rewrite (bits_count_spec (edge_bits g) (blk a cur c0 lr (length fs)) N S0) by (auto; apply (ar_ok _ _ _ _ _ _ _ _ _ _ AR)).
    cbn [bind]. replace (set_mem g (edge_bits g)) with g by (destruct g; reflexivity).
    apply wp_bind. eapply wp_mono; [apply (bits_next_spec (edge_bits g) (blk a cur c0 lr (length fs)) N S0); auto; apply (ar_ok _ _ _ _ _ _ _ _ _ _ AR)|].
    intros st0 Hst.
    assert (F : first_of S0 st0).
    { assert (LOW : forall x, x < s_start st -> x < N -> S0 x = false).
      { intros x Hx HxN. destruct (S0 x) eqn:E; auto. destruct (T5 x HxN E). lia. }
      destruct Hst as [(H1 & H2 & H3)|(H1 & H2)].
      - left. repeat split; auto; [lia|]. intros x Hx. destruct (Nat.lt_ge_cases x (s_start st)); [apply LOW; lia|apply H3; lia].
      - right. split; auto. intros x Hx. destruct (Nat.lt_ge_cases x (s_start st)); [apply LOW; lia|apply H2; lia]. }
    assert (AR1 : arena (edge_bits g) (search_cur g) ((id, S0) :: fs) (set_start st st0 :: rest)).
    { apply arena_start; auto. intros x Hx E. destruct F as [(F1 & F2 & F3)|(F1 & F2)]; [|rewrite F2 in E by auto; discriminate].
      destruct (Nat.le_gt_cases st0 x); auto. rewrite F3 in E by auto. discriminate. }
    apply wp_bind. change (length (sel N S0)) with (card N S0). change (length ((id, S0) :: fs)) with (S (length fs)).
    eapply wp_mono; [apply (sd_inner_det id S0 fs (set_start st st0) rest g st0 mv rec P RO AR1 F)|].
    assert (RE1 : greach s0 ((id, S0) :: fs, CUR_MAX_SIZE g, rec, false)) by (eapply gr_step; eauto).
    intros [[[g2 j] st2] fut] (P2 & H2). cbn [mkvert vN]. destruct fut as [f|].
    - destruct H2 as (Hj & S1 & S2 & rec2 & RO2 & AR2 & LT1 & LT2 & RE2).
      destruct (Nat.eqb_spec j N); [lia|]. apply wp_ok. exists (weigh a cur ((j, S2) :: (id, S1) :: fs)). split.
      + unfold weigh. cbn [fold_right snd]. pose proof (dpow_le (S (card N S1)) (card N S0) LT1). pose proof (dpow_le (S (card N S2)) (card N S0) LT2).
        pose proof (pow2_pos (S (card N S1))). pose proof (pow2_pos (S (card N S2))).
        assert (2 ^ S (card N S0) = 2 ^ card N S0 + 2 ^ card N S0) by (simpl; lia). lia.
      + exists ((j, S2) :: (id, S1) :: fs), rec2. do 3 (split; auto). split; [cbn [length]; lia|]. split; auto. eapply greach_trans; eauto.
    - destruct H2 as (-> & S1 & rec2 & RO2 & AR2 & E1 & RE2). rewrite Nat.eqb_refl.
      pose proof (arena_pop a nv cur c0 lr HC Hc _ _ (fun K HK _ => rooted_card a nv HC cur K Hc HK) g2 id S1 fs st2 rest AR2 E1) as POP. apply wp_bind_inv in POP.
      apply wp_bind. eapply wp_mono; [exact POP|]. clear POP. intros g3 POP. apply wp_bind_inv in POP.
      apply wp_bind. eapply wp_mono; [exact POP|]. clear POP. cbv beta. intros m3 POP. cbn [ends_with] in POP.
      destruct POP as (m' & E3 & L3 & O3 & AR3). rewrite E3. apply wp_ok. exists (weigh a cur fs). split.
      + unfold weigh. cbn [fold_right snd]. pose proof (pow2_pos (card N S0)).
        assert (2 ^ S (card N S0) = 2 ^ card N S0 + 2 ^ card N S0) by (simpl; lia). lia.
      + exists fs, rec2. split; [apply prog_arena; auto; apply (ar_ok _ _ _ _ _ _ _ _ _ _ AR3)|]. split; [apply grec_arena; auto|].
        cbn [tl set_cur set_mem edge_bits search_cur CUR_MAX_SIZE].
        split; auto. split; [lia|]. split; auto.
        assert (AS2 : gstep ((id, S1) :: fs, CUR_MAX_SIZE g2, rec2, false) = Some (fs, CUR_MAX_SIZE g2, rec2, true)).
        { unfold DetFacts.gstep. rewrite (find_first a cur S1 N (or_intror (conj eq_refl E1))), Nat.ltb_irrefl. reflexivity. }
        eapply gr_step; [|exact AS2]. eapply greach_trans; eauto.
  Qed.

  (** The machine of the root. *)
  Definition gstart : gstate := ([(sp a cur, candp a cur)], CUR_MAX_SIZE g0, None, true).

  Definition gend (g : graph) : Prop := searched a nv cur g0 mcs0 g /\
    ((bound a cur <= CUR_MAX_SIZE g0 /\ grec g None)
     \/ (CUR_MAX_SIZE g0 < bound a cur
         /\ exists fs rec, grec g rec /\ greach gstart (fs, CUR_MAX_SIZE g, rec, true) /\ gstep (fs, CUR_MAX_SIZE g, rec, true) = None)).

  Lemma sd_process_vertex_det : wp (sd_process_vertex lr g0 cur) gend.
  Proof.
    unfold sd_process_vertex. rewrite (sh_vs _ _ _ _ SH0), rd_vert by auto. cbn [bind].
    pose proof (w_pos a nv cur HC Hc) as W.
    destruct (sp_spec a nv HS Hself cur Hc) as [S1 S2].
    pose proof (arena_init a nv cur c0 lr HC Hc g0 mcs0 (mcs0 cur) SH0 eq_refl HZ HSP) as INI.
    apply wp_bind_inv in INI. apply wp_bind. eapply wp_mono; [exact INI|]. clear INI. intros [g1 x] INI.
    apply wp_bind_inv in INI. apply wp_bind. eapply wp_mono; [exact INI|]. clear INI. intros [m1 pot] INI. cbn [ends_with] in INI.
    destruct INI as (m' & E1 & L1 & O1 & -> & AR). cbv zeta. rewrite E1.
    assert (R0 : grec g0 None) by (cbn [grec]; auto).
    assert (P1 : prog (set_cur (set_mem g0 m') (c0 + 2 * w)) mcs0 cur).
    { apply prog_arena; auto; [apply prog_refl; auto|]. apply (ar_ok _ _ _ _ _ _ _ _ _ _ AR). }
    assert (R1 : grec (set_cur (set_mem g0 m') (c0 + 2 * w)) None) by (apply grec_arena; auto).
    set (g2 := set_cur (set_mem g0 m') (c0 + 2 * w)) in *. cbn [mkvert vN].
    change {| vN := N; vspos := sp a cur; velo := off a cur; vebo := eb a cur; vmcs := mcs0 cur; vbits := refer_from (eb a cur) N |} with (mkvert a (mcs0 cur) cur).
    destruct (Nat.leb_spec (bound a cur) (CUR_MAX_SIZE g2)) as [HB|HB]; change (CUR_MAX_SIZE g2) with (CUR_MAX_SIZE g0) in HB.
    - eapply wp_mono; [apply clear_memory_spec|].
      + apply (ar_ok _ _ _ _ _ _ _ _ _ _ AR).
      + pose proof (ar_space _ _ _ _ _ _ _ _ _ _ AR). pose proof (finv_depth a nv cur c0 lr HC Hc _ _ (fun K HK _ => rooted_card a nv HC cur K Hc HK) _ _ _ (ar_fr _ _ _ _ _ _ _ _ _ _ AR)) as D. cbn [length] in D.
        change (search_cur g2) with (c0 + 2 * w). split; [lia|].
        etransitivity; [|exact H]. apply Nat.add_le_mono_l, Nat.mul_le_mono_r. lia.
      + change (search_cur g2) with (c0 + 2 * w). change (edge_bits g2) with m'.
        intros g' (m3 & -> & K1 & K2 & K3). replace (c0 + 2 * w - 2 * w) with c0 in * by lia. destruct K2 as [K2l K2].
        split; [|left; split; auto; apply grec_arena; auto; intros k Hk; apply K2; lia]. split; auto.
        * apply prog_arena; auto. intros k Hk. apply K2. lia.
        * intros k Hk. cbn [set_cur set_mem edge_bits]. destruct (Nat.lt_ge_cases k (c0 + 2 * w)); [apply K3; lia|].
          rewrite K2 by lia. apply (ar_zero _ _ _ _ _ _ _ _ _ _ AR). lia.
    - apply wp_bind. eapply wp_mono.
      + apply (wp_run2_rel _ _ (gturn_inv gstart) _ (weigh a cur [(sp a cur, candp a cur)])).
        * exists [(sp a cur, candp a cur)], None. split; auto. split; auto. split; [exact AR|]. split; auto. split; auto. constructor.
        * unfold weigh. cbn [fold_right snd]. pose proof (card_bound N (candp a cur)). pose proof (dpow_le (S (card N (candp a cur))) (S (S N)) ltac:(lia)).
          pose proof (pow2_pos (S (card N (candp a cur)))). lia.
        * intros s n I. apply sd_turn_det. auto.
      + intros [g3 sts] (fs & rec & P3 & RO3 & AR3 & RE3 & E3).
        eapply wp_mono; [apply (arena_release a nv cur c0 lr HC Hc _ _ (fun K HK _ => rooted_card a nv HC cur K Hc HK) g3 fs sts AR3)|].
        intros g' (m3 & -> & Q & OK & O & Z). split.
        * split; auto. apply prog_arena; auto.
        * right. split; auto. exists fs, rec. split; [apply grec_arena; auto|]. auto.
  Qed.
  End Run.

  (** The graph after the search is determined. *)
  Lemma gend_same g g' : gend g -> gend g' -> g = g'.
  Proof.
    intros [[P Q Z] D] [[P' Q' Z'] D'].
    assert (R : exists rec, CUR_MAX_SIZE g = CUR_MAX_SIZE g' /\ grec g rec /\ grec g' rec).
    { destruct D as [[D1 D2]|(D1 & fs & rec & D2 & D3 & D4)], D' as [[D1' D2']|(D1' & fs' & rec' & D2' & D3' & D4')]; try lia.
      - exists None. split; auto. destruct D2 as [-> _], D2' as [-> _]. auto.
      - pose proof (greach_end a cur L _ _ _ D3 D3' D4 D4') as E. injection E as E1 E2 E3. subst rec'. exists rec. auto. }
    destruct R as (rec & SZ & R & R').
    assert (ME : edge_bits g = edge_bits g').
    { apply mem_ext; [rewrite (pr_len _ _ _ _ _ _ P), (pr_len _ _ _ _ _ _ P'); auto|]. intros k.
      destruct (Nat.lt_ge_cases k c0) as [Hk|Hk]; [|rewrite Z, Z' by auto; auto].
      destruct (Nat.lt_ge_cases k (eb a cur)) as [Hk1|Hk1]; [|destruct (Nat.lt_ge_cases k (eb a cur + w)) as [Hk2|Hk2]].
      - rewrite (pr_same _ _ _ _ _ _ P), (pr_same _ _ _ _ _ _ P'); auto; unfold in_block; lia.
      - destruct rec as [K|]; cbn [grec] in R, R'.
        + apply (rep_word _ _ (eb a cur) N K); try apply R; try apply R'; try apply (pr_mem _ _ _ _ _ _ P); try apply (pr_mem _ _ _ _ _ _ P'); auto.
        + destruct R as (_ & _ & _ & R), R' as (_ & _ & _ & R'). rewrite R, R' by (unfold in_block; auto). auto.
      - rewrite (pr_same _ _ _ _ _ _ P), (pr_same _ _ _ _ _ _ P'); auto; unfold in_block; lia. }
    assert (EV : vertices g = vertices g' /\ CUR_MAX_LOC g = CUR_MAX_LOC g').
    { destruct rec as [K|]; cbn [grec] in R, R'.
      - destruct R as (-> & -> & _), R' as (-> & -> & _). rewrite SZ. auto.
      - destruct R as (_ & -> & -> & _), R' as (_ & -> & -> & _). auto. }
    destruct EV as [EV EL].
    pose proof (pr_core _ _ _ _ _ _ P) as C. pose proof (pr_core _ _ _ _ _ _ P') as C'. rewrite <- C' in C.
    rewrite <- Q' in Q. clear -C Q SZ ME EV EL. unfold core in C. destruct g, g'. cbn in *. inversion C. subst. reflexivity.
  Qed.

  Lemma sd_process_vertex_same lr lr' : exists g, sd_process_vertex lr g0 cur = Ok g /\ sd_process_vertex lr' g0 cur = Ok g.
  Proof.
    pose proof (sd_process_vertex_det lr) as D. pose proof (sd_process_vertex_det lr') as D'.
    apply wp_iff in D, D'. destruct D as (g & E & D), D' as (g' & E' & D'). rewrite (gend_same g' g D' D) in E'. eauto.
  Qed.
End Vertex.

Section Graph.
  Context {half : bool}.
  Variables (a : pairs) (nv : nat).
  Hypothesis HC : gctx a nv.
  Notation good := (goodR half a nv).

  Lemma sd_step_same lr lr' g0 mcs0 cur : good g0 mcs0 -> cur < nv ->
    exists g mcs, sd_process_vertex lr g0 cur = Ok g /\ sd_process_vertex lr' g0 cur = Ok g /\ good g mcs.
  Proof.
    intros G Hc. pose proof (sd_step a nv HC lr g0 mcs0 cur G Hc) as ST.
    destruct (good_room_s a nv g0 mcs0 _ cur (proj1 G) Hc) as [R1 R2].
    destruct (sd_process_vertex_same a nv cur g0 mcs0 HC Hc (go_shape _ _ _ _ _ (proj1 G)) (go_eb _ _ _ _ _ (proj1 G)) (proj2 G) R1 lr lr') as (g & E & E').
    rewrite E in ST. cbn [ends_with] in ST. destruct ST as (mcs & G' & _). exists g, mcs. auto.
  Qed.

  Lemma sd_process_graph_same lr lr' g0 mcs0 : good g0 mcs0 -> sd_process_graph lr g0 = sd_process_graph lr' g0.
  Proof.
    intros G0. unfold sd_process_graph.
    destruct (sd_step_same lr lr' g0 mcs0 _ G0 (go_loc _ _ _ _ _ (proj1 G0))) as (g & mcs & -> & -> & G). cbn [bind].
    rewrite (sh_nv _ _ _ _ (go_shape _ _ _ _ _ (proj1 G))).
    assert (K : forall l g mcs, good g mcs -> (forall i, In i l -> i < nv) ->
      let body lr := (fun i g => v <- rd (vertices g) i;;
        if (vmcs v <=? CUR_MAX_SIZE g) || (CLIQUE_LIMIT g <=? CUR_MAX_SIZE g) then Ok g else sd_process_vertex lr g i) in
      foldM (body lr) l g = foldM (body lr') l g).
    { clear g mcs G. induction l as [|i l IH]; intros g mcs G HI body; cbn [foldM]; auto.
      assert (Hi : i < nv) by (apply HI; left; auto). unfold body at 1 3. rewrite (good_rd a nv g mcs i G Hi). cbn [bind].
      destruct ((vmcs (mkvert a (mcs i) i) <=? CUR_MAX_SIZE g) || (CLIQUE_LIMIT g <=? CUR_MAX_SIZE g)); cbn [bind].
      - apply (IH g mcs); auto. intros y Hy. apply HI. right. auto.
      - destruct (sd_step_same lr lr' g mcs i G Hi) as (g1 & mcs1 & -> & -> & G1). cbn [bind].
        apply (IH g1 mcs1); auto. intros y Hy. apply HI. right. auto. }
    unfold for_. pose proof (K (seq 0 (nv - 0)) g mcs G ltac:(intros i Hi; apply in_seq in Hi; lia)) as E. cbv zeta in E. rewrite E. reflexivity.
  Qed.
End Graph.
