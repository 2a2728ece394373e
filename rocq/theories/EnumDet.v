(** EnumDet: the cliques that CliqueEnumerator yields and the graph it leaves at the end are determined by the graph it starts
    from: the order in which the two bitsets of a root are allocated does not matter. As in DetFacts both runs follow the same
    machine on sets of positions, here with the cliques stored. *)
From Verif Require Import Base MBits MUtils MGraph MEnum MApi SpecBits BaseFacts BitsFacts SetFacts SortFacts RowFacts ConstructFacts CardFacts SearchBase FrameFacts FrameInv StackFacts SearchFacts CliqueFacts EnumFacts NWDetFacts NWEnumDet.
Local Open Scope nat_scope.
Local Arguments Nat.sub : simpl never.
Local Arguments Nat.mul : simpl never.

Section Enum.
  Variables (a : pairs) (nv : nat) (k : nat) (g0 : graph) (mcs : nat -> nat).
  Hypothesis HC : gctx a nv.
  Hypothesis SH0 : shape a nv g0 mcs.
  Notation c0 := (search_cur g0).
  Notation D := (max_degree g0).
  Hypothesis He : eb a nv <= search_cur g0.
  Hypothesis ROOM : forall v, v < nv -> 2 <= mcs v ->
    search_cur g0 + (bound a v + 1) * words (rlen a v) <= length (edge_bits g0) /\ rlen a v <= max_degree g0.
  Hypothesis Hk : 2 <= k.
  Let HS := gc_sorted _ _ HC.
  Let Hself := gc_self _ _ HC.
  Notation kept := (kept a nv g0).
  Notation kept_shape := (kept_shape a nv g0 mcs SH0).
  Notation kept_arena := (kept_arena a nv k g0 He Hk).

  Definition begins (v : nat) : bool := (k <=? mcs v) && (k <=? bound a v).

  (** The root, the frames, and the cliques stored so far, the last one first. *)
  Definition xstate : Type := (nat * list frame * list (nat * (nat -> bool)))%type.

  Definition xstep (s : xstate) : option xstate :=
    let '(cur, fs, out) := s in
    if nv <=? cur then None
    else
      match fs with
      | [] =>
          match find begins (seq (cur + 1) (nv - (cur + 1))) with
          | None => Some (nv, [], out)
          | Some v => Some (v, [(sp a v, candp a v)], out)
          end
      | (id, X) :: fs' =>
          match find X (seq 0 (rlen a cur)) with
          | None => Some (cur, fs', out)
          | Some j =>
              if k <=? card (rlen a cur) (inter a cur (minus X j) j) + S (length fs') + 1 then
                if k <=? S (length fs') + 1 then
                  Some (cur, (id, minus X j) :: fs', (cur, fun x => inb x (j :: id :: ids fs')) :: out)
                else Some (cur, (j, inter a cur (minus X j) j) :: (id, minus X j) :: fs', out)
              else Some (cur, (id, minus X j) :: fs', out)
          end
      end.
  Notation xreach := (reach xstep).

  (** The bitsets of the roots hold the cliques stored last. *)
  Definition gstored (m : list BinNums.N) (out : list (nat * (nat -> bool))) : Prop :=
    forall v, v < nv -> match find (fun x => fst x =? v) out with
                        | None => forall k, in_block a v k -> nth k m 0%N = nth k (edge_bits g0) 0%N
                        | Some (_, K) => rep m (eb a v) (rlen a v) K
                        end.

  Lemma gstored_low m m' out : gstored m out -> length m' = length m -> (forall k, k < c0 -> nth k m' 0%N = nth k m 0%N) -> gstored m' out.
  Proof.
    intros H L E v Hv. specialize (H v Hv). pose proof (block_end a nv v Hv) as BE. destruct (find (fun x => fst x =? v) out) as [[u K]|].
    - eapply rep_nth; [|exact L|exact H]. intros i Hi. apply E. lia.
    - intros i Hi. rewrite E by (unfold in_block in Hi; lia). auto.
  Qed.

  Lemma gstored_store m m' v K out : gstored m out -> v < nv -> same_out m m' (eb a v) (words (rlen a v)) ->
    rep m' (eb a v) (rlen a v) K -> gstored m' ((v, K) :: out).
  Proof.
    intros H Hv [M1 M2] R u Hu. cbn [find fst].
    destruct (Nat.eqb_spec v u) as [<-|NE]; auto. specialize (H u Hu). destruct (find (fun x => fst x =? u) out) as [[u' K']|].
    - eapply rep_nth; [|exact M1|exact H]. intros i Hi. apply M2. intros Hi'.
      apply (block_disjoint a nv u v i Hu Hv ltac:(auto)); [exact Hi|exact Hi'].
    - intros i Hi. rewrite M2; auto. intros Hi'. apply (block_disjoint a nv u v i Hu Hv ltac:(auto)); auto.
  Qed.

  Section Run.
  Variable lr : bool.

  Section Inner.
    Variable cur : nat.
    Hypothesis Hc : cur < nv.
    Notation N := (rlen a cur).
    Notation w := (words (rlen a cur)).
    Notation A := (padj a cur).
    Notation arena := (arena a cur c0 lr (candp a cur) (bound a cur)).

    Lemma en_inner_det id S0 fs st0 sts g1 mv out : kept g1 -> gstored (edge_bits g1) out ->
      arena (edge_bits g1) (search_cur g1) ((id, S0) :: fs) (st0 :: sts) -> length fs + 1 < k ->
      wp (en_inner cur (mkvert a mv cur) k (S (length fs)) g1 st0 (card N S0))
         (fun r => let '(g, st, res) := r in kept g
            /\ match res with
               | EnExhausted => exists S1, arena (edge_bits g) (search_cur g) ((id, S1) :: fs) (st :: sts)
                    /\ (forall x, x < N -> S1 x = false) /\ gstored (edge_bits g) out
                    /\ xreach (cur, (id, S0) :: fs, out) (cur, (id, S1) :: fs, out)
               | EnFound => exists S1 K0, arena (edge_bits g) (search_cur g) ((id, S1) :: fs) (st :: sts)
                    /\ gstored (edge_bits g) ((cur, K0) :: out)
                    /\ xreach (cur, (id, S0) :: fs, out) (cur, (id, S1) :: fs, (cur, K0) :: out)
               | EnPush f => exists j S1 S2, arena (edge_bits g) (search_cur g) ((j, S2) :: (id, S1) :: fs) (f :: st :: sts)
                    /\ length fs + 2 < k /\ gstored (edge_bits g) out
                    /\ xreach (cur, (id, S0) :: fs, out) (cur, (j, S2) :: (id, S1) :: fs, out)
               end).
    Proof.
      intros P1 O1 A1 HLK. unfold en_inner.
      set (s0 := (cur, (id, S0) :: fs, out)).
      apply (wp_loopN _ _ (fun '(g, j, st, cl) => exists S1, kept g /\ gstored (edge_bits g) out
          /\ arena (edge_bits g) (search_cur g) ((id, S1) :: fs) (st :: sts)
          /\ (forall x, x < N -> S1 x = true -> j <= x) /\ cl = card N S1
          /\ xreach s0 (cur, (id, S1) :: fs, out))
          (fun '(g, j, st, cl) => N - j)).
      { exists S0. destruct (arena_top _ _ _ _ _ _ _ _ _ _ _ _ _ A1) as (_ & _ & _ & _ & T5).
        split; auto. split; auto. split; auto. split; [intros x Hx E; apply T5; auto|]. split; auto. constructor. }
      { cbn [mkvert vN]. lia. }
      clearbody s0. clear g1 P1 A1 O1.
      intros [[[g j] st] cl] (S1 & P & OO & AR & LOW & -> & RE). cbn [mkvert vN velo].
      destruct (Nat.ltb_spec j N) as [Hj|Hj].
      2:{ apply wp_ok. split; auto. exists S1. split; auto. split; auto. intros x Hx. destruct (S1 x) eqn:E; auto.
          pose proof (LOW x Hx E). lia. }
      pose proof (kept_shape g P) as SH.
      destruct (arena_top _ _ _ _ _ _ _ _ _ _ _ _ _ AR) as (T1 & T2 & T3 & T4 & T5).
      destruct (finv_ids a nv cur c0 lr HC _ _ _ _ (ar_fr _ _ _ _ _ _ _ _ _ _ AR)) as (ID1 & ID2 & ID3 & ID4).
      change (ids ((id, S1) :: fs)) with (id :: ids fs) in *.
      rewrite T2, (bits_get_spec (edge_bits g) (blk a cur c0 lr (length fs)) N S1) by auto. cbn [bind].
      destruct (S1 j) eqn:Sj; cbn [negb].
      2:{ apply wp_ok. split; [|lia]. exists S1. split; auto. split; auto. split; auto. split; [|split; auto].
          intros x Hx E. pose proof (LOW x Hx E). assert (x <> j) by congruence. lia. }
      pose proof (card_remove N S1 j Hj Sj) as CR. change (fun i => negb (i =? j) && S1 i) with (minus S1 j) in CR.
      rewrite <- T2. apply wp_bind. eapply wp_mono; [apply (arena_minus a nv cur c0 lr HC Hc _ _ _ _ _ _ _ _ _ j AR Hj)|].
      intros m1 (M1 & M2 & M3 & M4).
      set (b := blk a cur c0 lr (length fs)) in *.
      assert (GT : forall x, x < N -> minus S1 j x = true -> j < x).
      { intros x Hx Ex. unfold minus in Ex. apply andb_prop in Ex. destruct Ex as [E1 E2].
        pose proof (LOW x Hx E2). destruct (Nat.eqb_spec x j); [discriminate|lia]. }
      assert (AR1 : arena m1 (search_cur g) ((id, minus S1 j) :: fs) (set_start st (j + 1) :: sts)).
      { apply M4. intros x Hx E NE. pose proof (LOW x Hx E). lia. }
      assert (FF : find S1 (seq 0 N) = Some j).
      { replace N with (N - 0) by lia. apply find_skip; auto; [lia|]. intros y Hy. destruct (S1 y) eqn:E; auto. pose proof (LOW y ltac:(lia) E). lia. }
      cbn [set_start s_id s_start s_res s_cand] in *.
      pose proof (blk_ge a nv cur c0 lr Hc (length fs)) as BG. fold b in BG.
      set (g1 := set_mem g m1).
      assert (P1 : kept g1).
      { unfold g1. rewrite set_mem_cur. apply kept_arena; auto; [apply M1|]. intros i Hi. apply M1. lia. }
      assert (O1 : gstored (edge_bits g1) out).
      { apply (gstored_low (edge_bits g)); auto; [apply M1|]. intros i Hi. apply M1. lia. }
      pose proof (kept_shape g1 P1) as SH1.
      rewrite (sh_el _ _ _ _ SH1), (rd_el a nv HC) by auto. cbn [bind].
      rewrite (sh_vs _ _ _ _ SH1), rd_vert by (apply (nbr_lt a nv HC); auto). cbn [bind].
      apply wp_bind. replace (card N S1 - 1) with (card N (minus S1 j)) by lia.
      change {| vN := N; vspos := sp a cur; velo := off a cur; vebo := eb a cur; vmcs := mv; vbits := refer_from (eb a cur) N |} with (mkvert a mv cur).
      rewrite T2.
      eapply wp_mono; [apply (en_scan_spec a nv HC g1 mcs SH1 cur Hc b (minus S1 j) j (S (length fs)) mv); auto|].
      intros [rem pot] HP. cbn [fst snd] in HP.
      change (fun x => minus S1 j x && A j x) with (inter a cur (minus S1 j) j) in HP.
      destruct (T5 j Hj Sj) as (U1 & U2 & U3 & U4).
      assert (ST : xstep (cur, (id, S1) :: fs, out) =
        if k <=? card N (inter a cur (minus S1 j) j) + S (length fs) + 1 then
          if k <=? S (length fs) + 1 then
            Some (cur, (id, minus S1 j) :: fs, (cur, fun x => inb x (j :: id :: ids fs)) :: out)
          else Some (cur, (j, inter a cur (minus S1 j) j) :: (id, minus S1 j) :: fs, out)
        else Some (cur, (id, minus S1 j) :: fs, out)).
      { unfold xstep. destruct (Nat.leb_spec nv cur); [lia|]. rewrite FF. reflexivity. }
      destruct HP as [(HP1 & HP2 & HP3)|(HP1 & HP2)].
      - destruct (Nat.leb_spec k pot) as [_|]; [|lia].
        rewrite <- HP2 in ST. destruct (Nat.leb_spec k pot) as [_|]; [|lia].
        destruct (path_clique a nv cur c0 lr HC Hc _ _ _ _ _ _ j (ar_fr _ _ _ _ _ _ _ _ _ _ AR) Hj Sj) as (PC1 & PC2 & PC3).
        destruct (Nat.leb_spec k (S (length fs) + 1)) as [HF|HF].
        + (* found *)
          pose proof (rp_ge a nv cur c0 lr Hc) as RG. pose proof (block_end a nv cur Hc) as BE.
          set (r := rp a cur c0 lr) in *.
          rewrite T1. apply wp_bind.
          eapply wp_mono; [apply (bits_set_spec m1 r N _ _ j M2 (ar_res _ _ _ _ _ _ _ _ _ _ AR1)); auto|].
          intros m2 (K1 & K2 & K3).
          assert (P2 : kept (set_mem g1 m2)).
          { rewrite set_mem_cur. apply kept_arena; auto; [apply K3|]. intros i Hi. apply K3. lia. }
          assert (O2 : gstored m2 out).
          { apply (gstored_low m1); auto; [apply K3|]. intros i Hi. apply K3. lia. }
          rewrite rd_vert by auto. cbn [bind]. unfold live. rewrite (sh_live _ _ _ _ SH1). cbn [bind].
          apply wp_bind.
          pose proof (ke_bits _ _ _ _ P2 cur Hc) as (s & K' & [RL _] & _). cbn [set_mem edge_bits] in RL.
          eapply wp_mono; [apply (bits_copy_data_spec m2 (eb a cur) r N _ _ _ K1 K2); auto; lia|].
          intros m3 (J1 & J2 & J3).
          assert (P3 : kept (set_mem (set_mem g1 m2) m3)).
          { eapply kept_store; eauto. }
          assert (O3 : gstored m3 ((cur, fun x => inb x (j :: id :: ids fs)) :: out)).
          { apply (gstored_store m2); auto. }
          assert (K4 : rep m3 r N (fun x => (x =? j) || inb x (ids ((id, minus S1 j) :: fs)))).
          { eapply rep_frame; [exact K2|exact J3|]. lia. }
          apply wp_bind. eapply wp_mono; [apply (bits_reset_spec m3 r N _ _ j J1 K4); auto|].
          intros m4 (L1 & L2 & L3). apply wp_ok.
          assert (P4 : kept (set_mem g1 m4)).
          { change (set_mem g1 m4) with (set_mem (set_mem (set_mem g1 m2) m3) m4). rewrite set_mem_cur.
            apply kept_arena; auto; [apply L3|]. intros i Hi. apply L3. lia. }
          split; [exact P4|].
          exists (minus S1 j), (fun x => inb x (j :: id :: ids fs)).
          cbn [set_mem edge_bits search_cur]. split; [|split; [|eapply re_step; eauto]].
          * destruct K3 as [K3l K3], J3 as [J3l J3], L3 as [L3l L3].
            apply (arena_upd a nv cur c0 lr HC Hc _ _ m1); auto; [discriminate|congruence| |].
            -- eapply rep_ext; [exact L2|]. intros x Hx. cbv beta. destruct (Nat.eqb_spec x j) as [->|]; auto.
               cbn [negb andb]. symmetry. apply inb_not. exact U3.
            -- intros i Hi1 Hi2. rewrite L3, J3, K3; auto; lia.
          * apply (gstored_low m3); auto; [apply L3|]. intros i Hi. apply L3. lia.
        + (* push *)
          apply wp_bind. eapply wp_mono.
          * apply (arena_push a nv cur c0 lr HC Hc _ _ g1 id (minus S1 j) fs _ sts j rem AR1); auto.
            -- unfold minus. rewrite Nat.eqb_refl. auto.
            -- intros x Hx Ex. pose proof (GT x Hx Ex). lia.
            -- rewrite <- PC3. apply (rooted_bound a nv); auto. lia.
          * intros [g2 f] (m2 & E2 & L2 & O2 & AR2). cbn [fst snd] in *. subst g2. apply wp_ok.
            split; [apply kept_arena; auto; apply (ar_ok _ _ _ _ _ _ _ _ _ _ AR2)|].
            exists j, (minus S1 j), (inter a cur (minus S1 j) j). cbn [set_cur set_mem edge_bits search_cur].
            split; [exact AR2|]. split; [lia|]. split; [apply (gstored_low m1); auto|].
            eapply re_step; eauto.
      - destruct (Nat.leb_spec k pot) as [|_]; [lia|]. destruct (Nat.leb_spec k (card N (inter a cur (minus S1 j) j) + S (length fs) + 1)) as [|_]; [lia|].
        apply wp_ok. split; [|lia].
        exists (minus S1 j). split; auto. split; [exact O1|]. split; [exact AR1|]. split; [intros x Hx E; pose proof (GT x Hx E); lia|].
        split; auto. eapply re_step; eauto.
    Qed.
  End Inner.

  (** A run of the enumerator and the machine. *)
  Definition gfollows (g : graph) (en : enum) (s : xstate) : Prop :=
    let '(cur, fs, out) := s in
    e_cur en = cur /\ kept g /\ gstored (edge_bits g) out /\ e_size en = k /\ 1 <= cur
    /\ ((cur < nv /\ arena a cur c0 lr (candp a cur) (bound a cur) (edge_bits g) (search_cur g) fs (e_states en)
         /\ e_req en = words (rlen a cur) /\ e_csz en = length fs /\ length fs < k)
        \/ (fs = [] /\ e_states en = [] /\ search_cur g = c0 /\ zero_from (edge_bits g) c0
            /\ (e_req en = 0 \/ nv <= cur) /\ cur <= nv)).

  Lemma en_process_vertex_det g1 en1 out : kept g1 -> gstored (edge_bits g1) out -> e_size en1 = k -> 1 <= e_cur en1 -> e_states en1 = [] ->
    search_cur g1 = c0 -> zero_from (edge_bits g1) c0 -> e_cur en1 < nv ->
    wp (en_process_vertex lr g1 en1) (fun r => let '(g, en) := r in exists s, gfollows g en s /\ xstep (e_cur en1, [], out) = Some s).
  Proof.
    intros P1 Q1 Z1 L1 S1 C1 O1 H1. unfold en_process_vertex.
    set (cur1 := e_cur en1) in *.
    apply (wp_loopN _ _ (fun '(g, en) => kept g /\ gstored (edge_bits g) out /\ e_size en = k /\ cur1 < e_cur en <= nv /\ e_states en = [] /\ search_cur g = c0
        /\ zero_from (edge_bits g) c0 /\ (forall v, cur1 + 1 <= v < e_cur en -> begins v = false))
        (fun '(g, en) => nv - e_cur en)).
    { cbn [e_size e_cur e_states]. fold cur1. repeat (split; [solve [auto|lia]|]). intros v Hv. lia. }
    { cbn [e_cur]. rewrite (sh_vs _ _ _ _ (kept_shape g1 P1)), (verts_length a nv). lia. }
    clear g1 P1 Q1 Z1 C1 O1 S1.
    intros [g en] (P & OO & Z & L & ES & C & O & SK). pose proof (kept_shape g P) as SH.
    rewrite (sh_vs _ _ _ _ SH), (verts_length a nv).
    destruct (Nat.ltb_spec (e_cur en) nv) as [Hc|Hc].
    2:{ apply wp_ok. exists (nv, [], out). split.
        - split; [lia|]. do 3 (split; auto). split; [lia|]. right. do 4 (split; auto).
        - unfold xstep. destruct (Nat.leb_spec nv cur1); [lia|]. rewrite find_nothing; auto.
          intros y Hy. apply in_seq in Hy. apply SK. lia. }
    assert (SKN : begins (e_cur en) = false -> forall v, cur1 + 1 <= v < e_cur en + 1 -> begins v = false).
    { intros E v Hv. destruct (Nat.eq_dec v (e_cur en)) as [->|]; auto. apply SK. lia. }
    rewrite rd_vert by auto. cbn [bind].
    destruct (Nat.ltb_spec (vmcs (mkvert a (mcs (e_cur en)) (e_cur en))) (e_size en)) as [HM|HM]; cbn [mkvert vmcs] in HM.
    { apply wp_ok. cbn [e_size e_cur e_states]. split; [|lia]. repeat (split; [solve [auto|lia]|]).
      apply SKN. unfold begins. destruct (Nat.leb_spec k (mcs (e_cur en))); [lia|reflexivity]. }
    destruct (ROOM (e_cur en) Hc ltac:(lia)) as [R1 R2].
    unfold en_load_vertex. rewrite (sh_vs _ _ _ _ SH), rd_vert by auto. cbn [bind].
    pose proof (w_pos a nv (e_cur en) HC Hc) as WP.
    pose proof (arena_init a nv (e_cur en) c0 lr HC Hc g mcs (mcs (e_cur en)) SH C O) as INI.
    rewrite (ke_len _ _ _ _ P) in INI. specialize (INI R1).
    apply wp_bind.
    apply wp_bind_inv in INI. apply wp_bind. eapply wp_mono; [exact INI|]. clear INI. intros [g1 x] INI.
    apply wp_bind_inv in INI. apply wp_bind. eapply wp_mono; [exact INI|]. clear INI. intros [m1 pot] INI. cbn [ends_with] in INI.
    destruct INI as (m' & E1 & L1' & O1 & -> & AR). rewrite E1. cbn [mkvert vN].
    set (w := words (rlen a (e_cur en))) in *.
    assert (P2 : kept (set_cur (set_mem g m') (c0 + 2 * w))).
    { apply kept_arena; auto. apply (ar_ok _ _ _ _ _ _ _ _ _ _ AR). rewrite (ke_len _ _ _ _ P). auto. }
    assert (Q2 : gstored m' out).
    { apply (gstored_low (edge_bits g)); auto. rewrite (ke_len _ _ _ _ P). auto. }
    set (g2 := set_cur (set_mem g m') (c0 + 2 * w)) in *.
    destruct (Nat.ltb_spec (bound a (e_cur en)) (e_size en)) as [HB|HB].
    - apply wp_bind. eapply wp_mono; [apply clear_memory_spec|].
      + apply (ar_ok _ _ _ _ _ _ _ _ _ _ AR).
      + pose proof (ar_space _ _ _ _ _ _ _ _ _ _ AR) as H. pose proof (finv_depth a nv (e_cur en) c0 lr HC Hc _ _ (fun K HK _ => rooted_card a nv HC (e_cur en) K Hc HK) _ _ _ (ar_fr _ _ _ _ _ _ _ _ _ _ AR)) as Dp. cbn [length] in Dp.
        change (search_cur g2) with (c0 + 2 * w). split; [lia|].
        etransitivity; [|exact H]. apply Nat.add_le_mono_l, Nat.mul_le_mono_r. lia.
      + change (search_cur g2) with (c0 + 2 * w). change (edge_bits g2) with m'.
        intros g' (m3 & -> & K1 & K2 & K3). replace (c0 + 2 * w - 2 * w) with c0 in * by lia. destruct K2 as [K2l K2].
        apply wp_ok. cbn [bind]. apply wp_ok. cbn [e_size e_cur e_states]. split; [|lia].
        split; [|split; [|split; [auto|split; [lia|split; [auto|split; [auto|split]]]]]].
        * apply kept_arena; auto. intros i Hi. apply K2. lia.
        * apply (gstored_low m'); auto. intros i Hi. apply K2. lia.
        * intros i Hi. cbn [set_cur set_mem edge_bits]. destruct (Nat.lt_ge_cases i (c0 + 2 * w)); [apply K3; lia|].
          rewrite K2 by lia. apply (ar_zero _ _ _ _ _ _ _ _ _ _ AR). lia.
        * apply SKN. unfold begins. destruct (Nat.leb_spec k (bound a (e_cur en))); [lia|apply andb_false_r].
    - apply wp_ok. cbn [bind]. apply wp_ok. cbn [e_size e_cur e_states].
      exists (e_cur en, [(sp a (e_cur en), candp a (e_cur en))], out). split.
      + split; auto. split; auto. split; auto. cbn [e_size e_cur e_states e_req e_csz length]. split; auto. split; [lia|]. left. rewrite ES.
        auto 10.
      + unfold xstep. destruct (Nat.leb_spec nv cur1); [lia|].
        rewrite (find_skip begins (cur1 + 1) nv (e_cur en)); [auto|lia| |apply SK].
        unfold begins. destruct (Nat.leb_spec k (mcs (e_cur en))), (Nat.leb_spec k (bound a (e_cur en))); auto; lia.
  Qed.

  (** What one call of process_graph does. *)
  Definition gcall_post (s : xstate) (r : graph * enum * nat) : Prop :=
    let '(g, en, v) := r in exists s', gfollows g en s' /\ xreach s s'
      /\ ((1 <= v < nv /\ exists K, snd s' = (v, K) :: snd s /\ rep (edge_bits g) (eb a v) (rlen a v) K)
          \/ (nv <= v /\ snd s' = snd s /\ xstep s' = None)).

  Lemma en_turn_det s0 g en s : gfollows g en s -> xreach s0 s -> snd s = snd s0 ->
    wp (en_turn lr (g, en)) (fun r => match r with Cont (g', en') => exists s', gfollows g' en' s' /\ xreach s0 s' /\ snd s' = snd s0 | Done x => gcall_post s0 x end).
  Proof.
    destruct s as [[cur fs] out]. intros (EC & P & OO & Z & L & X) RE EO. cbn [snd] in EO. unfold en_turn.
    pose proof (kept_shape g P) as SH. rewrite (sh_nv _ _ _ _ SH).
    destruct (Nat.ltb_spec (e_cur en) nv) as [Hc|Hc].
    2:{ apply wp_ok. exists (cur, fs, out). split; [repeat (split; [solve [auto]|]); auto|]. split; auto. right. split; auto. split; auto.
        unfold xstep. destruct (Nat.leb_spec nv cur); [auto|lia]. }
    rewrite EC in Hc.
    destruct (e_states en) as [|st rest] eqn:ES.
    - (* the next root *)
      assert (CL : wp (clear_memory g (e_req en)) (fun g' => kept g' /\ gstored (edge_bits g') out /\ search_cur g' = c0 /\ zero_from (edge_bits g') c0) /\ fs = []).
      { destruct X as [(_ & AR & X2 & X3 & X4)|(-> & X1 & X2 & X3 & X4 & X5)].
        - pose proof (finv_len _ _ _ _ _ _ _ _ (ar_fr _ _ _ _ _ _ _ _ _ _ AR)) as HL. destruct fs; [|discriminate].
          split; [|auto].
          rewrite X2. eapply wp_mono; [apply (arena_release a nv cur c0 lr HC Hc _ _ (fun K HK _ => rooted_card a nv HC cur K Hc HK) g [] [] AR)|].
          intros g' (m' & -> & M1 & M2 & M3 & M4). split; [apply kept_arena; auto|]. split; [apply (gstored_low (edge_bits g)); auto|]. split; auto.
        - destruct X4 as [X4|X4]; [|lia]. rewrite X4. unfold clear_memory. destruct (Nat.ltb_spec (search_cur g) 0); [lia|].
          cbn [for_ Nat.sub foldM seq]. split; [|auto]. unfold for_. cbn [Nat.sub seq foldM bind]. apply wp_ok.
          replace (set_cur (set_mem g (edge_bits g)) (search_cur g - 0)) with g; [auto|].
          rewrite Nat.sub_0_r. destruct g; reflexivity. }
      destruct CL as (CL & ->).
      apply wp_bind. eapply wp_mono; [exact CL|]. intros g1 (P1 & Q1 & C1 & O1). subst cur.
      apply wp_bind. eapply wp_mono; [apply (en_process_vertex_det g1 en out P1 Q1 Z L ES C1 O1 Hc)|].
      intros [g2 en2] (s2 & F2 & E2). apply wp_ok. exists s2. split; auto. split; [eapply re_step; eauto|].
      unfold xstep in E2. destruct (nv <=? e_cur en); [discriminate|]. destruct (find _ _); injection E2 as <-; auto.
    - (* a turn of the search *)
      destruct X as [(_ & AR & X2 & X3 & X4)|(_ & X1 & _)]; [|discriminate].
      destruct fs as [|[id S0] fs]; [destruct (ar_fr _ _ _ _ _ _ _ _ _ _ AR)|].
      rewrite EC.
      destruct (arena_top _ _ _ _ _ _ _ _ _ _ _ _ _ AR) as (T1 & T2 & T3 & T4 & T5).
      pose proof (len_pos a nv HS Hself cur Hc) as LP.
      rewrite (sh_vs _ _ _ _ SH), rd_vert by auto. cbn [bind].
      rewrite (bits_count_spec (edge_bits g) (blk a cur c0 lr (length fs)) (rlen a cur) S0) by (auto; apply (ar_ok _ _ _ _ _ _ _ _ _ _ AR)).
      cbn [bind]. replace (set_mem g (edge_bits g)) with g by (destruct g; reflexivity).
      apply wp_bind. change (length (sel (rlen a cur) S0)) with (card (rlen a cur) S0). rewrite Z, X3. cbn [length] in *.
      eapply wp_mono; [apply (en_inner_det cur Hc id S0 fs st rest g (mcs cur) out P OO AR); lia|].
      intros [[g2 st2] res] (P2 & H2).
      destruct res as [| |f].
      + destruct H2 as (S1 & AR2 & EM & OO2 & RE2). rewrite X2.
        pose proof (arena_pop a nv cur c0 lr HC Hc _ _ (fun K HK _ => rooted_card a nv HC cur K Hc HK) g2 id S1 fs st2 rest AR2 EM) as POP. apply wp_bind_inv in POP.
        apply wp_bind. eapply wp_mono; [exact POP|]. clear POP. intros g3 POP. apply wp_bind_inv in POP.
        apply wp_bind. eapply wp_mono; [exact POP|]. clear POP. cbv beta. intros m3 POP. cbn [ends_with] in POP.
        destruct POP as (m' & E3 & L3 & O3 & AR3). rewrite E3. apply wp_ok.
        exists (cur, fs, out). split; [|split; auto].
        * split; auto. split; [apply kept_arena; auto; apply (ar_ok _ _ _ _ _ _ _ _ _ _ AR3)|].
          split; [apply (gstored_low (edge_bits g2)); auto|].
          cbn [e_size e_cur e_states e_req e_csz]. split; auto. split; auto. left. split; auto. split; [exact AR3|]. split; auto. split; lia.
        * eapply reach_trans; [exact RE|]. eapply re_step; [exact RE2|]. unfold xstep. destruct (Nat.leb_spec nv cur); [lia|].
          rewrite find_nothing; auto. intros y Hy. apply in_seq in Hy. apply EM. lia.
      + destruct H2 as (S1 & K0 & AR2 & OO2 & RE2). apply wp_ok. exists (cur, (id, S1) :: fs, (cur, K0) :: out). split; [|split].
        * split; auto. do 2 (split; auto). cbn [e_size e_cur e_states e_req e_csz]. do 2 (split; auto). left. split; auto.
        * eapply reach_trans; eauto.
        * left. split; [lia|]. exists K0. cbn [snd]. rewrite <- EO. split; auto. specialize (OO2 cur Hc).
          cbn [find fst] in OO2. rewrite Nat.eqb_refl in OO2. exact OO2.
      + destruct H2 as (j & S1 & S2 & AR2 & HL & OO2 & RE2). apply wp_ok.
        exists (cur, (j, S2) :: (id, S1) :: fs, out). split; [|split; auto].
        * split; auto. do 2 (split; auto). cbn [e_size e_cur e_states e_req e_csz]. do 2 (split; auto). left. split; auto. split; [exact AR2|].
          split; auto. cbn [length]. split; lia.
        * eapply reach_trans; eauto.
  Qed.

  Lemma en_process_graph_det g en s r : gfollows g en s -> en_process_graph lr g en = Ok r -> gcall_post s r.
  Proof.
    intros F. assert (Z : e_size en = k) by (destruct s as [[? ?] ?]; apply F). unfold en_process_graph. rewrite Z.
    destruct (Nat.eqb_spec k 0); [lia|]. destruct (Nat.eqb_spec k 1); [lia|]. cbn [andb].
    apply (run_ok (en_turn lr) (fun '(g, en) => exists s', gfollows g en s' /\ xreach s s' /\ snd s' = snd s)).
    - intros [g1 en1] (s1 & F1 & R1 & E1). eapply wp_mono; [apply (en_turn_det s g1 en1 s1 F1 R1 E1)|]. intros [[g2 en2]|x]; auto.
    - exists s. split; auto. split; auto. constructor.
  Qed.
  End Run.

  (** At the end of the machine the graph is determined. *)
  Lemma gfollows_end lr lr' g g' en en' s : gfollows lr g en s -> gfollows lr' g' en' s -> xstep s = None -> g = g'.
  Proof.
    destruct s as [[cur fs] out]. intros (_ & P & R & _ & _ & X) (_ & P' & R' & _ & _ & X') E.
    assert (Hc : nv <= cur).
    { unfold xstep in E. destruct (Nat.leb_spec nv cur); auto. destruct fs as [|[id S0] fs].
      - destruct (find _ _); discriminate.
      - destruct (find _ _); [|discriminate]. destruct (k <=? _); [destruct (k <=? _)|]; discriminate. }
    destruct X as [(X & _)|(_ & _ & Q & Z & _)]; [lia|]. destruct X' as [(X' & _)|(_ & _ & Q' & Z' & _)]; [lia|].
    assert (ME : edge_bits g = edge_bits g').
    { apply mem_ext; [rewrite (ke_len _ _ _ _ P), (ke_len _ _ _ _ P'); auto|]. intros i.
      destruct (Nat.lt_ge_cases i c0) as [Hi|Hi]; [|rewrite Z, Z' by auto; auto].
      destruct (Nat.lt_ge_cases i (eb a nv)) as [Hk1|Hk1]; [|rewrite (ke_low _ _ _ _ P), (ke_low _ _ _ _ P') by lia; auto].
      assert (BL : exists v, v < nv /\ in_block a v i).
      { clear -Hk1. induction nv as [|n IH]; [cbn in Hk1; lia|]. destruct (Nat.lt_ge_cases i (eb a n)) as [H|H].
        - destruct (IH H) as (v & Hv & B). exists v. split; auto.
        - exists n. split; auto. unfold in_block. rewrite eb_S in Hk1. lia. }
      destruct BL as (v & Hv & BL). specialize (R v Hv). specialize (R' v Hv).
      destruct (find (fun x => fst x =? v) out) as [[u K]|].
      - apply (rep_word _ _ (eb a v) (rlen a v) K); auto; [apply (ke_mem _ _ _ _ P)|apply (ke_mem _ _ _ _ P')].
      - rewrite R, R' by auto. auto. }
    pose proof (ke_core _ _ _ _ P) as C. pose proof (ke_core _ _ _ _ P') as C'. rewrite <- C' in C.
    pose proof (ke_vs _ _ _ _ P) as V. pose proof (ke_vs _ _ _ _ P') as V'. rewrite <- V' in V.
    pose proof (ke_size _ _ _ _ P) as RK1. pose proof (ke_size _ _ _ _ P') as RK1'. rewrite <- RK1' in RK1.
    pose proof (ke_loc _ _ _ _ P) as RK2. pose proof (ke_loc _ _ _ _ P') as RK2'. rewrite <- RK2' in RK2.
    rewrite <- Q' in Q. clear -C V Q RK1 RK2 ME. unfold core in C. destruct g, g'. cbn in *. inversion C. subst. reflexivity.
  Qed.
End Enum.
