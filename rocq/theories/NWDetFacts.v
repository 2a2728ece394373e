(** NWDetFacts: what NWStackDFS::process_vertex leaves behind is determined by the graph it starts from: neither the order in
    which the two bitsets of the root are allocated nor the contents of the reserved weights storage matter. The run is
    followed by a machine on sets of positions that has no memory; both runs follow the same machine. *)
From Verif Require Import Base MBits MUtils MGraph MNW SpecBits BaseFacts BitsFacts SetFacts SortFacts RowFacts ConstructFacts CardFacts SearchBase StackFacts SearchFacts FrameFacts FrameInv NWSum NWBase NWStack NWHeur NWSearch.
Local Open Scope nat_scope.
Local Arguments Nat.sub : simpl never.
Local Arguments Nat.mul : simpl never.

Lemma dpow_le x y : x <= y -> 2 ^ x <= 2 ^ y.
Proof. intros H. apply Nat.pow_le_mono_r; lia. Qed.

Section Machine.
  Variables (a : pairs) (cur : nat) (wt : wts) (L : Z).
  Notation N := (rlen a cur).
  Notation f := (pw a wt cur).
  Notation rnd := (wrnd wt).

  (** Frames with the top first, clique_weight, the size of the best clique, the clique recorded last, and whether the
      machine is between two turns of the main loop. *)
  Definition astate : Type := (list frame * Z * Z * option (nat -> bool) * bool)%type.

  Definition astep (s : astate) : option astate :=
    let '(fs, cw, sz, rec, b) := s in
    match fs with
    | [] => None
    | (id, X) :: fs' =>
        if b then if (L <=? sz)%Z then None else Some (fs, cw, sz, rec, false)
        else
          match find X (seq 0 N) with
          | None => Some (fs', match fs' with [] => 0%Z | _ => rnd (cw - f id) end, sz, rec, true)
          | Some j =>
              let I2 := inter a cur (minus X j) j in
              let pot := rnd (rnd (rsum rnd N f I2 + cw) + f j) in
              if (sz <? pot)%Z then
                if card N I2 =? 0 then
                  Some ((id, minus X j) :: fs', cw, pot, Some (fun x => (x =? j) || inb x (ids ((id, minus X j) :: fs'))), false)
                else Some ((j, I2) :: (id, minus X j) :: fs', rnd (cw + f j), sz, rec, true)
              else Some ((id, minus X j) :: fs', cw, sz, rec, false)
          end
    end.

  Inductive areach : astate -> astate -> Prop :=
  | ar_refl s : areach s s
  | ar_step s t u : areach s t -> astep t = Some u -> areach s u.

  Lemma areach_trans s t u : areach s t -> areach t u -> areach s u.
  Proof. intros H1 H2. revert H1. induction H2; intros; auto. eapply ar_step; [|eassumption]; auto. Qed.

  Lemma areach_first s t : areach s t -> s = t \/ exists u, astep s = Some u /\ areach u t.
  Proof.
    induction 1 as [|s t u H [->|(x & E & R)] A]; auto; right.
    - exists u. split; auto. constructor.
    - exists x. split; auto. eapply ar_step; [|eassumption]; auto.
  Qed.

  Lemma areach_det s t u : areach s t -> areach s u -> astep u = None -> areach t u.
  Proof.
    intros H1 H2 E. induction H1 as [|s t v H IH A]; auto.
    specialize (IH H2). destruct (areach_first t u IH) as [->|(x & E1 & R)]; congruence.
  Qed.

  Lemma areach_end s t u : areach s t -> areach s u -> astep t = None -> astep u = None -> t = u.
  Proof.
    intros H1 H2 E1 E2. pose proof (areach_det s t u H1 H2 E2) as R. destruct (areach_first t u R) as [|(x & E & _)]; congruence.
  Qed.

  Lemma find_first S j : first_of a cur S j -> find S (seq 0 N) = if j <? N then Some j else None.
  Proof.
    intros H. destruct H as [(H1 & H2 & H3)|(-> & H2)].
    - destruct (Nat.ltb_spec j N); [|lia]. replace N with (j + (1 + (N - j - 1))) by lia. rewrite seq_app.
      assert (E : find S (seq 0 j) = None).
      { destruct (find S (seq 0 j)) as [x|] eqn:E; auto. apply find_some in E. destruct E as [E1 E2]. apply in_seq in E1. rewrite H3 in E2 by lia. discriminate. }
      assert (FA : forall l1 l2, find S l1 = None -> find S (l1 ++ l2) = find S l2).
      { clear. induction l1 as [|x l1 IH]; intros l2 E; auto. cbn [find app] in *. destruct (S x); [discriminate|auto]. }
      rewrite FA by exact E. cbn [Nat.add seq find]. rewrite H2. reflexivity.
    - rewrite Nat.ltb_irrefl. destruct (find S (seq 0 N)) as [x|] eqn:E; auto. apply find_some in E. destruct E as [E1 E2].
      apply in_seq in E1. rewrite H2 in E2 by lia. discriminate.
  Qed.
End Machine.

Lemma mem_ext (m1 m2 : list BinNums.N) : length m1 = length m2 -> (forall k, nth k m1 0%N = nth k m2 0%N) -> m1 = m2.
Proof. intros L H. apply (nth_ext _ _ 0%N 0%N); auto. Qed.

Lemma rep_word m1 m2 o n P k : memok m1 -> memok m2 -> rep m1 o n P -> rep m2 o n P -> o <= k < o + words n -> nth k m1 0%N = nth k m2 0%N.
Proof.
  intros M1 M2 [L1 R1] [L2 R2] Hk. apply N.bits_inj. intros i.
  destruct (N.lt_ge_cases i 64) as [Hi|Hi].
  - set (b := N.to_nat (63 - i)).
    assert (Hb : b < 64) by (unfold b; lia).
    set (x := 64 * (k - o) + b).
    assert (EX : x / 64 = k - o) by (unfold x; rewrite (Nat.mul_comm 64), Nat.div_add_l by lia; rewrite Nat.div_small by auto; lia).
    assert (EM : x mod 64 = b) by (unfold x; rewrite (Nat.mul_comm 64), Nat.add_comm, Nat.mod_add by lia; apply Nat.mod_small; auto).
    assert (Hx : x < 64 * words n) by (unfold x; lia).
    specialize (R1 x Hx). specialize (R2 x Hx). unfold wbit in R1, R2. rewrite EX in R1, R2. replace (o + (k - o)) with k in * by lia.
    assert (EP : pos x = i) by (rewrite EM; unfold b; clear -Hi; lia).
    rewrite EP in R1, R2. congruence.
  - assert (H : forall m, memok m -> N.testbit (nth k m 0%N) i = false).
    { intros m M. assert (nth k m 0%N < two64)%N.
      { destruct (Nat.lt_ge_cases k (length m)) as [|G]; [|rewrite nth_overflow by auto; reflexivity].
        unfold memok in M. rewrite Forall_forall in M. apply M. apply nth_In. auto. }
      destruct (N.eq_dec (nth k m 0%N) 0) as [->|NZ]; [apply N.bits_0|]. apply N.bits_above_log2.
      apply N.log2_lt_pow2; [lia|]. eapply N.lt_le_trans; [exact H|]. change two64 with (2 ^ 64)%N. apply N.pow_le_mono_r; lia. }
    rewrite !H by auto. reflexivity.
Qed.

Section Vertex.
  Variables (a : pairs) (nv cur : nat) (wt : wts) (W0 : nwgraph) (mcs0 : nat -> nat) (bd : nat).
  Hypothesis HC : gctx a nv.
  Hypothesis Hc : cur < nv.
  Hypothesis SH0 : shape a nv (w_g W0) mcs0.
  Hypothesis EW : w_wt W0 = map wt (seq 0 nv).
  Hypothesis ED : w_deg W0 = map (dgr a wt) (seq 0 nv).
  Hypothesis LM : length (w_mcs W0) = nv.
  Notation N := (rlen a cur).
  Notation w := (words (rlen a cur)).
  Notation A := (padj a cur).
  Notation c0 := (search_cur (w_g W0)).
  Notation cp := (wcand a wt cur).
  Notation f := (pw a wt cur).
  Hypothesis He : eb a nv <= c0.
  Hypothesis HZ : zero_from (edge_bits (w_g W0)) c0.
  Hypothesis Hbd : forall K, pclique a cur K -> card N K <= bd.
  Hypothesis Hbd1 : 1 <= bd.
  Hypothesis HSP : c0 + (bd + 1) * w <= length (edge_bits (w_g W0)).
  Let HS := gc_sorted _ _ HC.
  Let Hself := gc_self _ _ HC.
  Let Hcp : cp (sp a cur) = false := wcand_sp a nv wt HC cur Hc.
  Let Hbd' : forall K, rooted_by cp a cur K -> pclique a cur K -> card N K <= bd := fun K _ H => Hbd K H.

  Notation nprog W := (nprog a wt W0 W cur).
  Notation first_of := (first_of a cur).
  Notation shp := (nprog_shape a nv cur wt W0 mcs0 SH0).
  Notation rnd := (wrnd wt).
  Notation exact := (wexact a wt).
  Notation L := (w_limit W0).
  Notation astep := (astep a cur wt L).
  Notation areach := (areach a cur wt L).

  (** What the graph holds when [rec] was recorded last. *)
  Definition recbody (W : nwgraph) (rec : option (nat -> bool)) : Prop :=
    match rec with
    | None => w_size W = w_size W0 /\ w_loc W = w_loc W0 /\ w_mcs W = w_mcs W0
              /\ forall k, in_block a cur k -> nth k (edge_bits (w_g W)) 0%N = nth k (edge_bits (w_g W0)) 0%N
    | Some K => w_loc W = cur /\ w_mcs W = upd (w_mcs W0) cur (w_size W) /\ rep (edge_bits (w_g W)) (eb a cur) N K
    end.

  Definition recok (W : nwgraph) (rec : option (nat -> bool)) : Prop :=
    (CUR_MAX_SIZE (w_g W) = CUR_MAX_SIZE (w_g W0) /\ CUR_MAX_LOC (w_g W) = CUR_MAX_LOC (w_g W0)) /\ recbody W rec.

  Lemma recok_arena W m c rec : recok W rec -> length m = length (edge_bits (w_g W)) ->
    (forall k, k < c0 -> nth k m 0%N = nth k (edge_bits (w_g W)) 0%N) -> recok (set_wg W (set_cur (set_mem (w_g W) m) c)) rec.
  Proof.
    intros [RK R] M1 M2. pose proof (block_end a nv cur Hc) as BE. split; [exact RK|]. clear RK. destruct rec as [K|]; cbn [recbody set_wg w_g w_size w_loc w_mcs set_cur set_mem edge_bits] in *.
    - destruct R as (R1 & R2 & R3). do 2 (split; auto). eapply rep_nth; [|exact M1|exact R3]. intros i Hi. apply M2. lia.
    - destruct R as (R1 & R2 & R3 & R4). do 3 (split; auto). intros k Hk. rewrite M2 by (unfold in_block in Hk; lia). auto.
  Qed.

  Lemma recok_mem W m rec : recok W rec -> length m = length (edge_bits (w_g W)) ->
    (forall k, k < c0 -> nth k m 0%N = nth k (edge_bits (w_g W)) 0%N) -> recok (set_wmem W m) rec.
  Proof. intros. unfold set_wmem. rewrite set_mem_cur. apply recok_arena; auto. Qed.

  Lemma nw_record_det W r R pot : nprog W -> (exists rec, recok W rec) -> rep (edge_bits (w_g W)) r N R -> c0 <= r ->
    wp (nw_record W cur (refer_from r N) pot) (fun W' => recok W' (Some R)).
  Proof.
    intros P (rec & RK & RO) HR Hr. pose proof (block_end a nv cur Hc) as BE. pose proof (shp W P) as SH.
    unfold nw_record. cbv zeta. rewrite (sh_vs _ _ _ _ SH), rd_vert by auto. cbn [bind]. unfold live. rewrite (sh_live _ _ _ _ SH). cbn [bind].
    cbn [mkvert vbits]. pose proof HR as [HRl _].
    apply wp_bind. eapply wp_mono; [apply (bits_copy_data_spec (edge_bits (w_g W)) (eb a cur) r N R); auto; try (apply (sh_mem _ _ _ _ SH)); lia|].
    intros m (M1 & M2 & M3).
    assert (EM : upd (w_mcs W) cur pot = upd (w_mcs W0) cur pot).
    { destruct rec as [K|]; cbn [recbody] in RO; [destruct RO as (_ & -> & _); apply upd_upd|destruct RO as (_ & _ & -> & _); auto]. }
    assert (LW : length (w_mcs W) = nv).
    { destruct rec as [K|]; cbn [recbody] in RO; [destruct RO as (_ & -> & _); rewrite upd_length; auto|destruct RO as (_ & _ & -> & _); auto]. }
    rewrite wr_ok by lia. cbn [bind]. apply wp_ok. split; [exact RK|]. cbn [recbody w_g w_mcs w_size w_loc set_mem edge_bits]. auto.
  Qed.

  Section Run.
  Variable lr : bool.
  Notation arena := (arena a cur c0 lr cp bd).

  Lemma nd_inner_det id S0 fs st0 sts W1 j1 mv buf cw rec0 :
    nprog W1 -> recok W1 rec0 -> arena (edge_bits (w_g W1)) (search_cur (w_g W1)) ((id, S0) :: fs) (st0 :: sts) ->
    first_of S0 j1 -> bufok a wt cur buf -> (exact -> cw = zsum (map f (id :: ids fs))) ->
    wp (nd_inner rnd cur (mkvert a mv cur) cw buf W1 j1 st0)
       (fun r => let '(W, j, st, cw', fut) := r in nprog W
          /\ match fut with
             | None => j = N /\ exists S1 rec, recok W rec /\ arena (edge_bits (w_g W)) (search_cur (w_g W)) ((id, S1) :: fs) (st :: sts)
                         /\ (forall x, x < N -> S1 x = false) /\ cw' = cw
                         /\ areach ((id, S0) :: fs, cw, w_size W1, rec0, false) ((id, S1) :: fs, cw, w_size W, rec, false)
             | Some g => j < N /\ exists S1 S2 rec, recok W rec /\ arena (edge_bits (w_g W)) (search_cur (w_g W)) ((j, S2) :: (id, S1) :: fs) (g :: st :: sts)
                         /\ card N S1 < card N S0 /\ card N S2 < card N S0
                         /\ (exact -> cw' = zsum (map f (j :: id :: ids fs)))
                         /\ areach ((id, S0) :: fs, cw, w_size W1, rec0, false) ((j, S2) :: (id, S1) :: fs, cw', w_size W, rec, true)
             end).
  Proof.
    intros P1 RO1 A1 F1 BO HCW. unfold nd_inner.
    set (s0 := ((id, S0) :: fs, cw, w_size W1, rec0, false)).
    apply (wp_loopN _ _ (fun '(W, j, st) => exists S1 rec, nprog W /\ recok W rec
        /\ arena (edge_bits (w_g W)) (search_cur (w_g W)) ((id, S1) :: fs) (st :: sts)
        /\ first_of S1 j /\ card N S1 <= card N S0 /\ areach s0 ((id, S1) :: fs, cw, w_size W, rec, false))
        (fun '(W, j, st) => N - j)).
    { exists S0, rec0. do 5 (split; auto). constructor. }
    { cbn [mkvert vN]. lia. }
    clearbody s0. clear W1 j1 st0 rec0 RO1 P1 A1 F1.
    intros [[W j] st] (S1 & rec & P & RO & AR & F & LE & RE). cbn [mkvert vN velo]. cbv zeta.
    destruct (Nat.ltb_spec j N) as [Hj|Hj].
    2:{ apply wp_ok. split; auto. destruct F as [(F1 & _)|(F1 & F2)]; [lia|]. split; auto. exists S1, rec. auto. }
    pose proof (find_first a cur S1 j F) as FF. destruct (Nat.ltb_spec j N) as [_|]; [|lia].
    destruct F as [(_ & Sj & Fj)|(F & _)]; [|lia].
    destruct (arena_top _ _ _ _ _ _ _ _ _ _ _ _ _ AR) as (T1 & T2 & T3 & T4 & T5).
    destruct (finv_ids a nv cur c0 lr HC _ _ _ _ (ar_fr _ _ _ _ _ _ _ _ _ _ AR)) as (ID1 & ID2 & ID3 & ID4).
    change (ids ((id, S1) :: fs)) with (id :: ids fs) in *.
    pose proof (card_remove N S1 j Hj Sj) as CR. change (fun i => negb (i =? j) && S1 i) with (minus S1 j) in CR.
    apply wp_bind. eapply wp_mono; [apply (arena_minus a nv cur c0 lr HC Hc _ _ _ _ _ _ _ _ _ j AR Hj)|].
    intros m1 (M1 & M2 & M3 & M4).
    set (b := blk a cur c0 lr (length fs)) in *.
    assert (GT : forall x, x < N -> minus S1 j x = true -> j < x).
    { intros x Hx Ex. unfold minus in Ex. apply andb_prop in Ex. destruct Ex as [E1 E2].
      destruct (Nat.lt_trichotomy x j) as [Q|[->|Q]]; auto; [rewrite Fj in E2 by auto; discriminate|rewrite Nat.eqb_refl in E1; discriminate]. }
    assert (CD : forall x, x < N -> minus S1 j x = true -> cp x = true).
    { intros x Hx Ex. unfold minus in Ex. apply andb_prop in Ex. apply T5; tauto. }
    apply wp_bind. rewrite T2.
    eapply wp_mono; [apply (bits_next_spec m1 b N (minus S1 j)); auto|].
    intros nx Hnx.
    assert (Hfirst : first_of (minus S1 j) nx).
    { assert (LOW : forall x, x < j + 1 -> x < N -> minus S1 j x = false).
      { intros x Hx HxN. destruct (minus S1 j x) eqn:E; auto. pose proof (GT x HxN E). lia. }
      destruct Hnx as [(H1 & H2 & H3)|(H1 & H2)].
      - left. repeat split; auto; [lia|]. intros x Hx. destruct (Nat.lt_ge_cases x (j + 1)); [apply LOW; lia|apply H3; lia].
      - right. split; auto. intros x Hx. destruct (Nat.lt_ge_cases x (j + 1)); [apply LOW; lia|apply H2; lia]. }
    assert (NXJ : j < nx) by (destruct Hnx as [(H1 & _)|(H1 & _)]; lia).
    assert (AR1 : arena m1 (search_cur (w_g W)) ((id, minus S1 j) :: fs) (set_start st nx :: sts)).
    { apply M4. intros x Hx E NE. assert (minus S1 j x = true) as EM by (unfold minus; rewrite E; destruct (Nat.eqb_spec x j); [congruence|auto]).
      destruct Hfirst as [(F1 & F2 & F3)|(F1 & F2)]; [|rewrite F2 in EM by auto; discriminate].
      destruct (Nat.le_gt_cases nx x); auto. rewrite F3 in EM by auto. discriminate. }
    destruct (T5 j Hj Sj) as (U1 & U2 & U3 & U4).
    rewrite (rd_some buf j (f j)) by (apply BO; auto). cbn [bind].
    cbn [set_start s_id s_start s_res s_cand] in *. rewrite T2.
    pose proof (len_pos a nv HS Hself cur Hc) as LP.
    rewrite (bits_count_spec m1 b N (minus S1 j)) by auto. cbn [bind].
    set (g1 := set_mem (w_g W) m1).
    pose proof (block_end a nv cur Hc) as BE. pose proof (blk_ge a nv cur c0 lr Hc (length fs)) as BG. fold b in BG.
    assert (P1 : nprog (set_wmem W m1)).
    { apply (nprog_mem a nv cur wt W0 Hc He); auto; [apply M1|]. intros k Hk. apply M1. lia. }
    assert (RO1 : recok (set_wmem W m1) rec).
    { apply recok_mem; auto; [apply M1|]. intros k Hk. apply M1. lia. }
    pose proof (shp _ P1) as SH1. change (w_g (set_wmem W m1)) with g1 in SH1.
    rewrite (sh_el _ _ _ _ SH1), (rd_el a nv HC) by auto. cbn [bind].
    rewrite (sh_vs _ _ _ _ SH1), rd_vert by (apply (nbr_lt a nv HC); auto). cbn [bind].
    change (length (sel N (minus S1 j))) with (card N (minus S1 j)).
    change {| vN := N; vspos := sp a cur; velo := off a cur; vebo := eb a cur; vmcs := mv; vbits := refer_from (eb a cur) N |} with (mkvert a mv cur).
    rewrite (nd_scan_spec a nv wt HC g1 mcs0 cur b (minus S1 j) j mv _ nx buf SH1 Hc Hj M3 GT CD BO Hnx). cbn [bind].
    set (I2 := inter a cur (minus S1 j) j).
    set (pot := rnd (rnd (rsum rnd N f I2 + cw) + f j)).
    assert (RN : forall x, In x (id :: ids fs) -> x < N) by (intros; apply ID2; auto).
    assert (I2R : forall x, x < N -> I2 x = true -> ~ In x (j :: id :: ids fs)).
    { intros x Hx Ex. unfold I2, inter in Ex. apply andb_prop in Ex. destruct Ex as [Ex _]. pose proof (GT x Hx Ex).
      unfold minus in Ex. apply andb_prop in Ex. destruct (T5 x Hx (proj2 Ex)) as (_ & _ & V3 & _). intros [<-|I]; [lia|]. apply V3. exact I. }
    assert (NDJ : NoDup (j :: id :: ids fs)) by (constructor; auto).
    assert (RNJ : forall x, In x (j :: id :: ids fs) -> x < N) by (intros x [<-|I]; auto).
    assert (EP : exact -> pot = (wsum N f I2 + zsum (map f (id :: ids fs)) + f j)%Z).
    { intros EX. unfold pot. rewrite (HCW EX), (wexact_rsum a wt cur N I2 EX (Nat.le_refl _)).
      rewrite (wexact_with a wt cur I2 (id :: ids fs) EX); auto.
      2:{ intros x Hx Ex I. apply (I2R x Hx Ex). right. auto. }
      pose proof (wexact_with a wt cur I2 (j :: id :: ids fs) EX NDJ RNJ I2R) as E. cbn [map zsum fold_right] in *.
      match type of E with rnd ?x = _ => replace x with (wsum N f I2 + (f id + fold_right Z.add 0 (map f (ids fs))) + f j)%Z in E by lia end.
      rewrite E. reflexivity. }
    change (set_wg W g1) with (set_wmem W m1). change (w_size (set_wmem W m1)) with (w_size W).
    destruct (path_clique a nv cur c0 lr HC Hc cp _ _ _ _ _ j (ar_fr _ _ _ _ _ _ _ _ _ _ AR) Hj Sj) as (PC1 & PC2 & PC3).
    assert (ST : astep ((id, S1) :: fs, cw, w_size W, rec, false) =
      if (w_size W <? pot)%Z then
        if card N I2 =? 0 then
          Some ((id, minus S1 j) :: fs, cw, pot, Some (fun x => (x =? j) || inb x (ids ((id, minus S1 j) :: fs))), false)
        else Some ((j, I2) :: (id, minus S1 j) :: fs, rnd (cw + f j), w_size W, rec, true)
      else Some ((id, minus S1 j) :: fs, cw, w_size W, rec, false)).
    { unfold NWDetFacts.astep. rewrite FF. reflexivity. }
    destruct (Z.ltb_spec (w_size W) pot) as [HP|HP].
    - destruct (Nat.eqb_spec (card N I2) 0) as [E0|N0].
      + (* record *)
        pose proof (rp_ge a nv cur c0 lr Hc) as RG. set (r := rp a cur c0 lr) in *.
        rewrite T1. apply wp_bind.
        change (edge_bits g1) with m1.
        eapply wp_mono; [apply (bits_set_spec m1 r N _ _ j M2 (ar_res _ _ _ _ _ _ _ _ _ _ AR1)); auto|].
        intros m2 (K1 & K2 & K3).
        assert (P2 : nprog (set_wmem (set_wmem W m1) m2)).
        { apply (nprog_mem a nv cur wt W0 Hc He); auto; [apply K3|]. intros k Hk. apply K3. lia. }
        assert (RO2 : recok (set_wmem (set_wmem W m1) m2) rec).
        { apply recok_mem; auto; [apply K3|]. intros k Hk. apply K3. lia. }
        pose proof (proj1 (card_zero _ _) E0) as HE.
        assert (W2 : wsum N f I2 = 0%Z) by (apply wsum_zero; auto).
        assert (REC := nw_record_spec a nv cur wt W0 mcs0 Hc SH0 He (set_wmem (set_wmem W m1) m2) r _ pot P2 LM RG K2 PC1 PC2).
        specialize (REC ltac:(change (2 <= card N (fun x => inb x (j :: id :: ids fs))); lia)).
        assert (WQ : exact -> wsum N f (fun x => (x =? j) || inb x (ids ((id, minus S1 j) :: fs))) = pot).
        { intros EX. change (wsum N f (fun x => inb x (j :: id :: ids fs)) = pot). rewrite wsum_list by auto.
          rewrite (EP EX), W2. cbn [map zsum fold_right]. lia. }
        specialize (REC WQ).
        pose proof (nw_record_det (set_wmem (set_wmem W m1) m2) r _ pot P2 (ex_intro _ rec RO2) K2 RG) as DET.
        apply wp_bind. eapply wp_mono; [exact (wp_conj _ _ _ REC DET)|]. clear REC DET.
        intros W3 ((P3 & Q3 & Q4 & _ & _ & Q5) & RO3).
        assert (K4 : rep (edge_bits (w_g W3)) r N (fun x => (x =? j) || inb x (ids ((id, minus S1 j) :: fs)))).
        { eapply rep_frame; [exact K2|exact Q5|]. lia. }
        apply wp_bind. eapply wp_mono; [apply (bits_reset_spec (edge_bits (w_g W3)) r N _ _ j (np_mem _ _ _ _ _ P3) K4); auto|].
        intros m4 (L1 & L2 & L3). apply wp_ok. split; [|lia].
        exists (minus S1 j), (Some (fun x => (x =? j) || inb x (ids ((id, minus S1 j) :: fs)))).
        split; [|split; [|split; [|split; [|split]]]]; auto.
        * apply (nprog_mem a nv cur wt W0 Hc He); auto; [apply L3|]. intros k Hk. apply L3. lia.
        * apply recok_mem; auto; [apply L3|]. intros k Hk. apply L3. lia.
        * cbn [set_wmem set_wg w_g set_mem edge_bits search_cur]. rewrite Q4. cbn [set_wmem set_wg w_g set_mem edge_bits search_cur].
          destruct K3 as [K3l K3], Q5 as [Q5l Q5], L3 as [L3l L3]. cbn [set_wmem set_wg w_g set_mem edge_bits] in Q5l, Q5.
          apply (arena_upd a nv cur c0 lr HC Hc _ _ m1); auto; [discriminate|congruence| |].
          -- eapply rep_ext; [exact L2|]. intros x Hx. cbv beta. destruct (Nat.eqb_spec x j) as [->|]; auto.
             cbn [negb andb]. symmetry. apply inb_not. exact U3.
          -- intros k Hk1 Hk2. rewrite L3, Q5, K3; auto; lia.
        * lia.
        * cbn [set_wmem set_wg w_size]. rewrite Q3. eapply ar_step; eauto.
      + (* push *)
        assert (NE : exists x, x < N /\ I2 x = true) by (apply card_pos; lia).
        apply wp_bind. eapply wp_mono.
        * apply (arena_push a nv cur c0 lr HC Hc _ _ g1 id (minus S1 j) fs _ sts j _ AR1); auto.
          -- unfold minus. rewrite Nat.eqb_refl. auto.
          -- intros x Hx Ex. pose proof (GT x Hx Ex). lia.
          -- rewrite <- PC3. apply Hbd. auto.
        * intros [g2 fu] (m2 & E2 & L2 & O2 & AR2). cbn [fst snd] in *. subst g2. apply wp_ok.
          change (set_wg (set_wmem W m1) (set_cur (set_mem g1 m2) (search_cur g1 + w)))
            with (set_wg (set_wmem W m1) (set_cur (set_mem (w_g (set_wmem W m1)) m2) (search_cur g1 + w))).
          split; [|split; auto].
          -- apply (nprog_arena a nv cur wt W0 Hc He); auto. apply (ar_ok _ _ _ _ _ _ _ _ _ _ AR2).
          -- exists (minus S1 j), I2, rec. cbn [set_wmem set_wg w_g set_cur set_mem edge_bits search_cur w_size].
             split; [apply (recok_arena (set_wmem W m1)); auto|].
             split; [exact AR2|]. split; [lia|]. split; [|split; [|eapply ar_step; eauto]].
             ++ assert (card N I2 <= card N (minus S1 j)); [|lia].
                apply card_le. intros i Hi E. unfold I2, inter in E. apply andb_prop in E. tauto.
             ++ intros EX. rewrite (HCW EX). pose proof (wexact_list a wt cur (j :: id :: ids fs) EX NDJ RNJ) as E. cbn [map zsum fold_right] in *.
                rewrite <- E. f_equal. lia.
    - apply wp_ok. split; [|lia].
      exists (minus S1 j), rec. split; auto. split; [exact RO1|]. split; [exact AR1|]. split; auto. split; [lia|].
      change (w_size (set_wmem W m1)) with (w_size W). eapply ar_step; eauto.
  Qed.

  (** The machine is between two turns and describes the graph; clique_weight is that of the machine unless the stack is empty. *)
  Definition dturn_inv (s0 : astate) (s : nwgraph * list sstate * Z) (n : nat) : Prop :=
    let '(W, sts, cw) := s in
    exists fs rec cwA, nprog W /\ recok W rec /\ arena (edge_bits (w_g W)) (search_cur (w_g W)) fs sts
      /\ (exact -> fs <> [] -> cw = zsum (map f (ids fs))) /\ (fs <> [] -> cw = cwA)
      /\ areach s0 (fs, cwA, w_size W, rec, true) /\ n = wweigh a cur fs.

  Definition dturn_post (s0 : astate) (r : nwgraph * list sstate) : Prop :=
    let '(W, sts) := r in
    exists fs rec cwA, nprog W /\ recok W rec /\ arena (edge_bits (w_g W)) (search_cur (w_g W)) fs sts
      /\ areach s0 (fs, cwA, w_size W, rec, true) /\ astep (fs, cwA, w_size W, rec, true) = None.

  Lemma nd_turn_det s0 mv buf s n : bufok a wt cur buf -> N <= length buf -> dturn_inv s0 s n ->
    wp (nd_turn rnd cur (mkvert a mv cur) buf s)
       (fun r => match r with Cont s' => exists n', n' < n /\ dturn_inv s0 s' n' | Done x => dturn_post s0 x end).
  Proof.
    intros BO BL. destruct s as [[W sts] cw]. intros (fs & rec & cwA & P & RO & AR & HCW & ECW & RE & ->). unfold nd_turn.
    destruct sts as [|st rest].
    { apply wp_ok. exists fs, rec, cwA. pose proof (finv_len _ _ _ _ _ _ _ _ (ar_fr _ _ _ _ _ _ _ _ _ _ AR)) as Q. destruct fs; [|discriminate].
      auto. }
    destruct fs as [|[id S0] fs]; [destruct (ar_fr _ _ _ _ _ _ _ _ _ _ AR)|].
    pose proof (np_lim _ _ _ _ _ P) as LIM.
    assert (AS : astep ((id, S0) :: fs, cwA, w_size W, rec, true) = if (w_limit W <=? w_size W)%Z then None else Some ((id, S0) :: fs, cwA, w_size W, rec, false)).
    { unfold NWDetFacts.astep. rewrite LIM. reflexivity. }
    destruct (Z.leb_spec (w_limit W) (w_size W)) as [HL|HL].
    { apply wp_ok. exists ((id, S0) :: fs), rec, cwA. auto. }
    assert (HCW' : exact -> cw = zsum (map f (id :: ids fs))) by (intros EX; apply (HCW EX); discriminate). clear HCW. rename HCW' into HCW.
    rewrite <- (ECW ltac:(discriminate)) in *. clear cwA ECW.
    destruct (arena_top _ _ _ _ _ _ _ _ _ _ _ _ _ AR) as (T1 & T2 & T3 & T4 & T5).
    pose proof (len_pos a nv HS Hself cur Hc) as LP.
    rewrite (bits_count_spec (edge_bits (w_g W)) (blk a cur c0 lr (length fs)) N S0) by (auto; apply (ar_ok _ _ _ _ _ _ _ _ _ _ AR)).
    cbn [bind]. replace (set_wmem W (edge_bits (w_g W))) with W by (destruct W as [g ? ? ? ? ? ?]; destruct g; reflexivity).
    apply wp_bind. eapply wp_mono; [apply (bits_next_spec (edge_bits (w_g W)) (blk a cur c0 lr (length fs)) N S0); auto; apply (ar_ok _ _ _ _ _ _ _ _ _ _ AR)|].
    intros st0 Hst.
    assert (F : first_of S0 st0).
    { assert (LOW : forall x, x < s_start st -> x < N -> S0 x = false).
      { intros x Hx HxN. destruct (S0 x) eqn:E; auto. destruct (T5 x HxN E). lia. }
      destruct Hst as [(H1 & H2 & H3)|(H1 & H2)].
      - left. repeat split; auto; [lia|]. intros x Hx. destruct (Nat.lt_ge_cases x (s_start st)); [apply LOW; lia|apply H3; lia].
      - right. split; auto. intros x Hx. destruct (Nat.lt_ge_cases x (s_start st)); [apply LOW; lia|apply H2; lia]. }
    assert (AR1 : arena (edge_bits (w_g W)) (search_cur (w_g W)) ((id, S0) :: fs) (set_start st st0 :: rest)).
    { apply arena_start; auto. intros x Hx E. destruct F as [(F1 & F2 & F3)|(F1 & F2)]; [|rewrite F2 in E by auto; discriminate].
      destruct (Nat.le_gt_cases st0 x); auto. rewrite F3 in E by auto. discriminate. }
    apply wp_bind.
    eapply wp_mono; [apply (nd_inner_det id S0 fs (set_start st st0) rest W st0 mv buf cw rec P RO AR1 F BO HCW)|].
    assert (RE1 : areach s0 ((id, S0) :: fs, cw, w_size W, rec, false)) by (eapply ar_step; eauto).
    intros [[[[W2 j] st2] cw2] fut] (P2 & H2). cbn [mkvert vN]. destruct fut as [g|].
    - destruct H2 as (Hj & S1 & S2 & rec2 & RO2 & AR2 & LT1 & LT2 & CW2 & RE2).
      destruct (Nat.eqb_spec j N); [lia|]. apply wp_ok. exists (wweigh a cur ((j, S2) :: (id, S1) :: fs)). split.
      + unfold wweigh. cbn [fold_right snd]. pose proof (dpow_le (S (card N S1)) (card N S0) LT1). pose proof (dpow_le (S (card N S2)) (card N S0) LT2).
        pose proof (pow2_pos (S (card N S1))). pose proof (pow2_pos (S (card N S2))).
        assert (2 ^ S (card N S0) = 2 ^ card N S0 + 2 ^ card N S0) by (simpl; lia). lia.
      + exists ((j, S2) :: (id, S1) :: fs), rec2, cw2. do 5 (split; auto). split; auto. eapply areach_trans; eauto.
    - destruct H2 as (-> & S1 & rec2 & RO2 & AR2 & E1 & -> & RE2). rewrite Nat.eqb_refl.
      pose proof (arena_pop a nv cur c0 lr HC Hc cp bd Hbd' (w_g W2) id S1 fs st2 rest AR2 E1) as POP. apply wp_bind_inv in POP.
      apply wp_bind. eapply wp_mono; [exact POP|]. clear POP. intros g3 POP. apply wp_bind_inv in POP.
      apply wp_bind. eapply wp_mono; [exact POP|]. clear POP. cbv beta. intros m3 POP. cbn [ends_with] in POP.
      destruct POP as (m' & E3 & L3 & O3 & AR3). rewrite E3.
      destruct (arena_top _ _ _ _ _ _ _ _ _ _ _ _ _ AR2) as (V1 & V2 & V3 & V4 & V5). rewrite V4.
      assert (RD : exists x, rd buf id = Ok x /\ (fs <> [] -> x = f id)).
      { pose proof (ar_fr _ _ _ _ _ _ _ _ _ _ AR2) as FR. destruct FR as (_ & (G1 & G2 & G3 & _) & _).
        destruct (nth_error buf id) as [x|] eqn:EN.
        - exists x. split; [apply rd_some; auto|]. intros NE. rewrite (BO id G1 (G3 NE)) in EN. congruence.
        - apply nth_error_None in EN. lia. }
      destruct RD as (x & -> & RX). cbn [bind]. apply wp_ok. exists (wweigh a cur fs). split.
      + unfold wweigh. cbn [fold_right snd]. pose proof (pow2_pos (card N S0)).
        assert (2 ^ S (card N S0) = 2 ^ card N S0 + 2 ^ card N S0) by (simpl; lia). lia.
      + assert (AS2 : astep ((id, S1) :: fs, cw, w_size W2, rec2, false)
                      = Some (fs, match fs with [] => 0%Z | _ => rnd (cw - f id) end, w_size W2, rec2, true)).
        { unfold NWDetFacts.astep. rewrite (find_first a cur S1 N (or_intror (conj eq_refl E1))), Nat.ltb_irrefl. reflexivity. }
        exists fs, rec2, (match fs with [] => 0%Z | _ => rnd (cw - f id) end).
        split; [apply (nprog_arena a nv cur wt W0 Hc He); auto; apply (ar_ok _ _ _ _ _ _ _ _ _ _ AR3)|].
        cbn [tl set_wg w_g w_size set_cur set_mem edge_bits search_cur].
        split; [apply recok_arena; auto|]. split; auto. split; [|split; [|split; auto]].
        * destruct (finv_ids a nv cur c0 lr HC _ _ _ _ (ar_fr _ _ _ _ _ _ _ _ _ _ AR2)) as (ID1 & ID2 & _).
          change (ids ((id, S1) :: fs)) with (id :: ids fs) in *.
          intros EX NE. rewrite (HCW EX), (RX NE). rewrite <- (wexact_list a wt cur (ids fs) EX).
          -- f_equal. cbn [map zsum fold_right]. fold (zsum (map f (ids fs))). lia.
          -- inversion ID1; auto.
          -- intros y Hy. apply ID2. right. auto.
        * intros NE. rewrite (RX NE). destruct fs; [congruence|reflexivity].
        * eapply ar_step; [|exact AS2]. eapply areach_trans; eauto.
  Qed.

  (** The machine of the root. *)
  Definition astart : astate := ([(sp a cur, cp)], wt cur, w_size W0, None, true).

  Definition dend (W : nwgraph) : Prop := nsearched a cur wt W0 W /\
    (((rnd (rsum rnd N f cp + wt cur) <= w_size W0)%Z /\ recok W None)
     \/ ((w_size W0 < rnd (rsum rnd N f cp + wt cur))%Z
         /\ exists fs rec cwA, recok W rec /\ areach astart (fs, cwA, w_size W, rec, true) /\ astep (fs, cwA, w_size W, rec, true) = None)).

  Lemma nd_process_vertex_det buf : N <= length buf ->
    wp (nd_process_vertex rnd lr W0 buf cur) (fun r => dend (fst r) /\ length (snd r) = length buf).
  Proof.
    intros HB. unfold nd_process_vertex. rewrite (sh_vs _ _ _ _ SH0), rd_vert by auto. cbn [bind].
    pose proof (w_pos a nv cur HC Hc) as WP.
    destruct (sp_spec a nv HS Hself cur Hc) as [S1 S2].
    assert (SP2 : c0 + 2 * w <= length (edge_bits (w_g W0))).
    { etransitivity; [|exact HSP]. apply Nat.add_le_mono_l, Nat.mul_le_mono_r. lia. }
    assert (R0 : recok W0 None) by (split; cbn [recbody]; auto).
    apply wp_bind. eapply wp_mono; [apply (arena_root a nv cur c0 lr HC Hc (w_g W0) mcs0 (mcs0 cur) SH0 eq_refl HZ SP2)|].
    intros [g1 x] (m1 & -> & M1 & M2 & M3 & -> & M5 & M6 & M7). cbn [s_cand].
    assert (P1 : nprog (set_wg W0 (set_cur (set_mem (w_g W0) m1) (c0 + 2 * w)))).
    { apply (nprog_arena a nv cur wt W0 Hc He); auto. apply (nprog_refl a nv cur wt W0 mcs0 SH0). }
    apply wp_bind.
    eapply wp_mono; [apply (nw_root_cands_spec a nv wt HC _ mcs0 cur (mcs0 cur) (blk a cur c0 lr 0) buf (length buf) (shp _ P1) Hc EW ED eq_refl HB M7)|].
    cbn [set_wg w_g set_cur set_mem edge_bits].
    intros [[m2 buf'] pot] (L1 & L2 & L3 & L4 & L5 & L6).
    rewrite EW, rd_mapseq by auto. cbn [bind].
    assert (LM2 : length m2 = length m1) by (destruct L3; lia).
    assert (AR : arena m2 (c0 + 2 * w) [(sp a cur, cp)] [mkS (sp a cur) 0 (refer_from (rp a cur c0 lr) N) (refer_from (blk a cur c0 lr 0) N)]).
    { apply (arena_make a nv cur c0 lr HC Hc cp bd Hcp m1); auto. rewrite M2. auto. }
    assert (O2 : forall k, k < c0 -> nth k m2 0%N = nth k (edge_bits (w_g W0)) 0%N).
    { intros k Hk. destruct L3 as [_ L3]. pose proof (blk_ge a nv cur c0 lr Hc 0). rewrite L3 by lia. apply M3. auto. }
    set (g2 := set_cur (set_mem (w_g W0) m2) (c0 + 2 * w)).
    change (set_mem (set_cur (set_mem (w_g W0) m1) (c0 + 2 * w)) m2) with g2.
    assert (P2 : nprog (set_wg W0 g2)).
    { apply (nprog_arena a nv cur wt W0 Hc He); auto; [apply (nprog_refl a nv cur wt W0 mcs0 SH0)|congruence]. }
    assert (R2 : recok (set_wg W0 g2) None) by (apply (recok_arena W0); auto; congruence).
    cbn [mkvert vN].
    change {| vN := N; vspos := sp a cur; velo := off a cur; vebo := eb a cur; vmcs := mcs0 cur; vbits := refer_from (eb a cur) N |} with (mkvert a (mcs0 cur) cur).
    subst pot.
    destruct (Z.leb_spec (rnd (rsum rnd N f cp + wt cur)) (w_size W0)) as [HBd|HBd].
    - apply wp_bind. eapply wp_mono; [apply clear_memory_spec|].
      + exact L1.
      + change (search_cur g2) with (c0 + 2 * w). change (edge_bits g2) with m2. rewrite LM2, M2. lia.
      + change (search_cur g2) with (c0 + 2 * w). change (edge_bits g2) with m2.
        intros g' (m3 & -> & K1 & K2 & K3). replace (c0 + 2 * w - 2 * w) with c0 in * by lia. destruct K2 as [K2l K2].
        apply wp_ok. cbn [fst snd]. split; auto. change (set_cur (set_mem g2 m3) c0) with (set_cur (set_mem (w_g W0) m3) c0).
        assert (O3 : forall k, k < c0 -> nth k m3 0%N = nth k (edge_bits (w_g W0)) 0%N) by (intros k Hk; rewrite K2 by lia; auto).
        split; [|left; split; auto; apply recok_arena; auto; congruence]. split; auto.
        * apply (nprog_arena a nv cur wt W0 Hc He); auto; [apply (nprog_refl a nv cur wt W0 mcs0 SH0)|congruence].
        * intros k Hk. cbn [set_wg w_g set_cur set_mem edge_bits]. destruct (Nat.lt_ge_cases k (c0 + 2 * w)); [apply K3; lia|].
          rewrite K2 by lia. apply (ar_zero _ _ _ _ _ _ _ _ _ _ AR). lia.
    - apply wp_bind. eapply wp_mono.
      + apply (wp_run2_rel _ _ (dturn_inv astart) _ (wweigh a cur [(sp a cur, cp)])).
        * exists [(sp a cur, cp)], None, (wt cur). split; auto. split; auto. split; [exact AR|]. split; [|split; auto].
          -- intros _ _. cbn [ids map fst zsum fold_right]. unfold pw. rewrite S2. lia.
          -- split; auto. apply ar_refl.
        * unfold wweigh. cbn [fold_right snd]. pose proof (card_bound N cp). pose proof (dpow_le (S (card N cp)) (S (S N)) ltac:(lia)).
          pose proof (pow2_pos (S (card N cp))). lia.
        * intros s n I. apply nd_turn_det; auto. lia.
      + intros [W3 sts] (fs & rec & cwA & P3 & RO3 & AR3 & RE3 & E3).
        assert (REL : wp (g <- (match sts with [] => Ok (w_g W3) | _ => clear_memory (w_g W3) (w * length sts) end);; clear_memory g w)
           (fun g' => nsearched a cur wt W0 (set_wg W3 g') /\ recok (set_wg W3 g') rec)).
        { eapply wp_mono; [apply (arena_release a nv cur c0 lr HC Hc cp bd Hbd' (w_g W3) fs sts AR3)|].
          intros g' (m' & -> & Q & OK & O & Z). split; [|apply recok_arena; auto]. split; auto. apply (nprog_arena a nv cur wt W0 Hc He); auto. }
        apply wp_bind_inv in REL.
        apply wp_bind. eapply wp_mono; [exact REL|]. clear REL. intros g4 REL.
        apply wp_bind. eapply wp_mono; [exact REL|]. clear REL. intros g5 (SE & RO5). apply wp_ok.
        cbn [fst snd]. split; auto. split; auto. right. split; auto. exists fs, rec, cwA. auto.
  Qed.
  End Run.

  (** The graph after the search is determined. *)
  Lemma dend_same W W' : dend W -> dend W' -> W = W'.
  Proof.
    intros [[P Q Z] D] [[P' Q' Z'] D'].
    assert (R : exists rec, w_size W = w_size W' /\ recok W rec /\ recok W' rec).
    { destruct D as [[D1 D2]|(D1 & fs & rec & cw & D2 & D3 & D4)], D' as [[D1' D2']|(D1' & fs' & rec' & cw' & D2' & D3' & D4')]; try lia.
      - exists None. split; auto. destruct D2 as [_ [-> _]], D2' as [_ [-> _]]. auto.
      - pose proof (areach_end a cur wt L _ _ _ D3 D3' D4 D4') as E. injection E as E1 E2 E3 E4. subst rec'. exists rec. auto. }
    destruct R as (rec & SZ & [[RK1 RK2] R] & [[RK1' RK2'] R']).
    assert (ME : edge_bits (w_g W) = edge_bits (w_g W')).
    { apply mem_ext; [rewrite (np_len _ _ _ _ _ P), (np_len _ _ _ _ _ P'); auto|]. intros k.
      destruct (Nat.lt_ge_cases k c0) as [Hk|Hk]; [|rewrite Z, Z' by auto; auto].
      destruct (Nat.lt_ge_cases k (eb a cur)) as [Hk1|Hk1]; [|destruct (Nat.lt_ge_cases k (eb a cur + w)) as [Hk2|Hk2]].
      - rewrite (np_same _ _ _ _ _ P), (np_same _ _ _ _ _ P'); auto; unfold in_block; lia.
      - destruct rec as [K|]; cbn [recbody] in R, R'.
        + apply (rep_word _ _ (eb a cur) N K); try apply R; try apply R'; try apply (np_mem _ _ _ _ _ P); try apply (np_mem _ _ _ _ _ P'); auto.
        + destruct R as (_ & _ & _ & R), R' as (_ & _ & _ & R'). rewrite R, R' by (unfold in_block; auto). auto.
      - rewrite (np_same _ _ _ _ _ P), (np_same _ _ _ _ _ P'); auto; unfold in_block; lia. }
    assert (GE : w_g W = w_g W').
    { pose proof (np_core _ _ _ _ _ P) as C. pose proof (np_core _ _ _ _ _ P') as C'. rewrite <- C' in C.
      pose proof (np_vs _ _ _ _ _ P) as V. pose proof (np_vs _ _ _ _ _ P') as V'. rewrite <- V' in V.
      rewrite <- Q' in Q. rewrite <- RK1' in RK1. rewrite <- RK2' in RK2. clear -C V Q RK1 RK2 ME. unfold core in C. destruct (w_g W), (w_g W'). cbn in *. inversion C. subst. reflexivity. }
    assert (w_mcs W = w_mcs W' /\ w_loc W = w_loc W') as [E1 E2].
    { destruct rec as [K|]; cbn [recbody] in R, R'.
      - destruct R as (-> & -> & _), R' as (-> & -> & _). rewrite SZ. auto.
      - destruct R as (_ & -> & -> & _), R' as (_ & -> & -> & _). auto. }
    pose proof (np_wt _ _ _ _ _ P) as X1. pose proof (np_wt _ _ _ _ _ P') as X1'.
    pose proof (np_deg _ _ _ _ _ P) as X2. pose proof (np_deg _ _ _ _ _ P') as X2'.
    pose proof (np_lim _ _ _ _ _ P) as X3. pose proof (np_lim _ _ _ _ _ P') as X3'.
    destruct W, W'. cbn in *. congruence.
  Qed.

  Lemma nd_process_vertex_same lr lr' buf buf' : N <= length buf -> length buf' = length buf ->
    exists W b b', nd_process_vertex rnd lr W0 buf cur = Ok (W, b) /\ nd_process_vertex rnd lr' W0 buf' cur = Ok (W, b')
      /\ length b = length buf /\ length b' = length buf.
  Proof.
    intros H1 H2. pose proof (nd_process_vertex_det lr buf H1) as D. pose proof (nd_process_vertex_det lr' buf' ltac:(lia)) as D'.
    apply wp_iff in D, D'. destruct D as ([W b] & E & D & B), D' as ([W' b'] & E' & D' & B'). cbn [fst snd] in *.
    rewrite (dend_same W' W D' D) in E'. exists W, b, b'. rewrite <- H2 at 2. auto.
  Qed.
End Vertex.

Section Graph.
  Variables (a : pairs) (nv : nat) (wt : wts).
  Hypothesis HC : gctx a nv.
  Notation ngood := (ngood a nv wt).
  Notation rnd := (wrnd wt).

  Lemma nd_step_same lr lr' W0 mcs buf buf' cur : ngood W0 mcs -> cur < nv -> length buf = max_degree (w_g W0) -> length buf' = length buf ->
    exists W b b', nd_process_vertex rnd lr W0 buf cur = Ok (W, b) /\ nd_process_vertex rnd lr' W0 buf' cur = Ok (W, b')
      /\ ngood W mcs /\ length b = max_degree (w_g W) /\ length b' = length b.
  Proof.
    intros G Hc HB HB'. pose proof (nd_step a nv wt HC lr W0 mcs buf cur G Hc HB) as ST.
    destruct G as [G Z]. destruct (nbase_room a nv wt W0 mcs _ cur G Hc) as (B & B1 & B2 & B3 & B4 & _).
    destruct (nd_process_vertex_same a nv cur wt W0 mcs B HC Hc (nb_shape _ _ _ _ _ _ G) (nb_wt _ _ _ _ _ _ G)
      (nb_deg _ _ _ _ _ _ G) (nb_mcs _ _ _ _ _ _ G) (nb_eb _ _ _ _ _ _ G) Z B2 B1 B3 lr lr' buf buf' ltac:(lia) HB') as (W & b & b' & E & E' & L1 & L2).
    rewrite E in ST. cbn [ends_with] in ST. destruct ST as (G' & _ & _ & LB & _). exists W, b, b'. do 4 (split; auto). congruence.
  Qed.

  Lemma nd_process_graph_same lr lr' junk junk' W0 mcs : ngood W0 mcs ->
    nd_process_graph rnd lr junk W0 = nd_process_graph rnd lr' junk' W0.
  Proof.
    intros G0. unfold nd_process_graph. cbv zeta.
    destruct (nd_step_same lr lr' W0 mcs (map junk (seq 0 (max_degree (w_g W0)))) (map junk' (seq 0 (max_degree (w_g W0)))) _ G0 (nb_loc _ _ _ _ _ _ (proj1 G0)))
      as (W & b & b' & -> & -> & G & L & L'); [rewrite map_length, seq_length; auto|rewrite !map_length; auto|].
    cbn [bind]. rewrite (sh_nv _ _ _ _ (nb_shape _ _ _ _ _ _ (proj1 G))).
    assert (K : forall l W b b', ngood W mcs -> (forall i, In i l -> i < nv) -> length b = max_degree (w_g W) -> length b' = length b ->
      let body lr := (fun i '(W, buf) => x <- rd (w_mcs W) i;;
        if (x <=? w_size W)%Z || (w_limit W <=? w_size W)%Z then Ok (W, buf) else nd_process_vertex rnd lr W buf i) in
      exists W1 b1 b1', foldM (body lr) l (W, b) = Ok (W1, b1) /\ foldM (body lr') l (W, b') = Ok (W1, b1')).
    { clear W b b' G L L'. induction l as [|i l IH]; intros W b b' G HI L L' body; cbn [foldM].
      - eauto.
      - assert (Hi : i < nv) by (apply HI; left; auto).
        destruct (nw_done a nv wt W mcs _ (proj1 G) i Hi) as (x & Hx). unfold body at 1 3. rewrite (rd_some _ _ _ Hx). cbn [bind].
        destruct ((x <=? w_size W)%Z || (w_limit W <=? w_size W)%Z); cbn [bind].
        + apply IH; auto. intros y Hy. apply HI. right. auto.
        + destruct (nd_step_same lr lr' W mcs b b' i G Hi L L') as (W1 & b1 & b1' & -> & -> & G1 & L1 & L1'). cbn [bind].
          apply IH; auto. intros y Hy. apply HI. right. auto. }
    unfold for_. destruct (K (seq 0 (nv - 0)) W b b' G ltac:(intros i Hi; apply in_seq in Hi; lia) L L') as (W1 & b1 & b1' & E & E').
    cbv zeta in E, E'. rewrite E, E'. reflexivity.
  Qed.
End Graph.
