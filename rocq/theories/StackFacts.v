(** StackFacts: StackDFS::process_vertex is memory safe, terminates, records only cliques and misses no larger one. *)
From Verif Require Import Base MBits MUtils MGraph MStack SpecBits BaseFacts BitsFacts SetFacts SortFacts RowFacts ConstructFacts CardFacts SearchBase FrameFacts FrameInv LexFacts.
Local Open Scope nat_scope.
Local Arguments Nat.sub : simpl never.
Local Arguments Nat.mul : simpl never.

Lemma card_three n R j S2 K : NoDup R -> (forall x, In x R -> x < n) ->
  (forall x, x < n -> K x = true -> In x R \/ x = j \/ S2 x = true) -> card n K <= length R + 1 + card n S2.
Proof.
  intros ND HR H. etransitivity; [apply (card_le _ _ (fun x => inb x R || ((x =? j) || S2 x)))|].
  - intros i Hi Ki. destruct (H i Hi Ki) as [I|[->|E]].
    + apply inb_in in I. rewrite I. auto.
    + rewrite Nat.eqb_refl, orb_true_r. auto.
    + rewrite E, !orb_true_r. auto.
  - pose proof (card_or n (fun x => inb x R) (fun x => (x =? j) || S2 x)).
    pose proof (card_or n (fun x => x =? j) S2). rewrite card_single in *. rewrite card_list in * by auto.
    destruct (j <? n); lia.
Qed.

Section Cover.
  Variables (a : pairs) (cur : nat).
  Notation N := (rlen a cur).
  Notation A := (padj a cur).

  (** The clique K extends the path R by members of S, or by one that comes before all of S, which is not empty. *)
  Definition cov1 (R : list nat) (S K : nat -> bool) : Prop :=
    ((forall x, In x R -> K x = true) /\ (forall x, x < N -> K x = true -> In x R \/ S x = true)
      /\ exists x, x < N /\ K x = true /\ S x = true)
    \/ exists y, (y < N /\ K y = true /\ y <> sp a cur)
        /\ (forall x, In x R -> K x = true) /\ (forall x, x < N -> K x = true -> In x R \/ x = y)
        /\ (forall x, In x R -> x = sp a cur \/ x < y) /\ (forall x, x < N -> S x = true -> y < x) /\ exists x, x < N /\ S x = true.

  Lemma short_card R K y : NoDup R -> (forall x, In x R -> x < N) -> (forall x, x < N -> K x = true -> In x R \/ x = y) -> card N K <= length R + 1.
  Proof.
    intros ND RN H. pose proof (card_three N R y (fun _ => false) K ND RN) as C. rewrite card_false in C. rewrite Nat.add_0_r in C. apply C.
    intros x Hx Kx. destruct (H x Hx Kx); auto.
  Qed.

  Fixpoint covered (fs : list frame) (K : nat -> bool) : Prop :=
    match fs with
    | [] => False
    | (id, X) :: fs' => cov1 (id :: ids fs') X K \/ covered fs' K
    end.

  Definition Cov (fs : list frame) (M : nat) : Prop :=
    forall K, rooted a cur K -> pclique a cur K -> 2 <= card N K -> M < card N K -> covered fs K.

  Section Step.
    Variables (id : nat) (S : nat -> bool) (fs : list frame) (M j : nat).
    Notation R := (id :: ids fs).
    Hypothesis ND : NoDup R.
    Hypothesis RN : forall x, In x R -> x < N.
    Hypothesis Hj : j < N.
    Hypothesis Sj : S j = true.
    Hypothesis CV : Cov ((id, S) :: fs) M.

    Lemma cov_has_j K : pclique a cur K -> (forall x, x < N -> K x = true -> In x R \/ S x = true) -> K j = true ->
      forall x, x < N -> K x = true -> In x R \/ x = j \/ inter a cur (minus S j) j x = true.
    Proof.
      intros HP HK Kj x Hx Kx. destruct (HK x Hx Kx) as [I|E]; auto. destruct (Nat.eq_dec x j) as [->|NE]; auto.
      right. right. unfold inter, minus. rewrite E, (HP j x) by auto. destruct (Nat.eqb_spec x j); [congruence|auto].
    Qed.

    Lemma cov_no_j K : K j = false -> (forall x, In x R -> K x = true) ->
      (forall x, x < N -> K x = true -> In x R \/ S x = true) -> (exists x, x < N /\ K x = true /\ S x = true) -> cov1 R (minus S j) K.
    Proof.
      intros Kj H1 H2 (x & Hx & Kx & Sx). left. split; auto. split.
      - intros y Hy Ky. destruct (H2 y Hy Ky) as [|E]; auto. right. unfold minus. rewrite E.
        destruct (Nat.eqb_spec y j); [congruence|auto].
      - exists x. split; auto. split; auto. unfold minus. rewrite Sx. destruct (Nat.eqb_spec x j); [congruence|auto].
    Qed.

    Lemma Cov_prune : card N (inter a cur (minus S j) j) + length R + 1 <= M -> Cov ((id, minus S j) :: fs) M.
    Proof.
      intros HT K K1 K2 K3 K4. destruct (CV K K1 K2 K3 K4) as [C|C]; [|right; auto].
      destruct C as [(C1 & C2 & C3)|(y & _ & _ & C1 & _)]; [|pose proof (short_card R K y ND RN C1); lia].
      destruct (K j) eqn:Kj.
      - pose proof (card_three N R j _ K ND RN (cov_has_j K K2 C2 Kj)). lia.
      - left. apply cov_no_j; auto.
    Qed.

    Lemma Cov_record : (forall x, x < N -> minus S j x = false) -> M <= length R + 1 -> Cov ((id, minus S j) :: fs) (length R + 1).
    Proof.
      intros HE HM K K1 K2 K3 K4. destruct (CV K K1 K2 K3 ltac:(lia)) as [C|C]; [|right; auto]. exfalso.
      destruct C as [(C1 & C2 & C3)|(y & _ & _ & C1 & _)]; [|pose proof (short_card R K y ND RN C1); lia].
      assert (card N K <= length R + 1 + card N (fun _ => false)); [|rewrite card_false in *; lia].
      apply (card_three N R j); auto. intros x Hx Kx. destruct (C2 x Hx Kx) as [|E]; auto.
      specialize (HE x Hx). unfold minus in HE. rewrite E in HE. destruct (Nat.eqb_spec x j); [auto|discriminate].
    Qed.

    Lemma Cov_push : (exists x, x < N /\ minus S j x = true) -> j <> sp a cur -> (forall x, In x R -> x = sp a cur \/ x < j) ->
      (forall x, x < N -> minus S j x = true -> j < x) ->
      Cov ((j, inter a cur (minus S j) j) :: (id, minus S j) :: fs) M.
    Proof.
      intros HNE JS JT GT K K1 K2 K3 K4. destruct (CV K K1 K2 K3 K4) as [C|C]; [|right; right; auto].
      destruct C as [(C1 & C2 & C3)|(y & C1 & C2 & C3 & C4 & C5 & C6)].
      2: { right. left. right. exists y. do 4 (split; auto). split; auto. intros x Hx E. apply C5; auto. unfold minus in E. apply andb_prop in E. tauto. }
      destruct (K j) eqn:Kj; [|right; left; apply cov_no_j; auto].
      pose proof (cov_has_j K K2 C2 Kj) as C4.
      destruct (card N (fun x => K x && inter a cur (minus S j) j x)) eqn:EC.
      - right. left. right. exists j. split; auto. split; auto. split; [|auto].
        intros x Hx Kx. destruct (C4 x Hx Kx) as [|[|E]]; auto.
        apply (proj1 (card_zero _ _)) with (i := x) in EC; auto. rewrite Kx, E in EC. discriminate.
      - left. left. split; [|split].
        + intros x [<-|I]; auto.
        + intros x Hx Kx. destruct (C4 x Hx Kx) as [|[->|E]]; auto; left; [right; auto|left; auto].
        + assert (0 < card N (fun x => K x && inter a cur (minus S j) j x)) as P by lia. apply card_pos in P.
          destruct P as (x & Hx & E). apply andb_prop in E. exists x. tauto.
    Qed.

    (** The first clique of its size, by all but the last position, and with the greatest last position. *)
    Lemma Cov_first K' : bottom a cur ((id, S) :: fs) -> fdisj a cur ((id, S) :: fs) -> ~ In j R -> (forall x, x < N -> minus S j x = false) ->
      M < length R + 1 -> rooted a cur K' -> pclique a cur K' -> card N K' = length R + 1 -> last_or a cur (fun x => inb x (j :: R)) K'.
    Proof.
      intros BO FD NJ HE HM R1 R2 HC. pose proof (fdisj_above a cur _ BO FD j Hj Sj) as JT. cbn beta in JT.
      assert (JS : j <> sp a cur) by (intros ->; destruct BO as [BO _]; congruence).
      assert (TJ : tops a cur (fun x => inb x (j :: R)) j).
      { split; auto. split; [apply inb_in; left; auto|]. split; auto. intros y Hy Ky Ny. apply inb_in in Ky.
        destruct Ky as [<-|I]; auto. destruct (JT y I); [congruence|lia]. }
      assert (RJ : forall x, In x R -> minus (fun x => inb x (j :: R)) j x = true).
      { intros x I. unfold minus. destruct (Nat.eqb_spec x j) as [->|]; [destruct (NJ I)|]. apply inb_in. right. auto. }
      assert (JR : forall x, minus (fun x => inb x (j :: R)) j x = true -> In x R).
      { intros x E. unfold minus in E. apply andb_prop in E. destruct E as [E1 E2]. apply inb_in in E2. destruct E2 as [<-|]; auto.
        rewrite Nat.eqb_refl in E1. discriminate. }
      assert (L2 : 2 <= card N K') by (cbn [length] in HC; lia).
      destruct (CV K' R1 R2 L2 ltac:(lia)) as [C|C].
      - destruct C as [(C1 & C2 & C3)|(y & (Y1 & Y2 & Y3) & C1 & C2 & C3 & C4 & C5)].
        + left. intros x Hx. symmetry. apply (card_same N K' (fun x => inb x (j :: R))); auto.
          * intros i Hi Ki. apply inb_in. destruct (C2 i Hi Ki) as [|E]; [right; auto|left]. specialize (HE i Hi). unfold minus in HE. rewrite E in HE.
            destruct (Nat.eqb_spec i j); [auto|discriminate].
          * rewrite HC, card_list; [cbn [length]; lia|constructor; auto|]. intros i [<-|I]; auto.
        + right. exists j, y. split; auto. pose proof (C4 j Hj Sj) as LT.
          assert (NY : ~ In y R) by (intros I; destruct (C3 y I); [congruence|lia]).
          split; [|right; split; auto].
          * split; auto. split; auto. split; auto. intros z Hz Kz Nz. destruct (C2 z Hz Kz) as [I| ->]; auto. destruct (C3 z I); [congruence|lia].
          * intros z Hz. destruct (minus K' y z) eqn:E.
            -- unfold minus in E. apply andb_prop in E. destruct E as [E1 E2]. apply RJ. destruct (C2 z Hz E2) as [| ->]; auto.
               rewrite Nat.eqb_refl in E1. discriminate.
            -- destruct (minus (fun x => inb x (j :: R)) j z) eqn:E2; auto. apply JR in E2. unfold minus in E. rewrite (C1 z E2) in E.
               destruct (Nat.eqb_spec z y) as [->|]; [destruct (NY E2)|discriminate].
      - destruct (tops_exists a cur K' L2) as (x' & TX). right. exists j, x'. split; auto. split; auto. left.
        apply (after_below a cur ((id, S) :: fs) RN ND FD); cbn [tl].
        + intros x I. apply RJ. exact I.
        + intros _ x Hx E. left. apply JR. exact E.
        + assert (BF : bottom a cur fs) by (destruct fs; [exact I|apply BO]).
          assert (FF : fdisj a cur fs) by (destruct FD as [_ FD]; exact FD).
          assert (NF : NoDup (ids fs)) by (inversion ND; auto).
          assert (RF : forall x, In x (ids fs) -> x < N) by (intros; apply RN; right; auto).
          assert (LF : length fs + 1 < card N K') by (rewrite HC; cbn [length]; unfold ids; rewrite map_length; lia).
          clear - C TX BF FF NF RF LF. destruct TX as (TX1 & TX2 & TX3 & TX4).
          induction fs as [|[i X] gs IH]; [destruct C|]. destruct C as [[(C1 & C2 & z & Z1 & Z2 & Z3)|(y & _ & _ & C2 & _)]|C].
          * left. assert (NZ : z <> sp a cur) by (intros ->; destruct BF as [BF _]; congruence).
            pose proof (TX4 z Z1 Z2 NZ) as LZ. pose proof (fdisj_above a cur _ BF FF z Z1 Z3) as AB. cbn beta in AB. split.
            -- intros x I. unfold minus. rewrite (C1 x I). destruct (Nat.eqb_spec x x') as [->|]; auto. destruct (AB x' I); [congruence|lia].
            -- intros x Hx E. unfold minus in E. apply andb_prop in E. destruct E as [_ E]. auto.
          * exfalso. pose proof (short_card (i :: ids gs) K' y NF RF C2) as SC. cbn [length] in SC, LF. unfold ids in SC. rewrite map_length in SC. lia.
          * right. apply IH; auto.
            -- destruct gs; [exact I|apply BF].
            -- destruct FF as [_ FF]. exact FF.
            -- inversion NF; auto.
            -- intros x I. apply RF. right. auto.
            -- cbn [length] in LF. lia.
    Qed.
  End Step.

  Lemma Cov_pop id S fs M : (forall x, x < N -> S x = false) -> Cov ((id, S) :: fs) M -> Cov fs M.
  Proof.
    intros HE CV K K1 K2 K3 K4. destruct (CV K K1 K2 K3 K4) as [C|C]; auto. exfalso.
    destruct C as [(_ & _ & x & Hx & _ & E)|(_ & _ & _ & _ & _ & _ & x & Hx & E)]; rewrite HE in E by auto; discriminate.
  Qed.

  Lemma Cov_init : sp a cur < N -> Cov [(sp a cur, candp a cur)] 0.
  Proof.
    intros HN K [K1 K1'] K2 K3 K4. left. left. split; [|split].
    - intros x [<-|[]]. auto.
    - intros x Hx Kx. destruct (K1' x Hx Kx) as [->|]; auto. left. left. auto.
    - pose proof (card_remove N K (sp a cur) HN K1) as CR.
      assert (0 < card N (fun i => negb (i =? sp a cur) && K i)) as P by lia. apply card_pos in P.
      destruct P as (x & Hx & E). apply andb_prop in E. destruct E as [E1 E2]. exists x. split; auto. split; auto.
      destruct (K1' x Hx E2) as [->|]; auto. rewrite Nat.eqb_refl in E1. discriminate.
  Qed.

  Lemma Cov_mono fs M M' : M <= M' -> Cov fs M -> Cov fs M'.
  Proof. intros H C K K1 K2 K3 K4. apply C; auto. lia. Qed.
End Cover.

Section Vertex.
  Variables (a : pairs) (nv cur : nat) (lr : bool) (g0 : graph) (mcs0 : nat -> nat).
  Hypothesis HC : gctx a nv.
  Hypothesis Hc : cur < nv.
  Hypothesis SH0 : shape a nv g0 mcs0.
  Notation N := (rlen a cur).
  Notation w := (words (rlen a cur)).
  Notation A := (padj a cur).
  Notation c0 := (search_cur g0).
  Hypothesis He : eb a nv <= c0.
  Hypothesis HZ : zero_from (edge_bits g0) c0.
  Hypothesis HSP : c0 + (bound a cur + 1) * w <= length (edge_bits g0).
  Let HS := gc_sorted _ _ HC.
  Let Hself := gc_self _ _ HC.

  Notation prog := (prog a nv g0).
  Notation arena := (arena a cur c0 lr (candp a cur) (bound a cur)).
  Notation Cov := (Cov a cur).

  Notation first_of := (first_of a cur).

  (** Nothing was recorded, or the first clique of its size in the order of [lastlt]. *)
  Definition sbest (g : graph) : Prop :=
    CUR_MAX_SIZE g = CUR_MAX_SIZE g0 \/ exists K, rep (edge_bits g) (eb a cur) N K /\ rooted a cur K /\ pclique a cur K
      /\ card N K = CUR_MAX_SIZE g /\ forall K', rooted a cur K' -> pclique a cur K' -> card N K' = CUR_MAX_SIZE g -> last_or a cur K K'.

  Lemma sbest_frame g g' : CUR_MAX_SIZE g' = CUR_MAX_SIZE g -> length (edge_bits g') = length (edge_bits g) ->
    (forall k, k < c0 -> nth k (edge_bits g') 0%N = nth k (edge_bits g) 0%N) -> sbest g -> sbest g'.
  Proof.
    intros E L F [B|(K & B1 & B2 & B3 & B4 & B5)]; [left; congruence|right]. rewrite E.
    exists K. split; [|auto]. destruct B1 as [X1 X2]. split; [lia|]. intros i Hi. rewrite <- X2 by auto. unfold wbit.
    pose proof (words_lt64 _ i Hi). pose proof (block_end a nv cur Hc). rewrite F by lia. auto.
  Qed.

  Lemma finv_bottom cp m fs sts : cp (sp a cur) = false -> finv a cur c0 lr cp m fs sts -> bottom a cur fs.
  Proof.
    intros HP. revert sts. induction fs as [|[id X] fs IH]; intros [|st sts]; cbn [finv bottom]; auto; try contradiction.
    intros (_ & (_ & F1 & _) & F2 & F3). split.
    - destruct (X (sp a cur)) eqn:E; auto. destruct (sp_spec a nv HS Hself cur Hc) as [S1 _]. destruct (F2 _ S1 E). congruence.
    - destruct fs; [auto|eauto].
  Qed.

  Lemma sd_inner_spec id S0 fs st0 sts g1 j1 mv :
    prog g1 mcs0 cur -> arena (edge_bits g1) (search_cur g1) ((id, S0) :: fs) (st0 :: sts) ->
    first_of S0 j1 -> Cov ((id, S0) :: fs) (CUR_MAX_SIZE g1) -> fdisj a cur ((id, S0) :: fs) -> sbest g1 ->
    wp (sd_inner cur (mkvert a mv cur) (S (length fs)) g1 j1 st0 (card N S0))
       (fun r => let '(g, j, st, fut) := r in prog g mcs0 cur /\ sbest g
          /\ match fut with
             | None => j = N /\ exists S1, arena (edge_bits g) (search_cur g) ((id, S1) :: fs) (st :: sts)
                         /\ (forall x, x < N -> S1 x = false) /\ Cov ((id, S1) :: fs) (CUR_MAX_SIZE g) /\ fdisj a cur ((id, S1) :: fs)
             | Some f => j < N /\ exists S1 S2, arena (edge_bits g) (search_cur g) ((j, S2) :: (id, S1) :: fs) (f :: st :: sts)
                         /\ Cov ((j, S2) :: (id, S1) :: fs) (CUR_MAX_SIZE g) /\ card N S1 < card N S0 /\ card N S2 < card N S0
                         /\ fdisj a cur ((j, S2) :: (id, S1) :: fs)
             end).
  Proof.
    intros P1 A1 F1 C1 D1 B1. unfold sd_inner.
    apply (wp_loopN _ _ (fun '(g, j, st, cl) => exists S1, prog g mcs0 cur
        /\ arena (edge_bits g) (search_cur g) ((id, S1) :: fs) (st :: sts)
        /\ first_of S1 j /\ Cov ((id, S1) :: fs) (CUR_MAX_SIZE g) /\ cl = card N S1 /\ card N S1 <= card N S0
        /\ fdisj a cur ((id, S1) :: fs) /\ sbest g)
        (fun '(g, j, st, cl) => N - j)).
    { exists S0. auto 10. }
    { cbn [mkvert vN]. lia. }
    clear g1 j1 st0 P1 A1 F1 C1 D1 B1.
    intros [[[g j] st] cl] (S1 & P & AR & F & CV & -> & LE & FD & BS). cbn [mkvert vN velo].
    destruct (Nat.ltb_spec j N) as [Hj|Hj].
    2:{ apply wp_ok. split; auto. split; auto. destruct F as [(F1 & _)|(F1 & F2)]; [lia|]. split; auto. exists S1. auto. }
    destruct F as [(_ & Sj & Fj)|(F & _)]; [|lia].
    destruct (prog_shape a nv g0 g mcs0 cur SH0 P) as [mcs SH].
    destruct (arena_top _ _ _ _ _ _ _ _ _ _ _ _ _ AR) as (T1 & T2 & T3 & T4 & T5).
    destruct (finv_ids a nv cur c0 lr HC _ _ _ _ (ar_fr _ _ _ _ _ _ _ _ _ _ AR)) as (ID1 & ID2 & ID3 & ID4).
    change (ids ((id, S1) :: fs)) with (id :: ids fs) in *.
    pose proof (card_remove N S1 j Hj Sj) as CR. change (fun i => negb (i =? j) && S1 i) with (minus S1 j) in CR.
    apply wp_bind. eapply wp_mono; [apply (arena_minus a nv cur c0 lr HC Hc _ _ _ _ _ _ _ _ _ j AR Hj)|].
    intros m1 (M1 & M2 & M3 & M4).
    set (b := blk a cur c0 lr (length fs)) in *.
    assert (GT : forall x, x < N -> minus S1 j x = true -> j < x).
    { intros x Hx Ex. unfold minus in Ex. apply andb_prop in Ex. destruct Ex as [E1 E2].
      destruct (Nat.lt_trichotomy x j) as [L|[->|L]]; auto; [rewrite Fj in E2 by auto; discriminate|rewrite Nat.eqb_refl in E1; discriminate]. }
    apply wp_bind. cbn [set_mem edge_bits]. rewrite T2.
    eapply wp_mono; [apply (bits_next_spec m1 b N (minus S1 j)); auto|].
    intros nx Hnx.
    assert (Hfirst : first_of (minus S1 j) nx).
    { assert (LOW : forall x, x < j + 1 -> x < N -> minus S1 j x = false).
      { intros x Hx HxN. destruct (minus S1 j x) eqn:E; auto. pose proof (GT x HxN E). lia. }
      destruct Hnx as [(H1 & H2 & H3)|(H1 & H2)].
      - left. repeat split; auto; [lia|]. intros x Hx. destruct (Nat.lt_ge_cases x (j + 1)); [apply LOW; lia|apply H3; lia].
      - right. split; auto. intros x Hx. destruct (Nat.lt_ge_cases x (j + 1)); [apply LOW; lia|apply H2; lia]. }
    assert (NXJ : j < nx) by (destruct Hnx as [(H1 & _)|(H1 & _)]; lia).
    assert (AR1 : arena m1 (search_cur g) ((id, minus S1 j) :: fs) (set_start st nx :: sts)).
    { apply M4. intros x Hx E NE. assert (minus S1 j x = true) as EM by (unfold minus; rewrite E; destruct (Nat.eqb_spec x j); [congruence|auto]).
      destruct Hfirst as [(F1 & F2 & F3)|(F1 & F2)]; [|rewrite F2 in EM by auto; discriminate].
      destruct (Nat.le_gt_cases nx x); auto. rewrite F3 in EM by auto. discriminate. }
    cbn [set_start s_id s_start s_res s_cand] in *.
    set (g1 := set_mem g m1).
    assert (P1 : prog g1 mcs0 cur).
    { unfold g1. rewrite set_mem_cur. apply prog_arena; auto; [apply M1|]. intros k Hk. apply M1.
      pose proof (blk_ge a nv cur c0 lr Hc (length fs)) as HH. fold b in HH. lia. }
    assert (SH1 : shape a nv g1 mcs) by (destruct SH; split; auto).
    assert (BS1 : sbest g1).
    { apply (sbest_frame g); auto; [apply M1|]. intros k Hk. apply M1.
      pose proof (blk_ge a nv cur c0 lr Hc (length fs)) as HH. fold b in HH. lia. }
    pose proof (finv_bottom _ _ _ _ (candp_sp a nv HS Hself cur Hc) (ar_fr _ _ _ _ _ _ _ _ _ _ AR)) as BO.
    assert (FDM : fdisj a cur ((id, minus S1 j) :: fs)).
    { apply (fdisj_less a cur id S1); auto. intros x Hx E. unfold minus in E. apply andb_prop in E. tauto. }
    rewrite (sh_el _ _ _ _ SH1), (rd_el a nv HC) by auto. cbn [bind].
    rewrite (sh_vs _ _ _ _ SH1), rd_vert by (apply (nbr_lt a nv HC); auto). cbn [bind].
    apply wp_bind. replace (card N S1 - 1) with (card N (minus S1 j)) by lia.
    change (set_mem g m1) with g1.
    change {| vN := N; vspos := sp a cur; velo := off a cur; vebo := eb a cur; vmcs := mv; vbits := refer_from (eb a cur) N |} with (mkvert a mv cur).
    rewrite T2.
    eapply wp_mono; [apply (sd_scan_spec a nv HC g1 mcs SH1 cur Hc b (minus S1 j) j (S (length fs)) mv); auto|].
    intros [rem pot] HP. cbn [fst snd] in HP. change (CUR_MAX_SIZE g1) with (CUR_MAX_SIZE g) in HP |- *.
    change (fun x => minus S1 j x && A j x) with (inter a cur (minus S1 j) j) in HP.
    assert (LR : length (id :: ids fs) = S (length fs)) by (simpl; unfold ids; rewrite map_length; auto).
    assert (RN : forall x, In x (id :: ids fs) -> x < N) by (intros; apply ID2; auto).
    destruct HP as [(HP1 & HP2 & HP3)|(HP1 & HP2)].
    - destruct (Nat.ltb_spec (CUR_MAX_SIZE g) pot) as [_|]; [|lia].
      destruct (Nat.eqb_spec (card N (minus S1 j)) 0) as [E0|N0].
      + (* record *)
        pose proof (proj1 (card_zero _ _) E0) as HE.
        assert (pot = S (length fs) + 1) as EP.
        { assert (card N (inter a cur (minus S1 j) j) = 0); [|lia]. apply card_zero. intros i Hi. unfold inter. rewrite HE; auto. }
        destruct (path_clique a nv cur c0 lr HC Hc _ _ _ _ _ _ j (ar_fr _ _ _ _ _ _ _ _ _ _ AR) Hj Sj) as (PC1 & PC2 & PC3).
        pose proof (rp_ge a nv cur c0 lr Hc) as RG. set (r := rp a cur c0 lr) in *.
        rewrite T1. apply wp_bind.
        eapply wp_mono; [apply (bits_set_spec m1 r N _ _ j M2 (ar_res _ _ _ _ _ _ _ _ _ _ AR1)); auto|].
        intros m2 (K1 & K2 & K3).
        assert (SH2 : shape a nv (set_mem g1 m2) mcs) by (destruct SH1; split; auto).
        assert (P2 : prog (set_mem g1 m2) mcs0 cur).
        { rewrite set_mem_cur. apply prog_arena; auto; [apply K3|]. intros k Hk. apply K3. lia. }
        apply wp_bind. eapply wp_mono; [apply (record_spec a nv g0 (set_mem g1 m2) mcs0 mcs cur r _ pot Hc He SH2 P2 RG K2); auto|].
        { change (card N (fun x => inb x (j :: id :: ids fs)) = pot). lia. }
        intros g3 (P3 & Q3 & Q4 & Q5 & Q6).
        assert (K4 : rep (edge_bits g3) r N (fun x => (x =? j) || inb x (ids ((id, minus S1 j) :: fs)))).
        { eapply rep_frame; [exact K2|exact Q5|]. pose proof (block_end a nv cur Hc). lia. }
        apply wp_bind. eapply wp_mono; [apply (bits_reset_spec (edge_bits g3) r N _ _ j (pr_mem _ _ _ _ _ _ P3) K4); auto|].
        intros m4 (L1 & L2 & L3). apply wp_ok. split; [|lia].
        exists (minus S1 j). split; [|split; [|split; [|split; [|split; [|split; [|split]]]]]]; auto; [| | |lia|].
        * rewrite set_mem_cur. apply prog_arena; auto; [apply L3|]. intros k Hk. apply L3. lia.
        * cbn [set_mem edge_bits search_cur]. rewrite Q4. change (search_cur (set_mem g1 m2)) with (search_cur g).
          destruct K3 as [K3l K3], Q5 as [Q5l Q5], L3 as [L3l L3]. cbn [set_mem edge_bits] in Q5l, Q5.
          pose proof (block_end a nv cur Hc) as BE.
          apply (arena_upd a nv cur c0 lr HC Hc _ _ m1); auto; [discriminate|congruence| |].
          -- eapply rep_ext; [exact L2|]. intros x Hx. cbv beta. destruct (Nat.eqb_spec x j) as [->|]; auto.
             cbn [negb andb]. symmetry. apply inb_not. destruct (T5 j Hj Sj) as (_ & _ & T & _). exact T.
          -- intros k Hk1 Hk2. rewrite L3, Q5, K3; auto; lia.
        * cbn [set_mem CUR_MAX_SIZE]. rewrite Q3, EP, <- LR. apply Cov_record with (M := CUR_MAX_SIZE g); auto. lia.
        * apply (sbest_frame g3); auto; [apply L3|intros k Hk; apply L3; lia|]. right. exists (fun x => inb x (j :: id :: ids fs)).
          split; [exact Q6|]. split; auto. split; auto. rewrite Q3, EP. split; [lia|]. intros K' R1 R2 R3.
          apply (Cov_first a cur id S1 fs (CUR_MAX_SIZE g) j); auto; [|rewrite LR; lia|rewrite LR; lia].
          destruct (T5 j Hj Sj) as (_ & _ & T & _). exact T.
      + (* push *)
        assert (NE : exists x, x < N /\ minus S1 j x = true) by (apply card_pos; lia).
        destruct (T5 j Hj Sj) as (U1 & U2 & U3 & U4).
        apply wp_bind. eapply wp_mono.
        * apply (arena_push a nv cur c0 lr HC Hc _ _ g1 id (minus S1 j) fs _ sts j rem AR1); auto.
          -- unfold minus. rewrite Nat.eqb_refl. auto.
          -- intros x Hx Ex. pose proof (GT x Hx Ex). lia.
          -- pose proof (path_clique a nv cur c0 lr HC Hc _ _ _ _ _ _ j (ar_fr _ _ _ _ _ _ _ _ _ _ AR) Hj Sj) as (PC1 & PC2 & PC3).
             rewrite <- PC3, (bound_card a), <- (card_add N (candp a cur) (sp a cur)).
             ++ apply card_le. intros i Hi Ki. destruct (proj2 PC1 i Hi Ki) as [->|E]; [rewrite Nat.eqb_refl; auto|rewrite E, orb_true_r; auto].
             ++ apply (sp_spec a nv HS Hself cur Hc).
             ++ apply (candp_sp a nv HS Hself cur Hc).
        * intros [g2 f] (m2 & E2 & L2 & O2 & AR2). cbn [fst snd] in *. subst g2. apply wp_ok. split; [|split].
          -- apply prog_arena; auto. apply (ar_ok _ _ _ _ _ _ _ _ _ _ AR2).
          -- apply (sbest_frame g1); auto.
          -- split; auto. exists (minus S1 j), (inter a cur (minus S1 j) j). cbn [set_cur set_mem edge_bits search_cur CUR_MAX_SIZE].
             split; [exact AR2|]. split; [|split; [|split]].
             ++ apply Cov_push; auto; [intros ->; destruct BO as [BO _]; congruence|]. exact (fdisj_above a cur _ BO FD j Hj Sj).
             ++ lia.
             ++ assert (card N (inter a cur (minus S1 j) j) <= card N (minus S1 j)); [|lia].
                apply card_le. intros i Hi E. unfold inter in E. apply andb_prop in E. tauto.
             ++ apply (fdisj_push a cur j _ id S1); auto.
                ** intros x Hx E. split; auto. unfold minus in E. apply andb_prop in E. tauto.
                ** intros x Hx E. unfold inter in E. apply andb_prop in E. tauto.
    - destruct (Nat.ltb_spec (CUR_MAX_SIZE g) pot) as [|_]; [lia|]. apply wp_ok. split; [|lia].
      exists (minus S1 j). split; auto. split; [exact AR1|]. split; auto. split; [|split; auto; split; [lia|auto]].
      apply Cov_prune; auto. rewrite LR. change (CUR_MAX_SIZE g1) with (CUR_MAX_SIZE g). lia.
  Qed.

  Definition weigh (fs : list frame) : nat := fold_right (fun f n => (2 ^ S (card N (snd f)) - 1) + n) 0 fs.

  Lemma pow_le x y : x <= y -> 2 ^ x <= 2 ^ y.
  Proof. intros H. apply Nat.pow_le_mono_r; lia. Qed.

  Definition turn_inv (s : graph * list sstate * nat) (n : nat) : Prop :=
    let '(g, sts, csz) := s in
    exists fs, prog g mcs0 cur /\ arena (edge_bits g) (search_cur g) fs sts /\ csz = length fs /\ Cov fs (CUR_MAX_SIZE g) /\ n = weigh fs
      /\ fdisj a cur fs /\ sbest g.

  Definition turn_post (r : graph * list sstate) : Prop :=
    let '(g, sts) := r in
    exists fs, prog g mcs0 cur /\ arena (edge_bits g) (search_cur g) fs sts
      /\ (Cov [] (CUR_MAX_SIZE g) \/ CLIQUE_LIMIT g <= CUR_MAX_SIZE g) /\ sbest g.

  Lemma sd_turn_spec mv s n : turn_inv s n ->
    wp (sd_turn cur (mkvert a mv cur) s) (fun r => match r with Cont s' => exists n', n' < n /\ turn_inv s' n' | Done x => turn_post x end).
  Proof.
    destruct s as [[g sts] csz]. intros (fs & P & AR & -> & CV & -> & FD & BS). unfold sd_turn.
    destruct sts as [|st rest].
    { apply wp_ok. exists fs. pose proof (finv_len _ _ _ _ _ _ _ _ (ar_fr _ _ _ _ _ _ _ _ _ _ AR)) as L. destruct fs; [|discriminate].
      split; auto. }
    destruct fs as [|[id S0] fs]; [destruct (ar_fr _ _ _ _ _ _ _ _ _ _ AR)|].
    destruct (Nat.leb_spec (CLIQUE_LIMIT g) (CUR_MAX_SIZE g)) as [HL|HL].
    { apply wp_ok. exists ((id, S0) :: fs). auto. }
    destruct (arena_top _ _ _ _ _ _ _ _ _ _ _ _ _ AR) as (T1 & T2 & T3 & T4 & T5).
    pose proof (len_pos a nv HS Hself cur Hc) as LP.
    rewrite (bits_count_spec (edge_bits g) (blk a cur c0 lr (length fs)) N S0) by (auto; apply (ar_ok _ _ _ _ _ _ _ _ _ _ AR)).
    cbn [bind]. replace (set_mem g (edge_bits g)) with g by (destruct g; reflexivity).
    apply wp_bind. eapply wp_mono; [apply (bits_next_spec (edge_bits g) (blk a cur c0 lr (length fs)) N S0); auto; apply (ar_ok _ _ _ _ _ _ _ _ _ _ AR)|].
    intros st0 Hst.
    assert (F : first_of S0 st0).
    { assert (LOW : forall x, x < s_start st -> x < N -> S0 x = false).
      { intros x Hx HxN. destruct (S0 x) eqn:E; auto. destruct (T5 x HxN E). lia. }
      destruct Hst as [(H1 & H2 & H3)|(H1 & H2)].
      - left. repeat split; auto; [lia|]. intros x Hx. destruct (Nat.lt_ge_cases x (s_start st)); [apply LOW; lia|apply H3; lia].
      - right. split; auto. intros x Hx. destruct (Nat.lt_ge_cases x (s_start st)); [apply LOW; lia|apply H2; lia]. }
    assert (AR1 : arena (edge_bits g) (search_cur g) ((id, S0) :: fs) (set_start st st0 :: rest)).
    { apply arena_start; auto. intros x Hx E. destruct F as [(F1 & F2 & F3)|(F1 & F2)]; [|rewrite F2 in E by auto; discriminate].
      destruct (Nat.le_gt_cases st0 x); auto. rewrite F3 in E by auto. discriminate. }
    apply wp_bind. change (length (sel N S0)) with (card N S0). change (length ((id, S0) :: fs)) with (S (length fs)).
    eapply wp_mono; [apply (sd_inner_spec id S0 fs (set_start st st0) rest g st0 mv P AR1 F CV FD BS)|].
    intros [[[g2 j] st2] fut] (P2 & BS2 & H2). cbn [mkvert vN]. destruct fut as [f|].
    - destruct H2 as (Hj & S1 & S2 & AR2 & CV2 & LT1 & LT2 & FD2).
      destruct (Nat.eqb_spec j N); [lia|]. apply wp_ok. exists (weigh ((j, S2) :: (id, S1) :: fs)). split.
      + unfold weigh. cbn [fold_right snd]. pose proof (pow_le (S (card N S1)) (card N S0) LT1). pose proof (pow_le (S (card N S2)) (card N S0) LT2).
        pose proof (pow2_pos (S (card N S1))). pose proof (pow2_pos (S (card N S2))).
        assert (2 ^ S (card N S0) = 2 ^ card N S0 + 2 ^ card N S0) by (simpl; lia). lia.
      + exists ((j, S2) :: (id, S1) :: fs). split; auto. split; auto. split; [cbn [length]; lia|auto].
    - destruct H2 as (-> & S1 & AR2 & E1 & CV2 & FD2). rewrite Nat.eqb_refl.
      pose proof (arena_pop a nv cur c0 lr HC Hc _ _ (fun K HK _ => rooted_card a nv HC cur K Hc HK) g2 id S1 fs st2 rest AR2 E1) as POP. apply wp_bind_inv in POP.
      apply wp_bind. eapply wp_mono; [exact POP|]. clear POP. intros g3 POP. apply wp_bind_inv in POP.
      apply wp_bind. eapply wp_mono; [exact POP|]. clear POP. cbv beta. intros m3 POP. cbn [ends_with] in POP.
      destruct POP as (m' & E3 & L3 & O3 & AR3). rewrite E3. apply wp_ok. exists (weigh fs). split.
      + unfold weigh. cbn [fold_right snd]. pose proof (pow2_pos (card N S0)).
        assert (2 ^ S (card N S0) = 2 ^ card N S0 + 2 ^ card N S0) by (simpl; lia). lia.
      + exists fs. split; [apply prog_arena; auto; apply (ar_ok _ _ _ _ _ _ _ _ _ _ AR3)|]. cbn [tl set_cur set_mem edge_bits search_cur CUR_MAX_SIZE].
        split; auto. split; [lia|]. split; [apply Cov_pop in CV2; auto|]. split; auto. split; [destruct FD2 as [_ FD2]; exact FD2|].
        apply (sbest_frame g2); auto.
  Qed.

  (** What a completed search of one root guarantees. *)
  Record searched (g : graph) : Prop := {
    se_prog : prog g mcs0 cur;
    se_cur : search_cur g = c0;
    se_zero : zero_from (edge_bits g) c0
  }.

  Lemma searched_release g fs sts : prog g mcs0 cur -> arena (edge_bits g) (search_cur g) fs sts ->
    wp (g <- (match sts with [] => Ok g | _ => clear_memory g (w * length sts) end);; clear_memory g w)
       (fun g' => searched g' /\ CUR_MAX_SIZE g' = CUR_MAX_SIZE g /\ CLIQUE_LIMIT g' = CLIQUE_LIMIT g /\ (sbest g -> sbest g')).
  Proof.
    intros P AR. eapply wp_mono; [apply (arena_release a nv cur c0 lr HC Hc _ _ (fun K HK _ => rooted_card a nv HC cur K Hc HK) g fs sts AR)|].
    intros g' (m' & -> & L & OK & O & Z). split; [|split; [reflexivity|split; [reflexivity|apply sbest_frame; auto]]]. split; auto.
    apply prog_arena; auto.
  Qed.

  Definition no_larger (M : nat) : Prop := forall K, rooted a cur K -> pclique a cur K -> 2 <= card N K -> card N K <= M.

  Theorem sd_process_vertex_full :
    wp (sd_process_vertex lr g0 cur)
       (fun g => searched g /\ (no_larger (CUR_MAX_SIZE g) \/ CLIQUE_LIMIT g <= CUR_MAX_SIZE g) /\ sbest g).
  Proof.
    unfold sd_process_vertex. rewrite (sh_vs _ _ _ _ SH0), rd_vert by auto. cbn [bind].
    pose proof (w_pos a nv cur HC Hc) as W.
    destruct (sp_spec a nv HS Hself cur Hc) as [S1 S2].
    pose proof (arena_init a nv cur c0 lr HC Hc g0 mcs0 (mcs0 cur) SH0 eq_refl HZ HSP) as INI.
    apply wp_bind_inv in INI. apply wp_bind. eapply wp_mono; [exact INI|]. clear INI. intros [g1 x] INI.
    apply wp_bind_inv in INI. apply wp_bind. eapply wp_mono; [exact INI|]. clear INI. intros [m1 pot] INI. cbn [ends_with] in INI.
    destruct INI as (m' & E1 & L1 & O1 & -> & AR). cbv zeta. rewrite E1.
    assert (P1 : prog (set_cur (set_mem g0 m') (c0 + 2 * w)) mcs0 cur).
    { apply prog_arena; auto; [apply prog_refl; auto|]. apply (ar_ok _ _ _ _ _ _ _ _ _ _ AR). }
    set (g2 := set_cur (set_mem g0 m') (c0 + 2 * w)) in *. cbn [mkvert vN].
    change {| vN := N; vspos := sp a cur; velo := off a cur; vebo := eb a cur; vmcs := mcs0 cur; vbits := refer_from (eb a cur) N |} with (mkvert a (mcs0 cur) cur).
    destruct (Nat.leb_spec (bound a cur) (CUR_MAX_SIZE g2)) as [HB|HB].
    - pose proof (arena_release a nv cur c0 lr HC Hc _ _ (fun K HK _ => rooted_card a nv HC cur K Hc HK) g2 _ _ AR) as REL.
      eapply wp_mono; [apply clear_memory_spec|].
      + apply (ar_ok _ _ _ _ _ _ _ _ _ _ AR).
      + pose proof (ar_space _ _ _ _ _ _ _ _ _ _ AR). pose proof (finv_depth a nv cur c0 lr HC Hc _ _ (fun K HK _ => rooted_card a nv HC cur K Hc HK) _ _ _ (ar_fr _ _ _ _ _ _ _ _ _ _ AR)) as D. cbn [length] in D.
        change (search_cur g2) with (c0 + 2 * w). split; [lia|].
        etransitivity; [|exact H]. apply Nat.add_le_mono_l, Nat.mul_le_mono_r. lia.
      + change (search_cur g2) with (c0 + 2 * w). change (edge_bits g2) with m'. clear REL.
        intros g' (m3 & -> & K1 & K2 & K3). replace (c0 + 2 * w - 2 * w) with c0 in * by lia. destruct K2 as [K2l K2].
        split; [|split; [|left; reflexivity]].
        * split; auto.
          -- apply prog_arena; auto. intros k Hk. apply K2. lia.
          -- intros k Hk. cbn [set_cur set_mem edge_bits]. destruct (Nat.lt_ge_cases k (c0 + 2 * w)); [apply K3; lia|].
             rewrite K2 by lia. apply (ar_zero _ _ _ _ _ _ _ _ _ _ AR). lia.
        * left. intros K [R1 R2] PK K2'. cbn [set_cur set_mem CUR_MAX_SIZE]. etransitivity; [|exact HB].
          rewrite (bound_card a), <- (card_add N (candp a cur) (sp a cur)); auto; [|apply (candp_sp a nv HS Hself cur Hc)].
          apply card_le. intros i Hi Ki. destruct (R2 i Hi Ki) as [->|E]; [rewrite Nat.eqb_refl; auto|rewrite E, orb_true_r; auto].
    - apply wp_bind. eapply wp_mono.
      + apply (wp_run2_rel _ _ turn_inv _ (weigh [(sp a cur, candp a cur)])).
        * exists [(sp a cur, candp a cur)]. split; auto. split; [exact AR|]. split; auto.
          split; [apply (Cov_mono a cur _ 0); [lia|]; apply Cov_init; auto|]. split; auto. split; [cbn; auto|]. left. reflexivity.
        * unfold weigh. cbn [fold_right snd]. pose proof (card_bound N (candp a cur)). pose proof (pow_le (S (card N (candp a cur))) (S (S N)) ltac:(lia)).
          pose proof (pow2_pos (S (card N (candp a cur)))). lia.
        * intros s n I. apply sd_turn_spec. auto.
      + intros [g3 sts] (fs & P3 & AR3 & Q & BS3).
        eapply wp_mono; [apply (searched_release g3 fs sts P3 AR3)|].
        intros g4 (SE & EC & EL & EB). split; auto. split; auto. rewrite EC, EL. destruct Q as [CV|L]; auto. left.
        intros K K1 K2 K3. destruct (Nat.le_gt_cases (card N K) (CUR_MAX_SIZE g3)); auto.
        destruct (CV K K1 K2 K3 H).
  Qed.

  Theorem sd_process_vertex_spec :
    wp (sd_process_vertex lr g0 cur)
       (fun g => searched g /\ (no_larger (CUR_MAX_SIZE g) \/ CLIQUE_LIMIT g <= CUR_MAX_SIZE g)).
  Proof. eapply wp_mono; [apply sd_process_vertex_full|]. intros g (H1 & H2 & _). auto. Qed.
End Vertex.
